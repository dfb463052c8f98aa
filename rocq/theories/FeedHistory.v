(** * Dictionaries passed to several updates.

    Models what happens to the dictionaries that a program passes as [feed_dict]
    to updates of any number of inferences: update changes its argument in place
    (edward/inferences/inference.py:302-307, variational_inference.py:146-151,
    monte_carlo.py:131-136, gan_inference.py:176-181, laplace.py:144-149), while
    Gibbs copies it into a dictionary of its own (gibbs.py:67, 85-102). *)
From Coq Require Import List Arith Bool.
From Verif Require Import Feed.
Import ListNotations.

Section History.
Context {V : Type}.

(** What a program does with its dictionaries, which are numbered: d[k] = v; an
    update (or Laplace's finalize) of some inference that is given one of them,
    or None (inference.py:288-307); an update of the Gibbs inference [i] with
    its scan order (gibbs.py:71-134). *)
Inductive event : Type :=
| Assign (r k : nat) (v : V)
| Update (a : alg) (check log : bool) (dt : @data V) (r : option nat)
| GibbsUpdate (i : nat) (latent : @dict V) (dt : @data V) (draw : nat -> @dict V -> V) (blocks : list (list nat))
    (check log : bool) (r : option nat).

(** The program's dictionaries, and self.feed_dict of every Gibbs inference, empty
    after initialize (gibbs.py:67). *)
Record heap : Type := mkheap { h_dict : nat -> @dict V; h_gibbs : nat -> @dict V }.

(** Replaces the dictionary [r] (inference.py:307). *)
Definition put (f : nat -> @dict V) (r : nat) (d : @dict V) : nat -> @dict V := fun r' => if Nat.eqb r r' then d else f r'.

(** The dictionary that an argument stands for (inference.py:302-303). *)
Definition argument (h : heap) (r : option nat) : option (@dict V) := match r with None => None | Some r => Some (h_dict h r) end.

(** One event: the feeds of its session runs that have one, and the dictionaries
    afterwards (inference.py:302-307, gibbs.py:85-123). *)
Definition happen (h : heap) (ev : event) : list (@dict V) * heap :=
  match ev with
  | Assign r k v => ([], mkheap (put (h_dict h) r (dict_set (h_dict h r) k v)) (h_gibbs h))
  | Update a check log dt r =>
      match feeds a check log dt (argument h r) with
      | (runs, d) =>
          (flat_map (fun f => match f with Some f => [f] | None => [] end) (match runs with Some l => l | None => [] end),
           match r with Some r => mkheap (put (h_dict h) r d) (h_gibbs h) | None => h end)
      end
  | GibbsUpdate i latent dt draw blocks check log r =>
      match gibbs_update latent dt draw blocks check log (h_gibbs h i) (argument h r) with
      | (runs, self) => (runs, mkheap (h_dict h) (put (h_gibbs h) i self))
      end
  end.

(** The dictionaries after a program's events (inference.py:302-307, gibbs.py:102). *)
Definition history (evs : list event) (h : heap) : heap := fold_left (fun h ev => snd (happen h ev)) evs h.
End History.
