(** * Vocabulary for C77: scans of blocks of variables on any space. *)
From Coquelicot Require Import Coquelicot.
From Coq Require Import Reals List Arith.
From Verif Require Import Transform Feed Gibbs GibbsSpec VIIntegralSpec.
Import ListNotations.
Local Open Scope R_scope.

Section Blocks.
Context {V : Type}.
(** The keys of the latent variables; variable number [i] has its values in
    [D i], and [I i f a] says that [a] is the integral of [f] over them. *)
Variable latent : list nat.
Variable D : nat -> V -> Prop.
Variable I : nat -> (V -> R) -> R -> Prop.
(** An unnormalised density of the states, and below the integral over the states. *)
Variable p : list V -> R.
(** What [p] integrates to over variable [i], the others being as in [s]. *)
Variable c : nat -> list V -> R.
Variable J : (list V -> R) -> R -> Prop.

Definition key (i : nat) : nat := nth i latent O.
(** The states. *)
Definition inside (s : list V) : Prop :=
  length s = length latent /\ forall i v, nth_error s i = Some v -> D i v.

(** The conditional density of variable [i] at [v], given the others in [s]. *)
Definition conditional_density (i : nat) (s : list V) (v : V) : R := p (replaced i v s) / c i s.

(** [t] is the state that gibbs.py:112-119 makes of [s] when scanning the block
    whose variables are drawn as [w] says (by key). *)
Definition scanned_block (block : list nat) (w : nat -> V) (s t : list V) : Prop :=
  map (dict_get (gibbs_scan (combine latent s) [(map key block, fun k _ => w k)])) latent = map Some t.

(** [g s w]: the expected value of [f] at the state after scanning [block] from
    [s], when each variable of [todo] is still to be drawn, given the values of
    the others in [s], and the rest of the block was drawn as in [w]. *)
Fixpoint drawing (block todo : list nat) (f : list V -> R) (g : list V -> (nat -> V) -> R) : Prop :=
  match todo with
  | [] => forall s w t, inside s -> inside (map w latent) -> scanned_block block w s t -> g s w = f t
  | i :: todo' => exists h, drawing block todo' f h /\
      forall s w, inside s -> inside (map w latent) ->
        I i (fun v => conditional_density i s v * h s (fun k => if Nat.eqb k (key i) then v else w k)) (g s w)
  end.

(** [g s]: the expected value of [f] at the state after scanning [block] from [s]. *)
Definition after_block (block : list nat) (f g : list V -> R) : Prop :=
  exists h, drawing block block f h /\
    forall s w, inside s -> inside (map w latent) -> g s = h s w.

(** The same after scanning the blocks one after the other. *)
Fixpoint after_scan (order : list (list nat)) (f g : list V -> R) : Prop :=
  match order with
  | [] => forall s, inside s -> g s = f s
  | block :: order' => exists h, after_scan order' f h /\ after_block block h g
  end.

(** [g s]: the expected value of [f] at [s] with variable [i] drawn anew given
    the others. *)
Definition redrawn (i : nat) (f g : list V -> R) : Prop :=
  forall s, inside s -> I i (fun v => conditional_density i s v * f (replaced i v s)) (g s).

(** The conditional density of every variable of the block is the same whatever
    the values of the other variables of the block. *)
Definition free_block (block : list nat) : Prop :=
  forall i j, In i block -> In j block -> i <> j -> forall s w v, inside s -> D j w -> D i v ->
    conditional_density i (replaced j w s) v = conditional_density i s v.

(** Integrating [f] over the states is integrating over variable [i] first and
    then, by some operation, over the others. *)
Definition fubini (rest : nat -> (list V -> R) -> R -> Prop) (i : nat) (f : list V -> R) : Prop :=
  forall h, (forall s, inside s -> I i (fun v => f (replaced i v s)) (h s)) -> forall a, J f a <-> rest i h a.

(** Integration over one variable and over all, for the functions of a class [G]. *)
Record integration (rest : nat -> (list V -> R) -> R -> Prop) (G : (list V -> R) -> Prop) : Prop := {
  one_variable : forall i, (i < length latent)%nat -> integral (D i) (I i);
  all_variables : integral inside J;
  normalised : forall i s, (i < length latent)%nat -> inside s -> I i (fun v => p (replaced i v s)) (c i s) /\ c i s <> 0;
  in_turn : forall i f, (i < length latent)%nat -> G f -> fubini rest i (fun s => p s * f s);
  kept : forall i f g, (i < length latent)%nat -> G f -> redrawn i f g -> G g;
  alike : forall f g, G f -> (forall s, inside s -> f s = g s) -> G g }.

(** A scan order: every entry is a variable or a list of variables, here a list. *)
Definition scan_order (order : list (list nat)) : Prop :=
  forall block, In block order -> block <> [] /\ NoDup block /\ forall i, In i block -> (i < length latent)%nat.
End Blocks.

(** ** One binary and one real variable: [a] is a draw of Bernoulli [x], [x] uniform *)
Definition mixed_D (i : nat) (v : R) : Prop := match i with O => In v [0; 1] | _ => 0 <= v <= 1 end.
Definition mixed_I (i : nat) : (R -> R) -> R -> Prop := match i with O => by_sum [0; 1] | _ => by_RInt 0 1 end.
Definition mixed_p (s : list R) : R := match s with [a; x] => if Req_EM_T a 1 then x else 1 - x | _ => 0 end.
Definition mixed_c (i : nat) (s : list R) : R := match i with O => 1 | _ => 1 / 2 end.
Definition mixed_J (f : list R -> R) (a : R) : Prop := is_RInt (fun x => f [0; x] + f [1; x]) 0 1 a.
Definition mixed_rest (i : nat) (h : list R -> R) (a : R) : Prop :=
  match i with O => is_RInt (fun x => h [0; x]) 0 1 a | _ => h [0; 0] + h [1; 0] = a end.

(** ** Binary variables *)
Definition any_D {V : Type} (i : nat) (v : V) : Prop := True.
Definition bits : list bool := [true; false].
Definition bits_I (i : nat) : (bool -> R) -> R -> Prop := by_sum bits.
Definition bits_c (p : list bool -> R) (i : nat) (s : list bool) : R := sumR (map (fun v => p (replaced i v s)) bits).
(** Two that agree with probability 3/4. *)
Definition pairs : list (list bool) := [[true; true]; [true; false]; [false; true]; [false; false]].
Definition pair_p (s : list bool) : R :=
  match s with [a; b] => if Bool.eqb a b then 3 / 8 else 1 / 8 | _ => 0 end.
(** Three, the second and the third independent given the first, with which each
    agrees with probability 3/4. *)
Definition triples : list (list bool) := map (cons true) pairs ++ map (cons false) pairs.
Definition triple_p (s : list bool) : R :=
  match s with [z; a; b] => 1 / 2 * (if Bool.eqb z a then 3 / 4 else 1 / 4) * (if Bool.eqb z b then 3 / 4 else 1 / 4) | _ => 0 end.
(** Integration over the variables other than [i]. *)
Definition bits_rest (space : list (list bool)) (i : nat) (h : list bool -> R) (a : R) : Prop :=
  sumR (map h (filter (fun s => nth i s false) space)) = a.
