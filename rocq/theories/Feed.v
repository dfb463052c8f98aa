(** * What an update feeds to the session.

    Models the handling of [feed_dict] in edward/inferences/inference.py:132-138
    (run) and 302-320 (update), variational_inference.py:146-164,
    monte_carlo.py:132-150, gan_inference.py:180-207, wgan_inference.py:109-116,
    laplace.py:144-153 (finalize) and gibbs.py:71-134. *)
From Coq Require Import List Arith Bool.
Import ListNotations.

Section Feed.
Context {V : Type}.

(** A Python dictionary as its items in order; keys are graph elements (inference.py:302-307). *)
Definition dict : Type := list (nat * V).

(** d[k] = v (for instance inference.py:307). *)
Fixpoint dict_set (d : dict) (k : nat) (v : V) : dict :=
  match d with
  | [] => [(k, v)]
  | (k', v') :: d' => if Nat.eqb k' k then (k, v) :: d' else (k', v') :: dict_set d' k v
  end.

(** d.get(k) (gibbs.py:112-119). *)
Fixpoint dict_get (d : dict) (k : nat) : option V :=
  match d with
  | [] => None
  | (k', v) :: d' => if Nat.eqb k' k then Some v else dict_get d' k
  end.

(** d.update(d') (gibbs.py:102). *)
Definition dict_update (d d' : dict) : dict := fold_left (fun acc kv => dict_set acc (fst kv) (snd kv)) d' d.

(** self.data: for each key whether it is a placeholder (a tf.Tensor with
    "Placeholder" in its operation's type) or something else, and the value;
    for Gibbs, whether the value is a tensor or variable to be evaluated
    (inference.py:305-307, gibbs.py:92-98). *)
Inductive dkind : Type := DPlace | DObserved | DOther.
(** self.data (inference.py:76-95). *)
Definition data : Type := list (nat * dkind * V).

(** The loop at inference.py:305-307 (the same at variational_inference.py:149,
    monte_carlo.py:135, gan_inference.py:183, laplace.py:147). *)
Definition bind (dt : data) (fd : dict) : dict :=
  fold_left (fun acc kdv => match kdv with (k, DPlace, v) => dict_set acc k v | _ => acc end) dt fd.

(** The argument of update: None stands for a new empty dictionary
    (inference.py:302-303). *)
Definition or_new (fd : option dict) : dict := match fd with None => [] | Some d => d end.

(** The classes with an update of their own; GANInference.update has an
    argument [variables] (gan_inference.py:188-201): [None], Some true for "Gen"
    or "Disc", Some false for anything else. *)
Inductive alg : Type :=
| ABase | AVariational | AMonteCarlo | AGan (variables : option bool) | AWGan (variables : option bool) (clip : bool)
| ALaplaceFinalize.

(** The session runs of one call, each with its feed ([None]: none), or [None]
    if it raises NotImplementedError; and the caller's dictionary afterwards,
    as it is changed in place.  [check] and [log] tell whether op_check and the
    summary are run in this iteration
    (inference.py:302-320, variational_inference.py:146-164, monte_carlo.py:132-150,
    gan_inference.py:180-207, wgan_inference.py:109-116, laplace.py:144-153). *)
Definition feeds (a : alg) (check log : bool) (dt : data) (fd : option dict) : option (list (option dict)) * dict :=
  let f := bind dt (or_new fd) in
  let tail := (if check then [Some f] else []) ++ (if log then [Some f] else []) in
  let gan (v : option bool) := match v with Some false => None | _ => Some ([Some f] ++ tail) end in
  (match a with
   | ABase => Some ([None] ++ tail)
   | AVariational => Some ([Some f] ++ tail)
   | AMonteCarlo => Some ([Some f; None] ++ tail)
   | AGan v => gan v
   | AWGan v clip => match gan v with Some l => Some (l ++ if clip then [None] else []) | None => None end
   | ALaplaceFinalize => Some [Some f]
   end, f).

(** ** Gibbs (gibbs.py:71-134)

    [latent] are the keys of latent_vars with the first row of their
    approximation, [scan] the blocks in the order they are visited, [draw] the
    value drawn for a variable when everything else is as fed. *)
Fixpoint init_latent (latent : dict) (fd : dict) : dict :=
  match latent with [] => fd | (z, v) :: l' => init_latent l' (dict_set fd z v) end.

(** gibbs.py:92-98. *)
Definition init_data (dt : data) (fd : dict) : dict :=
  fold_left (fun acc kdv => match kdv with
    | (k, DPlace, v) | (k, DObserved, v) => dict_set acc k v
    | (_, DOther, _) => acc end) dt fd.

(** One block (gibbs.py:112-119): all draws are made with the same feed. *)
Definition scan_block (draw : nat -> dict -> V) (fd : dict) (block : list nat) : dict :=
  fold_left (fun acc z => dict_set acc z (draw z fd)) block fd.

(** The blocks in turn, with the feed of each run (gibbs.py:112-119). *)
Fixpoint scan_blocks (draw : nat -> dict -> V) (fd : dict) (blocks : list (list nat)) : list dict * dict :=
  match blocks with
  | [] => ([], fd)
  | b :: bs => match scan_blocks draw (scan_block draw fd b) bs with (runs, fd') => (fd :: runs, fd') end
  end.

(** Gibbs.update on self.feed_dict: its fed session runs and the new
    self.feed_dict (gibbs.py:71-134). *)
Definition gibbs_update (latent : dict) (dt : data) (draw : nat -> dict -> V) (blocks : list (list nat))
    (check log : bool) (self : dict) (fd : option dict) : list dict * dict :=
  let self1 := match self with [] => init_data dt (init_latent latent []) | _ => self end in
  let self2 := dict_update self1 (or_new fd) in
  match scan_blocks draw self2 blocks with
  | (runs, self3) =>
      (runs ++ [self3] ++ (if check then [self3] else []) ++ (if log then [self3] else []), self3)
  end.

(** A sequence of updates after initialize (gibbs.py:67: self.feed_dict = {});
    for each the dictionary passed and the order of the scan. *)
Fixpoint gibbs_run (latent : dict) (dt : data) (draw : nat -> dict -> V) (self : dict)
    (calls : list (option dict * list (list nat) * bool * bool)) : list (list dict) * dict :=
  match calls with
  | [] => ([], self)
  | (fd, blocks, check, log) :: cs =>
      match gibbs_update latent dt draw blocks check log self fd with
      | (runs, self') => match gibbs_run latent dt draw self' cs with (rs, s) => (runs :: rs, s) end
      end
  end.
End Feed.
