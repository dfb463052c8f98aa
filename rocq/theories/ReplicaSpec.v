(** * Vocabulary for C28. *)
From Coquelicot Require Import Coquelicot.
From Coq Require Import Reals List Arith Bool.
From Verif Require Import Ext Feed MonteCarlo MH MHSpec Replica.
Import ListNotations.
Local Open Scope R_scope.

(** Consecutive pairs, each exchanged or not. *)
Fixpoint swap_pairs {A} (D : list bool) (l : list A) : list A :=
  match D, l with
  | d :: D', a :: b :: l' => (if d then [b; a] else [a; b]) ++ swap_pairs D' l'
  | _, _ => l
  end.

(** The same, after skipping the first [first] entries. *)
Definition exchanged {A} (first : nat) (D : list bool) (l : list A) : list A :=
  firstn first l ++ swap_pairs D (skipn first l).

(** p to the power b. *)
Definition tempered (p b : R) : R := if Req_EM_T p 0 then 0 else Rpower p b.

(** The product of the tempered densities of the replicas' states. *)
Definition ladder_density {S} (p : S -> R) (bs : list R) (zs : list S) : R :=
  product (map (fun bz => tempered (p (snd bz)) (fst bz)) (combine bs zs)).

(** [q] is the probability, over u uniform in [0,1], that replicas i and i+1 are
    exchanged. *)
Definition exchange_probability (bs : list R) (ratios : list ext) (i : nat) (q : R) : Prop :=
  exists f : R -> R, is_RInt f 0 1 q /\ forall u, 0 < u < 1 -> f u = if exchange_test bs ratios i u then 1 else 0.

(** The probability of exactly the exchanges [D], when that of pair j is [q j];
    the uniforms of the pairs are independent. *)
Definition decision_probability (q : nat -> R) (D : list bool) : R :=
  product (map (fun jd => if snd jd : bool then q (fst jd) else 1 - q (fst jd)) (combine (seq 0 (length D)) D)).

Section Moves.
Context {V : Type}.
Notation dict := (list (nat * V)).
Variable log_prob proposal_log_prob : nat -> dict -> V -> ext.
Variable latent proposals : list nat.
Variable data : dict.
(** The inverse temperature. *)
Variable b : R.

(** Where the move of a replica leads from [z] with proposal [z'] and uniform
    [u]. *)
Definition tempered_steps_to (z z' : list V) (u : R) (r : list V) : Prop :=
  forall d, proposing latent proposals data z' u d ->
    exists a, mh_sample log_prob proposal_log_prob latent proposals (fun s => emul s (Fin b)) z d = Some (r, a).

(** [q] is the probability, over u uniform in [0,1], that it leads to [r]. *)
Definition tempered_probability (z z' r : list V) (q : R) : Prop :=
  exists f : R -> R, is_RInt f 0 1 q /\
    forall u, 0 < u < 1 -> (f u = 1 /\ tempered_steps_to z z' u r) \/
                           (f u = 0 /\ exists r', r' <> r /\ tempered_steps_to z z' u r').
End Moves.

Section Run.
Context {V : Type}.
Notation dict := (list (nat * V)).
Variable log_prob : nat -> dict -> V -> ext.
Variable latent proposals : list nat.
Variable bs : list R.
Variable freq : R.
Variable us : nat -> replica_draws V * bool.
Local Open Scope nat_scope.

(** In update [t] each replica goes from its state in [zs] to its own proposal or
    stays, as [accs] tells. *)
Definition moved (t : nat) (zs ms : list (list V)) (accs : list bool) : Prop :=
  length ms = length zs /\ length accs = length zs /\ forall i z m a, nth_error zs i = Some z -> nth_error ms i = Some m ->
    nth_error accs i = Some a ->
    m = if a then proposal_state latent proposals (r_data (fst (us t))) z (r_moves (fst (us t)) i) else z.

(** Update [t] moves the replicas and then exchanges, if the uniform drawn for
    that is below the frequency, the pairs for which the test tells so. *)
Definition replica_step (t : nat) (zs zs' : list (list V)) (accs : list bool) : Prop :=
  exists ms rs D, moved t zs ms accs /\
    length rs = length ms /\ (forall i m, nth_error ms i = Some m ->
      exists l, replica_ratio log_prob latent (r_data (fst (us t))) m = Some l /\ nth_error rs i = Some l) /\
    zs' = exchanged (r_first (fst (us t))) D ms /\
    ((freq <= r_u (fst (us t)))%R -> D = []) /\
    ((r_u (fst (us t)) < freq)%R -> length D = (length bs - r_first (fst (us t))) / 2 /\
      forall j, j < length D -> nth j D false =
        exchange_test bs rs (r_first (fst (us t)) + 2 * j) (r_us (fst (us t)) (r_first (fst (us t)) + 2 * j))).
End Run.
