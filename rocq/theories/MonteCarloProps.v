(** * Properties C21 to C25: Monte Carlo. *)
From Coquelicot Require Import Coquelicot.
From Coq Require Import Reals List Arith Bool Lia Lra.
From Verif Require Import Ext Feed MonteCarlo MonteCarloSpec MonteCarloProofs MH MHSpec MHProofs Transform
  HMC HMCSpec HMCProofs ChainProofs.
Import ListNotations.
Local Open Scope nat_scope.

(** ** C21: Monte Carlo samples fill the Empirical in order *)

Theorem C21_updates : forall {V X U} (k : kernel V X U) P tables x us z0 n, proper k P (length tables) us ->
  (0 < n -> row_is tables 0 z0 /\ P x z0) -> (forall rows, In rows tables -> n <= length rows) ->
  exists s infos, updates k (initial tables x) us 0 n = Some (s, infos) /\
    m_t s = n /\ map fst infos = seq 1 n /\ rest_unchanged tables (m_tables s) n /\
    forall j, j < n -> exists x' z acc, chain k x z0 us j x' z acc /\ row_is (m_tables s) j z.
Proof. exact @updates_fill. Qed.
Print Assumptions C21_updates.

(** run: as many updates as the smallest table has rows. *)
Theorem C21_run : forall {V X U} (k : kernel V X U) P tables x us z0, proper k P (length tables) us -> tables <> [] ->
  ((forall rows, In rows tables -> rows <> []) -> row_is tables 0 z0 /\ P x z0) ->
  exists s infos n, run k tables x us = Some (s, infos) /\
    (forall rows, In rows tables -> n <= length rows) /\ (exists rows, In rows tables /\ length rows = n) /\
    m_t s = n /\ map fst infos = seq 1 n /\ rest_unchanged tables (m_tables s) n /\
    forall j, j < n -> exists x' z acc, chain k x z0 us j x' z acc /\ row_is (m_tables s) j z.
Proof. exact @run_fill. Qed.
Print Assumptions C21_run.

(** An update past the end of some table raises (and writes nowhere). *)
Theorem C21_past_end : forall {V X U} (k : kernel V X U) tables x us n rows, In rows tables -> length rows < n ->
  updates k (initial tables x) us 0 n = None.
Proof. exact @past_end. Qed.
Print Assumptions C21_past_end.

(** Two tables of different sizes, a walk that adds the draws. *)
Definition C21_walk : kernel nat unit nat := fun _ x z u => Some (x, map (Nat.add u) z, Nat.even u).
Example C21_demo_hypotheses : proper C21_walk (fun _ z => length z = 2) 2 (fun i => (i, false)) /\
  row_is [[5; 0; 0]; [7; 0; 0; 0]] 0 [5; 7].
Proof.
  split; [split; auto|].
  - intros i x z H. do 3 eexists. split; [reflexivity|]. rewrite map_length; auto.
  - split; auto. intros [|[|[|i]]] v E; inversion E; reflexivity.
Qed.
Example C21_demo : option_map (fun r => (m_tables (fst r), m_t (fst r), m_accept (fst r)))
    (run C21_walk [[5; 0; 0]; [7; 0; 0; 0]] tt (fun i => (i, false))) =
  Some ([[5; 6; 8]; [7; 8; 10; 0]], 3, 2).
Proof. reflexivity. Qed.
Example C21_demo_end : updates C21_walk (initial [[5]; [7; 0]] tt) (fun i => (i, false)) 0 2 = None.
Proof. reflexivity. Qed.

(** ** C22: a rejected proposal repeats the previous state *)

Theorem C22_mh : forall {V} (log_prob proposal_log_prob : nat -> list (nat * V) -> V -> ext) latent proposals us tables z0 m,
  (forall i, well_posed latent proposals (d_data (fst (us i)))) ->
  length tables = length latent -> row_is tables 0 z0 -> (forall rows, In rows tables -> m <= length rows) ->
  exists s infos, updates (mh_kernel log_prob proposal_log_prob latent proposals) (initial tables tt) us 0 m = Some (s, infos) /\
    exists st acc, accept_reject (fun i z => proposal_state latent proposals (d_data (fst (us i))) z (fst (us i))) z0 st acc /\
      length acc = m /\ (forall j, j < m -> row_is (m_tables s) j (st (S j))) /\
      m_accept s = accepted acc /\ m_accept s <= m_t s /\ m_t s = m.
Proof. exact @mh_chosen. Qed.
Print Assumptions C22_mh.

Theorem C22_hmc : forall log_prob latent grad step_size n_steps s0 us tables z0 m, length s0 = length latent ->
  (forall i z, same_shape s0 z -> same_shape s0 (grad (h_data (fst (us i))) z)) ->
  (forall i, same_shape s0 (h_momenta (fst (us i)))) -> same_shape s0 z0 ->
  row_is tables 0 z0 -> (forall rows, In rows tables -> m <= length rows) ->
  exists s infos, updates (hmc_kernel log_prob latent grad step_size n_steps) (initial tables tt) us 0 m = Some (s, infos) /\
    exists st acc,
      accept_reject (fun i z => fst (leapfrog (grad (h_data (fst (us i)))) step_size n_steps z (h_momenta (fst (us i))))) z0 st acc /\
      length acc = m /\ (forall j, j < m -> row_is (m_tables s) j (st (S j))) /\
      m_accept s = accepted acc /\ m_accept s <= m_t s /\ m_t s = m.
Proof. exact hmc_chosen. Qed.
Print Assumptions C22_hmc.

(** Three latent variables, proposals for two of them, one observed variable. *)
Example C22_demo : well_posed [0; 1; 2] [2; 0] [(7, true)] /\
  proposal_state [0; 1; 2] [2; 0] [(7, true)] [true; true; true] (mkdraws [(7, true)] (fun _ _ => false) (/ 2)) = [false; true; false] /\
  row_is [[true; false]; [true; true]; [true; true; true]] 0 [true; true; true].
Proof.
  split; [|split; [reflexivity|]].
  - unfold well_posed. split; [repeat constructor; simpl; lia|]. split; [repeat constructor; simpl; lia|].
    split; [intros k; simpl; tauto|]. split; [repeat constructor; simpl; lia|]. simpl. intros k [<-|[<-|[<-|[]]]] [E|[]]; discriminate.
  - split; auto. intros [|[|[|[|i]]]] v E; inversion E; reflexivity.
Qed.

(** ** C23: the reported acceptance rate

    The statement is false: the first rate is never a number. *)
Theorem C23_first_rate_refuted : forall {V X U} (k : kernel V X U) P tables x us z0 n, proper k P (length tables) us ->
  0 < n -> row_is tables 0 z0 -> P x z0 -> (forall rows, In rows tables -> n <= length rows) ->
  exists s infos, updates k (initial tables x) us 0 n = Some (s, infos) /\
    (nth_error infos 0 = Some (1, NaN) \/ nth_error infos 0 = Some (1, PInf)).
Proof. exact @first_rate. Qed.
Print Assumptions C23_first_rate_refuted.

(** In iteration j + 1 the rate is the number accepted in the first j iterations
    over j, a fraction, if n_accept is read before it is incremented.  If it is
    read after, the rate is the number accepted in the first j + 1 iterations
    over j.  Missing: that it is the number accepted so far over j + 1. *)
Theorem C23_rate_partial : forall {V X U} (k : kernel V X U) P tables x us z0 n, proper k P (length tables) us ->
  (0 < n -> row_is tables 0 z0 /\ P x z0) -> (forall rows, In rows tables -> n <= length rows) ->
  exists s infos, updates k (initial tables x) us 0 n = Some (s, infos) /\
    exists acc, length acc = n /\ (forall j, S j = n -> exists z, chain k x z0 us j (m_extra s) z acc) /\
    forall j, 1 <= j < n -> exists q, nth_error infos j = Some (S j, Fin q) /\
      (q = INR (accepted (firstn (if snd (us j) then S j else j) acc)) / INR j)%R /\
      (snd (us j) = false -> (0 <= q <= 1)%R) /\ (0 <= q <= INR (S j) / INR j)%R.
Proof. exact @later_rates. Qed.
Print Assumptions C23_rate_partial.

(** A rate of 2: two iterations, both accepted, the counter read late. *)
Theorem C23_above_one_refuted : exists (k : kernel nat unit nat) tables us s infos q,
  updates k (initial tables tt) us 0 2 = Some (s, infos) /\ nth_error infos 1 = Some (2, Fin q) /\ (q = 2)%R.
Proof.
  exists C21_walk, [[5; 0]], (fun _ => (0, true)). do 3 eexists. split; [reflexivity|].
  pose proof (@over_pos 2 1 ltac:(lia)) as E. simpl nth_error. simpl m_accept. simpl Nat.add. rewrite E. split; [reflexivity|].
  simpl. field.
Qed.
Print Assumptions C23_above_one_refuted.

(** Half of two iterations accepted, the counter read early: the rate is 1. *)
Example C23_demo : exists s infos q,
  updates C21_walk (initial [[5; 0]] tt) (fun i => (i, false)) 0 2 = Some (s, infos) /\
  nth_error infos 1 = Some (2, Fin q) /\ (q = 1)%R /\ m_accept s = 1.
Proof.
  do 3 eexists. split; [reflexivity|]. pose proof (@over_pos 1 1 ltac:(lia)) as E.
  simpl nth_error. simpl m_accept. simpl Nat.add. rewrite E. split; [reflexivity|]. split; [simpl; field|reflexivity].
Qed.

(** ** C24: Metropolis-Hastings satisfies detailed balance *)
Local Open Scope R_scope.

Theorem C24_detailed_balance : forall {V} (veq : forall a b : V, {a = b} + {a <> b})
  (log_prob proposal_log_prob : nat -> list (nat * V) -> V -> ext) latent proposals data,
  well_posed latent proposals data -> log_densities log_prob proposal_log_prob ->
  forall z z', length z = length latent -> reachable latent proposals z z' -> z <> z' ->
  exists a a', step_probability log_prob proposal_log_prob latent proposals data z z' z' a /\
    step_probability log_prob proposal_log_prob latent proposals data z' z z a' /\
    joint log_prob latent data z * propose_density veq proposal_log_prob latent proposals data z z' * a =
    joint log_prob latent data z' * propose_density veq proposal_log_prob latent proposals data z' z * a'.
Proof. exact @detailed_balance. Qed.
Print Assumptions C24_detailed_balance.

(** The probabilities in these statements are unique. *)
Theorem C24_probability_unique : forall {V} (log_prob proposal_log_prob : nat -> list (nat * V) -> V -> ext) latent proposals data,
  well_posed latent proposals data ->
  forall (z z' r : list V) p q, length z' = length latent -> latent <> [] ->
  step_probability log_prob proposal_log_prob latent proposals data z z' r p ->
  step_probability log_prob proposal_log_prob latent proposals data z z' r q -> p = q.
Proof. exact @step_prob_unique. Qed.
Print Assumptions C24_probability_unique.

(** On every finite space of states on which the proposal is a probability, the
    joint density is stationary. *)
Theorem C24_stationary : forall {V} (veq : forall a b : V, {a = b} + {a <> b})
  (log_prob proposal_log_prob : nat -> list (nat * V) -> V -> ext) latent proposals data,
  well_posed latent proposals data -> log_densities log_prob proposal_log_prob ->
  forall space, NoDup space -> (forall z, In z space -> length z = length latent) -> latent <> [] ->
  (forall z, In z space -> sum (map (propose_density veq proposal_log_prob latent proposals data z) space) = 1) ->
  forall r, In r space ->
  exists K : list V -> R,
    (forall z, In z space -> transition veq log_prob proposal_log_prob latent proposals data space z r (K z)) /\
    (forall z q, In z space -> transition veq log_prob proposal_log_prob latent proposals data space z r q -> q = K z) /\
    sum (map (fun z => joint log_prob latent data z * K z) space) = joint log_prob latent data r.
Proof. exact @stationary. Qed.
Print Assumptions C24_stationary.

(** One latent and one observed binary variable; the proposal is not symmetric
    and some densities are zero. *)
Definition C24_model : nat -> list (nat * bool) -> bool -> ext := fun k d v =>
  match k with O => if v then Fin 0 else Fin (ln 3) | _ => if v then NInf else Fin 1 end.
Definition C24_proposal : nat -> list (nat * bool) -> bool -> ext := fun _ d v =>
  match dict_get d 0 with Some true => Fin (ln (if v then / 4 else 3 / 4)) | _ => Fin (ln (/ 2)) end.
Example C24_demo : well_posed [0%nat] [0%nat] [(1%nat, false)] /\ log_densities C24_model C24_proposal /\
  (forall z, In z [[true]; [false]] ->
     sum (map (propose_density Bool.bool_dec C24_proposal [0%nat] [0%nat] [(1%nat, false)] z) [[true]; [false]]) = 1) /\
  reachable [0%nat] [0%nat] [true] [false].
Proof.
  assert (D : forall a : nat, NoDup [a]) by (intros a; constructor; [simpl; tauto|constructor]).
  split; [|split; [|split]].
  - split; [apply D|]. split; [apply D|]. split; [apply incl_refl|]. split; [apply D|]. simpl. intros k [<-|[]] [E|[]]; discriminate.
  - split.
    + intros [|k] d v; unfold C24_model; destruct v; [right|right|left|right]; eauto.
    + intros k d v. unfold C24_proposal. destruct (dict_get d 0) as [[|]|]; right; eauto.
  - intros z [<-|[<-|[]]]; unfold propose_density, C24_proposal; simpl; rewrite !exp_ln by lra; lra.
  - split; auto. intros [|[|i]] k v A; inversion A; subst. intros _ H. simpl in H. tauto.
Qed.

(** ** C25: HMC's leapfrog integrator is reversible and its acceptance balanced *)

Theorem C25_reversible : forall grad step_size s0, (forall z, same_shape s0 z -> same_shape s0 (grad z)) ->
  forall n z r z' r', same_shape s0 z -> same_shape s0 r -> leapfrog grad step_size n z r = (z', r') ->
  same_shape s0 z' /\ same_shape s0 r' /\ leapfrog grad step_size n z' (flip r') = (z, flip r).
Proof. exact reversible. Qed.
Print Assumptions C25_reversible.

Theorem C25_volume : forall grad step_size s0, (forall z, same_shape s0 z -> same_shape s0 (grad z)) ->
  forall n, volume_preserving (same_shape s0) (fun p => leapfrog grad step_size n (fst p) (snd p)).
Proof. exact volume. Qed.
Print Assumptions C25_volume.

(** The probability of moving from (z, r) to the end (z', r') of the trajectory
    and that of moving from (z', -r') back balance the densities. *)
Theorem C25_balance : forall log_prob latent data, hmc_posed log_prob latent data ->
  forall grad step_size n s0, length s0 = length latent -> (forall z, same_shape s0 z -> same_shape s0 (grad data z)) ->
  forall z r z' r', same_shape s0 z -> same_shape s0 r -> leapfrog (grad data) step_size n z r = (z', r') ->
  exists a a', move_probability log_prob latent data grad step_size n z r a /\
    move_probability log_prob latent data grad step_size n z' (flip r') a' /\
    leapfrog (grad data) step_size n z' (flip r') = (z, flip r) /\
    phase_density log_prob latent data z r * a = phase_density log_prob latent data z' (flip r') * a'.
Proof. exact hmc_balance. Qed.
Print Assumptions C25_balance.

Theorem C25_probability_unique : forall log_prob latent data grad step_size n z r p q,
  move_probability log_prob latent data grad step_size n z r p ->
  move_probability log_prob latent data grad step_size n z r q -> p = q.
Proof. exact move_unique. Qed.
Print Assumptions C25_probability_unique.

(** A standard normal vector and a positive variable with an exponential prior
    through the softplus; gradients. *)
Definition C25_model : nat -> list (nat * tensor) -> tensor -> ext := fun k _ v =>
  match k with
  | O => Fin (- / 2 * sumR (map (fun x => x * x) v))
  | _ => if Rlt_dec 0 (hd 0 v) then Fin (- hd 0 v) else NInf
  end.
Definition C25_grad : list (nat * tensor) -> list tensor -> list tensor := fun _ z =>
  match z with [a; [u]] => [map Ropp a; [1 - 2 * sigmoid u]] | _ => z end.
Example C25_demo : hmc_posed C25_model [(0%nat, None); (1%nat, Some (Invert Softplus))] [] /\
  (forall z, same_shape [[0; 0]; [0]] z -> same_shape [[0; 0]; [0]] (C25_grad [] z)).
Proof.
  split.
  - assert (NoDup [0%nat; 1%nat]) by (constructor; [simpl; lia|constructor; [simpl; tauto|constructor]]).
    split; auto. split; [constructor|]. split; [simpl; tauto|]. intros [|k] d v; simpl.
    + right; eauto. + destruct (Rlt_dec 0 (hd 0 v)); [right; eauto|left; auto].
  - intros z H. inversion H as [|a b l l' L1 H1]; subst. inversion H1 as [|c d m m' L2 H2]; subst. inversion H2; subst.
    destruct d as [|u [|]]; try discriminate. simpl. constructor; [rewrite map_length; auto|]. constructor; auto.
Qed.
