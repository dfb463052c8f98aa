(** * C88: SGHMC on Gaussian posteriors whose entries interact. *)
From Coq Require Import Reals List Arith Lra.
From Verif Require Import Ext Feed MonteCarlo MonteCarloSpec Transform HMC HMCSpec SGLD SGLDSpec StepsSpec SGLDLimitSpec SGHMCLimitSpec SGLDJointSpec SGLDLimitProps.
From Verif Require Import SGHMCJointProofs.
Import ListNotations.
Local Open Scope R_scope.

(** *** Claim C88 *)

(** The joint case of [C88_variance_refuted].  If the posterior of all entries together is
    Gaussian with mean [mu] and precision matrix [A], then along every eigenvector [b] of [A],
    with eigenvalue 1 / [s2], the samples behave as those of one variable with
    variance [s2]: the variance of the combination [b] of the sample tends to a number
    above that under the posterior, or to infinity.  (Divide by the square of the length
    of [b].)  A symmetric matrix has as many orthogonal eigenvectors as it has rows. *)
Theorem C88_joint_refuted : forall step_size friction s2, 0 < step_size -> 0 < friction < 4 -> 0 < s2 ->
  exists (w : nat -> R) (c : nat -> nat -> R),
  (step_size / 100 / s2 < friction / 2 -> Un_cv w 0 /\ s2 < stationary_variance (step_size / 100) friction s2 /\
     Un_cv (fun n => partial_sum (fun i => c n i * c n i) n) (stationary_variance (step_size / 100) friction s2)) /\
  (friction / 2 <= step_size / 100 / s2 -> cv_infty (fun n => partial_sum (fun i => c n i * c n i) n)) /\
  forall s0 A lambda L b, precision s0 A lambda L -> same_shape s0 b -> A b = map (map (Rmult (/ s2))) b ->
  forall log_prob scale keys gradients z0 mu us,
  same_shape s0 z0 -> same_shape s0 mu -> length z0 = length keys ->
  (forall f z, same_shape z0 z -> same_shape z0 (gradients f z)) ->
  (forall i, same_shape z0 (g_normal (fst (us i)))) ->
  let lp := fun k d v => Fin (log_prob k d v) in let latent := map (fun k => (k, None)) keys in
  (forall i z, same_shape z0 z -> gradients (scaled_log_joint lp scale latent (g_data (fst (us i)))) z = map (map (Rmult (-1))) (A (plus_multiple z (-1) mu))) ->
  forall tables m, row_is tables 0 z0 -> (forall rows, In rows tables -> (m <= length rows)%nat) ->
  exists s infos, updates (sghmc_kernel lp scale latent gradients step_size friction) (initial tables (zeros z0)) us 0 m = Some (s, infos) /\
  forall n, (n < m)%nat -> exists z, row_is (m_tables s) n z /\ same_shape z0 z /\
    inner b z = inner b mu + w (S n) * inner b (plus_multiple z0 (-1) mu) + partial_sum (fun i => c (S n) i * inner b (g_normal (fst (us i)))) (S n).
Proof. exact sghmc_joint. Qed.
Print Assumptions C88_joint_refuted.

(** The matrix with rows (2, 1) and (1, 2) of C86: its eigenvectors are (1, 1) and
    (1, -1), with variances 1/3 and 1; with the defaults both directions converge, the
    first to more than 1.08 / 3. *)
Example C88_joint_met : precision [[0]; [0]] C86_matrix 1 9 /\
  C86_matrix [[1]; [1]] = map (map (Rmult (/ (/ 3)))) [[1]; [1]] /\ C86_matrix [[1]; [-1]] = map (map (Rmult (/ 1))) [[1]; [-1]] /\
  inner [[1]; [1]] [[1]; [-1]] = 0 /\
  / 4 / 100 / / 3 < / 10 / 2 /\ / 4 / 100 / 1 < / 10 / 2 /\ 1.08 / 3 < stationary_variance (/ 4 / 100) (/ 10) (/ 3).
Proof.
  split; [exact (proj1 C86_joint_met)|].
  split; [cbn; f_equal; [f_equal; field|f_equal; f_equal; field]|]. split; [cbn; f_equal; [f_equal; field|f_equal; f_equal; field]|].
  split; [unfold inner, sumR; cbn; ring|]. split; [lra|]. split; [lra|]. unfold stationary_variance. lra.
Qed.
