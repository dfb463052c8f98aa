(** * C88: SGHMC on a Gaussian posterior. *)
From Coq Require Import Reals List Lra Lia.
From Verif Require Import Ext Feed MonteCarlo MonteCarloSpec Transform HMC HMCSpec SGLD SGLDSpec StepsSpec SGLDLimitSpec.
From Verif Require Import SGHMCLimitSpec SGHMCLimitProofs.
Import ListNotations.
Local Open Scope R_scope.

(** The samples that SGHMC stores for an entry whose posterior is normal, with mean [mu]
    and variance [s2], are [mu] plus [w] times the distance of the start from it plus
    the noises times coefficients [c].  The sum of squares of the latter is the variance
    of the sample if the noises are independent standard normals.  It tends to a number
    above [s2] for every step_size up to a bound, and to infinity beyond. *)
Theorem C88_variance_refuted : forall step_size friction s2, 0 < step_size -> 0 < friction < 4 -> 0 < s2 ->
  exists (w : nat -> R) (c : nat -> nat -> R),
  (step_size / 100 / s2 < friction / 2 -> Un_cv w 0 /\ s2 < stationary_variance (step_size / 100) friction s2 /\
     Un_cv (fun n => partial_sum (fun i => c n i * c n i) n) (stationary_variance (step_size / 100) friction s2)) /\
  (friction / 2 <= step_size / 100 / s2 -> cv_infty (fun n => partial_sum (fun i => c n i * c n i) n)) /\
  forall log_prob scale keys gradients z0 us,
  length z0 = length keys -> (forall f z, same_shape z0 z -> same_shape z0 (gradients f z)) ->
  (forall i, same_shape z0 (g_normal (fst (us i)))) ->
  forall tables m, row_is tables 0 z0 -> (forall rows, In rows tables -> (m <= length rows)%nat) ->
  let lp := fun k d v => Fin (log_prob k d v) in let latent := map (fun k => (k, None)) keys in
  exists s infos, updates (sghmc_kernel lp scale latent gradients step_size friction) (initial tables (zeros z0)) us 0 m = Some (s, infos) /\
  forall j e mu, (j < length z0)%nat ->
  (forall i z, same_shape z0 z -> entry (gradients (scaled_log_joint lp scale latent (g_data (fst (us i)))) z) j e = - (entry z j e - mu) / s2) ->
  forall n, (n < m)%nat -> exists v, nth_error (nth j (m_tables s) []) n = Some v /\
    nth e v 0 = mu + w (S n) * (entry z0 j e - mu) + partial_sum (fun i => c (S n) i * entry (g_normal (fst (us i))) j e) (S n).
Proof. exact sghmc_gaussian. Qed.
Print Assumptions C88_variance_refuted.

(** That number tends to [s2] as the step size does to zero: the discretization error
    vanishes as documented. *)
Theorem C88_small_steps : forall friction s2 eps, 0 < friction < 4 -> 0 < s2 -> 0 < eps -> exists delta, 0 < delta /\
  forall h, 0 < h < delta -> h / s2 < friction / 2 /\ stationary_variance h friction s2 < s2 + eps.
Proof. exact hm_small. Qed.
Print Assumptions C88_small_steps.

(** Its definition: the covariances of position and velocity that one step of SGHMC does
    not change, with means zero and noise of variance 1. *)
Theorem C88_stationary : forall h f s2 X C V, 0 < h -> 0 < f < 4 -> 0 < s2 -> h / s2 < f / 2 ->
  X = X + 2 * C + V ->
  C = (1 - f / 2) * (C + V) - h / s2 * (X + C) ->
  V = (1 - f / 2) * (1 - f / 2) * V - 2 * (1 - f / 2) * (h / s2) * C + h / s2 * (h / s2) * X + h * f ->
  X = stationary_variance h f s2.
Proof. exact hm_stationary. Qed.
Print Assumptions C88_stationary.

(** With the default step_size and friction the samples do not converge if the variance
    of the posterior is at most 1/20, and have twice its variance for 1/10. *)
Example C88_default : (forall s2, 0 < s2 -> (/ 10 / 2 <= / 4 / 100 / s2 <-> s2 <= / 20)) /\
  / 4 / 100 / / 10 < / 10 / 2 /\ 2 * / 10 < stationary_variance (/ 4 / 100) (/ 10) (/ 10).
Proof.
  split; [|split; [lra|unfold stationary_variance; lra]]. intros s2 P. split; intros H.
  - apply (Rmult_le_compat_r s2) in H; [|lra]. unfold Rdiv in H. rewrite (Rmult_assoc _ (/ s2) s2), Rinv_l in H by lra. lra.
  - apply (Rmult_le_reg_r s2); [exact P|]. unfold Rdiv. rewrite (Rmult_assoc _ (/ s2) s2), Rinv_l by lra. lra.
Qed.

(** One variable with two entries, of which the second has mean 3 and variance 2. *)
Definition C88_gradients (f : list tensor -> option ext) (z : list tensor) : list tensor :=
  map (fun v : tensor => match v with [x; y] => [- x; - (y - 3) / 2] | _ => v end) z.
Example C88_met : let z0 : list tensor := [[1; 5]] in
  length z0 = length [7%nat] /\ (forall f z, same_shape z0 z -> same_shape z0 (C88_gradients f z)) /\
  row_is [[[1; 5]; [0; 0]; [0; 0]]] 0 z0 /\
  (forall f z, same_shape z0 z -> entry (C88_gradients f z) 0 1 = - (entry z 0 1 - 3) / 2).
Proof.
  cbv zeta. split; [reflexivity|].
  assert (S' : forall z, same_shape [[1; 5]] z -> exists x y, z = [[x; y]]).
  { intros z H. inversion H as [|a b l l' L F]; subst. inversion F; subst. destruct b as [|x [|y [|? ?]]]; try discriminate. eauto. }
  split; [intros f z H; destruct (S' z H) as (x & y & ->); repeat constructor|].
  split; [split; [reflexivity|intros [|[|i]] v E; inversion E; reflexivity]|].
  intros f z H; destruct (S' z H) as (x & y & ->); reflexivity.
Qed.
