(** * C24 on R^n: Metropolis-Hastings keeps the posterior, nothing assumed of volume *)
From Coquelicot Require Import Coquelicot.
From Coq Require Import Reals List Arith Bool Lia Lra.
From Verif Require Import Ext Feed MonteCarlo Transform MH MHSpec HMC HMCSpec VI VISpec VIIntegralSpec InvariantSpec.
From Verif Require Import VolumeSpec VolumeHMCSpec VolumeExampleProofs.
From Verif Require Import VolumeFubiniProofs VolumeWalkSpec VolumeWalkProofs VolumeWalkExampleProofs.
Import ListNotations.
Local Open Scope R_scope.

(** States are tensors of any shapes and integrals are volume integrals.  The
    joint density [p] is continuous, positive and has a finite integral; the
    proposal density [g] is continuous and has integral 1 from every state.  Then
    for every bounded continuous function [phi] and every number of steps [k] the
    mean of [phi] after [k] steps exists from every state, and its expectation
    under the posterior is that of [phi]. *)
Theorem C24_real_stationary : forall (veq : forall a b : tensor, {a = b} + {a <> b})
  (log_prob proposal_log_prob : nat -> list (nat * tensor) -> tensor -> ext) latent proposals data,
  well_posed latent proposals data -> log_densities log_prob proposal_log_prob -> latent <> [] ->
  forall s0, length s0 = length latent ->
  let p := joint log_prob latent data in
  let g := propose_density veq proposal_log_prob latent proposals data in
  (forall z, same_shape s0 z -> 0 < p z) -> continuous_tensors s0 p -> continuous_pairs s0 g ->
  (forall z, same_shape s0 z -> by_tensors s0 (g z) 1) ->
  forall total, by_tensors s0 p total ->
  forall phi B, continuous_tensors s0 phi -> (forall z, same_shape s0 z -> Rabs (phi z) <= B) ->
  forall k, exists psi c,
    steps_mean veq log_prob proposal_log_prob latent proposals data (same_shape s0) (by_tensors s0) k phi psi /\
    (forall z, same_shape s0 z -> Rabs (psi z) <= B) /\
    by_tensors s0 (fun z => p z * phi z) c /\ by_tensors s0 (fun z => p z * psi z) c /\
    forall psi', steps_mean veq log_prob proposal_log_prob latent proposals data (same_shape s0) (by_tensors s0) k phi psi' ->
      by_tensors s0 (fun z => p z * psi' z) c.
Proof. exact walk_stationary. Qed.
Print Assumptions C24_real_stationary.

(** The order of integration: the integral over R^(a+b) of a continuous function
    below an integrable one is the integral of its integrals over R^b. *)
Theorem C24_real_fubini : forall a b f g H total, continuous_n (a + b) f -> continuous_n (a + b) g -> continuous_n a H ->
  (forall z, length z = (a + b)%nat -> Rabs (f z) <= g z) -> (forall x, length x = a -> mass b (fun y => g (x ++ y)) (H x)) -> mass a H total ->
  exists h c, continuous_n a h /\ (forall x, length x = a -> by_volume b (fun y => f (x ++ y)) (h x)) /\
    by_volume a h c /\ by_volume (a + b) f c /\ (forall x, length x = a -> Rabs (h x) <= H x).
Proof. exact fubini_dominated. Qed.
Print Assumptions C24_real_fubini.

(** A normal mean with one normal observation [y] and a normal random walk as
    proposal: the hypotheses hold. *)
Example C24_real_demo : exists c, 0 < c /\ forall y,
  well_posed [O] [O] [(1%nat, [y])] /\ log_densities walk_model (walk_proposal c) /\
  (forall m, joint walk_model [O] [(1%nat, [y])] [[m]] = exp (- (m * m / 2)) * exp (- ((y - m) * (y - m) / 2))) /\
  (forall m m', propose_density tensor_eq (walk_proposal c) [O] [O] [(1%nat, [y])] [[m]] [[m']] = / c * exp (- ((m' - m) * (m' - m) / 2))) /\
  (forall z, same_shape [[0]] z -> 0 < joint walk_model [O] [(1%nat, [y])] z) /\
  continuous_tensors [[0]] (joint walk_model [O] [(1%nat, [y])]) /\
  continuous_pairs [[0]] (propose_density tensor_eq (walk_proposal c) [O] [O] [(1%nat, [y])]) /\
  (forall z, same_shape [[0]] z -> by_tensors [[0]] (propose_density tensor_eq (walk_proposal c) [O] [O] [(1%nat, [y])] z) 1) /\
  exists total, by_tensors [[0]] (joint walk_model [O] [(1%nat, [y])]) total.
Proof.
  destruct walk_normal as (c & c0 & Hc). exists c. split; [exact c0|]. intros y.
  split; [apply walk_posed|]. split; [apply walk_log|]. split; [apply walk_joint|]. split; [intros; apply walk_density; auto|].
  split. { intros z Hz. destruct (shape_one z Hz) as [m ->]. rewrite walk_joint. apply Rmult_lt_0_compat; apply bell_pos. }
  split; [apply walk_joint_cn|]. split; [apply walk_density_cn; auto|]. split; [auto|apply walk_total].
Qed.
