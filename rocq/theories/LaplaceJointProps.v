(** * C43 with several latent variables. *)
From Coq Require Import Reals List Arith.
From Verif Require Import Transform Laplace LaplaceSpec LaplaceProofs.
From Verif Require Import LaplaceJoint LaplaceJointSpec LaplaceJointProofs.
Import ListNotations.
Local Open Scope R_scope.

(** Though the covariance of each approximation is the inverse of its variable's own
    second derivatives, that of all together is not the inverse Hessian. *)
Theorem C43_joint_refuted : exists ic latent h l m,
  cholesky_of (total (map snd latent)) h l /\ inverse_of (total (map snd latent)) l m /\
  (forall k f n a, nth_error latent k = Some (f, n) -> a = part h (total (firstn k (map snd latent))) ->
    inverse_of n a (covariance n (laplace_scale f a (ic n a)))) /\
  ~ inverse_of (total (map snd latent)) h (joint_covariance ic latent h).
Proof. exact joint_wrong. Qed.
Print Assumptions C43_joint_refuted.

(** In that case it is exactly if no two variables interact.  Missing: the others,
    and that each approximation has the inverse, see [C43_tril_partial] and
    [C43_normal_partial]. *)
Theorem C43_joint_partial : forall ic latent h,
  (forall k f n a, nth_error latent k = Some (f, n) -> a = part h (total (firstn k (map snd latent))) ->
    inverse_of n a (covariance n (laplace_scale f a (ic n a)))) ->
  (inverse_of (total (map snd latent)) h (joint_covariance ic latent h) <-> uncoupled (map snd latent) h).
Proof. exact joint_iff. Qed.
Print Assumptions C43_joint_partial.

(** The reciprocal of a variable's own second derivative never exceeds its variance in
    the inverse Hessian [c]: taking the variables one by one can only underestimate. *)
Theorem C43_marginal : forall n h l c i, cholesky_of n h l -> inverse_of n h c -> (i < n)%nat ->
  0 < h i i /\ / h i i <= c i i.
Proof. exact marginal. Qed.
Print Assumptions C43_marginal.

(** Two variables, with Hessian (1 1; 1 2). *)
Example C43_pair_met : (forall k f n a, nth_error [(TriLFamily, 1%nat); (TriLFamily, 1%nat)] k = Some (f, n) -> a = part h_pair (total (firstn k [1%nat; 1%nat])) ->
    inverse_of n a (covariance n (laplace_scale f a (ic_one n a)))) /\
  cholesky_of 2 h_pair l_pair /\ inverse_of 2 h_pair (mmul 2 (transpose m_pair) m_pair).
Proof.
  split; [exact pair_each|]. split; [exact h_pair_cholesky|].
  exact (proj2 (tril_covariance 2 h_pair l_pair m_pair h_pair_cholesky l_pair_inverse)).
Qed.

Example C43_factor_met : forall h l, cholesky_of 1 h l -> inverse_of 1 l (ic_one 1 h).
Proof. exact ic_one_right. Qed.
