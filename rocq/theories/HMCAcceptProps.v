(** * C93: HMC's acceptance probability on normal posteriors. *)
From Coquelicot Require Import Coquelicot.
From Coq Require Import Reals List Lia Lra.
From Verif Require Import Ext Transform MHSpec HMC HMCSpec SGLD SGLDSpec SGLDJointSpec VolumeExampleProofs.
From Verif Require Import HMCAcceptSpec HMCAcceptProofs.
Import ListNotations.
Local Open Scope R_scope.

(** *** Claim C93 *)

(** Step sizes below 2 / sqrt M, for M the largest precision: the probability of
    moving is at least a positive bound that does not depend on the number of
    leapfrog steps.  The update never fails and the bound is 1 at step size 0. *)
Theorem C93_bound : forall log_prob latent data grad s0 A mu lambda M e z r,
  normal_posterior log_prob latent data grad s0 A mu -> precision s0 A lambda (M * M) -> 0 <= lambda -> 0 < M ->
  e * e * M < 4 -> same_shape s0 z -> same_shape s0 r ->
  forall n_steps, exists q, move_probability log_prob latent data grad e n_steps z r q /\
    exp (- (e * e * M / (4 - e * e * M) * energy A mu z r)) <= q <= 1.
Proof. intros log_prob latent data grad s0 A mu lambda M e z r HN HA Hl HM He Hz Hr n. exact (accept_bound log_prob latent data grad s0 A lambda M mu Hl HM HA HN e n z r He Hz Hr). Qed.
Print Assumptions C93_bound.

(** Hence the probability of moving tends to 1 as step_size tends to 0, for all
    numbers of leapfrog steps at once. *)
Theorem C93_small_steps : forall log_prob latent data grad s0 A mu lambda M z r delta,
  normal_posterior log_prob latent data grad s0 A mu -> precision s0 A lambda (M * M) -> 0 <= lambda -> 0 < M ->
  same_shape s0 z -> same_shape s0 r -> 0 < delta ->
  exists e0, 0 < e0 /\ forall e n_steps, 0 < e < e0 ->
    exists q, move_probability log_prob latent data grad e n_steps z r q /\ 1 - delta <= q <= 1.
Proof. intros log_prob latent data grad s0 A mu lambda M z r delta HN HA Hl HM Hz Hr Hd. exact (accept_small log_prob latent data grad s0 A lambda M mu Hl HM HA HN z r delta Hz Hr Hd). Qed.
Print Assumptions C93_small_steps.

(** Step sizes above 2 / sqrt lambda, for a real variable with precision lambda:
    from every state, for all momenta but one value, the probability of moving
    tends to 0 as the number of leapfrog steps grows. *)
Theorem C93_unstable : forall log_prob latent data grad lambda e m x r, 0 < lambda -> 0 < e -> 4 < e * e * lambda ->
  normal_posterior log_prob latent data grad [[0]] (map (map (Rmult lambda))) [[m]] ->
  r <> sqrt (lambda * (e * e * lambda / 4 - 1)) * (x - m) ->
  exists q : nat -> R, (forall n_steps, move_probability log_prob latent data grad e n_steps [[x]] [[r]] (q n_steps)) /\ is_lim_seq q 0.
Proof. exact accept_vanishes. Qed.
Print Assumptions C93_unstable.

(** The same for any number of interacting variables, if the precision matrix has an
    eigenvector [b] whose eigenvalue lambda is beyond the limit: for all states and
    momenta but those on one hyperplane. *)
Theorem C93_unstable_joint : forall log_prob latent data grad s0 A mu low M lambda e b z r, 0 < lambda -> 0 < e -> 4 < e * e * lambda ->
  normal_posterior log_prob latent data grad s0 A mu -> precision s0 A low (M * M) ->
  same_shape s0 b -> 0 < inner b b -> A b = map (map (Rmult lambda)) b -> same_shape s0 z -> same_shape s0 r ->
  inner b r <> sqrt (lambda * (e * e * lambda / 4 - 1)) * inner b (off mu z) ->
  exists q : nat -> R, (forall n_steps, move_probability log_prob latent data grad e n_steps z r (q n_steps)) /\ is_lim_seq q 0.
Proof. exact accept_vanishes_along. Qed.
Print Assumptions C93_unstable_joint.

(** **** The hypotheses are met *)

(** A standard normal mean observed once at 6 with unit noise: the posterior is
    normal with mean 3 and precision 2. *)
Example C93_normal : normal_posterior normal_model [(O, None)] [(1%nat, [6])] normal_grad [[0]] (map (map (Rmult 2))) [[3]] /\
  precision [[0]] (map (map (Rmult 2))) 2 (2 * 2).
Proof.
  split; [|exact (scalar_precision 2)]. split; [apply normal_posed|]. split; [reflexivity|]. split; [repeat constructor|]. split.
  - exists (- 9). intros z Hz. destruct (one_shape z Hz) as (x & ->). rewrite normal_target. unfold bell, off, plus_multiple, translate, inner, sumR. cbn. rewrite <- exp_plus. f_equal. lra.
  - intros z Hz. destruct (one_shape z Hz) as (x & ->). unfold normal_grad, off, plus_multiple, translate. cbn. do 2 f_equal. lra.
Qed.
(** With step size 1 it moves from 5 with momentum 1 with probability at least
    exp (- 9/2), whatever the number of steps; with step size 2 hardly ever, if the number is large. *)
Example C93_normal_runs : (forall n, exists q, move_probability normal_model [(O, None)] [(1%nat, [6])] normal_grad 1 n [[5]] [[1]] q /\ exp (- (9 / 2)) <= q <= 1) /\
  exists q, (forall n, move_probability normal_model [(O, None)] [(1%nat, [6])] normal_grad 2 n [[5]] [[1]] (q n)) /\ is_lim_seq q 0.
Proof.
  destruct C93_normal as [HN HA]. split.
  - intros n. replace (- (9 / 2)) with (- (1 * 1 * 2 / (4 - 1 * 1 * 2) * energy (map (map (Rmult 2))) [[3]] [[5]] [[1]])).
    + apply (C93_bound _ _ _ _ [[0]] _ _ 2 2); try assumption; try lra; repeat constructor.
    + unfold energy, off, plus_multiple, translate, inner, sumR. cbn. lra.
  - apply (C93_unstable _ _ _ _ 2 2 3); try assumption; try lra. replace (2 * (2 * 2 * 2 / 4 - 1)) with 2 by lra.
    intros K. pose proof (sqrt_lt_1 1 2 ltac:(lra) ltac:(lra) ltac:(lra)) as Q. rewrite sqrt_1 in Q. lra.
Qed.

(** Two standard normal variables of which the sum is observed: they interact. *)
Definition sum_model : nat -> list (nat * tensor) -> tensor -> ext := fun k env v =>
  let at_ j := hd 0 (snd (nth j env (O, []))) in
  let mean := match k with S (S _) => at_ O + at_ 1%nat | _ => 0 end in
  Fin (- ((hd 0 v - mean) * (hd 0 v - mean) / 2)).
Definition sum_matrix (z : list tensor) : list tensor := match z with [[x]; [y]] => [[2 * x + y]; [x + 2 * y]] | _ => z end.
Definition sum_grad (data : list (nat * tensor)) (z : list tensor) : list tensor :=
  let d := hd 0 (snd (hd (O, []) data)) in
  match z with [[x]; [y]] => [[d - x - y - x]; [d - x - y - y]] | _ => z end.
Example C93_joint_met : normal_posterior sum_model [(O, None); (1%nat, None)] [(2%nat, [6])] sum_grad [[0]; [0]] sum_matrix [[2]; [2]] /\
  precision [[0]; [0]] sum_matrix 1 (3 * 3).
Proof.
  assert (S' : forall z, same_shape [[0]; [0]] z -> exists x y, z = [[x]; [y]]).
  { intros z H. inversion H as [|a b l l' L F]; subst. inversion F as [|a' b' k k' L' F']; subst. inversion F'; subst.
    destruct b as [|x [|? ?]]; try discriminate. destruct b' as [|y [|? ?]]; try discriminate. eauto. }
  split.
  - split; [|split; [reflexivity|split; [repeat constructor|split]]].
    + unfold hmc_posed. cbn. split; [repeat constructor; cbn; lia|]. split; [repeat constructor; cbn; lia|]. split; [lia|]. intros k d v. right. unfold sum_model. eexists. reflexivity.
    + exists (- 6). intros z Hz. destruct (S' z Hz) as (x & y & ->). unfold target, density_at, volume_factor, constrain, sum_model, product, off, plus_multiple, translate, inner, sumR. cbn. rewrite !Rmult_1_r, <- !exp_plus. f_equal. lra.
    + intros z Hz. destruct (S' z Hz) as (x & y & ->). unfold off, plus_multiple, translate. cbn. f_equal; [f_equal; lra|do 2 f_equal; lra].
  - split.
    + intros a H. destruct (S' a H) as (x & y & ->). repeat constructor.
    + intros a c b H K. destruct (S' a H) as (x & y & ->), (S' b K) as (u & v & ->). unfold plus_multiple, translate. cbn. f_equal; [f_equal; ring|f_equal; f_equal; ring].
    + intros a b H K. destruct (S' a H) as (x & y & ->), (S' b K) as (u & v & ->). unfold inner, sumR. cbn. ring.
    + intros a H. destruct (S' a H) as (x & y & ->). unfold inner, sumR. cbn. pose proof (Rle_0_sqr (x + y)) as Q. pose proof (Rle_0_sqr (x - y)) as Q'. unfold Rsqr in Q, Q'. lra.
    + intros a H. destruct (S' a H) as (x & y & ->). unfold inner, sumR. cbn. pose proof (Rle_0_sqr (x + y)) as Q. pose proof (Rle_0_sqr (x - y)) as Q'. unfold Rsqr in Q, Q'. lra.
Qed.
(** With step size 1 every run from every state keeps a chance of moving. *)
Example C93_joint_runs : forall n, exists q, move_probability sum_model [(O, None); (1%nat, None)] [(2%nat, [6])] sum_grad 1 n [[3]; [2]] [[1]; [0]] q /\ exp (- (9 / 2)) <= q <= 1.
Proof.
  intros n. destruct C93_joint_met as [HN HA]. replace (- (9 / 2)) with (- (1 * 1 * 3 / (4 - 1 * 1 * 3) * energy sum_matrix [[2]; [2]] [[3]; [2]] [[1]; [0]])).
  - apply (C93_bound _ _ _ _ [[0]; [0]] _ _ 1 3); try assumption; try lra; repeat constructor.
  - unfold energy, off, plus_multiple, translate, inner, sumR. cbn. lra.
Qed.
(** Its largest precision is 3, along (1, 1).  With step size 2 nearly every proposal is
    rejected if the number of steps is large. *)
Example C93_joint_unstable : sum_matrix [[1]; [1]] = map (map (Rmult 3)) [[1]; [1]] /\
  exists q, (forall n, move_probability sum_model [(O, None); (1%nat, None)] [(2%nat, [6])] sum_grad 2 n [[3]; [2]] [[0]; [0]] (q n)) /\ is_lim_seq q 0.
Proof.
  assert (E : sum_matrix [[1]; [1]] = map (map (Rmult 3)) [[1]; [1]]) by (cbn; f_equal; [f_equal; ring|f_equal; f_equal; ring]).
  split; [exact E|]. destruct C93_joint_met as [HN HA].
  apply (C93_unstable_joint _ _ _ _ [[0]; [0]] sum_matrix [[2]; [2]] 1 3 3 2 [[1]; [1]]); try assumption; try lra; try (repeat constructor).
  - unfold inner, sumR. cbn. lra.
  - assert (P : 0 < sqrt (3 * (2 * 2 * 3 / 4 - 1))) by (apply sqrt_lt_R0; lra). unfold off, plus_multiple, translate, inner, sumR. cbn. intros K. lra.
Qed.
