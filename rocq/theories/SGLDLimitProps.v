(** * C86: SGLD on a Gaussian posterior. *)
From Coq Require Import Reals List Lra Lia.
From Verif Require Import Ext Feed MonteCarlo MonteCarloSpec Transform HMC HMCSpec SGLD SGLDSpec Optim Steps StepsSpec.
From Verif Require Import SGLDLimitSpec SGLDLimitProofs.
From Verif Require Import SGLDJointSpec SGLDJointProofs.
Import ListNotations.
Local Open Scope R_scope.

(** The samples that SGLD stores for an entry whose posterior is normal, with mean [mu]
    and variance [s2], are [mu] plus [w] times the distance of the start from it plus
    the noises times coefficients [c].  The former tends to zero and the sum of squares
    of the latter, the variance of the sample if the noises are independent standard
    normals, to [s2]. *)
Theorem C86_sgld : forall step_size s2, 0 < step_size -> 0 < s2 ->
  exists (w : nat -> R) (c : nat -> nat -> R), Un_cv w 0 /\ Un_cv (fun n => partial_sum (fun i => c n i * c n i) n) s2 /\
  forall log_prob scale keys gradients z0 us,
  length z0 = length keys -> (forall f z, same_shape z0 z -> same_shape z0 (gradients f z)) ->
  (forall i, same_shape z0 (g_normal (fst (us i)))) ->
  forall tables m, row_is tables 0 z0 -> (forall rows, In rows tables -> (m <= length rows)%nat) ->
  let lp := fun k d v => Fin (log_prob k d v) in let latent := map (fun k => (k, None)) keys in
  exists s infos, updates (sgld_kernel lp scale latent gradients step_size) (initial tables tt) us 0 m = Some (s, infos) /\
  forall j e mu, (j < length z0)%nat ->
  (forall i z, same_shape z0 z -> entry (gradients (scaled_log_joint lp scale latent (g_data (fst (us i)))) z) j e = - (entry z j e - mu) / s2) ->
  forall n, (n < m)%nat -> exists v, nth_error (nth j (m_tables s) []) n = Some v /\
    nth e v 0 = mu + w (S n) * (entry z0 j e - mu) + partial_sum (fun i => c (S n) i * entry (g_normal (fst (us i))) j e) (S n).
Proof. exact sgld_gaussian. Qed.
Print Assumptions C86_sgld.

(** One variable with two entries, of which the second has mean 3 and variance 2. *)
Definition C86_gradients (f : list tensor -> option ext) (z : list tensor) : list tensor :=
  map (fun v : tensor => match v with [x; y] => [- x; - (y - 3) / 2] | _ => v end) z.
Example C86_met : let z0 : list tensor := [[1; 5]] in
  length z0 = length [7%nat] /\ (forall f z, same_shape z0 z -> same_shape z0 (C86_gradients f z)) /\
  row_is [[[1; 5]; [0; 0]; [0; 0]]] 0 z0 /\
  (forall f z, same_shape z0 z -> entry (C86_gradients f z) 0 1 = - (entry z 0 1 - 3) / 2) /\
  forall y, derivable_pt_lim (fun y => - ((y - 3) * (y - 3)) / (2 * 2)) y (- (y - 3) / 2).
Proof.
  cbv zeta. split; [reflexivity|].
  assert (S' : forall z, same_shape [[1; 5]] z -> exists x y, z = [[x; y]]).
  { intros z H. inversion H as [|a b l l' L F]; subst. inversion F; subst. destruct b as [|x [|y [|? ?]]]; try discriminate. eauto. }
  split; [intros f z H; destruct (S' z H) as (x & y & ->); repeat constructor|].
  split; [split; [reflexivity|intros [|[|i]] v E; inversion E; reflexivity]|].
  split; [intros f z H; destruct (S' z H) as (x & y & ->); reflexivity|].
  intros y. replace (- (y - 3) / 2) with (- (1 * (y - 3) + (y - 3) * 1) * / (2 * 2) + - ((y - 3) * (y - 3)) * 0) by field.
  apply (derivable_pt_lim_mult (fun y => - ((y - 3) * (y - 3))) (fun _ => / (2 * 2))); [|apply derivable_pt_lim_const].
  apply (derivable_pt_lim_opp (fun y => (y - 3) * (y - 3))). apply (derivable_pt_lim_mult (fun y => y - 3) (fun y => y - 3) y 1 1);
    (replace 1 with (1 - 0) by lra; apply (derivable_pt_lim_minus id (fun _ => 3)); [apply derivable_pt_lim_id|apply derivable_pt_lim_const]).
Qed.

(** Entries that interact.  The posterior is normal with mean [mu] and precision
    matrix [A].  Every sample that SGLD stores is, seen through the combination of its
    entries with weights [A b], that of [mu] plus a combination [w] of the distance of
    the start from it plus combinations [c] of the noises.  The former's weights tend to
    zero.  The sum of squares of the latter's, the variance of the sample's combination
    if the noises are independent standard normals, tends to what it is under the
    posterior, (A b)' inverse(A) (A b). *)
Theorem C86_joint : forall step_size s0 A lambda L, 0 < step_size -> 0 < lambda -> 0 < L -> precision s0 A lambda L ->
  exists (w : nat -> list tensor -> list tensor) (c : nat -> nat -> list tensor -> list tensor),
  (forall b, same_shape s0 b -> Un_cv (fun n => inner (w n b) (w n b)) 0 /\
    Un_cv (fun n => partial_sum (fun i => inner (c n i b) (c n i b)) n) (inner b (A b))) /\
  forall log_prob scale keys gradients z0 mu us,
  same_shape s0 z0 -> same_shape s0 mu -> length z0 = length keys ->
  (forall f z, same_shape z0 z -> same_shape z0 (gradients f z)) ->
  (forall i, same_shape z0 (g_normal (fst (us i)))) ->
  let lp := fun k d v => Fin (log_prob k d v) in let latent := map (fun k => (k, None)) keys in
  (forall i z, same_shape z0 z -> gradients (scaled_log_joint lp scale latent (g_data (fst (us i)))) z = map (map (Rmult (-1))) (A (plus_multiple z (-1) mu))) ->
  forall tables m, row_is tables 0 z0 -> (forall rows, In rows tables -> (m <= length rows)%nat) ->
  exists s infos, updates (sgld_kernel lp scale latent gradients step_size) (initial tables tt) us 0 m = Some (s, infos) /\
  forall n, (n < m)%nat -> exists z, row_is (m_tables s) n z /\ same_shape z0 z /\ forall b, same_shape s0 b ->
    inner (A b) z = inner (A b) mu + inner (w (S n) b) (plus_multiple z0 (-1) mu) + partial_sum (fun i => inner (c (S n) i b) (g_normal (fst (us i)))) (S n).
Proof. exact sgld_joint. Qed.
Print Assumptions C86_joint.

(** Two scalar variables, with precision 2 each and 1 between them: the weights of the
    first variable alone are those of [b] = (2/3, -1/3), and its variance is 2/3. *)
Definition C86_matrix (z : list tensor) : list tensor := match z with [[x]; [y]] => [[2 * x + y]; [x + 2 * y]] | _ => z end.
Example C86_joint_met : let s0 : list tensor := [[0]; [0]] in precision s0 C86_matrix 1 9 /\
  (let b := [[2 / 3]; [-1 / 3]] in C86_matrix b = [[1]; [0]] /\ inner b (C86_matrix b) = 2 / 3) /\
  (let gradients := fun (f : list tensor -> option ext) z => map (map (Rmult (-1))) (C86_matrix (plus_multiple z (-1) [[5]; [7]])) in
   (forall f z, same_shape s0 z -> same_shape s0 (gradients f z)) /\
   forall f x y, gradients f [[x]; [y]] = [[- (2 * (x - 5) + (y - 7))]; [- ((x - 5) + 2 * (y - 7))]]) /\
  row_is [[[0]; [0]]; [[0]; [0]]] 0 s0.
Proof.
  cbv zeta.
  assert (S' : forall z, same_shape [[0]; [0]] z -> exists x y, z = [[x]; [y]]).
  { intros z H. inversion H as [|a b l l' L F]; subst. inversion F as [|a' b' k k' L' F']; subst. inversion F'; subst.
    destruct b as [|x [|? ?]]; try discriminate. destruct b' as [|y [|? ?]]; try discriminate. eauto. }
  split; [|split; [|split; [split|]]].
  - split.
    + intros a H. destruct (S' a H) as (x & y & ->). repeat constructor.
    + intros a c b H K. destruct (S' a H) as (x & y & ->), (S' b K) as (u & v & ->). unfold plus_multiple, translate. cbn. f_equal; [f_equal; ring|f_equal; f_equal; ring].
    + intros a b H K. destruct (S' a H) as (x & y & ->), (S' b K) as (u & v & ->). unfold inner. cbn. ring.
    + intros a H. destruct (S' a H) as (x & y & ->). unfold inner. cbn. pose proof (Rle_0_sqr (x + y)) as Q. pose proof (Rle_0_sqr (x - y)) as Q'. unfold Rsqr in Q, Q'. lra.
    + intros a H. destruct (S' a H) as (x & y & ->). unfold inner. cbn. pose proof (Rle_0_sqr (x + y)) as Q. pose proof (Rle_0_sqr (x - y)) as Q'. unfold Rsqr in Q, Q'. lra.
  - unfold inner. cbn. split; [f_equal; [f_equal; field|f_equal; f_equal; field]|field].
  - intros f z H. destruct (S' z H) as (x & y & ->). repeat constructor.
  - intros f x y. unfold plus_multiple, translate. cbn. f_equal; [f_equal; ring|f_equal; f_equal; ring].
  - split; [reflexivity|]. intros [|[|[|i]]] v E; inversion E; reflexivity.
Qed.
