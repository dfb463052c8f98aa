(** * Proofs for C46. *)
From Coq Require Import Reals List Arith Lia Lra.
From Verif Require Import Transform TransformProofs VIProofs GAN GANProofs Empirical EmpiricalSpec.
Import ListNotations.
Local Open Scope R_scope.

Lemma nth_repeat_in : forall (c : R) n i, (i < n)%nat -> nth i (repeat c n) 0 = c.
Proof. induction n as [|n IH]; intros [|i] H; simpl; auto; try lia. apply IH. lia. Qed.

Lemma map_nth_seq : forall {A} (f : A -> R) rows d, map f rows = map (fun i => f (nth i rows d)) (seq 0 (length rows)).
Proof.
  intros A f rows d. induction rows as [|r rows IH]; auto. cbn [length seq map nth]. f_equal.
  rewrite <- seq_shift, map_map. apply IH.
Qed.

Lemma uniform_expectation : forall rows (f : (nat -> R) -> R) d, rows <> [] ->
  expectation (empirical_probs (RowParams rows)) (fun i => f (nth i rows d)) = reduce_mean (map f rows).
Proof.
  intros rows f d H. unfold expectation, empirical_probs. cbn [empirical_n]. rewrite repeat_length.
  rewrite (sumR_map_ext _ _ (fun i => / INR (length rows) * f (nth i rows d))).
  - rewrite sumR_map_scal. unfold reduce_mean. rewrite map_length. rewrite (map_nth_seq f rows d). unfold Rdiv. lra.
  - intros i Hi. apply in_seq in Hi. rewrite nth_repeat_in by lia. unfold Rdiv. lra.
Qed.

Lemma probs_sum : forall rows, rows <> [] -> sumR (empirical_probs (RowParams rows)) = 1.
Proof.
  intros rows H. unfold empirical_probs. cbn [empirical_n].
  assert (E : forall c n, sumR (repeat c n) = INR n * c) by (intros c n; induction n as [|n IH]; [simpl; lra|]; rewrite S_INR; simpl; rewrite IH; lra).
  rewrite E. field. apply not_0_INR. destruct rows; [congruence|discriminate].
Qed.

Lemma variance_value : forall rows e, exists v, empirical_variance (RowParams rows) = Some v /\
  (rows <> [] -> v e = reduce_mean (map (fun r => (r e - reduce_mean (map (fun r => r e) rows)) * (r e - reduce_mean (map (fun r => r e) rows))) rows)).
Proof.
  intros rows e. eexists. split; [reflexivity|]. intros H. cbn beta.
  set (m := reduce_mean (map (fun r => r e) rows)). apply sqrt_sqrt. unfold reduce_mean.
  apply Rmult_le_pos; [|left; apply Rinv_0_lt_compat, lt_0_INR; rewrite map_length; destruct rows; [congruence|simpl; lia]].
  generalize m. intros c. clear. induction rows as [|r rows IH]; simpl; [lra|]. pose proof (Rle_0_sqr (r e - c)) as Q. unfold Rsqr in Q. lra.
Qed.

Lemma empirical_moments : forall rows, rows <> [] ->
  exists mean var, empirical_mean (RowParams rows) = Some mean /\ empirical_variance (RowParams rows) = Some var /\
  forall e,
    mean e = expectation (empirical_probs (RowParams rows)) (fun i => nth i rows (fun _ => 0) e) /\
    var e = expectation (empirical_probs (RowParams rows)) (fun i => (nth i rows (fun _ => 0) e - mean e) * (nth i rows (fun _ => 0) e - mean e)) /\
    0 <= var e /\ (var e = 0 <-> forall r r', In r rows -> In r' rows -> r e = r' e).
Proof.
  intros rows H. eexists. eexists. split; [reflexivity|]. split; [reflexivity|]. intros e. cbn beta.
  destruct (variance_value rows e) as (v & E & V). injection E as <-. specialize (V H). cbn beta in V.
  set (m := reduce_mean (map (fun r => r e) rows)) in *. rewrite V.
  assert (L : 0 < / INR (length rows)) by (apply Rinv_0_lt_compat, lt_0_INR; destruct rows; [congruence|simpl; lia]).
  destruct (sum_le (fun _ : nat -> R => 0) (fun r => (r e - m) * (r e - m)) rows) as [S1 S2]; [intros r _; apply (Rle_0_sqr (r e - m))|].
  rewrite sumR_const, Rmult_0_r in S1, S2.
  split; [unfold m; symmetry; apply (uniform_expectation rows (fun r => r e)); auto|].
  split; [symmetry; apply (uniform_expectation rows (fun r => (r e - m) * (r e - m))); auto|].
  unfold reduce_mean at 1 2. rewrite map_length. split; [apply Rmult_le_pos; lra|]. split.
  - intros Z. assert (Z' : sumR (map (fun r => (r e - m) * (r e - m)) rows) = 0).
    { unfold Rdiv in Z. apply Rmult_integral in Z. destruct Z; auto. lra. }
    assert (A : forall r, In r rows -> r e = m).
    { intros r Hr. specialize (S2 Z' r Hr). apply Rmult_integral in S2. lra. }
    intros r r' Hr Hr'. rewrite (A r), (A r'); auto.
  - intros A. assert (M : forall r, In r rows -> r e = m).
    { intros r Hr. unfold m, reduce_mean. rewrite (sumR_map_ext rows (fun r => r e) (fun _ => r e)) by (intros; apply A; auto).
      rewrite sumR_const, map_length. field. apply not_0_INR. destruct rows; [congruence|discriminate]. }
    rewrite (sumR_map_ext rows _ (fun _ => 0)) by (intros r Hr; rewrite (M r Hr); lra). rewrite sumR_const. unfold Rdiv. lra.
Qed.

Lemma samples_stored : forall rows n indices, rows <> [] -> (forall i, In i indices -> (i < length rows)%nat) ->
  length (empirical_sample (RowParams rows) n indices) = length indices /\
  forall k i, nth_error indices k = Some i -> exists r, nth_error rows i = Some r /\ nth_error (empirical_sample (RowParams rows) n indices) k = Some r.
Proof.
  intros rows n indices H Hi. cbn [empirical_sample]. split; [apply map_length|]. intros k i Hk.
  assert (L : (i < length rows)%nat) by (apply Hi; eapply nth_error_In; eauto).
  exists (nth i rows (fun _ => 0)). split; [apply nth_error_nth'; auto|]. erewrite map_nth_error; eauto.
Qed.

Lemma scalar_params : forall x n indices, empirical_sample (ScalarParams x) n indices = repeat (fun _ => x) n /\ empirical_mean (ScalarParams x) = None /\ empirical_n (ScalarParams x) = 1%nat.
Proof. auto. Qed.

Lemma point_moments : forall params n, (forall e, point_mean params e = params e /\ point_variance params e = 0) /\
  length (point_sample params n) = n /\ forall r, In r (point_sample params n) -> r = params.
Proof.
  intros params n. split; [|split].
  - intros e. split; auto. unfold point_variance, point_stddev. lra.
  - apply repeat_length.
  - intros r H. apply repeat_spec in H. auto.
Qed.
