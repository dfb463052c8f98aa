From Coq Require Import Reals List Arith Bool Lra Lia Psatz.
From Verif Require Import Ext Transform TransformProofs VIProofs GAN GANProofs Mode ModeProofs Metrics MetricsSpec MetricsProofs Evaluate Predict PredictSpec.
Import ListNotations.
Local Open Scope R_scope.

Lemma mean_runs_nth : forall w runs j, (j < w)%nat -> nth j (mean_of_runs w runs) 0 = sumR (map (fun r => nth j r 0) runs) / INR (length runs).
Proof.
  intros w runs j H. unfold mean_of_runs. set (f := fun j => sumR _ / _). rewrite (nth_indep _ 0 (f 0%nat)) by (now rewrite map_length, seq_length).
  rewrite map_nth, seq_nth by auto. reflexivity.
Qed.

Lemma mean_runs_length : forall w runs, length (mean_of_runs w runs) = w.
Proof. intros. unfold mean_of_runs. now rewrite map_length, seq_length. Qed.

Lemma mean_runs_distribution : forall w runs, runs <> [] -> (forall r, In r runs -> length r = w /\ distribution r) -> distribution (mean_of_runs w runs).
Proof.
  intros w runs N H. pose proof (length_pos_R runs N). split.
  - unfold mean_of_runs. apply Forall_map, Forall_forall. intros j Hj. apply in_seq in Hj.
    apply Rmult_le_pos; [|apply Rlt_le, Rinv_0_lt_compat; auto]. apply sum_nonneg, Forall_map, Forall_forall. intros r I.
    destruct (H r I) as [L [F _]]. rewrite Forall_forall in F. apply F, nth_In. lia.
  - unfold mean_of_runs.
    rewrite (sumR_map_ext _ (fun j => sumR (map (fun r => nth j r 0) runs) / INR (length runs)) (fun j => / INR (length runs) * sumR (map (fun r => nth j r 0) runs))) by (intros; unfold Rdiv; lra).
    rewrite sumR_map_scal, sum_swap.
    rewrite (sumR_map_ext runs (fun r => sumR (map (fun j => nth j r 0) (seq 0 w))) (fun _ => 1)).
    + rewrite sumR_const. field. lra.
    + intros r I. destruct (H r I) as [L [_ S]]. rewrite <- L, nth_map_id. exact S.
Qed.

Lemma mean_runs_unit : forall w runs, runs <> [] -> (forall r, In r runs -> length r = w /\ Forall (fun p => 0 <= p <= 1) r) -> Forall (fun p => 0 <= p <= 1) (mean_of_runs w runs).
Proof.
  intros w runs N H. pose proof (length_pos_R runs N). unfold mean_of_runs. apply Forall_map, Forall_forall. intros j Hj. apply in_seq in Hj.
  assert (B : 0 <= sumR (map (fun r => nth j r 0) runs) <= INR (length runs)).
  { clear N H0. induction runs as [|r runs IH]; [simpl; lra|]. cbn [map sumR length]. rewrite S_INR.
    assert (I : 0 <= nth j r 0 <= 1). { destruct (H r (or_introl eq_refl)) as [L F]. rewrite Forall_forall in F. apply F, nth_In. lia. }
    assert (0 <= sumR (map (fun r => nth j r 0) runs) <= INR (length runs)) by (apply IH; intros; apply H; now right). lra. }
  split; [apply Rmult_le_pos; [lra|apply Rlt_le, Rinv_0_lt_compat; auto]|].
  apply Rmult_le_reg_r with (INR (length runs)); auto. unfold Rdiv. rewrite Rmult_assoc, Rinv_l by lra. lra.
Qed.

Lemma binary_prediction : forall u probs i, length u = length probs -> (i < length probs)%nat ->
  let p := nth i probs 0 in let c := nth i (predict_binary u probs) 0 in
  (c = 0 \/ c = 1) /\ (p < 1 / 2 -> c = 0) /\ (1 / 2 < p -> c = 1) /\ (p = 1 / 2 -> (c = 1 <-> 1 / 2 < nth i u 0)).
Proof.
  intros u probs i L H. cbv zeta. unfold predict_binary. set (f := fun p : R * R => _).
  rewrite (nth_indep _ 0 (f (0, 0))) by (rewrite map_length, combine_length; lia). rewrite (map_nth f), combine_nth by auto. unfold f; cbn [fst snd].
  unfold eqb_R, round_unit. destruct (Req_EM_T (1 / 2) (nth i probs 0)) as [E|E].
  - rewrite <- E. destruct (Rle_dec (nth i u 0) (1 / 2)); repeat split; intros; try lra; auto.
  - destruct (Rle_dec (nth i probs 0) (1 / 2)); repeat split; intros; try lra; auto.
Qed.

Lemma binary_best : forall u probs other, length u = length probs -> length other = length probs -> probs <> [] ->
  Forall (fun p => 0 <= p <= 1) probs -> expected_accuracy probs other <= expected_accuracy probs (predict_binary u probs).
Proof.
  intros u probs other Lu Lo N F. unfold expected_accuracy. pose proof (length_pos_R probs N).
  apply Rmult_le_compat_r; [apply Rlt_le, Rinv_0_lt_compat; auto|]. clear N H.
  revert u other Lu Lo. induction F as [|p probs Hp F IH]; intros [|a u] [|c other] Lu Lo; simpl in Lu, Lo; try discriminate; [simpl; lra|].
  unfold predict_binary in *. cbn [combine map sumR fst snd]. apply Rplus_le_compat; [|apply IH; lia].
  unfold bernoulli, round_unit, eqb_R. destruct (Req_EM_T (1 / 2) p) as [E|E].
  - rewrite <- E. destruct (Rle_dec a (1 / 2)); repeat destruct Req_EM_T; lra.
  - destruct (Rle_dec p (1 / 2)); repeat destruct Req_EM_T; lra.
Qed.

Lemma categorical_prediction : forall rows i, (i < length rows)%nat -> nth i rows [] <> [] ->
  exists k, nth i (predict_categorical rows) 0 = INR k /\ (k < length (nth i rows []))%nat /\
    forall j, (j < length (nth i rows []))%nat -> nth j (nth i rows []) 0 <= nth k (nth i rows []) 0.
Proof.
  intros rows i H N. exists (argmax (nth i rows [])). split; [|now apply argmax_spec].
  unfold predict_categorical. set (f := fun row => INR (argmax row)). rewrite (nth_indep _ 0 (f [])) by (now rewrite map_length). now rewrite map_nth.
Qed.

(** ** Where the scores are not of what is claimed *)

Lemma binomial_prediction : exists n p u k, (1 < n)%nat /\ 0 <= p <= 1 /\ nth 0 (predict_binary [u] [p]) 0 = INR k /\
  exists better, binomial n p k < binomial n p better.
Proof.
  exists 2%nat, (3 / 4), 0, 1%nat. split; [lia|]. split; [lra|]. split.
  - unfold predict_binary. cbn. unfold eqb_R, round_unit. destruct (Req_EM_T (1 / 2) (3 / 4)); [lra|]. destruct (Rle_dec (3 / 4) (1 / 2)); lra.
  - exists 2%nat. unfold binomial, C. simpl. lra.
Qed.

Lemma binomial_range : forall u probs i, length u = length probs -> (i < length probs)%nat -> nth i (predict_binary u probs) 0 <= 1.
Proof. intros u probs i L H. destruct (binary_prediction u probs i L H) as [[E|E] _]; rewrite E; lra. Qed.

Lemma predict_confident : forall u p, 1 / 2 < p -> predict_binary [u] [p] = [1].
Proof.
  intros u p H. unfold predict_binary. cbn. unfold eqb_R, round_unit. destruct (Req_EM_T (1 / 2) p); [lra|]. destruct (Rle_dec p (1 / 2)); [lra|reflexivity].
Qed.

Lemma log_loss_blind : forall u u' p p', 1 / 2 < p < 1 -> 1 / 2 < p' < 1 -> p <> p' ->
  score FBinaryCrossentropy Macro [1] (predict_binary [u] [p]) = score FBinaryCrossentropy Macro [1] (predict_binary [u'] [p']) /\
  log_loss [1] [p] <> log_loss [1] [p'].
Proof.
  intros u u' p p' H H' N. rewrite !predict_confident by lra. split; auto.
  unfold log_loss. cbn. intro E. apply N. apply ln_inv; try lra.
Qed.

Lemma log_loss_wrong : exists u p y, 0 < p < 1 /\ score FBinaryCrossentropy Macro [y] (predict_binary [u] [p]) <> Some (Scalar (log_loss [y] [p])).
Proof.
  exists 0, (9 / 10), 1. split; [lra|]. rewrite predict_confident by lra. unfold score, binary_crossentropy, log_loss, reduce_mean. cbn. intro E. injection E as E.
  unfold cross_entropy in E. rewrite Rabs_R1 in E. rewrite Rmax_left in E by lra.
  assert (X : ln (1 + exp (Ropp 1)) = - ln (9 / 10)) by lra.
  rewrite <- ln_Rinv in X by lra. pose proof (exp_pos (Ropp 1)) as P. apply ln_inv in X; try lra.
  assert (Y : exp (Ropp 1) = / exp 1) by apply exp_Ropp.
  pose proof exp_le_3 as T. pose proof (exp_pos 1) as P1. rewrite Y in X.
  assert (/ 3 <= / exp 1) by (apply Rinv_le_contravar; lra). lra.
Qed.

Lemma kl_negative : exists n y p r, (1 < n)%nat /\ 0 <= y <= INR n /\ 0 < p < 1 /\ score_kl n [y] [p] = Fin r /\ r < 0.
Proof.
  exists 2%nat, 1, (9 / 10), (1 / 2 * (ln (1 / 2) - ln (9 / 10))). split; [lia|]. split; [simpl; lra|]. split; [lra|]. split.
  - unfold score_kl, kl_divergence, esum. cbn [map combine fst snd fold_right]. unfold kl_summand, eqb_R.
    replace (1 / INR 2) with (1 / 2) by (simpl; lra). destruct (Req_EM_T (1 / 2) 0); [lra|].
    unfold elog. destruct (Rlt_dec 0 (1 / 2)); [|lra]. destruct (Rlt_dec 0 (9 / 10)); [|lra]. cbn. f_equal. lra.
  - assert (ln (1 / 2) < ln (9 / 10)) by (apply ln_increasing; lra). lra.
Qed.

Lemma kl_corrupted : forall choice fuel, (2 <= fuel)%nat -> exists probs n y mode after,
  predict_multinomial choice fuel probs n = Returned mode after /\ map (fun c => c / INR n) y = probs /\
  score_kl n y probs = Fin 0 /\ score_kl n y after = PInf.
Proof.
  intros choice fuel H. exists [1 / 2; 1 / 2], 2%nat, [1; 1], [1; 1]%nat, [0; 0]. split; [now apply mode_corrupts|].
  assert (E : map (fun c => c / INR 2) [1; 1] = [1 / 2; 1 / 2]) by (cbn [map]; replace (INR 2) with 2 by (simpl; lra); reflexivity).
  split; auto. unfold score_kl. rewrite E. unfold kl_divergence, esum, kl_summand, eqb_R, elog. cbn [map combine fst snd fold_right].
  destruct (Req_EM_T (1 / 2) 0); [lra|]. destruct (Rlt_dec 0 (1 / 2)); [|lra]. destruct (Rlt_dec 0 0); [lra|]. destruct (Req_EM_T 0 0); [|lra]. split.
  - cbn. f_equal. lra.
  - cbn. unfold inf_times. destruct (Rlt_dec 0 (1 / 2)); [reflexivity|lra].
Qed.
