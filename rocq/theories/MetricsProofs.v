From Coq Require Import Reals List Arith Bool Lra Lia Psatz.
From Verif Require Import Ext Transform TransformProofs VIProofs GAN GANProofs Mode ModeProofs Metrics MetricsSpec.
Import ListNotations.
Local Open Scope R_scope.

Lemma sum_nonneg : forall l, Forall (fun a => 0 <= a) l -> 0 <= sumR l.
Proof. induction 1; simpl; lra. Qed.

Lemma sum_zero : forall l, Forall (fun a => 0 <= a) l -> (sumR l = 0 <-> Forall (fun a => a = 0) l).
Proof.
  induction 1 as [|a l Ha Hl IH]; simpl; [split; auto|].
  pose proof (sum_nonneg l Hl). split; intro E.
  - constructor; [lra|]. apply IH. lra.
  - inversion E; subst. apply IH in H3. lra.
Qed.

Lemma length_pos_R : forall {A} (l : list A), l <> [] -> 0 < INR (length l).
Proof. intros A [|a l] H; [congruence|]. apply lt_0_INR. simpl; lia. Qed.

Lemma mean_nonneg : forall l, l <> [] -> Forall (fun a => 0 <= a) l -> 0 <= reduce_mean l.
Proof.
  intros l Hl F. unfold reduce_mean. apply Rmult_le_pos; [now apply sum_nonneg|].
  apply Rlt_le, Rinv_0_lt_compat, length_pos_R, Hl.
Qed.

Lemma mean_zero : forall l, l <> [] -> Forall (fun a => 0 <= a) l -> (reduce_mean l = 0 <-> Forall (fun a => a = 0) l).
Proof.
  intros l Hl F. rewrite <- sum_zero by auto. unfold reduce_mean. pose proof (length_pos_R l Hl).
  split; intro E; [|rewrite E; field; lra].
  apply Rmult_integral in E as [E|E]; auto. apply Rinv_neq_0_compat in E; [easy|lra].
Qed.

Lemma combine_nonnil : forall {A B} (a : list A) (b : list B), length a = length b -> a <> [] -> combine a b <> [].
Proof. intros A B [|x a] [|y b]; simpl; congruence. Qed.

Lemma combine_eq : forall {A} (a b : list A), length a = length b -> (Forall (fun p => fst p = snd p) (combine a b) <-> a = b).
Proof.
  induction a as [|x a IH]; intros [|y b] H; simpl in *; try discriminate; [split; auto|].
  split; intro E.
  - inversion E; subst. simpl in *. f_equal; auto. apply IH; auto.
  - injection E as -> ->. constructor; auto. apply IH; auto.
Qed.

(** ** Accuracies *)

Lemma accuracy_range : forall a b, length a = length b -> a <> [] ->
  0 <= accuracy a b <= 1 /\ (accuracy a b = 1 <-> a = b).
Proof.
  intros a b H Ha. pose proof (combine_nonnil a b H Ha) as Hc. unfold accuracy.
  set (c := combine a b) in *.
  assert (E : 1 - reduce_mean (map (fun p => if eqb_R (fst p) (snd p) then 1 else 0) c) = reduce_mean (map (fun p => if eqb_R (fst p) (snd p) then 0 else 1) c)).
  { unfold reduce_mean. rewrite !map_length. pose proof (length_pos_R c Hc).
    rewrite (sumR_map_ext c (fun p => if eqb_R (fst p) (snd p) then 0 else 1) (fun p => 1 - (if eqb_R (fst p) (snd p) then 1 else 0))).
    - rewrite (sumR_map_sub c (fun _ => 1)), sumR_const. field. lra.
    - intros p _. destruct (eqb_R (fst p) (snd p)); lra. }
  assert (N : forall f : R * R -> R, map f c <> []) by (intros f Hf; apply map_eq_nil in Hf; auto).
  pose proof (mean_nonneg _ (N (fun p => if eqb_R (fst p) (snd p) then 1 else 0))) as L.
  pose proof (mean_nonneg _ (N (fun p => if eqb_R (fst p) (snd p) then 0 else 1))) as U.
  assert (F1 : Forall (fun r => 0 <= r) (map (fun p => if eqb_R (fst p) (snd p) then 1 else 0) c)).
  { apply Forall_map, Forall_forall. intros p _. destruct (eqb_R _ _); lra. }
  assert (F2 : Forall (fun r => 0 <= r) (map (fun p => if eqb_R (fst p) (snd p) then 0 else 1) c)).
  { apply Forall_map, Forall_forall. intros p _. destruct (eqb_R _ _); lra. }
  specialize (L F1). specialize (U F2). split; [lra|].
  rewrite <- (combine_eq a b H). fold c. pose proof (mean_zero _ (N _) F2) as Z.
  split; intro Q.
  - assert (Q' : reduce_mean (map (fun p => if eqb_R (fst p) (snd p) then 0 else 1) c) = 0) by lra.
    apply Z in Q'. rewrite Forall_map in Q'. eapply Forall_impl; [|exact Q']. intros p Hp. cbv beta in Hp.
    unfold eqb_R in Hp. destruct (Req_EM_T (fst p) (snd p)); auto. lra.
  - assert (Q' : reduce_mean (map (fun p => if eqb_R (fst p) (snd p) then 0 else 1) c) = 0).
    { apply Z. rewrite Forall_map. eapply Forall_impl; [|exact Q]. intros p Hp. unfold eqb_R. destruct (Req_EM_T (fst p) (snd p)); [auto|contradiction]. }
    lra.
Qed.

Lemma categorical_accuracy_range : forall (y_true : list (list R)) (y_pred : list nat), length y_true = length y_pred -> y_true <> [] ->
  0 <= categorical_accuracy y_true (map INR y_pred) <= 1 /\
  (categorical_accuracy y_true (map INR y_pred) = 1 <-> y_pred = map argmax y_true).
Proof.
  intros y_true y_pred H N. unfold categorical_accuracy.
  destruct (accuracy_range (map (fun row => INR (argmax row)) y_true) (map INR y_pred)) as [A B].
  - now rewrite !map_length.
  - intro E. apply map_eq_nil in E. auto.
  - split; auto. rewrite B. split; intro E; [|now rewrite E, map_map].
    rewrite <- (map_map argmax INR) in E. clear - E.
    revert E. generalize (map argmax y_true) as k. intro k. revert y_pred.
    induction k as [|a k IH]; intros [|b y] E; simpl in E; try discriminate; auto.
    injection E as E1 E2. apply INR_eq in E1. f_equal; auto.
Qed.

Lemma one_hot_nth : forall k K i, (i < K)%nat -> nth i (one_hot k K) 0 = if Nat.eqb i k then 1 else 0.
Proof.
  intros. unfold one_hot. rewrite (nth_indep _ 0 ((fun i => if Nat.eqb i k then 1 else 0) 0%nat)) by (now rewrite map_length, seq_length).
  rewrite (map_nth (fun i => if Nat.eqb i k then 1 else 0)), seq_nth by auto. reflexivity.
Qed.

Lemma argmax_one_hot : forall k K, (k < K)%nat -> argmax (one_hot k K) = k.
Proof.
  intros k K H. assert (L : length (one_hot k K) = K) by (unfold one_hot; now rewrite map_length, seq_length).
  assert (N : one_hot k K <> []) by (intro E; rewrite E in L; simpl in L; lia).
  destruct (argmax_spec _ N) as [A B]. rewrite L in *. specialize (B k H).
  rewrite one_hot_nth, Nat.eqb_refl in B by auto. rewrite one_hot_nth in B by auto.
  destruct (Nat.eqb_spec (argmax (one_hot k K)) k); auto. lra.
Qed.

(** ** Cross-entropies *)

Lemma cross_entropy_pos : forall label logit, 0 <= label <= 1 -> 0 < cross_entropy label logit.
Proof.
  intros t x H. unfold cross_entropy.
  assert (0 < ln (1 + exp (- Rabs x))).
  { rewrite <- ln_1. apply ln_increasing; [lra|]. pose proof (exp_pos (- Rabs x)). lra. }
  unfold Rmax. destruct (Rle_dec x 0); nra.
Qed.

Lemma binary_crossentropy_pos : forall a b, length a = length b -> a <> [] -> Forall (fun t => 0 <= t <= 1) a -> 0 < binary_crossentropy a b.
Proof.
  intros a b H N F. unfold binary_crossentropy. pose proof (combine_nonnil a b H N) as Hc.
  assert (P : Forall (fun p => 0 < cross_entropy (fst p) (snd p)) (combine a b)).
  { apply Forall_forall. intros [x y] I. apply cross_entropy_pos. apply in_combine_l in I. rewrite Forall_forall in F. apply F, I. }
  set (c := combine a b) in *. clearbody c.
  assert (F' : Forall (fun r => 0 <= r) (map (fun p => cross_entropy (fst p) (snd p)) c)).
  { apply Forall_map. eapply Forall_impl; [|exact P]. intros; cbv beta in *; lra. }
  assert (N' : map (fun p => cross_entropy (fst p) (snd p)) c <> []) by (intro E; apply map_eq_nil in E; auto).
  pose proof (mean_nonneg _ N' F') as G. destruct (Req_dec (reduce_mean (map (fun p => cross_entropy (fst p) (snd p)) c)) 0) as [E|E]; [|lra].
  apply (mean_zero _ N' F') in E. rewrite Forall_map in E. destruct c as [|p c]; [congruence|].
  inversion E; inversion P; subst. cbv beta in *. lra.
Qed.

Lemma exp_sum_ge : forall l k, (k < length l)%nat -> exp (nth k l 0) <= sumR (map exp l).
Proof.
  induction l as [|x l IH]; intros k H; simpl in H; [lia|]. cbn [map sumR].
  destruct k; simpl.
  - assert (0 <= sumR (map exp l)); [|lra]. apply sum_nonneg, Forall_map, Forall_forall. intros; apply Rlt_le, exp_pos.
  - specialize (IH k ltac:(lia)). pose proof (exp_pos x). lra.
Qed.

Lemma sparse_row_nonneg : forall k logits, (k < length logits)%nat -> 0 <= sparse_softmax_cross_entropy k logits.
Proof.
  intros k l H. unfold sparse_softmax_cross_entropy. pose proof (exp_sum_ge l k H) as G.
  assert (nth k l 0 <= ln (sumR (map exp l))); [|lra].
  rewrite <- (ln_exp (nth k l 0)). destruct G as [G|G]; [|rewrite G; lra].
  left. apply ln_increasing; [apply exp_pos|exact G].
Qed.

Lemma sum_pick : forall (l : list R) k start, (start <= k)%nat -> (k < start + length l)%nat -> forall c,
  sumR (map (fun p => fst p * (snd p - c)) (combine (map (fun i => if Nat.eqb i k then 1 else 0) (seq start (length l))) l)) = nth (k - start) l 0 - c.
Proof.
  induction l as [|x l IH]; intros k start H1 H2 c; simpl in H2; [lia|].
  cbn [length seq map combine sumR fst snd]. destruct (Nat.eqb_spec start k) as [->|N].
  - rewrite Nat.sub_diag. cbn [nth].
    rewrite (sumR_map_ext _ (fun p => fst p * (snd p - c)) (fun _ => 0)).
    + rewrite sumR_const. lra.
    + intros [t y] I. apply in_combine_l in I. apply in_map_iff in I as (i & E & I). apply in_seq in I.
      destruct (Nat.eqb_spec i k); [lia|]. simpl. subst t. lra.
  - rewrite IH by lia. replace (k - start)%nat with (S (k - S start)) by lia. cbn [nth]. lra.
Qed.

Lemma sparse_is_categorical_row : forall k logits, (k < length logits)%nat ->
  softmax_cross_entropy (one_hot k (length logits)) logits = sparse_softmax_cross_entropy k logits.
Proof.
  intros k l H. unfold softmax_cross_entropy, sparse_softmax_cross_entropy, one_hot.
  rewrite (sum_pick l k 0) by lia. rewrite Nat.sub_0_r. lra.
Qed.

Lemma sparse_is_categorical : forall K (y_true : list nat) (y_pred : list (list R)), length y_true = length y_pred -> y_true <> [] ->
  (forall k, In k y_true -> (k < K)%nat) -> (forall r, In r y_pred -> length r = K) ->
  sparse_categorical_crossentropy y_true y_pred = categorical_crossentropy (map (fun k => one_hot k K) y_true) y_pred /\
  0 <= sparse_categorical_crossentropy y_true y_pred.
Proof.
  intros K a b H N Ha Hb. unfold sparse_categorical_crossentropy, categorical_crossentropy. split.
  - f_equal. clear N. revert b H Hb. induction a as [|k a IH]; intros [|r b] H Hb; simpl in *; try discriminate; auto.
    f_equal.
    + rewrite <- (Hb r) by auto. rewrite sparse_is_categorical_row; auto. rewrite Hb by auto. auto.
    + apply IH; auto.
  - apply mean_nonneg.
    + intro E. apply map_eq_nil in E. revert E. apply combine_nonnil; auto.
    + apply Forall_map, Forall_forall. intros [k r] I. apply sparse_row_nonneg.
      pose proof (in_combine_l _ _ _ _ I). pose proof (in_combine_r _ _ _ _ I). simpl. rewrite Hb by auto. auto.
Qed.

(** ** Kullback-Leibler divergence *)

Lemma kl_summand_pos : forall t p, 0 <= t -> 0 < p -> exists r, kl_summand t p = Fin r /\ t - p <= r /\ (r = t - p -> t = p).
Proof.
  intros t p Ht Hp. unfold kl_summand, eqb_R. destruct (Req_EM_T t 0) as [->|N].
  - exists 0. repeat split; try lra.
  - assert (0 < t) by lra. exists (t * (ln t - ln p)). split.
    + unfold elog. destruct (Rlt_dec 0 t); [|lra]. destruct (Rlt_dec 0 p); [|lra]. reflexivity.
    + assert (Q : 0 < p / t) by (apply Rdiv_lt_0_compat; lra).
      destruct (ln_lt_sub (p / t) Q) as [L E].
      assert (X : ln (p / t) = ln p - ln t).
      { unfold Rdiv. rewrite ln_mult by (auto using Rinv_0_lt_compat). rewrite ln_Rinv by auto. lra. }
      rewrite X in *. assert (Y : t * (p / t - 1) = p - t) by (field; lra).
      split; [nra|]. intro Z. assert (W : p / t = 1). { apply E. apply Rmult_eq_reg_l with t; lra. }
      rewrite W in Y. lra.
Qed.

Lemma kl_positive : forall a b, length a = length b -> Forall (fun t => 0 <= t) a -> Forall (fun p => 0 < p) b ->
  exists r, kl_divergence a b = Fin r /\ sumR a - sumR b <= r /\ (r = sumR a - sumR b -> a = b).
Proof.
  unfold kl_divergence. induction a as [|t a IH]; intros [|p b] H Fa Fb; simpl in H; try discriminate.
  - exists 0. simpl. repeat split; auto; lra.
  - inversion Fa; inversion Fb; subst. destruct (kl_summand_pos t p) as (r & E & L & Q); auto.
    destruct (IH b) as (s & E' & L' & Q'); auto. exists (r + s). cbn [combine map fst snd sumR] in *.
    unfold esum in *. cbn [fold_right]. rewrite E, E'. split; auto. split; [lra|].
    intro Z. f_equal; [apply Q; lra|apply Q'; lra].
Qed.

(** [some_missing a b]: the prediction gives no mass to something that has. *)
Lemma kl_general : forall a b, length a = length b -> Forall (fun t => 0 <= t) a -> Forall (fun p => 0 <= p) b ->
  (exists t, In (t, 0) (combine a b) /\ 0 < t) /\ kl_divergence a b = PInf \/
  (forall t, In (t, 0) (combine a b) -> t = 0) /\ exists r, kl_divergence a b = Fin r /\ sumR a - sumR b <= r /\ (r = sumR a - sumR b -> a = b).
Proof.
  unfold kl_divergence. induction a as [|t a IH]; intros [|p b] H Fa Fb; simpl in H; try discriminate.
  - right. split; [intros t []|]. exists 0. simpl. repeat split; auto; lra.
  - inversion Fa; inversion Fb; subst. cbn [combine map fst snd sumR]. unfold esum in *. cbn [fold_right].
    destruct (IH b) as [[(t' & I & P) E]|[Z (r & E & L & Q)]]; auto; rewrite E; clear IH.
    + left. split; [exists t'; split; [right; exact I|exact P]|].
      destruct (Rlt_dec 0 p) as [Hp|Hp].
      * destruct (kl_summand_pos t p) as (r & -> & _); auto.
      * assert (p = 0) as -> by lra. unfold kl_summand, eqb_R. destruct (Req_EM_T t 0); [reflexivity|].
        unfold elog. destruct (Rlt_dec 0 t); [|lra]. destruct (Rlt_dec 0 0); [lra|]. destruct (Req_EM_T 0 0); [|lra].
        cbn. unfold inf_times. destruct (Rlt_dec 0 t); [reflexivity|lra].
    + destruct (Rlt_dec 0 p) as [Hp|Hp].
      * right. destruct (kl_summand_pos t p) as (s & -> & L' & Q'); auto. split.
        { intros t' [I|I]; [injection I as -> ->; lra|auto]. }
        exists (s + r). split; auto. split; [lra|]. intro W. f_equal; [apply Q'; lra|apply Q; lra].
      * assert (p = 0) as -> by lra. unfold kl_summand, eqb_R. destruct (Req_EM_T t 0) as [->|Nt].
        { right. split. { intros t' [I|I]; [injection I as <-; auto|auto]. }
          exists (0 + r). split; auto. split; [lra|]. intro W. f_equal. apply Q. lra. }
        { left. split. { exists t. split; [now left|lra]. }
          unfold elog. destruct (Rlt_dec 0 t); [|lra]. destruct (Rlt_dec 0 0); [lra|]. destruct (Req_EM_T 0 0); [|lra].
          cbn. unfold inf_times. destruct (Rlt_dec 0 t); [reflexivity|lra]. }
Qed.

Lemma distributions_concat : forall rows, Forall distribution rows -> Forall (fun t => 0 <= t) (concat rows) /\ sumR (concat rows) = INR (length rows).
Proof.
  induction 1 as [|p rows [Fp Sp] Hr [IH1 IH2]]; [simpl; auto|]. cbn [concat]. rewrite sumR_app, Sp, IH2. split.
  - apply Forall_app; auto.
  - cbn [length]. rewrite S_INR. lra.
Qed.

Lemma concat_same : forall {A} (a b : list (list A)), Forall2 (fun x y => length x = length y) a b -> length (concat a) = length (concat b) /\ (concat a = concat b -> a = b).
Proof.
  induction 1 as [|x y a b H F [IH1 IH2]]; [simpl; auto|]. simpl. rewrite !app_length. split; [lia|]. intro E.
  assert (X : x = y /\ concat a = concat b).
  { clear - E H. revert y H E. induction x as [|u x IHx]; intros [|v y] H E; simpl in *; try discriminate; auto.
    injection E as -> E. destruct (IHx y) as [-> ?]; auto. }
  destruct X as [-> X]. f_equal; auto.
Qed.

Lemma kl_distributions : forall a b, Forall2 (fun p q => length p = length q) a b -> Forall distribution a -> Forall distribution b ->
  (kl_divergence (concat a) (concat b) = PInf /\ exists t, In (t, 0) (combine (concat a) (concat b)) /\ 0 < t) \/
  exists r, kl_divergence (concat a) (concat b) = Fin r /\ 0 <= r /\ (r = 0 <-> a = b).
Proof.
  intros a b F Ha Hb. destruct (distributions_concat a Ha) as [Pa Sa]. destruct (distributions_concat b Hb) as [Pb Sb].
  destruct (concat_same a b F) as [L E].
  assert (Len : length a = length b) by (clear - F; induction F; simpl; auto).
  rewrite Len in Sa.
  destruct (kl_general _ _ L Pa Pb) as [[X Y]|[X (r & K & G & Q)]]; [left; auto|right].
  exists r. split; auto. split; [lra|]. split.
  - intros ->. apply E, Q. lra.
  - intros ->. assert (r <= 0); [|lra]. clear - K Pb.
    assert (G : forall l, Forall (fun t => 0 <= t) l -> forall s, kl_divergence l l = Fin s -> s = 0).
    { unfold kl_divergence. induction l as [|t l IH]; intros F s E; [cbn in E; injection E; lra|].
      inversion F; subst. cbn [combine map fst snd] in E. unfold esum in *. cbn [fold_right] in E.
      set (rest := fold_right eadd (Fin 0) _) in E. assert (Hr : forall s, rest = Fin s -> s = 0) by (intros; apply IH; auto). clearbody rest.
      unfold kl_summand, eqb_R, elog in E. destruct (Req_EM_T t 0) as [->|N].
      - destruct rest; try discriminate. cbn in E. injection E as E. specialize (Hr _ eq_refl). lra.
      - destruct (Rlt_dec 0 t); [|lra]. destruct rest; try discriminate. cbn in E. injection E as E. specialize (Hr _ eq_refl). nra. }
    apply G in K; auto. lra.
Qed.

(** ** Hinge *)

Lemma hinge_nonneg : forall a b, length a = length b -> a <> [] -> 0 <= hinge a b /\ 0 <= squared_hinge a b /\
  (hinge a b = 0 <-> Forall (fun p => 1 <= fst p * snd p) (combine a b)) /\
  (squared_hinge a b = 0 <-> Forall (fun p => 1 <= fst p * snd p) (combine a b)).
Proof.
  intros a b H N. pose proof (combine_nonnil a b H N) as Hc. unfold hinge, squared_hinge. set (c := combine a b) in *. clearbody c.
  assert (N' : forall f : R * R -> R, map f c <> []) by (intros f Hf; apply map_eq_nil in Hf; auto).
  assert (F1 : Forall (fun r => 0 <= r) (map (fun p => Rmax (1 - fst p * snd p) 0) c)) by (apply Forall_map, Forall_forall; intros; apply Rmax_r).
  assert (F2 : Forall (fun r => 0 <= r) (map (fun p => Rmax (1 - fst p * snd p) 0 * Rmax (1 - fst p * snd p) 0) c)).
  { apply Forall_map, Forall_forall. intros p _. pose proof (Rmax_r (1 - fst p * snd p) 0). nra. }
  split; [apply mean_nonneg; auto|]. split; [apply mean_nonneg; auto|].
  rewrite (mean_zero _ (N' _) F1), (mean_zero _ (N' _) F2), !Forall_map, !Forall_forall.
  split; split; intros G p I; specialize (G p I); cbv beta in *; unfold Rmax in *; destruct (Rle_dec (1 - fst p * snd p) 0); nra.
Qed.

Lemma hinge_zero_label : forall n b, length b = n -> b <> [] -> hinge (repeat 0 n) b = 1 /\ squared_hinge (repeat 0 n) b = 1.
Proof.
  intros n b H N. subst n. unfold hinge, squared_hinge.
  assert (X : forall f : R * R -> R, (forall y, f (0, y) = 1) -> reduce_mean (map f (combine (repeat 0 (length b)) b)) = 1).
  { intros f Hf. assert (E : map f (combine (repeat 0 (length b)) b) = map (fun _ => 1) b).
    { clear N. induction b; simpl; auto. now rewrite Hf, IHb. }
    rewrite E. unfold reduce_mean. rewrite sumR_const, map_length. pose proof (length_pos_R b N). field. lra. }
  split; apply X; intro y; simpl; rewrite Rmult_0_l, Rminus_0_r; unfold Rmax; destruct (Rle_dec 1 0); lra.
Qed.

(** ** Averaging *)

Lemma nth_map_id : forall (r : list R), map (fun j => nth j r 0) (seq 0 (length r)) = r.
Proof.
  induction r as [|x r IH]; auto. cbn [length seq map nth]. f_equal. rewrite <- seq_shift, map_map. exact IH.
Qed.

Lemma sum_swap : forall m js, sumR (map (fun j => sumR (map (fun r => nth j r 0) m)) js) = sumR (map (fun r => sumR (map (fun j => nth j r 0) js)) m).
Proof.
  induction m as [|r m IH]; intro js; cbn [map sumR].
  - rewrite sumR_const. lra.
  - rewrite (sumR_map_add js (fun j => nth j r 0)), IH. reflexivity.
Qed.

Lemma sum_concat : forall m, sumR (concat m) = sumR (map sumR m).
Proof. induction m; simpl; auto. rewrite sumR_app. now f_equal. Qed.

Lemma columns_mean : forall m w, (forall r, In r m -> length r = w) -> m <> [] ->
  sumR (map reduce_mean (columns w m)) = sumR (concat m) / INR (length m).
Proof.
  intros m w H N. unfold columns. rewrite map_map. unfold reduce_mean.
  pose proof (length_pos_R m N).
  rewrite (sumR_map_ext _ _ (fun j => / INR (length m) * sumR (map (fun r => nth j r 0) m))).
  - rewrite sumR_map_scal, sum_swap, sum_concat.
    rewrite (sumR_map_ext m (fun r => sumR (map (fun j => nth j r 0) (seq 0 w))) sumR).
    + unfold Rdiv. lra.
    + intros r I. rewrite <- (H r I). now rewrite nth_map_id.
  - intros j _. rewrite map_length. unfold Rdiv. lra.
Qed.

Lemma pointwise2_shape : forall g a b n m, length a = n -> length b = n -> (forall r, In r a -> length r = m) -> (forall r, In r b -> length r = m) ->
  length (pointwise2 g a b) = n /\ (forall r, In r (pointwise2 g a b) -> length r = m) /\
  concat (pointwise2 g a b) = map (fun p => g (fst p) (snd p)) (combine (concat a) (concat b)).
Proof.
  unfold pointwise2. intros g a b n m Ha Hb Fa Fb. split; [|split].
  - rewrite map_length, combine_length. lia.
  - intros r I. apply in_map_iff in I as ([x y] & <- & I). rewrite map_length, combine_length. cbn [fst snd].
    rewrite (Fa x), (Fb y) by (eauto using in_combine_l, in_combine_r). lia.
  - rewrite <- Hb in Ha. clear Hb n. revert b Ha Fb. induction a as [|x a IH]; intros [|y b] H Fb; simpl in *; try discriminate; auto.
    rewrite combine_app by (rewrite (Fa x), (Fb y); auto). rewrite map_app. f_equal. apply IH; auto.
Qed.

Lemma width_ok : forall m w, (forall r, In r m -> length r = w) -> m <> [] -> width_of m = w.
Proof. intros [|r m] w H N; [congruence|]. apply H. now left. Qed.

Lemma axis_shape : forall g a b n m k, (0 < m)%nat -> rectangular a n m k -> rectangular b n m k ->
  length (metric_axis g a b) = n /\ (forall r, In r (metric_axis g a b) -> length r = k) /\
  sumR (concat (metric_axis g a b)) = sumR (map (fun p => g (fst p) (snd p)) (combine (concat (concat a)) (concat (concat b)))) / INR m.
Proof.
  intros g a b n m k Hm [La Fa] [Lb Fb]. unfold metric_axis. subst n. symmetry in Lb.
  assert (Hm' : 0 < INR m) by (apply lt_0_INR; lia).
  revert b Lb Fb. induction a as [|x a IH]; intros [|y b] La Fb; simpl in La; try discriminate.
  - cbn. split; [auto|]. split; [intros r []|]. unfold Rdiv. lra.
  - destruct (IH (fun z Hz => Fa z (or_intror Hz)) b) as (I1 & I2 & I3); [lia|intros z Hz; apply Fb; now right|]. clear IH.
    destruct (Fa x) as [Lx Fx]; [now left|]. destruct (Fb y) as [Ly Fy]; [now left|].
    destruct (pointwise2_shape g x y m k Lx Ly Fx Fy) as (P1 & P2 & P3).
    assert (N : pointwise2 g x y <> []) by (intro E; rewrite E in P1; simpl in P1; lia).
    cbn [combine map fst snd length]. cbv zeta. rewrite (width_ok _ k P2 N). split; [now rewrite I1|]. split.
    + intros r [<-|I]; auto. unfold columns. now rewrite !map_length, seq_length.
    + cbn [concat]. rewrite sumR_app, (columns_mean _ k P2 N), P3, P1, I3.
      rewrite !concat_app, combine_app, map_app, sumR_app; [unfold Rdiv; lra|].
      assert (X : forall z : list (list R), length z = m -> (forall r, In r z -> length r = k) -> length (concat z) = (m * k)%nat).
      { clear. intros z. revert m. induction z as [|r z IH]; intros m L F; simpl in *; [subst; auto|].
        rewrite app_length, (F r), (IH (pred m)) by (auto; lia). destruct m; simpl in *; lia. }
      rewrite !X; auto.
Qed.

Lemma rect_length : forall b n m k, rectangular b n m k -> length (concat (concat b)) = (n * m * k)%nat.
Proof.
  intros b n m k [L F]. subst n. induction b as [|x b IH]; [reflexivity|]. cbn [concat]. rewrite concat_app, app_length, IH by (intros; apply F; now right).
  destruct (F x) as [Lx Fx]; [now left|].
  assert (X : forall z : list (list R), (forall r, In r z -> length r = k) -> length (concat z) = (length z * k)%nat).
  { clear. induction z as [|r z IH]; intro F; simpl in *; auto. rewrite app_length, (F r), IH by auto. lia. }
  rewrite X, Lx by auto. simpl. lia.
Qed.

Lemma concat_length_rect : forall (b : list (list R)) k, (forall r, In r b -> length r = k) -> length (concat b) = (length b * k)%nat.
Proof. induction b as [|r b IH]; intros k F; simpl in *; auto. rewrite app_length, (F r), (IH k) by auto. lia. Qed.

Lemma shape_rect : forall t u, same_shape t u -> exists n m k, (0 < n)%nat /\ (0 < m)%nat /\ (0 < k)%nat /\
  rectangular (expand t) n m k /\ rectangular (expand u) n m k /\
  entries t = concat (concat (expand t)) /\ entries u = concat (concat (expand u)).
Proof.
  intros [v|x] [w|y] H; simpl in H; try contradiction.
  - destruct H as [L N]. exists 1%nat, 1%nat, (length v). cbn. rewrite !app_nil_r.
    assert (0 < length v)%nat by (destruct v; [congruence|simpl; lia]).
    assert (X : forall u : list R, length u = length v -> rectangular [[u]] 1 1 (length v)).
    { intros u E. split; auto. intros z [<-|[]]. split; auto. intros r [<-|[]]. exact E. }
    split; [lia|]. split; [lia|]. split; [auto|]. split; [apply X; auto|]. split; [apply X; auto|]. auto.
  - destruct H as (n & m & k & ? & ? & ? & ? & ?). exists n, m, k. auto 10.
Qed.

Lemma flatten_rect : forall b n m k, rectangular b n m k -> rectangular (flatten b) 1 1 (n * m * k).
Proof.
  intros b n m k H. unfold flatten. split; auto. intros z [<-|[]]. split; auto. intros r [<-|[]]. eapply rect_length; eauto.
Qed.

Lemma averaging : forall g y_true y_pred, same_shape y_true y_pred ->
  with_binary_averaging g Macro y_true y_pred = Scalar (overall_mean g (entries y_true) (entries y_pred)) /\
  with_binary_averaging g Micro y_true y_pred = Scalar (overall_mean g (entries y_true) (entries y_pred)).
Proof.
  intros g t u H. destruct (shape_rect t u H) as (n & m & k & Hn & Hm & Hk & Rt & Ru & Et & Eu).
  unfold with_binary_averaging. unfold overall_mean. rewrite Et, Eu, (rect_length _ _ _ _ Rt).
  assert (Pn : 0 < INR n) by (apply lt_0_INR; lia). assert (Pm : 0 < INR m) by (apply lt_0_INR; lia). assert (Pk : 0 < INR k) by (apply lt_0_INR; lia).
  split; f_equal; unfold reduce_mean.
  - destruct (axis_shape g _ _ n m k Hm Rt Ru) as (L1 & L2 & S). rewrite (concat_length_rect _ _ L2), L1, S.
    rewrite !mult_INR. field. lra.
  - destruct (axis_shape g _ _ 1 1 (n * m * k) ltac:(lia) (flatten_rect _ _ _ _ Rt) (flatten_rect _ _ _ _ Ru)) as (L1 & L2 & S).
    rewrite (concat_length_rect _ _ L2), L1, S. cbn [flatten concat]. rewrite !app_nil_r, !mult_INR. cbn [INR].
    assert (C1 : forall l : list R, concat [l] = l) by (intro l; cbn; apply app_nil_r). rewrite !C1. field. lra.
Qed.

Lemma overall_nonneg : forall g a b, (forall t p, 0 <= g t p) -> length a = length b -> a <> [] ->
  0 <= overall_mean g a b /\ (overall_mean g a b = 0 <-> Forall (fun p => g (fst p) (snd p) = 0) (combine a b)).
Proof.
  intros g a b G H N. pose proof (combine_nonnil a b H N) as Hc.
  assert (E : overall_mean g a b = reduce_mean (map (fun p => g (fst p) (snd p)) (combine a b))).
  { unfold overall_mean, reduce_mean. rewrite map_length, combine_length, H, Nat.min_id. reflexivity. }
  rewrite E. assert (N' : map (fun p => g (fst p) (snd p)) (combine a b) <> []) by (intro X; apply map_eq_nil in X; auto).
  assert (F : Forall (fun r => 0 <= r) (map (fun p => g (fst p) (snd p)) (combine a b))) by (apply Forall_map, Forall_forall; auto).
  split; [now apply mean_nonneg|]. rewrite (mean_zero _ N' F), Forall_map. reflexivity.
Qed.

Lemma shape_entries : forall t u, same_shape t u -> length (entries t) = length (entries u) /\ entries t <> [].
Proof.
  intros t u H. destruct (shape_rect t u H) as (n & m & k & Hn & Hm & Hk & Rt & Ru & Et & Eu).
  pose proof (rect_length _ _ _ _ Rt) as L. rewrite Et, Eu, L, (rect_length _ _ _ _ Ru). split; auto.
  intro E. rewrite E in L. cbn in L. assert (0 < n * m * k)%nat by (apply Nat.mul_pos_pos; [apply Nat.mul_pos_pos; auto|auto]). lia.
Qed.

Lemma clip_pos : forall x, 0 < clip_below x.
Proof. intro x. unfold clip_below. eapply Rlt_le_trans; [|apply Rmax_r]. lra. Qed.

Lemma ln_inj_1p : forall a b, 0 < a -> 0 < b -> ln (a + 1) = ln (b + 1) -> a = b.
Proof. intros a b Ha Hb E. apply ln_inv in E; lra. Qed.

Lemma error_zero : forall t p, (0 <= squared_error t p /\ (squared_error t p = 0 <-> t = p)) /\ (0 <= absolute_error t p /\ (absolute_error t p = 0 <-> t = p)) /\
  (0 <= percentage_error t p /\ (percentage_error t p = 0 <-> t = p)) /\
  (0 <= logarithmic_error t p /\ (logarithmic_error t p = 0 <-> clip_below t = clip_below p)).
Proof.
  intros t p. unfold squared_error, absolute_error, percentage_error, logarithmic_error.
  repeat split; intros.
  - apply Rle_0_sqr.
  - apply Rsqr_0_uniq in H. lra.
  - subst; ring.
  - apply Rabs_pos.
  - unfold Rabs in H. destruct (Rcase_abs (p - t)); lra.
  - subst. rewrite Rminus_diag_eq by auto. apply Rabs_R0.
  - pose proof (Rabs_pos ((t - p) / clip_below (Rabs t))). lra.
  - pose proof (clip_pos (Rabs t)). assert (E : (t - p) / clip_below (Rabs t) = 0).
    { destruct (Req_dec ((t - p) / clip_below (Rabs t)) 0); auto. apply Rabs_no_R0 in H1. lra. }
    apply Rmult_integral in E as [E|E]; [lra|]. apply Rinv_neq_0_compat in E; [easy|lra].
  - subst. rewrite Rminus_diag_eq by auto. unfold Rdiv. rewrite Rmult_0_l, Rabs_R0. lra.
  - apply Rle_0_sqr.
  - apply Rsqr_0_uniq in H. symmetry. apply ln_inj_1p; try apply clip_pos. lra.
  - rewrite H. ring.
Qed.

Lemma class_wise : forall g b c n m k, (0 < m)%nat -> rectangular b n m k -> rectangular c n m k ->
  exists v, with_binary_averaging g AvgNone (Batches b) (Batches c) = ClassWise v /\ length v = n /\ forall i j, (i < n)%nat -> (j < k)%nat ->
    nth j (nth i v []) 0 = sumR (map (fun r => g (nth j (nth r (nth i b []) []) 0) (nth j (nth r (nth i c []) []) 0)) (seq 0 m)) / INR m.
Proof.
  intros g b c n m k Hm Rb Rc. exists (metric_axis g b c). split; [reflexivity|].
  destruct (axis_shape g b c n m k Hm Rb Rc) as (L1 & L2 & _). split; auto. intros i j Hi Hj.
  destruct Rb as [Lb Fb]. destruct Rc as [Lc Fc].
  set (x := nth i b []). set (y := nth i c []).
  assert (Ix : In x b) by (apply nth_In; lia). assert (Iy : In y c) by (apply nth_In; lia).
  destruct (Fb x Ix) as [Lx Fx]. destruct (Fc y Iy) as [Ly Fy].
  assert (E : nth i (metric_axis g b c) [] = map reduce_mean (columns k (pointwise2 g x y))).
  { unfold metric_axis. set (f := fun p : list (list R) * list (list R) => _).
    rewrite (nth_indep _ [] (f ([], []))) by (rewrite map_length, combine_length; lia).
    rewrite map_nth, combine_nth by lia. fold x y. unfold f. cbn [fst snd]. cbv zeta.
    destruct (pointwise2_shape g x y m k Lx Ly Fx Fy) as (P1 & P2 & _).
    rewrite (width_ok _ k P2); auto. intro Q. rewrite Q in P1. simpl in P1. lia. }
  rewrite E. unfold columns. rewrite map_map.
  set (h := fun j => reduce_mean (map (fun r => nth j r 0) (pointwise2 g x y))).
  rewrite (nth_indep _ 0 (h 0%nat)) by (now rewrite map_length, seq_length).
  rewrite (map_nth h), seq_nth by auto. unfold h, reduce_mean. cbn [plus].
  rewrite map_length. destruct (pointwise2_shape g x y m k Lx Ly Fx Fy) as (P1 & P2 & _). rewrite P1. apply f_equal2; [|reflexivity].
  f_equal. clearbody x y. clear - Lx Ly Fx Fy Hj. unfold pointwise2. rewrite map_map. subst m.
  revert y Ly Fy. induction x as [|r x IH]; intros [|s y] Ly Fy; simpl in Ly; try discriminate; [reflexivity|].
  cbn [combine map length seq fst snd nth]. f_equal.
  - set (h := fun q : R * R => g (fst q) (snd q)). assert (Lr : length r = k) by (apply Fx; now left). assert (Ls : length s = k) by (apply Fy; now left).
    rewrite (nth_indep _ 0 (h (0, 0))) by (rewrite map_length, combine_length; lia).
    rewrite map_nth, combine_nth by lia. reflexivity.
  - rewrite <- seq_shift, map_map. cbn [nth]. apply IH; try lia; intros; [apply Fx|apply Fy]; now right.
Qed.

(** ** Cosine proximity *)

Lemma cauchy_schwarz : forall a b : list R, length a = length b ->
  sumR (map (fun q => fst q * snd q) (combine a b)) * sumR (map (fun q => fst q * snd q) (combine a b)) <= sumR (map (fun x => x * x) a) * sumR (map (fun x => x * x) b).
Proof.
  induction a as [|x a IH]; intros [|y b] H; simpl in H; try discriminate; [simpl; lra|].
  specialize (IH b ltac:(lia)). cbn [combine map sumR fst snd].
  assert (PA : 0 <= sumR (map (fun x => x * x) a)) by (apply sum_nonneg, Forall_map, Forall_forall; intros; nra).
  assert (PB : 0 <= sumR (map (fun x => x * x) b)) by (apply sum_nonneg, Forall_map, Forall_forall; intros; nra).
  set (A := sumR (map (fun x => x * x) a)) in *. set (B := sumR (map (fun x => x * x) b)) in *. set (C := sumR (map (fun q => fst q * snd q) (combine a b))) in *.
  clearbody A B C.
  assert (K : 2 * (x * y * C) <= x * x * B + y * y * A).
  { assert (Q : (2 * (x * y * C)) * (2 * (x * y * C)) <= (x * x * B + y * y * A) * (x * x * B + y * y * A)).
    { assert (0 <= (x * x * B - y * y * A) * (x * x * B - y * y * A)) by apply Rle_0_sqr.
      assert (0 <= x * x) by apply Rle_0_sqr. assert (0 <= y * y) by apply Rle_0_sqr.
      assert (x * x * (y * y) * (C * C) <= x * x * (y * y) * (A * B)) by (apply Rmult_le_compat_l; [now apply Rmult_le_pos|auto]). lra. }
    assert (0 <= x * x * B) by (apply Rmult_le_pos; [apply Rle_0_sqr|auto]). assert (0 <= y * y * A) by (apply Rmult_le_pos; [apply Rle_0_sqr|auto]). destruct (Rle_dec (2 * (x * y * C)) (x * x * B + y * y * A)); auto. nra. }
  nra.
Qed.

Lemma normalize_norm : forall v, sumR (map (fun x => x * x) (l2_normalize v)) = sumR (map (fun x => x * x) v) / Rmax (sumR (map (fun x => x * x) v)) (/ 1000000000000).
Proof.
  intro v. unfold l2_normalize. rewrite map_map. set (s := Rmax _ _).
  assert (P : 0 < s) by (unfold s; eapply Rlt_le_trans; [|apply Rmax_r]; lra).
  rewrite (sumR_map_ext v _ (fun x => / s * (x * x))).
  - rewrite sumR_map_scal. unfold Rdiv. lra.
  - intros x _. pose proof (sqrt_lt_R0 s P). rewrite <- (sqrt_sqrt s) at 3 by lra. field. lra.
Qed.

Lemma normalize_le : forall v, 0 <= sumR (map (fun x => x * x) (l2_normalize v)) <= 1.
Proof.
  intro v. rewrite normalize_norm. set (n := sumR (map (fun x => x * x) v)).
  assert (0 <= n) by (unfold n; apply sum_nonneg, Forall_map, Forall_forall; intros; nra).
  assert (P : 0 < Rmax n (/ 1000000000000)) by (eapply Rlt_le_trans; [|apply Rmax_r]; lra).
  split; [apply Rmult_le_pos; [auto|apply Rlt_le, Rinv_0_lt_compat, P]|].
  apply Rmult_le_reg_r with (Rmax n (/ 1000000000000)); auto. unfold Rdiv. rewrite Rmult_assoc, Rinv_l by lra.
  pose proof (Rmax_l n (/ 1000000000000)). lra.
Qed.

Lemma cosine_row : forall a b, length a = length b -> -1 <= sumR (map (fun q => fst q * snd q) (combine (l2_normalize a) (l2_normalize b))) <= 1.
Proof.
  intros a b H. pose proof (cauchy_schwarz (l2_normalize a) (l2_normalize b)) as C.
  assert (L : length (l2_normalize a) = length (l2_normalize b)) by (unfold l2_normalize; rewrite !map_length; auto).
  specialize (C L). pose proof (normalize_le a). pose proof (normalize_le b).
  set (d := sumR (map (fun q => fst q * snd q) _)) in *. set (A := sumR (map _ (l2_normalize a))) in *. set (B := sumR (map _ (l2_normalize b))) in *.
  clearbody d A B. assert (d * d <= 1) by nra. nra.
Qed.

Lemma cosine_bound : forall a b, length a = length b -> Forall (fun p => length (fst p) = length (snd p)) (combine a b) ->
  - INR (length a) <= cosine_proximity a b <= INR (length a).
Proof.
  unfold cosine_proximity. induction a as [|x a IH]; intros [|y b] H F; simpl in H; try discriminate; [simpl; lra|].
  inversion F; subst. specialize (IH b ltac:(lia) H3). cbn [fst snd] in H2. pose proof (cosine_row x y H2).
  cbn [combine map sumR fst snd length]. rewrite S_INR. cbv beta in *. lra.
Qed.

Lemma cosine_self : forall a, Forall (fun v => / 1000000000000 <= sumR (map (fun x => x * x) v)) a -> cosine_proximity a a = INR (length a).
Proof.
  unfold cosine_proximity. induction 1 as [|v a Hv Ha IH]; [reflexivity|].
  cbn [combine map sumR fst snd length]. rewrite S_INR, IH.
  assert (E : sumR (map (fun q => fst q * snd q) (combine (l2_normalize v) (l2_normalize v))) = sumR (map (fun x => x * x) (l2_normalize v))).
  { generalize (l2_normalize v). induction l; simpl; auto. now rewrite IHl. }
  rewrite E, normalize_norm. rewrite Rmax_left by lra. field. lra.
Qed.

(** ** Poisson *)

Lemma poisson_best : forall a b, length a = length b -> Forall (fun t => / 100000000 <= t) a -> Forall (fun p => 0 <= p) b ->
  poisson a (map (fun t => t - / 100000000) a) <= poisson a b.
Proof.
  unfold poisson. induction a as [|t a IH]; intros [|p b] H Fa Fb; simpl in H; try discriminate; [simpl; lra|].
  inversion Fa; inversion Fb; subst. specialize (IH b ltac:(lia) H3 H7). cbn [combine map sumR fst snd] in *.
  replace (t - / 100000000 + / 100000000) with t by lra.
  assert (Pt : 0 < t) by lra. assert (Pp : 0 < p + / 100000000) by lra.
  assert (Q : 0 < (p + / 100000000) / t) by (apply Rdiv_lt_0_compat; lra).
  destruct (ln_lt_sub _ Q) as [L _].
  assert (X : ln ((p + / 100000000) / t) = ln (p + / 100000000) - ln t).
  { unfold Rdiv. rewrite ln_mult by (auto using Rinv_0_lt_compat). rewrite ln_Rinv by auto. lra. }
  rewrite X in L. assert (Y : t * ((p + / 100000000) / t - 1) = p + / 100000000 - t) by (field; lra).
  assert (t * (ln (p + / 100000000) - ln t) <= t * ((p + / 100000000) / t - 1)) by (apply Rmult_le_compat_l; lra).
  lra.
Qed.
