(** * Proofs for C48. *)
From Coq Require Import Reals List Arith Bool Lia Lra.
From Verif Require Import Ext Transform TransformProofs VIProofs RandomVar Mixture MixtureSpec.
Import ListNotations.
Local Open Scope R_scope.

Lemma esum_fin : forall l, esum (map Fin l) = Fin (sumR l).
Proof. induction l as [|x l IH]; [reflexivity|]. cbn [map esum fold_right]. fold (esum (map Fin l)). rewrite IH. reflexivity. Qed.

Lemma one_hot_shift : forall c start K vals, length vals = K -> (start <= c < start + K)%nat ->
  sumR (map (fun p => fst p * snd p) (combine vals (map (fun k => if Nat.eqb k c then 1 else 0) (seq start K)))) = nth (c - start) vals 0.
Proof.
  intros c start K. revert start. induction K as [|K IH]; intros start vals L H; [lia|]. destruct vals as [|v vals]; [discriminate|].
  cbn [seq map combine sumR fst snd]. injection L as L.
  destruct (Nat.eqb_spec start c) as [<-|N].
  - rewrite Nat.sub_diag. cbn [nth].
    assert (Z : forall s l, (start < s)%nat -> sumR (map (fun p => fst p * snd p) (combine l (map (fun k => if Nat.eqb k start then 1 else 0) (seq s K)))) = 0).
    { clear. induction K as [|K IH]; intros s l H; [destruct l; reflexivity|]. destruct l as [|v l]; [reflexivity|]. cbn [seq map combine sumR fst snd].
      assert (N : s <> start) by lia. apply Nat.eqb_neq in N. rewrite N, IH by lia. lra. }
    rewrite Z by lia. lra.
  - rewrite (IH (S start)) by (auto; lia). replace (c - start)%nat with (S (c - S start)) by lia. cbn [nth]. lra.
Qed.

Lemma select_fin : forall vals c, (c < length vals)%nat -> select (map Fin vals) c = Fin (nth c vals 0).
Proof.
  intros vals c H. unfold select. rewrite map_length.
  replace (map (fun p => emul (fst p) (Fin (snd p))) (combine (map Fin vals) (one_hot c (length vals)))) with
    (map Fin (map (fun p => fst p * snd p) (combine vals (one_hot c (length vals))))).
  - rewrite esum_fin. f_equal. unfold one_hot. rewrite (one_hot_shift c 0) by (auto; lia). rewrite Nat.sub_0_r. auto.
  - generalize (one_hot c (length vals)). clear. induction vals as [|v vals IH]; intros [|o l]; auto. cbn [map combine fst snd]. f_equal. apply IH.
Qed.

(** A component of density zero that is not selected gives NaN. *)
Lemma select_nan : exists vals c, (c < length vals)%nat /\ nth c vals NaN = Fin (-1) /\ select vals c = NaN.
Proof.
  exists [Fin (-1); NInf], 0%nat. split; [simpl; lia|]. split; [reflexivity|]. unfold select. simpl. unfold inf_times.
  destruct (Rlt_dec 0 0); [lra|]. destruct (Rlt_dec 0 0); [lra|]. reflexivity.
Qed.

Lemma eadd_nan : forall a, eadd a NaN = NaN. Proof. destruct a; auto. Qed.

Lemma select_other : forall vals c k, (k < length vals)%nat -> k <> c -> nth k vals (Fin 0) = NInf \/ nth k vals (Fin 0) = PInf -> select vals c = NaN.
Proof.
  intros vals c k Hk Hne Hv. unfold select, one_hot.
  assert (G : forall start vals k, (k < length vals)%nat -> (start + k)%nat <> c -> nth k vals (Fin 0) = NInf \/ nth k vals (Fin 0) = PInf ->
    esum (map (fun p => emul (fst p) (Fin (snd p))) (combine vals (map (fun k => if Nat.eqb k c then 1 else 0) (seq start (length vals))))) = NaN).
  { clear. intros start vals. revert start. induction vals as [|v vals IH]; intros start k Hk Hne Hv; [simpl in Hk; lia|].
    cbn [length seq map combine esum fold_right fst snd]. destruct k as [|k].
    - rewrite Nat.add_0_r in Hne. apply Nat.eqb_neq in Hne. rewrite Hne. cbn [nth] in Hv.
      assert (E : emul v (Fin 0) = NaN).
      { destruct Hv as [->| ->]; cbn; unfold inf_times; destruct (Rlt_dec 0 0); try lra; destruct (Rlt_dec 0 0); try lra; reflexivity. }
      rewrite E. reflexivity.
    - cbn [nth] in Hv. specialize (IH (S start) k ltac:(simpl in Hk; lia) ltac:(lia) Hv). unfold esum in IH. rewrite IH. apply eadd_nan. }
  apply (G 0%nat vals k); auto.
Qed.

(** The axis is the components' exactly for scalar events. *)
Lemma axis_right : forall s b e, reduced_axis s b e = Some (component_axis s) <-> e = 0%nat.
Proof.
  intros s b e. unfold reduced_axis, component_axis. destruct (Nat.leb_spec (1 + (b + e)) (s + 1 + b)) as [H|H]; split; intros E.
  - injection E as E. lia.
  - subst. f_equal. lia.
  - discriminate.
  - lia.
Qed.

Lemma log_prob_scalar : forall width log_probs cats, length log_probs = length cats ->
  (forall r, In r log_probs -> length r = width) -> (forall c, In c cats -> (c < width)%nat) ->
  mixture_log_prob 0 width (map (map Fin) log_probs) cats =
    Some (map (fun rc => Fin (nth (snd rc) (fst rc) 0)) (combine log_probs cats)).
Proof.
  intros width log_probs cats L HW HC. unfold mixture_log_prob. replace (reduced_axis 1 0 0) with (Some 1%nat) by reflexivity. f_equal.
  unfold reduce_sum_axis. cbn [Nat.eqb]. rewrite map_map. revert cats L HC. induction log_probs as [|r log_probs IH]; intros [|c cats] L HC; try discriminate; auto.
  cbn [map combine fst snd]. f_equal.
  - assert (E : length r = width) by (apply HW; left; auto). rewrite <- E, <- (map_length Fin r). apply select_fin. rewrite E. apply HC. left. auto.
  - apply IH; [intros; apply HW; right; auto|injection L; auto|intros; apply HC; right; auto].
Qed.

Lemma columns_width : forall m width, Forall (fun r => length r = width) m -> length (columns_sum m width) = width.
Proof.
  induction 1 as [|r m Hr Hm IH]; [apply repeat_length|]. cbn [columns_sum]. rewrite map_length, combine_length, IH, Hr. apply Nat.min_id.
Qed.

Lemma one_hot_length : forall c k, length (one_hot c k) = k.
Proof. intros. unfold one_hot. rewrite map_length, seq_length. auto. Qed.

(** Vector events: as many numbers as components, whatever the number of points. *)
Lemma log_prob_vector : forall width log_probs cats, length log_probs = length cats -> (forall r, In r log_probs -> length r = width) ->
  exists l, mixture_log_prob 1 width log_probs cats = Some l /\ length l = width.
Proof.
  intros width log_probs cats L HW. unfold mixture_log_prob. replace (reduced_axis 1 0 1) with (Some 0%nat) by reflexivity.
  eexists. split; [reflexivity|]. cbn [reduce_sum_axis Nat.eqb]. apply columns_width. apply Forall_forall. intros r Hr. apply in_map_iff in Hr.
  destruct Hr as ((r' & c) & <- & Hr). cbn [fst snd]. rewrite map_length, combine_length, one_hot_length. apply in_combine_l in Hr. rewrite (HW _ Hr). apply Nat.min_id.
Qed.

Lemma log_prob_vector_wrong : exists width log_probs cats l, length log_probs = length cats /\ (forall r, In r log_probs -> length r = width) /\ (forall c, In c cats -> (c < width)%nat) /\
  mixture_log_prob 1 width (map (map Fin) log_probs) cats = Some l /\ length l <> length cats /\
  log_probs = [[-1; -2]; [-3; -4]; [-5; -6]] /\ cats = [0; 1; 0]%nat /\ l = [Fin (-6); Fin (-4)].
Proof.
  exists 2%nat, [[-1; -2]; [-3; -4]; [-5; -6]], [0; 1; 0]%nat, [Fin (-6); Fin (-4)].
  split; [reflexivity|]. split; [intros r [<-|[<-|[<-|[]]]]; reflexivity|]. split; [intros c [<-|[<-|[<-|[]]]]; lia|]. split; [|repeat split; simpl; lia].
  unfold mixture_log_prob, reduce_sum_axis. simpl. f_equal. f_equal; [|f_equal]; f_equal; ring.
Qed.

Lemma log_prob_single_raises : forall b e, (0 < e)%nat -> reduced_axis 0 b e = None.
Proof. intros b e H. unfold reduced_axis. destruct (Nat.leb_spec (1 + (b + e)) (0 + 1 + b)); auto. lia. Qed.

Lemma combine_nth_seq : forall (f : R -> R -> R) a b, length a = length b ->
  sumR (map (fun p => f (fst p) (snd p)) (combine a b)) = sumR (map (fun k => f (nth k a 0) (nth k b 0)) (seq 0 (length b))).
Proof.
  intros f a. induction a as [|x a IH]; intros [|y b] L; try discriminate; auto. injection L as L. cbn [combine map length seq sumR fst snd nth].
  rewrite IH by auto. f_equal. rewrite <- seq_shift, map_map. reflexivity.
Qed.

Lemma marginal_density : forall log_probs weights, length log_probs = length weights -> (forall w, In w weights -> 0 < w) ->
  marginal_log_prob log_probs weights = ln (weighted weights (fun k => exp (nth k log_probs 0))).
Proof.
  intros log_probs weights L H. unfold marginal_log_prob, weighted. f_equal. rewrite (combine_nth_seq (fun a b => exp (a + ln b))) by auto.
  apply sumR_map_ext. intros k Hk. apply in_seq in Hk. rewrite exp_plus, exp_ln; [lra|]. apply H. apply nth_In. lia.
Qed.

Lemma mean_total : forall means weights, length means = length weights -> mixture_mean means weights = weighted weights (fun k => nth k means 0).
Proof.
  intros means weights L. unfold mixture_mean, weighted. rewrite (combine_nth_seq (fun a b => a * b)) by auto. apply sumR_map_ext. intros; lra.
Qed.

Lemma weighted_plus : forall w f g, weighted w (fun k => f k + g k) = weighted w f + weighted w g.
Proof. intros w f g. unfold weighted. rewrite <- sumR_map_add. apply sumR_map_ext. intros; lra. Qed.
Lemma weighted_scal : forall w c f, weighted w (fun k => c * f k) = c * weighted w f.
Proof. intros w c f. unfold weighted. rewrite <- sumR_map_scal. apply sumR_map_ext. intros; lra. Qed.
Lemma weighted_const : forall w c, sumR w = 1 -> weighted w (fun _ => c) = c.
Proof.
  intros w c H. unfold weighted. rewrite (sumR_map_ext _ _ (fun k => c * nth k w 0)) by (intros; lra). rewrite sumR_map_scal.
  replace (map (fun k => nth k w 0) (seq 0 (length w))) with w; [rewrite H; lra|].
  clear. induction w as [|x w IH]; auto. cbn [length seq map nth]. f_equal. rewrite <- seq_shift, map_map. auto.
Qed.
Lemma weighted_ext : forall w f g, (forall k, (k < length w)%nat -> f k = g k) -> weighted w f = weighted w g.
Proof. intros w f g H. unfold weighted. apply sumR_map_ext. intros k Hk. apply in_seq in Hk. rewrite H by lia. auto. Qed.

Lemma variance_total : forall means variances weights, length means = length weights -> length variances = length weights -> sumR weights = 1 ->
  let mean := weighted weights (fun k => nth k means 0) in
  mixture_variance means variances weights =
    weighted weights (fun k => nth k variances 0) + weighted weights (fun k => (nth k means 0 - mean) * (nth k means 0 - mean)).
Proof.
  intros means variances weights LM LV S1 mean. unfold mixture_variance.
  rewrite (mean_total means) by auto. fold mean.
  assert (E : mixture_mean (map (fun p => fst p * fst p + snd p) (combine means variances)) weights =
    weighted weights (fun k => nth k means 0 * nth k means 0 + nth k variances 0)).
  { rewrite mean_total by (rewrite map_length, combine_length; lia). apply weighted_ext. intros k Hk.
    assert (E : nth_error (map (fun p => fst p * fst p + snd p) (combine means variances)) k = Some (nth k means 0 * nth k means 0 + nth k variances 0)).
    { rewrite (map_nth_error _ k (combine means variances) (d := (nth k means 0, nth k variances 0))); auto.
      rewrite <- combine_nth by lia. apply nth_error_nth'. rewrite combine_length. lia. }
    apply nth_error_nth with (d := 0) in E. auto. }
  rewrite E, weighted_plus.
  rewrite (weighted_ext weights (fun k => (nth k means 0 - mean) * (nth k means 0 - mean))
    (fun k => nth k means 0 * nth k means 0 + ((- 2 * mean) * nth k means 0 + mean * mean))) by (intros; lra).
  rewrite weighted_plus. rewrite (weighted_plus weights (fun k => (- 2 * mean) * nth k means 0) (fun _ => mean * mean)), weighted_scal, weighted_const by auto. fold mean. lra.
Qed.

Lemma variance_nonneg : forall means variances weights, length means = length weights -> length variances = length weights -> sumR weights = 1 ->
  (forall w, In w weights -> 0 <= w) -> (forall v, In v variances -> 0 <= v) -> 0 <= mixture_variance means variances weights.
Proof.
  intros means variances weights LM LV S1 HW HV. rewrite variance_total by auto.
  assert (P : forall f, (forall k, (k < length weights)%nat -> 0 <= f k) -> 0 <= weighted weights f).
  { intros f Hf. unfold weighted. assert (G : forall l, (forall k, In k l -> (k < length weights)%nat) -> 0 <= sumR (map (fun k => nth k weights 0 * f k) l)).
    { induction l as [|k l IH]; intros Hl; simpl; [lra|]. assert (0 <= nth k weights 0 * f k); [|specialize (IH (fun k H => Hl k (or_intror H))); lra].
      apply Rmult_le_pos; [apply HW, nth_In, Hl; left; auto|apply Hf, Hl; left; auto]. }
    apply G. intros k Hk. apply in_seq in Hk. lia. }
  assert (0 <= weighted weights (fun k => nth k variances 0)) by (apply P; intros k Hk; apply HV, nth_In; lia).
  assert (0 <= weighted weights (fun k => (nth k means 0 - weighted weights (fun k => nth k means 0)) * (nth k means 0 - weighted weights (fun k => nth k means 0)))).
  { apply P. intros k _. apply (Rle_0_sqr (nth k means 0 - _)). }
  lra.
Qed.

Local Open Scope nat_scope.

Lemma constructed : forall S K B E, constructed_shape S K B E = (if Nat.eqb (product_of S) 1 then [1] else []) ++ S ++ B ++ E.
Proof.
  intros S K B E. unfold constructed_shape. set (lead := if Nat.eqb (product_of S) 1 then [1] else []). rewrite (app_assoc lead S (K :: B ++ E)), (app_assoc lead S (B ++ E)).
  replace (length ((lead ++ S) ++ K :: B ++ E) - 1 - (length E + length B)) with (length (lead ++ S)) by (rewrite !app_length; simpl; rewrite !app_length; lia).
  unfold remove_at. rewrite firstn_app, firstn_all, Nat.sub_diag, firstn_O, app_nil_r. f_equal.
  rewrite skipn_app, skipn_all2 by lia. replace (Datatypes.S (length (lead ++ S)) - length (lead ++ S)) with 1 by lia. reflexivity.
Qed.

Lemma shape_contract : forall S K B E, constructed_shape S K B E = product_of S :: B ++ E <-> S = [] \/ exists m, S = [m] /\ m <> 1.
Proof.
  intros S K B E. rewrite constructed. destruct (Nat.eqb_spec (product_of S) 1) as [H1|H1].
  - rewrite H1. cbn [app]. split.
    + intros H. injection H as H. left. apply (f_equal (@length nat)) in H. rewrite !app_length in H. destruct S; auto. simpl in H. lia.
    + intros [->|(m & -> & Hm)]; auto. cbn in H1. lia.
  - cbn [app]. split.
    + intros H. pose proof (f_equal (@length nat) H) as L. simpl in L. rewrite !app_length in L. destruct S as [|m [|m2 S]]; [left; auto| |simpl in L; lia].
      right. exists m. split; auto. intros ->. apply H1. reflexivity.
    + intros [->|(m & -> & Hm)]; [exfalso; apply H1; reflexivity|]. cbn. rewrite Nat.mul_1_r. auto.
Qed.
