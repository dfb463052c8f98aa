From Coquelicot Require Import Coquelicot.
From Coq Require Import Reals String List Bool Lia Lra.
From Verif Require Import Transform TransformSpec.
Import ListNotations.
Local Open Scope R_scope.

(** ** Scalar functions *)
Lemma exp_ln_1 : forall x, 0 < x -> exp (- ln x) = / x.
Proof. intros x H. rewrite exp_Ropp, exp_ln; auto. Qed.

Lemma sigmoid_bounds : forall x, 0 < sigmoid x < 1.
Proof.
  intros x. unfold sigmoid. pose proof (exp_pos (- x)) as H. split.
  - apply Rinv_0_lt_compat; lra.
  - replace 1 with (/ 1) at 2 by apply Rinv_1. apply Rinv_lt_contravar; lra.
Qed.
Lemma logit_sigmoid : forall x, logit (sigmoid x) = x.
Proof.
  intros x. unfold logit. pose proof (sigmoid_bounds x) as H. rewrite <- ln_div by lra.
  unfold sigmoid in *. pose proof (exp_pos (- x)) as He.
  replace (/ (1 + exp (- x)) / (1 - / (1 + exp (- x)))) with (exp x).
  - apply ln_exp.
  - rewrite exp_Ropp in *. pose proof (exp_pos x). field. split; [|split]; lra.
Qed.
Lemma sigmoid_logit : forall y, 0 < y < 1 -> sigmoid (logit y) = y.
Proof.
  intros y H. unfold sigmoid, logit. rewrite <- ln_div by lra. rewrite exp_ln_1.
  - field. split; lra.
  - apply Rdiv_lt_0_compat; lra.
Qed.
Lemma softplus_pos : forall x, 0 < softplus x.
Proof. intros x. unfold softplus. rewrite <- ln_1. apply ln_increasing; pose proof (exp_pos x); lra. Qed.
Lemma exp_gt_1 : forall y, 0 < y -> 1 < exp y.
Proof. intros y H. rewrite <- exp_0. apply exp_increasing; auto. Qed.
Lemma softplus_inv_l : forall x, softplus_inv (softplus x) = x.
Proof.
  intros x. unfold softplus_inv, softplus. pose proof (exp_pos x). rewrite exp_ln by lra.
  replace (1 + exp x - 1) with (exp x) by ring. apply ln_exp.
Qed.
Lemma softplus_inv_r : forall y, 0 < y -> softplus (softplus_inv y) = y.
Proof.
  intros y H. unfold softplus_inv, softplus. pose proof (exp_gt_1 y H). rewrite exp_ln by lra.
  replace (1 + (exp y - 1)) with (exp y) by ring. apply ln_exp.
Qed.

Lemma logit_derive : forall a, 0 < a < 1 -> is_derive logit a (exp (ildj_sigmoid a)).
Proof.
  intros a H. unfold logit, ildj_sigmoid. auto_derive. { lra. }
  replace (- ln a - ln (1 - a)) with (- (ln a + ln (1 - a))) by ring.
  rewrite <- ln_mult by lra. rewrite exp_ln_1 by nra. field. lra.
Qed.
Lemma softplus_inv_derive : forall a, 0 < a -> is_derive softplus_inv a (exp (ildj_softplus a)).
Proof.
  intros a H. pose proof (exp_gt_1 a H). unfold softplus_inv, ildj_softplus. auto_derive. { lra. }
  assert (exp (- a) < 1). { rewrite <- exp_0. apply exp_increasing. lra. }
  rewrite exp_ln_1 by lra. rewrite exp_Ropp. field. lra.
Qed.
Lemma sigmoid_derive : forall x, is_derive sigmoid x (exp (fldj_sigmoid x)).
Proof.
  intros x. unfold sigmoid, fldj_sigmoid, softplus. pose proof (exp_pos x). pose proof (exp_pos (- x)).
  auto_derive. { lra. }
  replace (- ln (1 + exp (- x)) - ln (1 + exp x)) with (- (ln (1 + exp (- x)) + ln (1 + exp x))) by ring.
  rewrite <- ln_mult by lra. rewrite exp_ln_1 by nra. rewrite exp_Ropp. field. lra.
Qed.
Lemma softplus_derive : forall x, is_derive softplus x (exp (fldj_softplus x)).
Proof.
  intros x. unfold fldj_softplus, softplus. pose proof (exp_pos x). pose proof (exp_pos (- x)).
  auto_derive. { lra. } rewrite exp_ln_1 by lra. rewrite exp_Ropp. field. lra.
Qed.

Lemma map_id_in : forall (f : R -> R) l, Forall (fun a => f a = a) l -> map f l = l.
Proof. induction 1; simpl; congruence. Qed.

(** ** Softmax centred *)
Lemma sumR_fold : forall l, sumR l = fold_right Rplus 0 l.
Proof. induction l; simpl; congruence. Qed.
Lemma sumR_app : forall a b, sumR (a ++ b) = sumR a + sumR b.
Proof. induction a; intros; simpl; [lra|]. rewrite IHa; lra. Qed.
Lemma sumR_pos : forall l, Forall (fun a => 0 < a) l -> 0 <= sumR l.
Proof. induction 1; simpl; lra. Qed.
Lemma sumR_scale : forall l c, sumR (map (fun a => a / c) l) = sumR l / c.
Proof. induction l; intros; simpl; [unfold Rdiv; ring|]. rewrite IHl. unfold Rdiv; ring. Qed.
Lemma exp_sum_pos : forall x, 0 < sumR (map exp (x ++ [0])).
Proof.
  intros x. rewrite map_app, sumR_app. simpl. rewrite exp_0.
  assert (0 <= sumR (map exp x)). { apply sumR_pos, Forall_map, Forall_forall. intros; apply exp_pos. } lra.
Qed.

Lemma softmax_in : forall u, in_support "simplex" (softmax_centered u).
Proof.
  intros u. unfold in_support. split; [discriminate|]. split; [discriminate|]. intros _.
  pose proof (exp_sum_pos u) as Hs. split; [|split].
  - unfold softmax_centered. cbv zeta. destruct u; discriminate.
  - unfold softmax_centered. cbv zeta. rewrite map_map. apply Forall_map, Forall_forall. intros a _.
    apply Rdiv_lt_0_compat; auto. apply exp_pos.
  - rewrite <- sumR_fold. unfold softmax_centered. cbv zeta. rewrite sumR_scale. field. lra.
Qed.

Lemma softmax_inv_l : forall u, softmax_centered_inv (softmax_centered u) = u.
Proof.
  intros u. unfold softmax_centered_inv, softmax_centered. cbv zeta.
  set (s := sumR _). assert (Hs : 0 < s) by apply exp_sum_pos. clearbody s.
  rewrite !map_app. simpl map. rewrite last_last, removelast_last.
  rewrite !map_map. rewrite exp_0. rewrite <- (map_id u) at 2. apply map_ext. intros a.
  rewrite <- ln_div; try (apply Rdiv_lt_0_compat; auto; try apply exp_pos; lra).
  replace (exp a / s / (1 / s)) with (exp a) by (field; lra). apply ln_exp.
Qed.

Lemma softmax_inv_r : forall v, v <> [] -> Forall (fun a => 0 < a) v -> fold_right Rplus 0 v = 1 ->
  softmax_centered (softmax_centered_inv v) = v.
Proof.
  intros v Hne Hp Hsum. rewrite <- sumR_fold in Hsum.
  destruct (exists_last Hne) as (c & l & ->). apply Forall_app in Hp as [Hc Hl]. inversion Hl as [|? ? Hl0 _]; subst.
  unfold softmax_centered_inv, softmax_centered. cbv zeta. rewrite last_last, removelast_last.
  assert (E : map exp (map (fun a => ln a - ln l) c ++ [0]) = map (fun a => a / l) (c ++ [l])).
  { rewrite !map_app, map_map. simpl. f_equal.
    - apply map_ext_in. intros a Ha. rewrite Forall_forall in Hc. pose proof (Hc a Ha).
      rewrite <- ln_div by auto. apply exp_ln. apply Rdiv_lt_0_compat; auto.
    - rewrite exp_0. f_equal. field. lra. }
  rewrite E, sumR_scale, Hsum, map_map. rewrite <- (map_id (c ++ [l])) at 2.
  apply map_ext. intros a. field. lra.
Qed.

(** ** The Jacobian of the simplex *)
Fixpoint diagplus (l : list R) (k : R) : list (list R) :=
  match l with
  | [] => []
  | a :: l' => ((a + k) :: repeat k (length l')) :: map (cons k) (diagplus l' k)
  end.
Lemma diagplus_length : forall l k, length (diagplus l k) = length l.
Proof. induction l; intros; simpl; auto. rewrite map_length; auto. Qed.
Lemma diagplus_rows : forall l k, Forall (fun r => length r = length l) (diagplus l k).
Proof.
  induction l; intros; simpl; constructor.
  - simpl. rewrite repeat_length; auto.
  - apply Forall_map. eapply Forall_impl; [|apply IHl]. simpl; intros; auto.
Qed.
Lemma nth_repeat_lt : forall n (k : R) j d, (j < n)%nat -> nth j (repeat k n) d = k.
Proof. induction n; intros k [|j] d H; simpl; auto; try lia. apply IHn; lia. Qed.
Lemma diagplus_nth : forall l k i j, (i < length l)%nat -> (j < length l)%nat ->
  nth j (nth i (diagplus l k) []) 0 = (if Nat.eq_dec i j then nth i l 0 else 0) + k.
Proof.
  induction l; intros k i j Hi Hj; simpl in *; [lia|]. destruct i as [|i].
  - destruct j as [|j]; simpl; auto. rewrite nth_repeat_lt by lia. lra.
  - rewrite nth_indep with (d' := k :: []) by (rewrite map_length, diagplus_length; lia).
    rewrite map_nth with (f := cons k). destruct j as [|j]; simpl; [lra|].
    rewrite IHl by lia. destruct (Nat.eq_dec i j), (Nat.eq_dec (S i) (S j)); auto; lia.
Qed.
Lemma shift_diagplus : forall l k c, map (map (fun y => y - c)) (diagplus l k) = diagplus l (k - c).
Proof.
  induction l; intros; simpl; auto. f_equal.
  - f_equal; [lra|]. induction (length l); simpl; congruence.
  - rewrite map_map. rewrite <- IHl. rewrite map_map. apply map_ext. intros r. simpl. auto.
Qed.
Lemma eliminate_repeat : forall a k r n, length r = n ->
  eliminate a (repeat k n) (k :: r) = map (fun y => y - k / a * k) r.
Proof.
  intros a k r n <-. unfold eliminate. simpl. induction r; simpl; auto. f_equal; auto.
Qed.
Lemma diagplus_det : forall l k, Forall (fun a => 0 < a) l -> 0 < k ->
  determinant (diagplus l k) (fold_right Rmult 1 l * (1 + k * fold_right Rplus 0 (map Rinv l))).
Proof.
  induction l as [|a l IH]; intros k Hp Hk; simpl.
  - replace (1 * (1 + k * 0)) with 1 by ring. constructor.
  - inversion Hp; subst.
    assert (Hk' : 0 < k - k / (a + k) * k).
    { replace (k - k / (a + k) * k) with (k * a / (a + k)) by (field; lra). apply Rdiv_lt_0_compat; nra. }
    replace (a * fold_right Rmult 1 l * (1 + k * (/ a + fold_right Rplus 0 (map Rinv l))))
      with ((a + k) * (fold_right Rmult 1 l * (1 + (k - k / (a + k) * k) * fold_right Rplus 0 (map Rinv l))))
      by (field; lra).
    constructor; [lra|].
    replace (map (eliminate (a + k) (repeat k (length l))) (map (cons k) (diagplus l k)))
      with (diagplus l (k - k / (a + k) * k)); [apply IH; auto|].
    rewrite <- shift_diagplus. rewrite map_map. apply map_ext_in. intros r Hr.
    rewrite eliminate_repeat; auto. pose proof (diagplus_rows l k) as Hf. rewrite Forall_forall in Hf. auto.
Qed.

Lemma update_nth : forall c j t i, (j < length c)%nat -> nth i (update c j t) 0 = if Nat.eq_dec i j then t else nth i c 0.
Proof.
  induction c; intros j t i Hj; simpl in *; [lia|]. destruct j, i; simpl; auto.
  rewrite IHc by lia. destruct (Nat.eq_dec i j), (Nat.eq_dec (S i) (S j)); auto; lia.
Qed.
Lemma update_length : forall c j t, length (update c j t) = length c.
Proof. induction c; intros [|j] t; simpl; auto. Qed.
Lemma update_sum : forall c j t, (j < length c)%nat ->
  fold_right Rplus 0 (update c j t) = fold_right Rplus 0 c - nth j c 0 + t.
Proof. induction c; intros [|j] t H; simpl in *; try lia; try lra. rewrite IHc by lia. lra. Qed.

Lemma inv_simplex_point : forall c, softmax_centered_inv (simplex_point c) =
  map (fun a => ln a - ln (1 - fold_right Rplus 0 c)) c.
Proof. intros c. unfold softmax_centered_inv, simplex_point. rewrite last_last, removelast_last. auto. Qed.

Lemma simplex_jacobian : forall c, in_support "simplex" (simplex_point c) ->
  exists m, jacobian (fun x => softmax_centered_inv (simplex_point x)) c m /\
    determinant m (exp (ildj_softmax_centered (simplex_point c))).
Proof.
  intros c (_ & _ & H). destruct H as (_ & Hp & _); auto.
  unfold simplex_point in Hp. apply Forall_app in Hp as [Hc Hl]. inversion Hl as [|? ? Hl0 _]; subst.
  set (S := fold_right Rplus 0 c) in *.
  assert (HSc : S = fold_right Rplus 0 c) by auto. clearbody S.
  exists (diagplus (map Rinv c) (/ (1 - S))). split.
  - split; [|split].
    + rewrite diagplus_length, map_length; auto.
    + pose proof (diagplus_rows (map Rinv c) (/ (1 - S))) as Hr. rewrite map_length in Hr. auto.
    + intros i j Hi Hj. rewrite diagplus_nth by (rewrite map_length; auto).
      apply (is_derive_ext (fun t => ln (if Nat.eq_dec i j then t else nth i c 0) - ln (1 - (S - nth j c 0 + t)))).
      { intros t. rewrite inv_simplex_point. rewrite update_sum by auto. rewrite <- HSc.
        rewrite nth_indep with (l := map _ _) (d' := ln 0 - ln (1 - (S - nth j c 0 + t))) by (rewrite map_length, update_length; auto).
        rewrite map_nth with (f := fun a => ln a - ln (1 - (S - nth j c 0 + t))).
        rewrite update_nth by auto. auto. }
      assert (Hcj : 0 < nth j c 0) by (rewrite Forall_forall in Hc; apply Hc, nth_In; auto).
      rewrite nth_indep with (l := map Rinv c) (d' := / 0) by (rewrite map_length; auto).
      rewrite map_nth with (f := Rinv).
      destruct (Nat.eq_dec i j) as [->|Hne].
      * auto_derive. { repeat split; try lra. }
        field. split; lra.
      * auto_derive. { repeat split; try lra. } field. lra.
  - replace (exp (ildj_softmax_centered (simplex_point c)))
      with (fold_right Rmult 1 (map Rinv c) * (1 + / (1 - S) * fold_right Rplus 0 (map Rinv (map Rinv c)))).
    + apply diagplus_det.
      * apply Forall_map. eapply Forall_impl; [|exact Hc]. simpl. intros; apply Rinv_0_lt_compat; auto.
      * apply Rinv_0_lt_compat; auto.
    + assert (E1 : fold_right Rplus 0 (map Rinv (map Rinv c)) = S).
      { rewrite HSc. rewrite map_map. f_equal. apply map_id_in. eapply Forall_impl; [|exact Hc]. simpl.
        intros; apply Rinv_inv. }
      rewrite E1. unfold ildj_softmax_centered, simplex_point. rewrite <- HSc. rewrite map_app, sumR_app. simpl.
      assert (E2 : exp (- sumR (map ln c)) = fold_right Rmult 1 (map Rinv c)).
      { clear -Hc. induction Hc; simpl; [rewrite Ropp_0; apply exp_0|]. rewrite Ropp_plus_distr, exp_plus, IHHc.
        rewrite exp_ln_1 by auto. auto. }
      rewrite <- E2.
      replace (- (sumR (map ln c) + (ln (1 - S) + 0))) with (- sumR (map ln c) + - ln (1 - S)) by ring.
      rewrite exp_plus, exp_ln_1 by auto. field. lra.
Qed.

(** ** transform *)
Lemma sigmoid_bij : bijection "01" (fwd (Invert Sigmoid)) (inv (Invert Sigmoid)).
Proof.
  split; simpl.
  - intros v (H & _ & _). rewrite map_map. apply map_id_in. eapply Forall_impl; [|apply H; auto].
    simpl. intros; apply sigmoid_logit; auto.
  - intros u. split.
    + split; [|split; discriminate]. intros _. apply Forall_map, Forall_forall. intros; apply sigmoid_bounds.
    + rewrite map_map. apply map_id_in, Forall_forall. intros; apply logit_sigmoid.
Qed.
Lemma softplus_bij : bijection "nonnegative" (fwd (Invert Softplus)) (inv (Invert Softplus)).
Proof.
  split; simpl.
  - intros v (_ & H & _). rewrite map_map. apply map_id_in. eapply Forall_impl; [|apply H; auto].
    simpl. intros; apply softplus_inv_r; auto.
  - intros u. split.
    + split; [discriminate|split; [|discriminate]]. intros _. apply Forall_map, Forall_forall. intros; apply softplus_pos.
    + rewrite map_map. apply map_id_in, Forall_forall. intros; apply softplus_inv_l.
Qed.
Lemma softmax_bij : bijection "simplex" (fwd (Invert SoftmaxCentered)) (inv (Invert SoftmaxCentered)).
Proof.
  split; simpl.
  - intros v (_ & _ & H). destruct H as (H1 & H2 & H3); auto. apply softmax_inv_r; auto.
  - intros u. split; [apply softmax_in|apply softmax_inv_l].
Qed.

Lemma transform_spec : forall x,
  match transform x with
  | TOk y => exists b, unconstrains x y b
  | TAttributeError => support x = None
  | TValueError => exists s, support x = Some s /\ ~ continuous s
  end.
Proof.
  intros x. unfold transform. destruct (support x) as [s|] eqn:Es; auto.
  destruct (String.eqb_spec s "01") as [->|H1].
  { exists (Some (Invert Sigmoid)). simpl. exists "01"%string, "real"%string. repeat split; auto; try apply sigmoid_bij; simpl; unfold constrained, unconstrained; simpl; auto. }
  destruct (String.eqb_spec s "nonnegative") as [->|H2].
  { exists (Some (Invert Softplus)). simpl. exists "nonnegative"%string, "real"%string. repeat split; auto; try apply softplus_bij; simpl; unfold constrained, unconstrained; simpl; auto. }
  destruct (String.eqb_spec s "simplex") as [->|H3].
  { exists (Some (Invert SoftmaxCentered)). simpl. exists "simplex"%string, "multivariate_real"%string. repeat split; auto; try apply softmax_bij; simpl; unfold constrained, unconstrained; simpl; auto. }
  destruct (String.eqb_spec s "real") as [->|H4].
  { exists None. simpl. split; auto. exists "real"%string. unfold unconstrained; simpl; auto. }
  destruct (String.eqb_spec s "multivariate_real") as [->|H5].
  { exists None. simpl. split; auto. exists "multivariate_real"%string. unfold unconstrained; simpl; auto. }
  exists s. split; auto. unfold continuous, constrained, unconstrained. simpl. intuition congruence.
Qed.

Lemma transform_total : forall x s, support x = Some s -> continuous s -> exists y, transform x = TOk y.
Proof.
  intros x s Hs Hc. pose proof (transform_spec x) as H. destruct (transform x); eauto.
  - congruence.
  - destruct H as (s' & E & Hn). rewrite E in Hs. inversion Hs; subst. tauto.
Qed.

Lemma jacobians : forall x y b s, support x = Some s -> transform x = TOk y -> y = Trans x b (support y) -> y <> x ->
  (s <> "simplex"%string -> log_derivative s (fwd b) (fldj b) /\ log_derivative "real" (inv b) (ildj b)) /\
  (s = "simplex"%string ->
     (forall v, exists d, fldj b v = [d]) /\
     forall c, in_support s (simplex_point c) ->
       exists m d, jacobian (fun c => fwd b (simplex_point c)) c m /\ determinant m (exp d) /\ fldj b (simplex_point c) = [d]) /\
  forall u, ildj b u = map Ropp (fldj b (inv b u)).
Proof.
  intros x y b s Es Ht Ey Hne. unfold transform in Ht. rewrite Es in Ht.
  destruct (String.eqb_spec s "01") as [->|H1].
  { inversion Ht; subst. simpl in Ey. inversion Ey; subst. split; [|split].
    - intros _. split.
      + exists logit, ildj_sigmoid. split; [|split]; auto. intros a (Ha & _). apply logit_derive.
        specialize (Ha eq_refl). inversion Ha; auto.
      + exists sigmoid, fldj_sigmoid. split; [|split]; auto. intros a _. apply sigmoid_derive.
    - discriminate.
    - intros u. simpl. rewrite !map_map. apply map_ext. intros a. unfold ildj_sigmoid, fldj_sigmoid, softplus, sigmoid.
      pose proof (exp_pos a). pose proof (exp_pos (- a)). rewrite ln_Rinv by lra.
      replace (1 - / (1 + exp (- a))) with (/ (1 + exp a)) by (rewrite exp_Ropp; field; split; lra).
      rewrite ln_Rinv by lra. ring. }
  destruct (String.eqb_spec s "nonnegative") as [->|H2].
  { inversion Ht; subst. simpl in Ey. inversion Ey; subst. split; [|split].
    - intros _. split.
      + exists softplus_inv, ildj_softplus. split; [|split]; auto. intros a (_ & Ha & _). apply softplus_inv_derive.
        specialize (Ha eq_refl). inversion Ha; auto.
      + exists softplus, fldj_softplus. split; [|split]; auto. intros a _. apply softplus_derive.
    - discriminate.
    - intros u. simpl. rewrite !map_map. apply map_ext. intros a. unfold ildj_softplus, fldj_softplus, softplus.
      pose proof (exp_pos a). pose proof (exp_pos (- a)). rewrite exp_ln_1 by lra.
      replace (1 - / (1 + exp a)) with (/ (1 + exp (- a))) by (rewrite exp_Ropp; field; split; lra).
      rewrite ln_Rinv by lra. ring. }
  destruct (String.eqb_spec s "simplex") as [->|H3].
  { inversion Ht; subst. simpl in Ey. inversion Ey; subst. split; [|split].
    - tauto.
    - intros _. split; [intros; simpl; eauto|]. intros c Hc. destruct (simplex_jacobian c Hc) as (m & Hm & Hd).
      exists m, (ildj_softmax_centered (simplex_point c)). auto.
    - intros u. simpl. reflexivity. }
  destruct (String.eqb_spec s "real") as [->|H4]. { simpl in Ht. inversion Ht; subst. tauto. }
  destruct (String.eqb_spec s "multivariate_real") as [->|H5]; inversion Ht; subst. tauto.
Qed.

(** ** auto_transform *)
Lemma bijector_of_spec : forall z zu b, unconstrains z zu b -> bijector_of z zu = b.
Proof.
  intros z zu [b|] H; unfold bijector_of; simpl in H.
  - destruct H as (s & s' & _ & _ & -> & _). destruct (rv_eq_dec (Trans z b (Some s')) z) as [E|_]; auto.
    exfalso. clear -E. revert b s' E. induction z; intros c s' E; inversion E; subst. eapply IHz; eauto.
  - destruct H as [-> _]. destruct (rv_eq_dec z z); auto. congruence.
Qed.

Lemma not_both : forall s, unconstrained s -> constrained s -> False.
Proof. intros s; unfold unconstrained, constrained; simpl; intros [<-|[<-|[]]] [H|[H|[H|[]]]]; discriminate. Qed.

Lemma auto_pair_spec : forall z qz,
  match auto_pair z qz with
  | inl p => (mismatched z qz = true /\ rewritten z qz (po_q p) (po_zu p) (po_qu p) /\ po_tr p = Some (po_zu p)) \/
             (mismatched z qz = false /\ po_q p = qz /\ po_zu p = z /\ po_qu p = qz /\ po_tr p = None)
  | inr e => mismatched z qz = true /\ ~ to_rewrite z qz /\ e = TValueError
  end.
Proof.
  intros z qz. unfold auto_pair. destruct (mismatched z qz) eqn:Em.
  2:{ right; simpl; auto. }
  unfold mismatched in Em. destruct (support z) as [s|] eqn:Ez; [|discriminate].
  destruct (support qz) as [s'|] eqn:Eq; [|discriminate].
  pose proof (transform_spec z) as Htz. destruct (transform z) as [zu| |] eqn:Et.
  - destruct Htz as [b Hb]. rewrite (bijector_of_spec _ _ _ Hb).
    assert (Hcont : match b with Some b => exists s0, support z = Some s0 /\ bijection s0 (fwd b) (inv b) | None => True end).
    { destruct b; auto. destruct Hb as (s0 & s1 & H1 & _ & _ & _ & H2). eauto. }
    destruct (String.eqb_spec s' "points") as [->|Hp].
    + destruct b as [b|]; left; simpl; split; auto; split; auto; exists (Some b) + exists None; simpl; split; auto; split; auto.
      destruct Hcont as (s0 & H1 & H2). exists s0. split; auto. split; auto. intros u; apply H2.
    + pose proof (transform_spec qz) as Htq. destruct (transform qz) as [qu| |] eqn:Etq.
      * destruct Htq as [b' Hb'].
        destruct b as [b|]; left; simpl; split; auto; split; auto; exists (Some b) + exists None; simpl; split; auto; split; eauto.
        destruct Hcont as (s0 & H1 & H2). exists s0. split; auto. split; auto. intros u; apply H2.
      * congruence.
      * destruct Htq as (s0 & E & Hn). split; auto. split; auto. intros (a & c & H1 & H2 & H3 & H4 & H5).
        rewrite E in Eq. inversion Eq; subst. rewrite E in H2. inversion H2; subst. destruct H5; subst; tauto.
  - congruence.
  - destruct Htz as (s0 & E & Hn). split; auto. split; auto. intros (a & c & H1 & H2 & H3 & H4 & H5).
    rewrite E in H1. inversion H1; subst. tauto.
Qed.

Lemma to_rewrite_mismatched : forall z qz, to_rewrite z qz -> mismatched z qz = true.
Proof.
  intros z qz (s & s' & H1 & H2 & H3 & H4 & H5). unfold mismatched. rewrite H1, H2.
  destruct (String.eqb_spec s s'); [congruence|]. simpl. destruct (String.eqb_spec s' "point"); auto. subst.
  destruct H5 as [H5|H5]; [|discriminate]. unfold continuous, unconstrained, constrained in H5. simpl in H5. intuition discriminate.
Qed.

Lemma auto_pair_total : forall z qz, to_rewrite z qz -> exists p, auto_pair z qz = inl p.
Proof.
  intros z qz H. pose proof (auto_pair_spec z qz) as Hs. destruct (auto_pair z qz); eauto. tauto.
Qed.

(** Pairs on which the code and the documentation agree. *)
Definition clear_pair (z qz : rv) : Prop := mismatched z qz = true -> to_rewrite z qz.

Definition pair_result (zq : rv * rv) (q : rv * rv) (u : rv * rv) (tr : option rv) : Prop :=
  fst q = fst zq /\
  ((to_rewrite (fst zq) (snd zq) /\ rewritten (fst zq) (snd zq) (snd q) (fst u) (snd u) /\ tr = Some (fst u)) \/
   (~ to_rewrite (fst zq) (snd zq) /\ q = zq /\ u = zq /\ tr = None)).

Lemma lookup_app : forall a b z, lookup (a ++ b) z = match lookup a z with Some v => Some v | None => lookup b z end.
Proof. induction a as [|[k v] a IH]; intros b z; simpl; auto. destruct (rv_eq_dec k z); auto. Qed.
Lemma lookup_notin : forall d z, ~ In z (map fst d) -> lookup d z = None.
Proof.
  induction d as [|[k v] d IH]; intros z H; simpl in *; auto. destruct (rv_eq_dec k z); [subst; tauto|]. apply IH; tauto.
Qed.

Lemma auto_loop_ok : forall todo st, NoDup (map fst todo) ->
  (forall z, In z (map fst todo) -> ~ In z (map fst (a_transformations st))) ->
  (forall z qz, In (z, qz) todo -> clear_pair z qz) ->
  exists l u t, auto_loop todo st = (mkauto (a_latent st ++ l) (a_unconstrained st ++ u) (a_transformations st ++ t), None) /\
    incl (map fst t) (map fst todo) /\
    length l = length todo /\ length u = length todo /\
    forall i zq, nth_error todo i = Some zq -> exists q v, nth_error l i = Some q /\ nth_error u i = Some v /\
       pair_result zq q v (lookup t (fst zq)).
Proof.
  induction todo as [|[z qz] todo IH]; intros st Hnd Hfr Hcl.
  - exists [], [], []. simpl. rewrite !app_nil_r. destruct st. split; auto. split; [apply incl_refl|].
    split; auto. split; auto. intros [|i] zq E; discriminate.
  - simpl in Hnd. inversion Hnd as [|? ? Hni Hnd']; subst. simpl.
    pose proof (Hcl z qz (or_introl eq_refl)) as Hc. unfold clear_pair in Hc.
    pose proof (auto_pair_spec z qz) as Hs. destruct (auto_pair z qz) as [p|e].
    2:{ destruct Hs as (Hm & Hn & _). tauto. }
    set (tr := match po_tr p with Some t => [(z, t)] | None => [] end).
    destruct (IH (mkauto (a_latent st ++ [(z, po_q p)]) (a_unconstrained st ++ [(po_zu p, po_qu p)]) (a_transformations st ++ tr)))
      as (l & u & t & E & Hin & Hl & Hu & Hr); auto.
    { simpl. intros w Hw. rewrite map_app, in_app_iff. intros [H|H].
      - eapply Hfr; [right; exact Hw|]; auto.
      - unfold tr in H. destruct (po_tr p); simpl in H; [destruct H; [subst; tauto|auto]|auto]. }
    { intros; apply Hcl; right; auto. }
    exists ((z, po_q p) :: l), ((po_zu p, po_qu p) :: u), (tr ++ t). rewrite E. simpl.
    rewrite <- !app_assoc. split; [simpl; auto|]. split.
    { rewrite map_app. apply incl_app.
      - unfold tr. destruct (po_tr p); simpl; intros w Hw; simpl in *; tauto.
      - apply incl_tl; auto. }
    split; [simpl; auto|]. split; [simpl; auto|].
    intros [|i] zq Ei; simpl in Ei.
    + inversion Ei; subst. exists (z, po_q p), (po_zu p, po_qu p). split; auto. split; auto.
      unfold pair_result. simpl. split; auto.
      assert (Ht : lookup t z = None). { apply lookup_notin. intros H; apply Hni, Hin; auto. }
      rewrite lookup_app, Ht. destruct Hs as [(Hm & Hrw & Htr)|(Hm & E1 & E2 & E3 & E4)].
      * left. split; auto. split; auto. unfold tr. rewrite Htr. simpl. destruct (rv_eq_dec z z); congruence.
      * right. split. { intros Hw. apply to_rewrite_mismatched in Hw. congruence. }
        rewrite E1, E2, E3. unfold tr. rewrite E4. simpl. auto.
    + destruct (Hr i zq Ei) as (q & v & A & B & C). exists q, v. split; auto. split; auto.
      rewrite lookup_app. replace (lookup tr (fst zq)) with (@None rv); auto.
      symmetry. apply lookup_notin. unfold tr. destruct (po_tr p); simpl; [|tauto].
      intros [Ez|[]]. apply Hni. apply nth_error_In in Ei. rewrite Ez. apply in_map; auto.
Qed.

Lemma auto_transform_ok : forall latent, NoDup (map fst latent) ->
  (forall z qz, In (z, qz) latent -> mismatched z qz = true -> to_rewrite z qz) ->
  exists st, auto_transform latent = (st, None) /\
    length (a_latent st) = length latent /\ length (a_unconstrained st) = length latent /\
    forall i zq, nth_error latent i = Some zq ->
      exists q v, nth_error (a_latent st) i = Some q /\ nth_error (a_unconstrained st) i = Some v /\
       fst q = fst zq /\
       ((to_rewrite (fst zq) (snd zq) /\ rewritten (fst zq) (snd zq) (snd q) (fst v) (snd v) /\
         lookup (a_transformations st) (fst zq) = Some (fst v)) \/
        (~ to_rewrite (fst zq) (snd zq) /\ q = zq /\ v = zq /\ lookup (a_transformations st) (fst zq) = None)).
Proof.
  intros latent Hnd Hc. destruct (auto_loop_ok latent (mkauto [] [] []) Hnd) as (l & u & t & E & _ & Hl & Hu & Hr); auto.
  exists (mkauto l u t). unfold auto_transform. split; auto.
Qed.

(** In any case pairs are rewritten only if they should be, and what is bound
    before an exception is as it should be. *)
Lemma auto_raises : forall latent st e, auto_transform latent = (st, Some e) ->
  e = TValueError /\ exists z qz s s', In (z, qz) latent /\ support z = Some s /\ support qz = Some s' /\
    s <> s' /\ s' <> "point"%string /\ ~ to_rewrite z qz.
Proof.
  intros latent. unfold auto_transform. generalize (mkauto [] [] []).
  induction latent as [|[z qz] latent IH]; intros st0 st e E; simpl in E; [discriminate|].
  pose proof (auto_pair_spec z qz) as Hs. destruct (auto_pair z qz) as [p|e'].
  - apply IH in E as (He & z1 & q1 & s & s' & Hi & H). split; auto. exists z1, q1, s, s'. split; auto. right; auto.
  - inversion E; subst. destruct Hs as (Hm & Hn & ->). split; auto.
    unfold mismatched in Hm. destruct (support z) as [s|] eqn:Ez; [|discriminate].
    destruct (support qz) as [s'|] eqn:Eq; [|discriminate]. apply andb_true_iff in Hm as [H1 H2].
    exists z, qz, s, s'. split; [left; auto|]. repeat split; auto.
    + intros ->. rewrite String.eqb_refl in H1. discriminate.
    + intros ->. discriminate.
Qed.

(** ** Initialising twice *)
Lemma rewritten_stable : forall z qz q zu qu, rewritten z qz q zu qu ->
  exists p, auto_pair z q = inl p /\ po_q p = q.
Proof.
  intros z qz q zu qu (b & Hz & Hq & Hb). destruct b as [b|].
  - destruct Hb as (s & -> & Hs & _). unfold auto_pair, mismatched. simpl. rewrite Hs. eexists; split; reflexivity.
  - subst q. destruct Hz as [-> (s & Hs & Hu)].
    destruct (mismatched z qu) eqn:Em.
    2:{ unfold auto_pair. rewrite Em. eexists; split; reflexivity. }
    assert (Hz0 : transform z = TOk z).
    { unfold transform. rewrite Hs. destruct Hu as [<-|[<-|[]]]; reflexivity. }
    assert (Hbz : bijector_of z z = None) by (unfold bijector_of; destruct (rv_eq_dec z z); congruence).
    unfold auto_pair. rewrite Em, Hz0, Hbz.
    destruct Hq as [(b' & Hb')|(Hp & ->)].
    + assert (Hsq : exists sq, support qu = Some sq /\ unconstrained sq).
      { destruct b' as [b'|]; simpl in Hb'.
        - destruct Hb' as (s1 & s2 & _ & _ & -> & H2 & _). simpl; eauto.
        - destruct Hb' as [-> H]; auto. }
      destruct Hsq as (sq & Esq & Husq). rewrite Esq.
      assert (Hq0 : transform qu = TOk qu).
      { unfold transform. rewrite Esq. destruct Husq as [<-|[<-|[]]]; reflexivity. }
      destruct (String.eqb sq "points"); [|rewrite Hq0]; eexists; split; reflexivity.
    + rewrite Hp. simpl. eexists; split; reflexivity.
Qed.

Lemma auto_loop_latent : forall todo st, (forall z q, In (z, q) todo -> exists p, auto_pair z q = inl p /\ po_q p = q) ->
  exists u t, auto_loop todo st = (mkauto (a_latent st ++ todo) u t, None).
Proof.
  induction todo as [|[z q] todo IH]; intros st H; simpl.
  - rewrite app_nil_r. destruct st; eauto.
  - destruct (H z q (or_introl eq_refl)) as (p & E & Ep). rewrite E.
    destruct (IH (mkauto (a_latent st ++ [(z, po_q p)]) (a_unconstrained st ++ [(po_zu p, po_qu p)])
      (a_transformations st ++ match po_tr p with Some t => [(z, t)] | None => [] end))) as (u & t & E').
    { intros; apply H; right; auto. }
    rewrite E'. simpl. rewrite Ep, <- app_assoc. simpl. eauto.
Qed.

Lemma auto_loop_results : forall todo st st', auto_loop todo st = (st', None) ->
  exists l, a_latent st' = a_latent st ++ l /\
    Forall2 (fun zq zq' => fst zq = fst zq' /\ exists p, auto_pair (fst zq) (snd zq) = inl p /\ snd zq' = po_q p) todo l.
Proof.
  induction todo as [|[z q] todo IH]; intros st st' E; simpl in E.
  - inversion E; subst. exists []. rewrite app_nil_r. split; auto.
  - destruct (auto_pair z q) as [p|] eqn:Ep; [|discriminate]. apply IH in E as (l & El & Hf).
    simpl in El. exists ((z, po_q p) :: l). rewrite El, <- app_assoc. split; auto. constructor; auto. simpl. eauto.
Qed.

Lemma auto_twice : forall latent st, auto_transform latent = (st, None) ->
  exists st', auto_transform (a_latent st) = (st', None) /\ a_latent st' = a_latent st.
Proof.
  intros latent st E. destruct (auto_loop_results _ _ _ E) as (l & El & Hf). simpl in El. rewrite El.
  destruct (auto_loop_latent l (mkauto [] [] [])) as (u & t & E').
  - clear -Hf. intros z q Hin. induction Hf as [|[z0 q0] [z1 q1] ? ? (Hz & p & Ep & Eq)].
    + destruct Hin.
    + simpl in *. destruct Hin as [Hin|Hin]; auto. inversion Hin; subst.
      pose proof (auto_pair_spec z q0) as Hs. rewrite Ep in Hs.
      destruct Hs as [(_ & Hr & _)|(Hm & H1 & _)].
      * eapply rewritten_stable; eauto.
      * rewrite H1. exists p. auto.
  - exists (mkauto l u t). unfold auto_transform. auto.
Qed.

Lemma auto_transform_partial : forall latent, NoDup (map fst latent) ->
  (forall z qz s s', In (z, qz) latent -> support z = Some s -> support qz = Some s' -> s <> s' ->
     s' <> "point"%string -> continuous s /\ (continuous s' \/ s' = "points"%string)) ->
  exists st, auto_transform latent = (st, None) /\
    length (a_latent st) = length latent /\ length (a_unconstrained st) = length latent /\
    forall i zq, nth_error latent i = Some zq ->
      exists q v, nth_error (a_latent st) i = Some q /\ nth_error (a_unconstrained st) i = Some v /\
       fst q = fst zq /\
       ((to_rewrite (fst zq) (snd zq) /\ rewritten (fst zq) (snd zq) (snd q) (fst v) (snd v) /\
         lookup (a_transformations st) (fst zq) = Some (fst v)) \/
        (~ to_rewrite (fst zq) (snd zq) /\ q = zq /\ v = zq /\ lookup (a_transformations st) (fst zq) = None)).
Proof.
  intros latent Hnd H. apply auto_transform_ok; auto. intros z qz Hi Hm.
  unfold mismatched in Hm. destruct (support z) as [s|] eqn:Ez; [|discriminate].
  destruct (support qz) as [s'|] eqn:Eq; [|discriminate]. apply andb_true_iff in Hm as [H1 H2].
  assert (s <> s') by (intros ->; rewrite String.eqb_refl in H1; discriminate).
  assert (s' <> "point"%string) by (intros ->; discriminate).
  destruct (H z qz s s') as [A B]; auto. exists s, s'. auto.
Qed.

Lemma discrete_refuted : exists latent, NoDup (map fst latent) /\
  (forall z qz, In (z, qz) latent -> ~ to_rewrite z qz) /\
  exists st e, auto_transform latent = (st, Some e) /\ a_latent st = [].
Proof.
  exists [(Base 0 (Some "binary"), Base 1 (Some "points"))%string; (Base 2 (Some "real"), Base 3 (Some "real"))%string].
  split; [|split].
  - simpl. repeat constructor; simpl; intuition discriminate.
  - intros z qz [E|[E|[]]] (s & s' & H1 & H2 & H3 & H4 & _); inversion E; subst; simpl in *; inversion H1; inversion H2; subst.
    + destruct H4 as [H|H]; unfold unconstrained, constrained in H; simpl in H; intuition discriminate.
    + congruence.
  - eexists; eexists; split; reflexivity.
Qed.

Lemma second_refuted : exists latent st st' z, NoDup (map fst latent) /\
  auto_transform latent = (st, None) /\ auto_transform (a_latent st) = (st', None) /\
  (exists t s, lookup (a_transformations st) z = Some t /\ support t = Some s /\ unconstrained s) /\
  lookup (a_transformations st') z = None /\
  In z (map fst (a_unconstrained st')) /\ exists s, support z = Some s /\ constrained s.
Proof.
  exists [(Base 0 (Some "nonnegative"), Base 1 (Some "real"))%string]. eexists; eexists; exists (Base 0 (Some "nonnegative"%string)).
  split; [repeat constructor; simpl; tauto|]. split; [reflexivity|]. split; [reflexivity|]. split.
  - do 2 eexists. split; [reflexivity|]. split; [reflexivity|]. left; auto.
  - split; [reflexivity|]. split; [left; reflexivity|]. eexists; split; [reflexivity|]. right; left; auto.
Qed.
