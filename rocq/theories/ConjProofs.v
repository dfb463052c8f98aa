(** * Log densities and natural parameters (proofs). *)
From Coq Require Import Reals List Lra Lia Arith.
From Verif Require Import Ext ConjLogProb ConjSpec.
Import ListNotations.
Local Open Scope R_scope.

Lemma ln_Rpower : forall a b, ln (Rpower a b) = b * ln a.
Proof. intros. unfold Rpower. apply ln_exp. Qed.
Lemma Rpower_pos : forall a b, 0 < Rpower a b.
Proof. intros. unfold Rpower. apply exp_pos. Qed.
Lemma ln_inv' : forall a, 0 < a -> ln (/ a) = - ln a.
Proof. intros. apply ln_Rinv. auto. Qed.
Lemma ln_div' : forall a b, 0 < a -> 0 < b -> ln (a / b) = ln a - ln b.
Proof.
  intros a b Ha Hb. unfold Rdiv. rewrite ln_mult; auto.
  - rewrite ln_inv'; auto.
  - apply Rinv_0_lt_compat; auto.
Qed.
Lemma ln_pow_nat : forall a n, 0 < a -> ln (a ^ n) = INR n * ln a.
Proof.
  intros a n Ha. induction n.
  - simpl. rewrite ln_1. ring.
  - rewrite S_INR. simpl. rewrite ln_mult; auto.
    + rewrite IHn. ring.
    + now apply pow_lt.
Qed.
Lemma div_pos : forall a b, 0 < a -> 0 < b -> 0 < a / b.
Proof. intros. apply Rmult_lt_0_compat; auto. apply Rinv_0_lt_compat; auto. Qed.

Ltac pos :=
  repeat first [ assumption | apply Rmult_lt_0_compat | apply div_pos | apply Rinv_0_lt_compat
    | apply Rpower_pos | apply exp_pos | apply pow_lt | lra ].

Lemma product_pos : forall l, positive l -> 0 < product l.
Proof. intros l H. induction H; simpl; [lra|]. apply Rmult_lt_0_compat; auto. Qed.
Lemma ln_product : forall l, positive l -> ln (product l) = total (map ln l).
Proof.
  intros l H. induction H; simpl; [apply ln_1|].
  rewrite ln_mult; auto; [|now apply product_pos]. rewrite IHForall. reflexivity.
Qed.
Lemma fact_pos : forall n, 0 < INR (fact n).
Proof. intros. apply lt_0_INR. apply lt_O_fact. Qed.

Section Gamma.
Variable G lgamma : R -> R.
Hypothesis HG : gamma_function G.
Hypothesis Hlg : log_gamma G lgamma.

Lemma lg_fact : forall n, lgamma (INR n + 1) = ln (INR (fact n)).
Proof.
  intros n. destruct HG as [_ Hf]. rewrite Hlg; [|pose proof (pos_INR n); lra]. now rewrite Hf.
Qed.
Lemma G_pos : forall x, 0 < x -> 0 < G x.
Proof. exact (proj1 HG). Qed.

Lemma bernoulli_ok : forall p k, 0 < p < 1 -> (k <= 1)%nat ->
  bernoulli_log_prob p k = ln (bernoulli_pmf p k).
Proof.
  intros p k Hp Hk. unfold bernoulli_log_prob, bernoulli_pmf.
  destruct k as [|[|]]; [| |lia]; simpl; ring.
Qed.

Lemma beta_ok : forall a b x, 0 < a -> 0 < b -> 0 < x < 1 ->
  beta_log_prob lgamma a b x = ln (beta_pdf G a b x).
Proof.
  intros a b x Ha Hb Hx. unfold beta_log_prob, beta_pdf.
  rewrite !Hlg by lra. pose proof (G_pos a Ha). pose proof (G_pos b Hb).
  assert (0 < G (a + b)) by (apply G_pos; lra).
  rewrite ln_div'; [|pos|pos]. rewrite !ln_mult; try pos. rewrite !ln_Rpower. ring.
Qed.

Lemma binomial_ok : forall n p k, 0 < p < 1 -> (k <= n)%nat ->
  binomial_log_prob lgamma n p k = ln (binomial_pmf n p k).
Proof.
  intros n p k Hp Hk. unfold binomial_log_prob, binomial_pmf, C.
  rewrite <- minus_INR by auto. rewrite !lg_fact.
  pose proof (fact_pos n). pose proof (fact_pos k). pose proof (fact_pos (n - k)).
  rewrite !ln_mult; try pos. rewrite ln_div'; try pos. rewrite ln_mult; try pos.
  rewrite !ln_pow_nat by lra. ring.
Qed.

Lemma one_hot_dot_from : forall (ls : list R) k start,
  vsum (map2 Rmult ls (map (fun i => if Nat.eqb i k then 1 else 0) (seq start (length ls)))) =
  if Nat.leb start k then nth (k - start) ls 0 else 0.
Proof.
  unfold map2. induction ls as [|a ls IH]; intros k start.
  - simpl. destruct (Nat.leb start k); auto. now destruct (k - start)%nat.
  - cbn [length seq map combine vsum fold_right fst snd].
    change (fold_right Rplus 0 ?l) with (vsum l). rewrite IH.
    destruct (Nat.eqb start k) eqn:E.
    + apply Nat.eqb_eq in E. subst. rewrite Nat.leb_refl, Nat.sub_diag.
      replace (Nat.leb (S k) k) with false by (symmetry; apply Nat.leb_gt; lia). simpl. ring.
    + apply Nat.eqb_neq in E. destruct (Nat.leb start k) eqn:L.
      * apply Nat.leb_le in L. replace (Nat.leb (S start) k) with true by (symmetry; apply Nat.leb_le; lia).
        replace (k - start)%nat with (S (k - S start)) by lia. simpl. ring.
      * apply Nat.leb_gt in L. replace (Nat.leb (S start) k) with false by (symmetry; apply Nat.leb_gt; lia). ring.
Qed.

Lemma categorical_ok : forall ps k, positive ps -> (k < length ps)%nat ->
  categorical_log_prob ps k = ln (categorical_pmf ps k).
Proof.
  intros ps k Hp Hk. unfold categorical_log_prob, categorical_pmf, one_hot.
  replace (length ps) with (length (map ln ps)) by apply map_length.
  rewrite one_hot_dot_from. simpl. rewrite Nat.sub_0_r.
  rewrite nth_indep with (d' := ln 0) by (rewrite map_length; auto). apply map_nth.
Qed.

Lemma dirichlet_ok : forall a x, positive a -> positive x -> a <> [] -> length a = length x ->
  dirichlet_log_prob lgamma a x = ln (dirichlet_pdf G a x).
Proof.
  intros a x Ha Hx Hne Hlen. unfold dirichlet_log_prob, dirichlet_pdf.
  assert (Htot : 0 < total a).
  { destruct a as [|a0 a]; [congruence|]. inversion Ha; subst. simpl.
    assert (0 <= total a); [|lra]. clear - H2. induction H2; simpl; lra. }
  assert (Hpg : positive (map G a)).
  { unfold positive. rewrite Forall_map. eapply Forall_impl; [|exact Ha]. apply G_pos. }
  assert (Hpp : positive (map2 (fun ai xi => Rpower xi (ai - 1)) a x)).
  { unfold positive, map2. rewrite Forall_map. apply Forall_forall. intros. apply Rpower_pos. }
  rewrite ln_mult; [| |now apply product_pos].
  2:{ apply div_pos; [now apply G_pos|now apply product_pos]. }
  rewrite ln_div'; [|now apply G_pos|now apply product_pos].
  rewrite !ln_product by auto. change (vsum a) with (total a). rewrite Hlg by auto.
  assert (E1 : vsum (map (fun c => - lgamma c) a) = - total (map ln (map G a))).
  { clear - Ha Hlg HG. induction Ha; simpl; [ring|]. rewrite IHHa, Hlg by auto. ring. }
  assert (E2 : vsum (map2 (fun c v => (c - 1) * ln v) a x) =
               total (map ln (map2 (fun ai xi => Rpower xi (ai - 1)) a x))).
  { unfold map2. rewrite map_map. unfold vsum, total. f_equal. apply map_ext.
    intros [c v]. simpl. now rewrite ln_Rpower. }
  rewrite E1, E2. ring.
Qed.

Lemma exponential_ok : forall r x, 0 < r -> exponential_log_prob r x = ln (exponential_pdf r x).
Proof.
  intros. unfold exponential_log_prob, exponential_pdf. rewrite ln_mult; try pos. rewrite ln_exp. ring.
Qed.

Lemma gamma_ok : forall a b x, 0 < a -> 0 < b -> 0 < x ->
  gamma_log_prob lgamma a b x = ln (gamma_pdf G a b x).
Proof.
  intros a b x Ha Hb Hx. unfold gamma_log_prob, gamma_pdf. pose proof (G_pos a Ha).
  rewrite Hlg by lra. rewrite !ln_mult; try pos. rewrite ln_div'; try pos.
  rewrite !ln_Rpower, ln_exp. ring.
Qed.

Lemma inverse_gamma_ok : forall a b x, 0 < a -> 0 < b -> 0 < x ->
  inverse_gamma_log_prob lgamma a b x = ln (inverse_gamma_pdf G a b x).
Proof.
  intros a b x Ha Hb Hx. unfold inverse_gamma_log_prob, inverse_gamma_pdf. pose proof (G_pos a Ha).
  rewrite Hlg by lra. rewrite !ln_mult; try pos. rewrite ln_div'; try pos.
  rewrite !ln_Rpower, ln_exp. unfold Rdiv. ring.
Qed.

Lemma laplace_ok : forall m s x, 0 < s -> laplace_log_prob m s x = ln (laplace_pdf m s x).
Proof.
  intros. unfold laplace_log_prob, laplace_pdf. rewrite (ln_mult (/ _)); try pos.
  rewrite ln_inv' by lra. rewrite ln_exp. unfold Rdiv. ring.
Qed.

Lemma multinomial_ok : forall n ps ks, positive ps -> length ps = length ks ->
  multinomial_log_prob lgamma n ps ks = ln (multinomial_pmf n ps ks).
Proof.
  intros n ps ks Hp Hlen. unfold multinomial_log_prob, multinomial_pmf.
  assert (Hf : positive (map (fun k => INR (fact k)) ks)).
  { unfold positive. rewrite Forall_map. apply Forall_forall. intros. apply fact_pos. }
  assert (Hpp : positive (map2 pow ps ks)).
  { revert ks Hlen Hf. induction Hp; intros [|k ks] Hlen Hf; simpl in *; try discriminate; constructor.
    - simpl. now apply pow_lt.
    - inversion Hf; subst. apply IHHp; auto. }
  pose proof (fact_pos n).
  rewrite ln_mult; [| |now apply product_pos].
  2:{ apply div_pos; auto. now apply product_pos. }
  rewrite ln_div'; [|auto|now apply product_pos]. rewrite !ln_product by auto. rewrite lg_fact.
  assert (E1 : vsum (map (fun v => lgamma (INR v + 1)) ks) = total (map ln (map (fun k => INR (fact k)) ks))).
  { rewrite map_map. unfold vsum, total. f_equal. apply map_ext. intros. apply lg_fact. }
  assert (E2 : vsum (map2 (fun p v => ln p * INR v) ps ks) = total (map ln (map2 pow ps ks))).
  { clear - Hp Hlen. unfold map2, vsum, total. rewrite map_map. f_equal. apply map_ext_in.
    intros [p k] Hin. simpl. rewrite ln_pow_nat; [ring|]. unfold positive in Hp. rewrite Forall_forall in Hp.
    apply Hp. eapply in_combine_l; eauto. }
  rewrite E1, E2. ring.
Qed.

Lemma normal_ok : forall m s x, 0 < s -> normal_log_prob m s x = ln (normal_pdf m s x).
Proof.
  intros m s x Hs. unfold normal_log_prob, normal_pdf. pose proof PI_RGT_0.
  assert (0 < sqrt (2 * PI)) by (apply sqrt_lt_R0; lra).
  rewrite (ln_mult (/ _)); try pos. rewrite ln_inv' by pos. rewrite ln_exp.
  rewrite (ln_mult s) by auto.
  assert (E : ln (sqrt (2 * PI)) = / 2 * ln (2 * PI)).
  { assert (ln (2 * PI) = ln (sqrt (2 * PI) * sqrt (2 * PI))) by (rewrite sqrt_sqrt; lra).
    rewrite (ln_mult (sqrt _)) in H1 by auto. lra. }
  rewrite E. field. lra.
Qed.

Lemma mvn_diag_ok : forall m s x, positive s -> length m = length s -> length s = length x ->
  vsum (mvn_diag_log_prob m s x) = ln (mvn_diag_pdf m s x).
Proof.
  assert (Hpos : forall m s x, positive s -> 0 < mvn_diag_pdf m s x).
  { induction m; intros [|s0 s] [|x0 x] H; simpl; try lra. inversion H; subst.
    apply Rmult_lt_0_compat; auto. unfold normal_pdf. pose proof PI_RGT_0.
    assert (0 < sqrt (2 * PI)) by (apply sqrt_lt_R0; lra). pos. }
  induction m as [|m0 m IH]; intros [|s0 s] [|x0 x] Hs H1 H2; simpl in *; try discriminate.
  - now rewrite ln_1.
  - inversion Hs; subst. rewrite (ln_mult (normal_pdf _ _ _)); auto.
    + change (fold_right Rplus 0 ?l) with (vsum l). rewrite IH by auto.
      rewrite <- normal_ok by auto. reflexivity.
    + unfold normal_pdf. pose proof PI_RGT_0.
      assert (0 < sqrt (2 * PI)) by (apply sqrt_lt_R0; lra). pos.
Qed.

Lemma poisson_ok : forall r k, 0 < r -> poisson_log_prob lgamma r k = ln (poisson_pmf r k).
Proof.
  intros r k Hr. unfold poisson_log_prob, poisson_pmf. rewrite lg_fact. pose proof (fact_pos k).
  rewrite ln_div'; try pos. rewrite ln_mult; try pos. rewrite ln_exp, ln_pow_nat by auto. ring.
Qed.

(** ** Chi-squared *)

Lemma chi2_true : forall df x, 0 < df -> 0 < x ->
  ln (chi2_pdf G df x) = (df / 2 - 1) * ln x - x / 2 - (ln (G (df / 2)) + df / 2 * ln 2).
Proof.
  intros df x Hd Hx. unfold chi2_pdf. assert (0 < G (df / 2)) by (apply G_pos; lra).
  rewrite ln_div'; try pos. rewrite !ln_mult; try pos. rewrite !ln_Rpower, ln_exp. unfold Rdiv. ring.
Qed.

Lemma chi2_error : forall df x, 0 < df -> 0 < x ->
  chi2_log_prob lgamma df x = ln (chi2_pdf G df x) + (exp (- x / 2) + x / 2).
Proof.
  intros df x Hd Hx. rewrite chi2_true by auto. unfold chi2_log_prob.
  replace (/ 2 * df - 1 + 1) with (df / 2) by lra.
  rewrite Hlg by lra. replace (- / 2 * x) with (- x / 2) by lra. lra.
Qed.

Lemma chi2_wrong : forall df x, 0 < df -> 0 < x ->
  chi2_log_prob lgamma df x <> ln (chi2_pdf G df x).
Proof.
  intros df x Hd Hx H. rewrite chi2_error in H by auto. pose proof (exp_pos (- x / 2)). lra.
Qed.

(** ** Natural parameters *)

Lemma logistic_range : forall l, 0 < logistic l < 1.
Proof.
  intros l. unfold logistic. pose proof (exp_pos (- l)). split; [apply Rinv_0_lt_compat; lra|].
  apply Rmult_lt_reg_l with (1 + exp (- l)); [lra|]. rewrite Rinv_r by lra. lra.
Qed.

Lemma scalar_table_ok : forall s key eta d,
  scalar_table s key eta = Some d -> proper d -> ~ wrong_entry d ->
  exists c, is_log_density G d (fun x => dot eta (stats key x) + c).
Proof.
  intros s key eta d H Hp Hw.
  destruct s; destruct key as [|[] [|[] [|]]]; destruct eta as [|p1 [|p2 [|]]]; simpl in H;
    try discriminate; inversion H; subst; clear H; simpl in Hp, Hw; try (exfalso; apply Hw; exact I).
  - (* Bernoulli *)
    exists (ln (1 - logistic p1)). simpl. intros k Hk.
    pose proof (logistic_range p1) as Hr.
    destruct k as [|[|]]; [| |lia]; simpl; [ring|].
    assert (E : logistic p1 = exp p1 * (1 - logistic p1)).
    { unfold logistic. rewrite exp_Ropp. pose proof (exp_pos p1). field. split; lra. }
    rewrite E at 2. rewrite ln_mult; [|apply exp_pos|lra]. rewrite ln_exp. ring.
  - (* Beta *)
    destruct Hp as [Ha Hb]. exists (- ln (G (p2 + 1)) - ln (G (p1 + 1)) + ln (G (p2 + 1 + (p1 + 1)))).
    simpl. repeat split; auto. intros x Hx.
    rewrite <- beta_ok by auto. unfold beta_log_prob. rewrite !Hlg by lra. ring.
  - (* Exponential *)
    exists (ln (- p1)). simpl. repeat split; auto. intros x Hx.
    rewrite <- exponential_ok by auto. unfold exponential_log_prob. ring.
  - (* Gamma *)
    destruct Hp as [Ha Hb]. exists (- ln (G (p1 + 1)) + (p1 + 1) * ln (- p2)).
    simpl. repeat split; auto. intros x Hx.
    rewrite <- gamma_ok by auto. unfold gamma_log_prob. rewrite !Hlg by lra. ring.
  - (* inverse Gamma *)
    destruct Hp as [Ha Hb]. exists (- ln (G (- p2 - 1)) + (- p2 - 1) * ln (- p1)).
    simpl. repeat split; auto. intros x Hx.
    rewrite <- inverse_gamma_ok by auto. unfold inverse_gamma_log_prob. rewrite !Hlg by lra. ring.
  - (* Normal *)
    unfold normal_from_natural_params in *. cbv zeta in *. cbn [proper] in Hp.
    set (v := / 2 * / - p1) in *.
    assert (Hv : 0 < v).
    { destruct (Rlt_dec 0 v); auto. exfalso. rewrite sqrt_neg_0 in Hp; lra. }
    assert (Hp1 : p1 < 0).
    { destruct (Rlt_dec p1 0); auto. exfalso. destruct (Req_dec p1 0) as [->|].
      - unfold v in Hv. rewrite Ropp_0, Rinv_0 in Hv. lra.
      - assert (/ - p1 < 0) by (apply Rinv_lt_0_compat; lra). unfold v in Hv. lra. }
    assert (E : / v = 2 * - p1). { unfold v. field. lra. }
    clearbody v.
    exists (/ (v) * (- / 2 * (v * p2 * (v * p2))) - (ln (sqrt v) + / 2 * ln (2 * PI))).
    simpl. repeat split; auto. intros x.
    rewrite <- normal_ok by auto. unfold normal_log_prob. rewrite (sqrt_sqrt v) by lra.
    assert (E2 : / v * v = 1) by (field; lra).
    replace (/ v * (- / 2 * (x * x) - / 2 * (v * p2 * (v * p2)) + x * (v * p2))) with
      (/ v * (- / 2 * (x * x)) + / v * (- / 2 * (v * p2 * (v * p2))) + (/ v * v) * (x * p2)) by ring.
    rewrite E2, E. simpl. field.
Qed.

Lemma ln2_pos : 0 < ln 2. Proof. rewrite <- ln_1. apply ln_increasing; lra. Qed.

Lemma chi2_entry_wrong : forall p1, 0 < p1 + 1 -> forall c,
  ~ is_log_density G (DChi2 (2 * (p1 + 1))) (fun x => dot [p1] (stats [StLog] x) + c).
Proof.
  intros p1 Hp c [_ H]. unfold stats in H. simpl in H.
  pose proof (H 1 ltac:(lra)) as H1. pose proof (H 2 ltac:(lra)) as H2.
  rewrite chi2_true in H1, H2 by lra. rewrite ln_1 in H1.
  replace (2 * (p1 + 1) / 2) with (p1 + 1) in * by lra. lra.
Qed.

Lemma poisson_entry_wrong : forall p1 c,
  ~ is_log_density G (DPoisson (exp p1)) (fun x => dot [p1] (stats [StX] x) + c).
Proof.
  intros p1 c [Hr H]. unfold stats in H. simpl in H.
  pose proof (H 1%nat) as H1. pose proof (H 2%nat) as H2.
  assert (Hl : forall k, ln (poisson_pmf (exp p1) k) = INR k * p1 - exp p1 - ln (INR (fact k))).
  { intros k. unfold poisson_pmf. pose proof (fact_pos k). pose proof (exp_pos p1).
    rewrite ln_div'; try pos. rewrite ln_mult; try pos. rewrite ln_pow_nat by auto. rewrite !ln_exp. ring. }
  rewrite Hl in H1, H2. simpl in H1, H2.
  replace (1 + 1) with 2 in H2 by lra. rewrite ln_1 in H1. pose proof ln2_pos. lra.
Qed.

(** Vector entries. *)

Lemma softmax_nth : forall ls k, (k < length ls)%nat ->
  ln (categorical_pmf (softmax ls) k) = nth k ls 0 - ln (total (map exp ls)).
Proof.
  intros ls k Hk. unfold categorical_pmf, softmax.
  set (f := fun l => exp l / total (map exp ls)).
  rewrite nth_indep with (d' := f 0) by (rewrite map_length; auto). rewrite map_nth. unfold f.
  assert (0 < total (map exp ls)).
  { destruct ls; [simpl in Hk; lia|]. simpl. pose proof (exp_pos r).
    assert (0 <= total (map exp ls)); [|lra]. clear. induction ls; simpl; [lra|].
    pose proof (exp_pos a). lra. }
  rewrite ln_div' by (auto using exp_pos). now rewrite ln_exp.
Qed.

Lemma one_hot_eta : forall (ls : list R) k, (k < length ls)%nat ->
  vsum (map2 Rmult ls (one_hot k (length ls))) = nth k ls 0.
Proof. intros ls k Hk. unfold one_hot. rewrite one_hot_dot_from. simpl. now rewrite Nat.sub_0_r. Qed.

Lemma dirichlet_eta : forall p x, positive (map (fun q => q + 1) p) -> positive x -> p <> [] ->
  length p = length x ->
  ln (dirichlet_pdf G (map (fun q => q + 1) p) x) =
  vsum (map2 (fun q v => q * ln v) p x) +
  (vsum (map (fun q => - lgamma (q + 1)) p) + lgamma (vsum (map (fun q => q + 1) p))).
Proof.
  intros p x Hp Hx Hne Hlen. rewrite <- dirichlet_ok; auto.
  2:{ destruct p; [congruence|discriminate]. }
  2:{ now rewrite map_length. }
  unfold dirichlet_log_prob. rewrite map_map.
  assert (E : map2 (fun c v => (c - 1) * ln v) (map (fun q => q + 1) p) x = map2 (fun q v => q * ln v) p x).
  { unfold map2. revert x Hx Hlen. clear. induction p as [|q p IH]; intros [|v x] Hx Hlen; auto.
    simpl in *. inversion Hx; subst. f_equal; [ring|]. apply IH; auto. }
  rewrite E. ring.
Qed.

Lemma mvn_eta : forall p1 p2, Forall (fun p => p < 0) p1 -> length p1 = length p2 ->
  match mvn_diag_from_natural_params p1 p2 with
  | DMVNDiag m s => exists c, forall x, length x = length p1 ->
      ln (mvn_diag_pdf m s x) =
      vsum (map2 (fun p v => p * (v * v)) p1 x) + vsum (map2 Rmult p2 x) + c
  | _ => False
  end.
Proof.
  unfold mvn_diag_from_natural_params. intros p1 p2 H. revert p2.
  induction H as [|p p1 Hp H IH]; intros [|q p2] Hlen; try discriminate.
  - exists 0. intros [|] Hx; try discriminate. simpl. rewrite ln_1. ring.
  - simpl in Hlen. destruct (IH p2) as [c Hc]; [lia|].
    destruct (scalar_table_ok SupReal [StSquare; StX] [p; q] (normal_from_natural_params p q) eq_refl)
      as [c0 [Hs0 Hc0]]; simpl; auto.
    { apply sqrt_lt_R0. apply Rmult_lt_0_compat; [lra|]. apply Rinv_0_lt_compat. lra. }
    simpl in Hs0.
    exists (c0 + c). intros [|v x] Hx; [discriminate|]. simpl in Hx. unfold map2 in *.
    cbn [map combine fst snd mvn_diag_pdf].
    rewrite (ln_mult (normal_pdf _ _ _)).
    + rewrite Hc by lia. rewrite <- Hc0. unfold stats, vsum. simpl. ring.
    + unfold normal_pdf. pose proof PI_RGT_0. assert (0 < sqrt (2 * PI)) by (apply sqrt_lt_R0; lra). pos.
    + clear - H. revert p2 x. induction H as [|p p1 Hp H IH]; intros [|q p2] [|v x]; simpl; try lra.
      specialize (IH p2 x).
      apply Rmult_lt_0_compat; auto. unfold normal_pdf. pose proof PI_RGT_0.
      assert (0 < sqrt (2 * PI)) by (apply sqrt_lt_R0; lra).
      assert (0 < sqrt (/ 2 * / - p)).
      { apply sqrt_lt_R0. apply Rmult_lt_0_compat; [lra|]. apply Rinv_0_lt_compat. lra. }
      pos.
Qed.
End Gamma.

(** ** Special values *)

Lemma bernoulli_nan : bernoulli_log_prob_ext 1 1 = NaN /\ bernoulli_log_prob_ext 0 0 = NaN.
Proof.
  unfold bernoulli_log_prob_ext. split; simpl.
  - unfold Rminus. rewrite Rplus_opp_r. destruct (Rlt_dec 0 1); [|lra]. destruct (Rlt_dec 0 0); [lra|].
    destruct (Req_EM_T 0 0); [|lra]. simpl. unfold inf_times.
    destruct (Rlt_dec 0 0); [lra|]. destruct (Rlt_dec 0 0); [lra|]. reflexivity.
  - destruct (Rlt_dec 0 0); [lra|].
    destruct (Req_EM_T 0 0); [|lra]. simpl. unfold inf_times.
    destruct (Rlt_dec 0 0); [lra|]. destruct (Rlt_dec 0 0); [lra|]. reflexivity.
Qed.

Lemma eadd_nan_r : forall a, eadd a NaN = NaN. Proof. destruct a; reflexivity. Qed.

Lemma categorical_nan : forall ps k, In 0 ps -> nth k ps 0 <> 0 ->
  categorical_log_prob_ext ps k = NaN.
Proof.
  intros ps k Hin Hk. unfold categorical_log_prob_ext, one_hot.
  assert (Hg : forall l s, In 0 l -> (forall i, (s <= k)%nat -> k = (s + i)%nat -> nth i l 0 <> 0) ->
    esum (map2 emul (map (fun p => elog (Fin p)) l)
      (map Fin (map (fun i => if Nat.eqb i k then 1 else 0) (seq s (length l))))) = NaN).
  { induction l as [|a l IH]; intros s Hl Hn; [destruct Hl|].
    unfold map2. cbn [length seq map combine fst snd esum fold_right].
    destruct (Req_dec a 0) as [->|Ha].
    - assert (E : Nat.eqb s k = false).
      { apply Nat.eqb_neq. intros ->. apply (Hn 0%nat); [lia|lia|reflexivity]. }
      rewrite E. simpl. destruct (Rlt_dec 0 0); [lra|]. destruct (Req_EM_T 0 0); [|lra].
      simpl. unfold inf_times. destruct (Rlt_dec 0 0); [lra|]. destruct (Rlt_dec 0 0); [lra|]. reflexivity.
    - destruct Hl as [->|Hl]; [congruence|].
      specialize (IH (S s) Hl). unfold map2, esum in IH. rewrite IH; [apply eadd_nan_r|].
      intros i Hle Hi. apply (Hn (S i)); lia. }
  apply Hg; auto. intros i _ ->. auto.
Qed.

(** A function with the properties that are used of Gamma. *)
Definition some_gamma (x : R) : R := INR (fact (Z.to_nat (up x - 2))).
Lemma some_gamma_ok : gamma_function some_gamma.
Proof.
  split.
  - intros. apply fact_pos.
  - intros n. unfold some_gamma. f_equal. f_equal.
    replace (up (INR n + 1)) with (Z.of_nat n + 2)%Z; [lia|].
    apply tech_up; rewrite plus_IZR, <- INR_IZR_INZ; lra.
Qed.

(** ** In the form of ConjProps *)

Lemma log_probs_ok : forall G lgamma, gamma_function G -> log_gamma G lgamma ->
  (forall p k, 0 < p < 1 -> (k <= 1)%nat -> bernoulli_log_prob p k = ln (bernoulli_pmf p k)) /\
  (forall a b x, 0 < a -> 0 < b -> 0 < x < 1 -> beta_log_prob lgamma a b x = ln (beta_pdf G a b x)) /\
  (forall n p k, 0 < p < 1 -> (k <= n)%nat -> binomial_log_prob lgamma n p k = ln (binomial_pmf n p k)) /\
  (forall ps k, positive ps -> (k < length ps)%nat -> categorical_log_prob ps k = ln (categorical_pmf ps k)) /\
  (forall a x, positive a -> positive x -> a <> [] -> length a = length x ->
     dirichlet_log_prob lgamma a x = ln (dirichlet_pdf G a x)) /\
  (forall r x, 0 < r -> exponential_log_prob r x = ln (exponential_pdf r x)) /\
  (forall a b x, 0 < a -> 0 < b -> 0 < x -> gamma_log_prob lgamma a b x = ln (gamma_pdf G a b x)) /\
  (forall a b x, 0 < a -> 0 < b -> 0 < x ->
     inverse_gamma_log_prob lgamma a b x = ln (inverse_gamma_pdf G a b x)) /\
  (forall m s x, 0 < s -> laplace_log_prob m s x = ln (laplace_pdf m s x)) /\
  (forall n ps ks, positive ps -> length ps = length ks ->
     multinomial_log_prob lgamma n ps ks = ln (multinomial_pmf n ps ks)) /\
  (forall m s x, 0 < s -> normal_log_prob m s x = ln (normal_pdf m s x)) /\
  (forall m s x, positive s -> length m = length s -> length s = length x ->
     vsum (mvn_diag_log_prob m s x) = ln (mvn_diag_pdf m s x)) /\
  (forall r k, 0 < r -> poisson_log_prob lgamma r k = ln (poisson_pmf r k)).
Proof.
  intros G lgamma HG Hl.
  split; [intros; eapply bernoulli_ok; eauto|].
  split; [intros; eapply beta_ok; eauto|].
  split; [intros; eapply binomial_ok; eauto|].
  split; [intros; eapply categorical_ok; eauto|].
  split; [intros; eapply dirichlet_ok; eauto|].
  split; [intros; eapply exponential_ok; eauto|].
  split; [intros; eapply gamma_ok; eauto|].
  split; [intros; eapply inverse_gamma_ok; eauto|].
  split; [intros; eapply laplace_ok; eauto|].
  split; [intros; eapply multinomial_ok; eauto|].
  split; [intros; eapply normal_ok; eauto|].
  split; [intros; eapply mvn_diag_ok; eauto|].
  intros; eapply poisson_ok; eauto.
Qed.

Lemma scalar_entries_ok : forall G, gamma_function G ->
  forall sup key eta d,
  scalar_table sup key eta = Some d -> proper d -> ~ wrong_entry d ->
  exists c, is_log_density G d (fun x => dot eta (stats key x) + c).
Proof. intros G HG. exact (scalar_table_ok G (fun z => ln (G z)) HG (fun z _ => eq_refl)). Qed.

Lemma chi2_entry_refuted : forall G, gamma_function G ->
  forall p1, 0 < p1 + 1 -> exists d,
  scalar_table SupNonnegative [StLog] [p1] = Some d /\ proper d /\
  forall c, ~ is_log_density G d (fun x => dot [p1] (stats [StLog] x) + c).
Proof.
  intros G HG p1 Hp. exists (DChi2 (2 * (p1 + 1))). split; [reflexivity|]. split; [simpl; lra|].
  intros c. apply chi2_entry_wrong; auto.
Qed.

Lemma poisson_entry_refuted : forall G, gamma_function G ->
  forall p1, exists d,
  scalar_table SupCountable [StX] [p1] = Some d /\ proper d /\
  forall c, ~ is_log_density G d (fun x => dot [p1] (stats [StX] x) + c).
Proof.
  intros G HG p1. exists (DPoisson (exp p1)). split; [reflexivity|]. split; [simpl; apply exp_pos|].
  intros c. apply poisson_entry_wrong; auto.
Qed.

Lemma vector_entries_ok : forall G, gamma_function G ->
  (forall eta d, vector_table SupCategorical [StOneHot] [eta] = Some d ->
     exists ls c, d = DCategorical ls /\ forall k, (k < length eta)%nat ->
       ln (categorical_pmf (softmax ls) k) = vsum (map2 Rmult eta (one_hot k (length eta))) + c) /\
  (forall eta d, vector_table SupSimplex [StLog] [eta] = Some d -> proper d -> eta <> [] ->
     exists a c, d = DDirichlet a /\ forall x, positive x -> length eta = length x ->
       ln (dirichlet_pdf G a x) = vsum (map2 (fun q v => q * ln v) eta x) + c) /\
  (forall p1 p2 d, vector_table SupMultivariateReal [StSquare; StX] [p1; p2] = Some d ->
     Forall (fun p => p < 0) p1 -> length p1 = length p2 ->
     exists m s c, d = DMVNDiag m s /\ forall x, length x = length p1 ->
       ln (mvn_diag_pdf m s x) =
       vsum (map2 (fun p v => p * (v * v)) p1 x) + vsum (map2 Rmult p2 x) + c).
Proof.
  intros G HG. split; [|split].
  - intros eta d H. inversion H; subst. exists eta, (- ln (total (map exp eta))). split; auto.
    intros k Hk. rewrite softmax_nth, one_hot_eta by auto. ring.
  - intros eta d H Hp Hne. inversion H; subst. simpl in Hp. eexists. eexists. split; [reflexivity|].
    intros x Hx Hl. rewrite (dirichlet_eta G (fun z => ln (G z)) HG (fun z _ => eq_refl)) by auto. reflexivity.
  - intros p1 p2 d H Hn Hl. pose proof (mvn_eta G (fun z => ln (G z)) HG (fun z _ => eq_refl) p1 p2 Hn Hl) as M. simpl in H. inversion H; subst.
    destruct (mvn_diag_from_natural_params p1 p2); try contradiction.
    destruct M as [c Hc]. eexists. eexists. exists c. split; [reflexivity|]. exact Hc.
Qed.
