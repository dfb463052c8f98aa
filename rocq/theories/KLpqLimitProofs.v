(** * Proofs for C91. *)
From Coquelicot Require Import Coquelicot.
From Coq Require Import Reals List Arith Bool Lia Lra Psatz.
From Verif Require Import Feed Transform TransformProofs VI VISpec VIProofs VIGradProofs VIIntegralSpec VIIntegralProofs ForgetSpec ForgetProofs.
Import ListNotations.
Local Open Scope R_scope.
Set Bullet Behavior "Strict Subproofs".

(** ** Self-normalised averages *)
Section Ratio.
Context {A : Type}.
Variable D : A -> Prop.
Variable I : (A -> R) -> R -> Prop.
Hypothesis HI : integral D I.
Hypothesis HP : positive_integral D I.
Variable q : A -> R.
Hypothesis q_pos : forall x, D x -> 0 <= q x.
Hypothesis total : I q 1.

Lemma int_le : forall f g a b, (forall x, D x -> f x <= g x) -> I f a -> I g b -> a <= b.
Proof.
  intros f g a b H Hf Hg. pose proof (int_add _ _ HI _ _ _ _ Hg (int_scal _ _ HI (-1) _ _ Hf)) as Q.
  assert (0 <= b + -1 * a); [|lra]. refine (HP _ _ _ Q). intros x Hx. pose proof (H x Hx). lra.
Qed.
Lemma expected_le : forall n f g a b, (forall l, length l = n -> (forall x, In x l -> D x) -> f l <= g l) ->
  expected_by D I q n f a -> expected_by D I q n g b -> a <= b.
Proof.
  induction n as [|n IH]; intros f g a b H Hf Hg; cbn [expected_by] in *.
  - subst. apply H; [reflexivity|intros ? []].
  - destruct Hf as (h & F1 & F2), Hg as (k & G1 & G2). refine (int_le _ _ _ _ _ F2 G2). intros x Hx. apply Rmult_le_compat_l; [apply q_pos; exact Hx|]. apply (IH (fun l => f (x :: l)) (fun l => g (x :: l))); auto.
    intros l Hl Hi. apply H; [cbn; congruence|]. intros y [<-|Hy]; auto.
Qed.
Lemma expected_affine : forall n al be f a, expected_by D I q n f a -> expected_by D I q n (fun l => al * f l + be) (al * a + be).
Proof.
  induction n as [|n IH]; intros al be f a H; cbn [expected_by] in *; [subst; reflexivity|].
  destruct H as (h & F1 & F2). exists (fun x => al * h x + be). split.
  - intros x Hx. exact (IH al be (fun l => f (x :: l)) (h x) (F1 x Hx)).
  - pose proof (int_add _ _ HI _ _ _ _ (int_scal _ _ HI al _ _ F2) (int_scal _ _ HI be _ _ total)) as Q. rewrite Rmult_1_r in Q.
    apply (int_ext _ _ HI) with (2 := Q). intros x _. ring.
Qed.
Lemma expected_square : forall y m, I (fun x => q x * y x) 0 -> I (fun x => q x * (y x * y x)) m ->
  forall n c, expected_by D I q n (fun l => (c + sumR (map y l)) * (c + sumR (map y l))) (c * c + INR n * m).
Proof.
  intros y m H0 Hm. induction n as [|n IH]; intros c; [cbn; ring|]. cbn [expected_by].
  exists (fun x => (c + y x) * (c + y x) + INR n * m). split.
  - intros x _. apply (expected_by_ext D I q n (fun l => (c + y x + sumR (map y l)) * (c + y x + sumR (map y l)))); [intros; cbn; ring|apply IH].
  - pose proof (int_add _ _ HI _ _ _ _ (int_scal _ _ HI (c * c + INR n * m) _ _ total) (int_add _ _ HI _ _ _ _ (int_scal _ _ HI (2 * c) _ _ H0) Hm)) as Q.
    replace ((c * c + INR n * m) * 1 + (2 * c * 0 + m)) with (c * c + INR (S n) * m) in Q by (rewrite S_INR; ring).
    apply (int_ext _ _ HI) with (2 := Q). intros x _. ring.
Qed.

Variables W h : A -> R.
Variables low Z G m : R.
Hypothesis low_pos : 0 < low.
Hypothesis W_low : forall x, D x -> low <= W x.
Hypothesis HZ : I (fun x => q x * W x) Z.
Hypothesis HG : I (fun x => q x * (W x * h x)) G.
Let y (x : A) : R := W x * (h x - G / Z).
Hypothesis Hm : I (fun x => q x * (y x * y x)) m.

Lemma Z_pos : 0 < Z.
Proof.
  pose proof (int_scal _ _ HI low _ _ total) as Q. rewrite Rmult_1_r in Q. apply Rlt_le_trans with low; [exact low_pos|].
  refine (int_le _ _ _ _ _ Q HZ). intros x Hx. rewrite Rmult_comm. apply Rmult_le_compat_l; auto.
Qed.
Lemma y_mean : I (fun x => q x * y x) 0.
Proof.
  pose proof Z_pos. pose proof (int_add _ _ HI _ _ _ _ HG (int_scal _ _ HI (- (G / Z)) _ _ HZ)) as Q.
  replace (G + - (G / Z) * Z) with 0 in Q by (field; lra). apply (int_ext _ _ HI) with (2 := Q). intros x _. unfold y. ring.
Qed.
Lemma m_pos : 0 <= m.
Proof. refine (HP _ _ _ Hm). intros x Hx. apply Rmult_le_pos; [auto|]. nra. Qed.
Definition ratio (l : list A) : R := sumR (map (fun x => W x / sumR (map W l) * h x) l).
Lemma W_sum : forall l, (forall x, In x l -> D x) -> INR (length l) * low <= sumR (map W l).
Proof.
  induction l as [|x l IH]; intros H; [cbn; lra|]. cbn [map length]. rewrite S_INR. change (sumR (W x :: map W l)) with (W x + sumR (map W l)).
  pose proof (W_low x (H x (or_introl eq_refl))). specialize (IH (fun z Hz => H z (or_intror Hz))). lra.
Qed.
Lemma ratio_error : forall l, l <> [] -> (forall x, In x l -> D x) -> ratio l - G / Z = sumR (map y l) / sumR (map W l).
Proof.
  intros l Hne H. pose proof (W_sum l H) as L. assert (0 < INR (length l)) by (apply lt_0_INR; destruct l; [congruence|cbn; lia]).
  assert (P : 0 < sumR (map W l)) by nra. set (S := sumR (map W l)) in *.
  assert (E1 : ratio l = sumR (map (fun x => W x * h x) l) / S).
  { unfold ratio. fold S. unfold Rdiv at 2. rewrite Rmult_comm. rewrite <- (sumR_map_scal l (/ S) (fun x => W x * h x)). apply sumR_map_ext. intros x _. unfold Rdiv. ring. }
  assert (E2 : sumR (map y l) = sumR (map (fun x => W x * h x) l) - G / Z * S).
  { unfold S, y. pose proof (sumR_map_add l (fun x => W x * h x) (fun x => - (G / Z) * W x)) as Q. rewrite (sumR_map_scal l (- (G / Z)) W) in Q.
    transitivity (sumR (map (fun x => W x * h x + - (G / Z) * W x) l)); [apply sumR_map_ext; intros; ring|rewrite Q; ring]. }
  rewrite E1, E2. unfold Rdiv. pose proof Z_pos. field. repeat split; lra.
Qed.
Definition spread (n : nat) : R := (m + 1) / (2 * low) / sqrt (INR n).
Lemma ratio_close : forall n e, (0 < n)%nat -> expected_by D I q n ratio e -> Rabs (e - G / Z) <= spread n.
Proof.
  intros n e Hn He. assert (Pn : 0 < INR n) by (apply lt_0_INR; exact Hn). set (k := sqrt (INR n)). assert (Pk : 0 < k) by (apply sqrt_lt_R0; exact Pn).
  assert (Ek : k * k = INR n) by (apply sqrt_sqrt; lra).
  pose proof (expected_square y m y_mean Hm n 0) as Q. rewrite Rmult_0_l, Rplus_0_l in Q.
  set (al := / (INR n * low) * (/ k / 2)). set (be := / (INR n * low) * (k / 2)).
  assert (Pal : al * (INR n * m) + be = spread n).
  { unfold al, be, spread. fold k. rewrite <- Ek. field. repeat split; lra. }
  assert (U : forall l, length l = n -> (forall x, In x l -> D x) -> Rabs (ratio l - G / Z) <= al * ((0 + sumR (map y l)) * (0 + sumR (map y l))) + be).
  { intros l Hl H. rewrite Rplus_0_l. assert (Hne : l <> []) by (intros ->; cbn in Hl; lia). rewrite (ratio_error l Hne H). pose proof (W_sum l H) as L. rewrite Hl in L.
    assert (P : 0 < INR n * low) by (apply Rmult_lt_0_compat; assumption).
    unfold Rdiv. rewrite Rabs_mult, Rabs_inv, (Rabs_pos_eq (sumR (map W l))) by lra.
    set (t := sumR (map y l)). apply Rle_trans with (Rabs t * / (INR n * low)); [apply Rmult_le_compat_l; [apply Rabs_pos|apply Rinv_le_contravar; lra]|].
    unfold al, be. rewrite Rmult_comm. rewrite Rmult_assoc, <- Rmult_plus_distr_l. apply Rmult_le_compat_l; [left; apply Rinv_0_lt_compat; exact P|].
    assert (E : / k / 2 * (t * t) + k / 2 - Rabs t = / k / 2 * ((Rabs t - k) * (Rabs t - k))).
    { replace (t * t) with (Rabs t * Rabs t) by (rewrite <- Rabs_mult; apply Rabs_pos_eq; nra). field. lra. }
    assert (0 <= / k / 2 * ((Rabs t - k) * (Rabs t - k))); [|lra].
    apply Rmult_le_pos; [pose proof (Rinv_0_lt_compat k Pk); lra|apply Rle_0_sqr]. }
  apply Rabs_le. split.
  - pose proof (expected_affine n (-1) (G / Z) _ _ (expected_affine n al be _ _ Q)) as Q1. rewrite Pal in Q1.
    assert (-1 * spread n + G / Z <= e); [|lra]. refine (expected_le n _ _ _ _ _ Q1 He).
    intros l Hl H. specialize (U l Hl H). apply Rabs_le_between in U. cbv beta. lra.
  - pose proof (expected_affine n 1 (G / Z) _ _ (expected_affine n al be _ _ Q)) as Q1. rewrite Pal in Q1.
    assert (e <= 1 * spread n + G / Z); [|lra]. refine (expected_le n _ _ _ _ _ He Q1).
    intros l Hl H. specialize (U l Hl H). apply Rabs_le_between in U. cbv beta. lra.
Qed.
Lemma spread_cv : Un_cv (fun n => spread (S n)) 0.
Proof.
  intros eps E. set (c := (m + 1) / (2 * low)). assert (Pc : 0 < c) by (unfold c; pose proof m_pos; apply Rdiv_lt_0_compat; lra).
  destruct (archimed (c / eps * (c / eps))) as [U _]. assert (P2 : 0 < c / eps) by (apply Rdiv_lt_0_compat; lra).
  assert (Zp : (0 <= up (c / eps * (c / eps)))%Z) by (apply le_IZR; nra).
  exists (Z.to_nat (up (c / eps * (c / eps)))). intros n Hn. unfold R_dist, spread. fold c. rewrite Rminus_0_r.
  assert (B : c / eps * (c / eps) < INR (S n)).
  { eapply Rlt_le_trans; [exact U|]. rewrite <- (Z2Nat.id _ Zp), <- INR_IZR_INZ. apply le_INR. lia. }
  assert (K : c / eps < sqrt (INR (S n))) by (rewrite <- (sqrt_square (c / eps)) by lra; apply sqrt_lt_1; nra).
  rewrite Rabs_pos_eq by (left; apply Rdiv_lt_0_compat; lra).
  apply (Rmult_lt_reg_r (sqrt (INR (S n)))); [lra|]. unfold Rdiv. rewrite Rmult_assoc, Rinv_l by lra. rewrite Rmult_1_r.
  apply (Rmult_lt_compat_l eps) in K; [|exact E]. replace (eps * (c / eps)) with c in K by (field; lra). exact K.
Qed.
Lemma ratio_cv : forall e, (forall n, expected_by D I q (S n) ratio (e n)) -> Un_cv e (G / Z).
Proof.
  intros e He eps E. destruct (spread_cv eps E) as [N HN]. exists N. intros n Hn. specialize (HN n Hn). unfold R_dist in *. rewrite Rminus_0_r in HN.
  eapply Rle_lt_trans; [apply (ratio_close (S n) (e n) ltac:(lia) (He n))|]. eapply Rle_lt_trans; [apply Rle_abs|exact HN].
Qed.
End Ratio.

(** ** KLpq *)
Section Model.
Context {V A : Type}.
Variable log_prob : params -> nat -> list (nat * V) -> V -> list R.
Variable q_log_prob : params -> nat -> (nat -> V) -> V -> list R.
Variable latent : list (nat * nat).
Variable reg : params -> list R.
Variable D : A -> Prop.
Variable I : (A -> R) -> R -> Prop.
Hypothesis HI : integral D I.
Variable draw : A -> sample V.
Variable th : params.
Variable v : nat.
Let dens (t : params) (x : A) : R := draw_density q_log_prob latent (fun _ => 1) t (draw x).
Let lj (x : A) : R := log_joint log_prob latent [] th (draw x).
Let lq (t : params) (x : A) : R := log_q q_log_prob latent [] t (draw x).
Let score (x : A) : R := partial (fun t => lq t x) th v.
Let grad (l : list A) : R := gradient (pq_objective log_prob q_log_prob latent reg (fixed_draws (map draw l)) th) th v.
Hypothesis Hp : forall x, D x -> posed latent (draw x).

Lemma dens_pos : forall x, 0 <= dens th x.
Proof. intros x. unfold dens, draw_density. rewrite Rmult_1_l. left. apply exp_pos. Qed.
Lemma dens_weight : forall x, dens th x * exp (lj x - lq th x) = exp (lj x).
Proof. intros x. unfold dens, draw_density. rewrite Rmult_1_l, <- exp_plus. f_equal. unfold lq. ring. Qed.

Section Gradient.
Hypothesis Hq : forall x, D x -> differentiable (fun t => lq t x) th v.
Hypothesis Hr : differentiable (penalty reg) th v.

Lemma grad_ratio : forall l, l <> [] -> (forall x, In x l -> D x) ->
  grad l = -1 * ratio (fun x => exp (lj x - lq th x)) score l + partial (penalty reg) th v.
Proof.
  intros l Hne H. unfold grad.
  pose proof (pq_gradient log_prob q_log_prob latent reg (map draw l) th v ltac:(destruct l; [congruence|discriminate])
    ltac:(intros d Hd; apply in_map_iff in Hd; destruct Hd as (x & <- & Hx); auto)
    ltac:(intros d Hd; apply in_map_iff in Hd; destruct Hd as (x & <- & Hx); exact (Hq x (H x Hx))) Hr) as Q.
  cbv zeta in Q. rewrite Q. unfold ratio. rewrite !map_map. change (fun x => score x) with score. f_equal. ring_simplify. f_equal.
Qed.
Lemma score_zero : nearby (fun t => I (dens t) 1) th v -> interchange I dens th v -> I (fun x => dens th x * score x) 0.
Proof. intros H1 H2. exact (zero_score q_log_prob latent D I HI draw (fun _ => 1) th v Hq H1 H2). Qed.

Lemma flat_gradient : forall n c, (0 < n)%nat -> (n = 1%nat \/ forall x, D x -> lq th x = lj x - c) ->
  nearby (fun t => I (dens t) 1) th v -> interchange I dens th v ->
  expected_by D I (dens th) n grad (partial (penalty reg) th v).
Proof.
  intros n c Hn Hc H1 H2. pose proof (score_zero H1 H2) as S0.
  assert (T1 : I (dens th) 1) by (apply locally_singleton in H1; rewrite set_same in H1; exact H1).
  pose proof (int_scal _ _ HI (-1) _ _ S0) as S1. rewrite Rmult_0_r in S1.
  assert (S2 : I (fun x => dens th x * - score x) 0) by (apply (int_ext _ _ HI) with (2 := S1); intros; ring).
  pose proof (expected_by_average D I HI (dens th) T1 n (fun x => - score x) 0 (partial (penalty reg) th v) Hn S2) as Q. rewrite Rplus_0_r in Q.
  apply (expected_by_ext D I (dens th) n) with (2 := Q). intros l Hl H.
  assert (Hne : l <> []) by (intros ->; cbn in Hl; lia). rewrite (grad_ratio l Hne H), Rplus_comm. f_equal.
  unfold average, ratio. rewrite map_length, Hl. unfold Rdiv at 1. rewrite Rmult_comm. rewrite <- (sumR_map_scal l (/ INR n)), <- (sumR_map_scal l (-1)).
  apply sumR_map_ext. intros x Hx. assert (INR n <> 0) by (apply not_0_INR; lia). destruct Hc as [->|Hc].
  - destruct l as [|y [|? ?]]; try discriminate. destruct Hx as [->|[]]. cbn [map]. change (sumR [exp (lj x - lq th x)]) with (exp (lj x - lq th x) + 0).
    rewrite Rplus_0_r. cbn [INR]. field. apply Rgt_not_eq, exp_pos.
  - rewrite (sumR_map_ext l (fun x => exp (lj x - lq th x)) (fun _ => exp c)) by (intros y Hy; f_equal; rewrite (Hc y (H y Hy)); ring).
    replace (lj x - lq th x) with c by (rewrite (Hc x (H x Hx)); ring).
    assert (E : sumR (map (fun _ : A => exp c) l) = INR n * exp c).
    { rewrite <- Hl. clear. induction l as [|y l IH]; [cbn; ring|]. cbn [map length]. change (exp c + sumR (map (fun _ : A => exp c) l) = INR (S (length l)) * exp c). rewrite IH, S_INR. ring. }
    rewrite E. field. split; [apply Rgt_not_eq, exp_pos|assumption].
Qed.

Hypothesis HP : positive_integral D I.
Hypothesis Hone : I (dens th) 1.
Variables Z low : R.
Hypothesis HZ : I (fun x => exp (lj x)) Z.
Hypothesis Plow : 0 < low.
Hypothesis Hlow : forall x, D x -> low <= exp (lj x - lq th x).

Lemma HZ' : I (fun x => dens th x * exp (lj x - lq th x)) Z.
Proof. apply (int_ext _ _ HI) with (2 := HZ). intros x _. symmetry. apply dens_weight. Qed.
Lemma Zp : 0 < Z.
Proof. exact (Z_pos D I HI HP (dens th) (fun x _ => dens_pos x) Hone (fun x => exp (lj x - lq th x)) low Z Plow Hlow HZ'). Qed.


Lemma gradient_limit : forall (L : params -> R) m e,
  let F := fun t x => exp (lj x) / Z * (lj x - ln Z - lq t x) in
  interchange I F th v -> nearby (fun t => I (F t) (L t)) th v ->
  I (fun x => dens th x * Rsqr (exp (lj x - lq th x) * (score x + partial L th v))) m ->
  (forall n, expected_by D I (dens th) (S n) grad (e n)) ->
  differentiable L th v /\ Un_cv e (partial (fun t => L t + penalty reg t) th v).
Proof.
  intros L m e F (L' & d & N & DL & ID) NL Hm He. pose proof Zp as PZ.
  assert (D1 : is_derive (fun y => L (set_param th v y)) (th v) d).
  { apply (is_derive_ext_loc (fun y => L' (set_param th v y))); [|exact DL].
    eapply filter_imp; [|apply (filter_and _ _ N NL)]. intros y [A1 A2]. exact (int_unique _ _ HI _ _ _ A1 A2). }
  assert (E1 : partial L th v = d) by (apply is_derive_unique; exact D1). rewrite E1 in Hm.
  split; [exists d; exact D1|].
  assert (E2 : partial (fun t => L t + penalty reg t) th v = d + partial (penalty reg) th v).
  { unfold partial. apply is_derive_unique. apply (is_derive_plus (K := R_AbsRing) (V := R_NormedModule) (fun y => L (set_param th v y)) (fun y => penalty reg (set_param th v y))); [exact D1|].
    apply derive_of. exact Hr. }
  assert (HG : I (fun x => dens th x * (exp (lj x - lq th x) * score x)) (- Z * d)).
  { apply (int_ext _ _ HI (fun x => - Z * partial (fun t => F t x) th v)); [|apply (int_scal _ _ HI); exact ID].
    intros x Hx. rewrite <- Rmult_assoc, dens_weight.
    assert (E : partial (fun t => F t x) th v = exp (lj x) / Z * (0 - score x)).
    { unfold partial. apply is_derive_unique. unfold F. apply is_derive_scal.
      apply (is_derive_minus (K := R_AbsRing) (V := R_NormedModule) (fun _ => lj x - ln Z) (fun y => lq (set_param th v y) x)).
      - apply (is_derive_const (K := R_AbsRing) (V := R_NormedModule)).
      - apply derive_of. exact (Hq x Hx). }
    rewrite E. field. lra. }
  assert (EG : - Z * d / Z = - d) by (field; lra).
  assert (C : Un_cv (fun n => -1 * (e n - partial (penalty reg) th v)) (- Z * d / Z)).
  { apply (ratio_cv D I HI HP (dens th) (fun x _ => dens_pos x) Hone (fun x => exp (lj x - lq th x)) score low Z (- Z * d) m Plow Hlow HZ' HG).
    - apply (int_ext _ _ HI) with (2 := Hm). intros x _. unfold Rsqr. rewrite EG. replace (score x - - d) with (score x + d) by ring. reflexivity.
    - intros n. pose proof (expected_affine D I HI (dens th) Hone (S n) (-1) (partial (penalty reg) th v) _ _ (He n)) as Q.
      replace (-1 * (e n - partial (penalty reg) th v)) with (-1 * e n + partial (penalty reg) th v) by ring.
      apply (expected_by_ext D I (dens th) (S n)) with (2 := Q). intros l Hl H.
      assert (Hne : l <> []) by (intros ->; cbn in Hl; lia). rewrite (grad_ratio l Hne H). ring. }
  rewrite EG in C. rewrite E2. intros eps E. destruct (C eps E) as [N0 HN]. exists N0. intros n Hn. specialize (HN n Hn). unfold R_dist in *.
  rewrite <- Rabs_Ropp. match goal with |- Rabs ?a < _ => match type of HN with Rabs ?b < _ => replace a with b by ring end end. exact HN.
Qed.
End Gradient.

Section Loss.
Hypothesis HP : positive_integral D I.
Hypothesis Hone : I (dens th) 1.
Variables Z low : R.
Hypothesis HZ : I (fun x => exp (lj x)) Z.
Hypothesis Plow : 0 < low.
Hypothesis Hlow : forall x, D x -> low <= exp (lj x - lq th x).

Lemma loss_limit : forall KL m e,
  I (fun x => exp (lj x) / Z * (lj x - ln Z - lq th x)) KL ->
  I (fun x => dens th x * Rsqr (exp (lj x - lq th x) * (lj x - lq th x - (KL + ln Z)))) m ->
  (forall n, expected_by D I (dens th) (S n) (fun l => pq_loss log_prob q_log_prob latent reg (fixed_draws (map draw l)) th) (e n)) ->
  Un_cv e (KL + ln Z - penalty reg th).
Proof.
  intros KL m e HK Hm He. pose proof (Zp HP Hone Z low HZ Plow Hlow) as PZ.
  assert (HG : I (fun x => dens th x * (exp (lj x - lq th x) * (lj x - lq th x))) (Z * (KL + ln Z))).
  { pose proof (int_add _ _ HI _ _ _ _ (int_scal _ _ HI Z _ _ HK) (int_scal _ _ HI (ln Z) _ _ HZ)) as Q.
    replace (Z * KL + ln Z * Z) with (Z * (KL + ln Z)) in Q by ring.
    apply (int_ext _ _ HI) with (2 := Q). intros x Hx. transitivity (exp (lj x) * (lj x - lq th x)); [field; lra|]. rewrite <- (dens_weight x). ring. }
  assert (EG : Z * (KL + ln Z) / Z = KL + ln Z) by (field; lra).
  assert (C : Un_cv (fun n => e n + penalty reg th) (Z * (KL + ln Z) / Z)).
  { apply (ratio_cv D I HI HP (dens th) (fun x _ => dens_pos x) Hone (fun x => exp (lj x - lq th x)) (fun x => lj x - lq th x) low Z (Z * (KL + ln Z)) m Plow Hlow (HZ' Z HZ) HG).
    - apply (int_ext _ _ HI) with (2 := Hm). intros x _. unfold Rsqr. rewrite EG. reflexivity.
    - intros n. pose proof (expected_affine D I HI (dens th) Hone (S n) 1 (penalty reg th) _ _ (He n)) as Q. rewrite Rmult_1_l in Q.
      apply (expected_by_ext D I (dens th) (S n)) with (2 := Q). intros l Hl H.
      pose proof (pq_loss_spec log_prob q_log_prob latent reg (fixed_draws (map draw l)) th ltac:(destruct l; discriminate)
        ltac:(intros d Hd; unfold fixed_draws in Hd; rewrite map_map in Hd; apply in_map_iff in Hd; destruct Hd as (x & <- & Hx); auto)) as P.
      cbv zeta in P. rewrite P. unfold fixed_draws, ratio. rewrite !map_map. unfold lj, lq. ring. }
  rewrite EG in C. intros eps E. destruct (C eps E) as [N0 HN]. exists N0. intros n Hn. specialize (HN n Hn). unfold R_dist in *.
  match goal with |- Rabs ?a < _ => match type of HN with Rabs ?b < _ => replace a with b by ring end end. exact HN.
Qed.
End Loss.
End Model.

(** ** Finite spaces *)
Lemma finite_low : forall {A} (f : A -> R) (l : list A), (forall x, 0 < f x) -> exists low, 0 < low /\ forall x, In x l -> low <= f x.
Proof.
  intros A f l H. induction l as [|x l (low & P & Q)]; [exists 1; split; [lra|intros ? []]|].
  exists (Rmin (f x) low). split; [apply Rmin_glb_lt; auto|]. intros y [<-|Hy]; [apply Rmin_l|]. eapply Rle_trans; [apply Rmin_r|auto].
Qed.
Lemma finite_limit : forall {V A} (log_prob : params -> nat -> list (nat * V) -> V -> list R) q_log_prob latent reg (space : list A) (draw : A -> sample V) th v,
  let dens := fun x => draw_density q_log_prob latent (fun _ => 1) th (draw x) in
  let lj := fun x => log_joint log_prob latent [] th (draw x) in
  let lq := fun t x => log_q q_log_prob latent [] t (draw x) in
  let Z := sumR (map (fun x => exp (lj x)) space) in
  let KL := fun t => sumR (map (fun x => exp (lj x) / Z * (ln (exp (lj x) / Z) - lq t x)) space) in
  (forall x, In x space -> posed latent (draw x)) -> (forall x, In x space -> differentiable (fun t => lq t x) th v) ->
  differentiable (penalty reg) th v -> sumR (map dens space) = 1 ->
  Un_cv (fun n => expected space dens (S n) (fun l => gradient (pq_objective log_prob q_log_prob latent reg (fixed_draws (map draw l)) th) th v))
    (partial (fun t => KL t + penalty reg t) th v) /\
  Un_cv (fun n => expected space dens (S n) (fun l => pq_loss log_prob q_log_prob latent reg (fixed_draws (map draw l)) th))
    (KL th + ln Z - penalty reg th).
Proof.
  intros V A log_prob q_log_prob latent reg space draw th v dens lj lq Z KL Hp Hq Hr H1.
  destruct (finite_low (fun x => exp (lj x - lq th x)) space (fun x => exp_pos _)) as (low & Plow & Hlow).
  pose proof (sum_integral space) as HI. pose proof (by_sum_positive space) as HP.
  assert (PZ : 0 < Z) by exact (Zp log_prob q_log_prob latent (fun x => In x space) (by_sum space) HI draw th HP H1 Z low eq_refl Plow Hlow).
  assert (EK : forall t, KL t = sumR (map (fun x => exp (lj x) / Z * (lj x - ln Z - lq t x)) space)).
  { intros t. unfold KL. apply sumR_map_ext. intros x _. unfold Rdiv at 2. rewrite ln_mult, ln_exp, ln_Rinv by (try apply exp_pos; try apply Rinv_0_lt_compat; assumption). reflexivity. }
  split.
  - refine (proj2 (gradient_limit log_prob q_log_prob latent reg (fun x => In x space) (by_sum space) HI draw th v Hp Hq Hr HP H1 Z low eq_refl Plow Hlow KL _ _ _ _ eq_refl _)).
    + apply interchange_sum. intros x Hx. unfold differentiable.
      apply (ex_derive_scal (fun y => lj x - ln Z - lq (set_param th v y) x)). apply (ex_derive_minus (K := R_AbsRing) (V := R_NormedModule) (fun _ => lj x - ln Z)); [apply ex_derive_const|].
      exact (Hq x Hx).
    + unfold nearby. apply filter_forall. intros y. unfold by_sum. symmetry. apply EK.
    + intros n. apply expected_by_finite.
  - refine (loss_limit log_prob q_log_prob latent reg (fun x => In x space) (by_sum space) HI draw th Hp HP H1 Z low eq_refl Plow Hlow (KL th) _ _ _ eq_refl _).
    + unfold by_sum. symmetry. apply EK.
    + intros n. apply expected_by_finite.
Qed.

(** ** One sample: a coin *)
(** Variable 0 is fair; its approximation 10 is true with the probability that
    variable 0 of the optimiser holds; variable 2 was observed to be true, which has
    probability 3/4 if variable 0 is true and 1/4 if not. *)
Definition cq (th : params) (q : nat) (_ : nat -> bool) (b : bool) : list R := [ln (if b then th 0%nat else 1 - th 0%nat)].
Definition cp (th : params) (z : nat) (d : list (nat * bool)) (b : bool) : list R :=
  match z with
  | 0%nat => [ln (1 / 2)]
  | _ => [ln (match Feed.dict_get d 0 with Some true => 3 / 4 | _ => 1 / 4 end)]
  end.
Definition clat : list (nat * nat) := [(0, 10)]%nat.
Definition cdraw (b : bool) : sample bool := mksample (fun _ => b) [(2%nat, true)] (fun _ => true).
Definition cth : params := fun _ => 1 / 2.
Definition coin : list bool := [true; false].
Definition posterior (b : bool) : R := if b then 3 / 4 else 1 / 4.
Lemma cposed : forall b, posed clat (cdraw b).
Proof. intros b. unfold posed. cbn. repeat split; [repeat constructor; cbn; intuition discriminate|repeat constructor; cbn; intuition discriminate|]. intros k [<-|[]] [E|[]]; discriminate. Qed.
Lemma clq : forall t b, log_q cq clat [] t (cdraw b) = ln (if b then t 0%nat else 1 - t 0%nat).
Proof. intros t b. unfold log_q. cbn. ring. Qed.
Lemma clj : forall b, exp (log_joint cp clat [] cth (cdraw b)) = posterior b / 2.
Proof. intros b. unfold log_joint, scaled_sum. destruct b; cbn; rewrite !Rplus_0_r, !Rmult_1_l, exp_plus, !exp_ln by lra; field. Qed.
Lemma cder : forall b : bool, is_derive (fun y : R => ln (if b then y else 1 - y)) (1 / 2) (if b then 2 else - 2).
Proof. intros [|]; (auto_derive; [repeat split; lra|field; lra]). Qed.
Lemma cdiff : forall b, differentiable (fun t => log_q cq clat [] t (cdraw b)) cth 0.
Proof.
  intros b. exists (if b then 2 else - 2). apply (is_derive_ext (fun y => ln (if b then y else 1 - y))); [|exact (cder b)]. intros y. rewrite clq. reflexivity.
Qed.
Lemma cnear : nearby (fun t => by_sum coin (fun b => draw_density cq clat (fun _ : sample bool => 1) t (cdraw b)) 1) cth 0.
Proof.
  unfold nearby. assert (P : 0 < 1 / 4) by lra. exists (mkposreal _ P). intros y Hy. unfold ball in Hy. cbn in Hy. unfold AbsRing_ball, abs, minus, plus, opp in Hy. cbn in Hy.
  apply Rabs_def2 in Hy. unfold cth in Hy. unfold by_sum, coin, draw_density. cbn [map sumR]. rewrite !clq. unfold set_param. cbn. rewrite !exp_ln by lra. ring.
Qed.
Lemma ctotal : sumR (map (fun b => draw_density cq clat (fun _ : sample bool => 1) cth (cdraw b)) coin) = 1.
Proof. pose proof cnear as H. apply locally_singleton in H. rewrite set_same in H. exact H. Qed.
Definition no_penalty : params -> list R := fun _ => [].
Lemma no_penalty_diff : forall th v, differentiable (penalty no_penalty) th v /\ partial (penalty no_penalty) th v = 0.
Proof. intros th v. split; [exists 0; apply (is_derive_const (K := R_AbsRing) (V := R_NormedModule) 0)|exact (Derive_const 0 (th v))]. Qed.
Lemma one_sample_coin :
  let dens := fun b => draw_density cq clat (fun _ : sample bool => 1) cth (cdraw b) in
  let lj := fun b => log_joint cp clat [] cth (cdraw b) in
  (forall b, In b coin -> posed clat (cdraw b) /\ differentiable (fun t => log_q cq clat [] t (cdraw b)) cth 0) /\
  sumR (map dens coin) = 1 /\ (let Z := sumR (map (fun b => exp (lj b)) coin) in forall b, exp (lj b) / Z = posterior b) /\
  expected coin dens 1 (fun l => gradient (pq_objective cp cq clat no_penalty (fixed_draws (map cdraw l)) cth) cth 0) = 0 /\
  partial (fun t => sumR (map (fun b => posterior b * (ln (posterior b) - log_q cq clat [] t (cdraw b))) coin)) cth 0 = -1.
Proof.
  intros dens lj. split; [intros b _; split; [apply cposed|apply cdiff]|]. split; [exact ctotal|]. split.
  - intros Z b. unfold Z, lj, coin. cbn [map sumR]. rewrite !clj. destruct b; cbn; field.
  - split.
    + pose proof (flat_gradient cp cq clat no_penalty (fun b => In b coin) (by_sum coin) (sum_integral coin) cdraw cth 0 (fun b _ => cposed b) (fun b _ => cdiff b) (proj1 (no_penalty_diff cth 0)) 1 0 ltac:(lia) (or_introl eq_refl) cnear
        ltac:(apply interchange_sum; intros b _; exists (1 * (if b then 2 else -2) * exp (ln (if b then 1 / 2 else 1 - 1 / 2)));
          apply (is_derive_ext (fun y => 1 * exp (ln (if b then y else 1 - y)))); [intros y; unfold draw_density; rewrite clq; reflexivity|];
          rewrite Rmult_assoc; apply is_derive_scal; apply (is_derive_comp exp (fun y => ln (if b then y else 1 - y))); [apply is_derive_exp|exact (cder b)])) as Q.
      rewrite (proj2 (no_penalty_diff cth 0)) in Q.
      exact (expected_by_unique _ _ (sum_integral coin) _ 1 _ _ _ (expected_by_finite coin dens 1 _) Q).
    + unfold partial. apply is_derive_unique. unfold coin. cbn [map sumR].
      apply (is_derive_ext (fun y => 3 / 4 * (ln (3 / 4) - ln y) + (1 / 4 * (ln (1 / 4) - ln (1 - y)) + 0))); [intros y; rewrite !clq; reflexivity|].
      unfold cth. auto_derive; [repeat split; lra|field; lra].
Qed.
Lemma one_sample_refuted : exists (log_prob : params -> nat -> list (nat * bool) -> bool -> list R) q_log_prob latent (space : list bool) draw th v,
  let dens := fun x => draw_density q_log_prob latent (fun _ => 1) th (draw x) in
  let lj := fun x => log_joint log_prob latent [] th (draw x) in
  let lq := fun t x => log_q q_log_prob latent [] t (draw x) in
  let Z := sumR (map (fun x => exp (lj x)) space) in
  let KL := fun t => sumR (map (fun x => exp (lj x) / Z * (ln (exp (lj x) / Z) - lq t x)) space) in
  (forall x, In x space -> posed latent (draw x)) /\ (forall x, In x space -> differentiable (fun t => lq t x) th v) /\
  sumR (map dens space) = 1 /\
  expected space dens 1 (fun l => gradient (pq_objective log_prob q_log_prob latent no_penalty (fixed_draws (map draw l)) th) th v) = 0 /\
  partial KL th v = -1.
Proof.
  exists cp, cq, clat, coin, cdraw, cth, 0%nat. destruct one_sample_coin as (H & T & P & E & G). intros dens lj lq Z KL.
  split; [intros x Hx; apply H; exact Hx|]. split; [intros x Hx; apply H; exact Hx|]. split; [exact T|]. split; [exact E|].
  rewrite <- G. unfold partial. apply Derive_ext. intros y. unfold KL. apply sumR_map_ext. intros x _. unfold Z, lj, lq. rewrite (P x). reflexivity.
Qed.
Lemma coin_posterior : forall b, log_q cq clat [] (fun _ => 3 / 4) (cdraw b) = log_joint cp clat [] cth (cdraw b) - ln (1 / 2).
Proof.
  intros b. rewrite clq. apply exp_inv. unfold Rminus at 2. rewrite exp_plus, clj, exp_Ropp, !exp_ln by (destruct b; lra). destruct b; cbn; field.
Qed.
