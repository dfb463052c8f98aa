(** * Proofs for C88. *)
From Coq Require Import Reals List Arith Lra Lia Psatz.
From Verif Require Import Ext Feed MonteCarlo MonteCarloSpec Transform HMC HMCSpec HMCProofs SGLD SGLDSpec SGLDProofs SamplerProofs StepsSpec SGLDLimitSpec SGLDLimitProofs.
From Verif Require Import SGHMCLimitSpec.
Import ListNotations.
Local Open Scope R_scope.
Set Bullet Behavior "Strict Subproofs".

Lemma unbounded : forall b, exists n, b < INR n.
Proof.
  intros b. destruct (archimed (Rabs b)) as [U _]. pose proof (Rabs_pos b). pose proof (Rle_abs b).
  exists (Z.to_nat (up (Rabs b))). rewrite INR_IZR_INZ, Z2Nat.id; [lra|]. apply le_IZR. lra.
Qed.

(** ** Linear recurrences of order two *)
Section Recurrence.
Variables t d : R.

Definition recurs (m : nat -> R) : Prop := forall n, m (S (S n)) = t * m (S n) - d * m n.

Definition gam : R := (1 + d) / ((1 - d) * ((1 + d) * (1 + d) - t * t)).
Definition bet : R := - 2 * gam * t * d / (1 + d).
Definition alp : R := 1 + gam * (d * d).
Definition form (u v : R) : R := alp * (u * u) + bet * (u * v) + gam * (v * v).

Section Stable.
Hypothesis D1 : -1 < d < 1.
Hypothesis T1 : - (1 + d) < t < 1 + d.

Lemma gam_den : 0 < (1 + d) * (1 + d) - t * t.
Proof. replace ((1 + d) * (1 + d) - t * t) with ((1 + d - t) * (1 + d + t)) by ring. apply Rmult_lt_0_compat; lra. Qed.
Lemma gam_pos : 0 < gam.
Proof.
  pose proof gam_den. unfold gam. apply Rmult_lt_0_compat; [lra|]. apply Rinv_0_lt_compat. apply Rmult_lt_0_compat; lra.
Qed.

Lemma form_step : forall u v, form u v - form v (t * v - d * u) = u * u.
Proof.
  intros u v. pose proof gam_den. unfold form, alp, bet, gam. field. repeat split; lra.
Qed.

Lemma form_pos : forall u v, 0 <= form u v.
Proof.
  intros u v. pose proof gam_pos as G. pose proof gam_den as D.
  apply (Rmult_le_reg_l gam); [exact G|]. rewrite Rmult_0_r.
  set (r := t / (1 + d)).
  assert (Er : 0 <= 1 - r * r).
  { replace (1 - r * r) with (((1 + d) * (1 + d) - t * t) * / ((1 + d) * (1 + d))) by (unfold r; field; lra).
    apply Rmult_le_pos; [lra|]. left. apply Rinv_0_lt_compat. apply Rmult_lt_0_compat; lra. }
  replace (gam * form u v) with ((gam * (v - d * r * u)) * (gam * (v - d * r * u)) + (gam + (gam * d) * (gam * d) * (1 - r * r)) * (u * u)).
  - apply Rplus_le_le_0_compat; [apply Rle_0_sqr|]. apply Rmult_le_pos; [|apply Rle_0_sqr].
    apply Rplus_le_le_0_compat; [lra|]. apply Rmult_le_pos; [apply Rle_0_sqr|exact Er].
  - unfold form, alp, bet, r. field. lra.
Qed.

Lemma form_sum : forall m, recurs m -> forall n, partial_sum (fun i => m i * m i) n = form (m 0%nat) (m 1%nat) - form (m n) (m (S n)).
Proof.
  intros m H. induction n as [|n IH]; cbn [partial_sum]; [ring|]. rewrite IH, (H n). rewrite <- (form_step (m n) (m (S n))). ring.
Qed.

Lemma recurs_squares : forall m, recurs m -> Un_cv (fun n => m n * m n) 0.
Proof.
  intros m H eps E.
  destruct (tail_small (fun i => m i * m i)) with (eps := eps) as [M HM].
  - intros n. apply Rle_0_sqr.
  - exists (form (m 0%nat) (m 1%nat)). intros n. rewrite (form_sum m H). pose proof (form_pos (m n) (m (S n))). lra.
  - exact E.
  - exists M. intros n Hn. unfold R_dist. rewrite Rminus_0_r, Rabs_pos_eq by apply Rle_0_sqr.
    pose proof (HM (S n) ltac:(lia)) as A. cbn [partial_sum] in A.
    pose proof (sum_grows (fun i => m i * m i) (fun i => Rle_0_sqr (m i)) M n Hn). lra.
Qed.

Lemma recurs_cv : forall m, recurs m -> Un_cv m 0.
Proof.
  intros m H eps E. destruct (recurs_squares m H (eps * eps)) as [M HM]; [apply Rmult_lt_0_compat; exact E|].
  exists M. intros n Hn. specialize (HM n Hn). unfold R_dist in *. rewrite Rminus_0_r in *. rewrite Rabs_pos_eq in HM by apply Rle_0_sqr.
  apply Rsqr_lt_abs_0 in HM. rewrite (Rabs_pos_eq eps) in HM by lra. exact HM.
Qed.

Lemma recurs_sum : forall m, recurs m -> Un_cv (fun n => partial_sum (fun i => m i * m i) n) (form (m 0%nat) (m 1%nat)).
Proof.
  intros m H. pose proof (recurs_cv m H) as C.
  assert (C1 : Un_cv (fun n => m (S n)) 0) by (intros eps E; destruct (C eps E) as [M HM]; exists M; intros n Hn; apply HM; lia).
  assert (F : Un_cv (fun n => form (m n) (m (S n))) (form 0 0)).
  { unfold form. repeat apply CV_plus; (apply CV_mult; [intros eps E; exists 0%nat; intros; unfold R_dist; rewrite Rminus_eq_0, Rabs_R0; exact E|apply CV_mult; assumption]). }
  replace (form 0 0) with 0 in F by (unfold form; ring).
  intros eps E. destruct (F eps E) as [M HM]. exists M. intros n Hn. specialize (HM n Hn). unfold R_dist in *. rewrite (form_sum m H).
  replace (form (m 0%nat) (m 1%nat) - form (m n) (m (S n)) - form (m 0%nat) (m 1%nat)) with (- (form (m n) (m (S n)) - 0)) by ring. rewrite Rabs_Ropp. exact HM.
Qed.
End Stable.

Lemma casorati : forall m, recurs m -> forall n, m (S n) * m (S n) - m n * m (S (S n)) = d ^ n * (m 1%nat * m 1%nat - m 0%nat * m 2%nat).
Proof.
  intros m H. induction n as [|n IH]; [cbn [pow]; ring|]. cbn [pow]. rewrite Rmult_assoc, <- IH. rewrite (H (S n)), (H n). ring.
Qed.

Lemma recurs_infinity : 1 <= d -> forall m, recurs m -> m 0%nat = 0 -> m 1%nat = 1 -> cv_infty (fun n => partial_sum (fun i => m i * m i) n).
Proof.
  intros D m H M0 M1.
  assert (G : forall n, 1 <= m n * m n + m (S n) * m (S n) + m (S (S n)) * m (S (S n))).
  { intros n. pose proof (casorati m H n) as C. rewrite M0, M1 in C. pose proof (pow_R1_Rle d n D).
    pose proof (Rle_0_sqr (m n + m (S (S n)))) as Q. unfold Rsqr in Q. pose proof (Rle_0_sqr (m n)) as Q1. pose proof (Rle_0_sqr (m (S (S n)))) as Q2. unfold Rsqr in *. nra. }
  assert (B : forall n, INR n <= partial_sum (fun i => m i * m i) (3 * n)).
  { induction n as [|n IH]; [cbn; lra|]. replace (3 * S n)%nat with (S (S (S (3 * n)))) by lia. cbn [partial_sum]. rewrite S_INR. pose proof (G (3 * n)%nat). lra. }
  intros b. destruct (unbounded b) as [N HN]. exists (3 * N)%nat. intros n Hn.
  pose proof (B N). pose proof (sum_grows (fun i => m i * m i) (fun i => Rle_0_sqr (m i)) (3 * N) n Hn). lra.
Qed.
End Recurrence.

(** ** The coefficients *)
Fixpoint pair_of (t d : R) (u v : R) (n : nat) : R * R :=
  match n with O => (u, v) | S k => let p := pair_of t d u v k in (snd p, t * snd p - d * fst p) end.
Definition solution t d u v n := fst (pair_of t d u v n).
Lemma solution_recurs : forall t d u v, recurs t d (solution t d u v).
Proof. intros t d u v n. unfold solution. cbn. reflexivity. Qed.

Lemma partial_shift : forall f n, partial_sum f (S n) = f 0%nat + partial_sum (fun i => f (S i)) n.
Proof. intros f. induction n as [|n IH]; [cbn; ring|]. cbn [partial_sum] in *. rewrite IH. ring. Qed.
Lemma partial_rev : forall f n, partial_sum (fun i => f (n - 1 - i)%nat) n = partial_sum f n.
Proof.
  intros f. induction n as [|n IH]; [reflexivity|]. rewrite partial_shift. cbn [partial_sum]. replace (S n - 1 - 0)%nat with n by lia. rewrite <- IH, Rplus_comm.
  f_equal. apply partial_ext. intros i Hi. f_equal. lia.
Qed.
Lemma partial_plus : forall f g n, partial_sum (fun i => f i + g i) n = partial_sum f n + partial_sum g n.
Proof. intros f g. induction n as [|n IH]; cbn [partial_sum]; [ring|]. rewrite IH. ring. Qed.

Section Chain.
Variables h f s2 : R.
Hypothesis Ph : 0 < h.
Hypothesis Pf : 0 < f < 4.
Hypothesis P2 : 0 < s2.
Notation k := (h / s2).
Notation t := (2 - f / 2).
Notation d := (1 - f / 2 + k).
Definition hm_weight : nat -> R := solution t d 1 1.
Definition hm_coef (n i : nat) : R := sqrt (h * f) * solution t d 0 1 (n - 1 - i).

Lemma k_pos : 0 < k. Proof. apply Rmult_lt_0_compat; [exact Ph|apply Rinv_0_lt_compat; exact P2]. Qed.

Lemma hm_sum : forall n, partial_sum (fun i => hm_coef n i * hm_coef n i) n = h * f * partial_sum (fun i => solution t d 0 1 i * solution t d 0 1 i) n.
Proof.
  intros n. rewrite <- partial_scal. rewrite <- (partial_rev (fun i => h * f * _)). apply partial_ext. intros i Hi. unfold hm_coef.
  rewrite <- (sqrt_sqrt (h * f)) at 3 by (apply Rmult_le_pos; lra). ring.
Qed.

Lemma hm_stable : k < f / 2 -> Un_cv hm_weight 0 /\ Un_cv (fun n => partial_sum (fun i => hm_coef n i * hm_coef n i) n) (stationary_variance h f s2).
Proof.
  intros K. pose proof k_pos as K0.
  assert (D1 : -1 < d < 1) by lra. assert (T1 : - (1 + d) < t < 1 + d) by lra.
  split; [apply (recurs_cv t d D1 T1), solution_recurs|].
  pose proof (recurs_sum t d D1 T1 _ (solution_recurs t d 0 1)) as C.
  assert (V : stationary_variance h f s2 = h * f * form t d 0 1).
  { unfold form, gam, stationary_variance. pose proof (gam_den t d T1) as G.
    replace ((1 + d) * (1 + d) - t * t) with (k * (4 - f + k)) in * by (field; lra).
    replace (1 - d) with (f / 2 - k) by ring. replace (1 + d) with (2 - f / 2 + k) by ring.
    replace (h * f) with (k * s2 * f) by (field; lra). set (q := k) in *. clearbody q. field. repeat split; lra. }
  rewrite V. change (form t d 0 1) with (form t d (solution t d 0 1 0%nat) (solution t d 0 1 1%nat)).
  intros eps E.
  assert (Z : Un_cv (fun n => h * f * partial_sum (fun i => solution t d 0 1 i * solution t d 0 1 i) n) (h * f * form t d (solution t d 0 1 0%nat) (solution t d 0 1 1%nat))).
  { apply CV_mult; [intros e0 E0; exists 0%nat; intros; unfold R_dist; rewrite Rminus_eq_0, Rabs_R0; exact E0|exact C]. }
  destruct (Z eps E) as [M HM]. exists M. intros n Hn. rewrite hm_sum. exact (HM n Hn).
Qed.

Lemma hm_unstable : f / 2 <= k -> cv_infty (fun n => partial_sum (fun i => hm_coef n i * hm_coef n i) n).
Proof.
  intros K b. assert (P : 0 < h * f) by (apply Rmult_lt_0_compat; lra).
  destruct (recurs_infinity t d ltac:(lra) _ (solution_recurs t d 0 1) eq_refl eq_refl (b / (h * f))) as [N HN]. exists N. intros n Hn. rewrite hm_sum.
  specialize (HN n Hn). apply (Rmult_lt_compat_l (h * f)) in HN; [|exact P]. replace (h * f * (b / (h * f))) with b in HN by (field; lra). exact HN.
Qed.

Lemma hm_bias : k < f / 2 -> s2 < stationary_variance h f s2.
Proof.
  intros K. pose proof k_pos as K0.
  assert (P : 0 < (f / 2 - k) * (4 - f + k)) by (apply Rmult_lt_0_compat; lra).
  unfold stationary_variance. apply (Rmult_lt_reg_r ((f / 2 - k) * (4 - f + k))); [exact P|].
  replace (s2 * (f * (2 - f / 2 + k)) / ((f / 2 - k) * (4 - f + k)) * ((f / 2 - k) * (4 - f + k))) with (s2 * (f * (2 - f / 2 + k)))
    by (generalize dependent k; intros q; intros; field; split; lra).
  apply Rmult_lt_compat_l; [exact P2|].
  replace (f * (2 - f / 2 + k)) with ((f / 2 - k) * (4 - f + k) + k * (4 - f / 2 + k)) by (field; lra).
  assert (0 < k * (4 - f / 2 + k)) by (apply Rmult_lt_0_compat; lra). lra.
Qed.

Lemma hm_chain : forall mu (x v xi : nat -> R), v 0%nat = 0 -> (forall i, x (S i) = x i + v i) ->
  (forall i, v (S i) = (1 - f / 2) * v i + h * (- (x i - mu) / s2) + sqrt (h * f) * xi i) ->
  forall n, x n = mu + hm_weight n * (x 0%nat - mu) + partial_sum (fun i => hm_coef n i * xi i) n.
Proof.
  intros mu x v xi V0 X V.
  assert (R2 : forall n, x (S (S n)) - mu = t * (x (S n) - mu) - d * (x n - mu) + sqrt (h * f) * xi n).
  { intros n. rewrite (X (S n)), (V n). replace (v n) with (x (S n) - x n) by (rewrite X; ring). field. lra. }
  assert (Q : forall n, x n - mu = hm_weight n * (x 0%nat - mu) + partial_sum (fun i => hm_coef n i * xi i) n /\
     x (S n) - mu = hm_weight (S n) * (x 0%nat - mu) + partial_sum (fun i => hm_coef (S n) i * xi i) (S n)).
  { induction n as [|n [I1 I2]].
    - rewrite (X 0%nat), V0. unfold hm_weight, hm_coef, solution. cbn. split; ring.
    - split; [exact I2|]. rewrite R2, I1, I2.
      unfold hm_weight. rewrite (solution_recurs _ _ 1 1 n). cbn [partial_sum]. unfold hm_coef.
      replace (S (S n) - 1 - S n)%nat with 0%nat by lia. replace (S n - 1 - n)%nat with 0%nat by lia. replace (S (S n) - 1 - n)%nat with 1%nat by lia.
      change (solution t d 0 1 0) with 0. change (solution t d 0 1 1) with 1.
      rewrite (partial_ext (fun i => sqrt (h * f) * solution t d 0 1 (S (S n) - 1 - i) * xi i)
        (fun i => t * (sqrt (h * f) * solution t d 0 1 (S n - 1 - i) * xi i) + - d * (sqrt (h * f) * solution t d 0 1 (n - 1 - i) * xi i))).
      + rewrite partial_plus, !partial_scal. ring.
      + intros i Hi. replace (S (S n) - 1 - i)%nat with (S (S (n - 1 - i))) by lia. replace (S n - 1 - i)%nat with (S (n - 1 - i)) by lia.
        rewrite (solution_recurs t d 0 1 (n - 1 - i)%nat). ring. }
  intros n. destruct (Q n) as [A _]. lra.
Qed.
End Chain.

Lemma hm_small : forall f s2 eps, 0 < f < 4 -> 0 < s2 -> 0 < eps -> exists delta, 0 < delta /\
  forall h, 0 < h < delta -> h / s2 < f / 2 /\ stationary_variance h f s2 < s2 + eps.
Proof.
  intros f s2 eps Pf P2 E.
  set (b := f / 4 * (4 - f)). assert (B : 0 < b) by (unfold b; apply Rmult_lt_0_compat; lra).
  set (q := Rmin (f / 4) (eps * b / (s2 * 8))).
  assert (Q0 : 0 < eps * b / (s2 * 8)) by (apply Rmult_lt_0_compat; [apply Rmult_lt_0_compat; lra|apply Rinv_0_lt_compat; lra]).
  assert (Q : 0 < q) by (unfold q; apply Rmin_glb_lt; lra).
  exists (q * s2). split; [apply Rmult_lt_0_compat; lra|]. intros h [H1 H2].
  assert (K0 : 0 < h / s2) by (apply Rmult_lt_0_compat; [lra|apply Rinv_0_lt_compat; lra]).
  assert (K1 : h / s2 < q) by (apply (Rmult_lt_reg_r s2); [lra|]; unfold Rdiv; rewrite Rmult_assoc, Rinv_l, Rmult_1_r by lra; lra).
  pose proof (Rmin_l (f / 4) (eps * b / (s2 * 8))) as L1. pose proof (Rmin_r (f / 4) (eps * b / (s2 * 8))) as L2. fold q in L1, L2.
  set (k := h / s2) in *. split; [lra|].
  assert (Dn : b <= (f / 2 - k) * (4 - f + k)) by (unfold b; apply Rmult_le_compat; lra).
  unfold stationary_variance. fold k. clearbody k.
  apply (Rmult_lt_reg_r ((f / 2 - k) * (4 - f + k))); [lra|].
  replace (s2 * (f * (2 - f / 2 + k)) / ((f / 2 - k) * (4 - f + k)) * ((f / 2 - k) * (4 - f + k))) with (s2 * (f * (2 - f / 2 + k)))
    by (field; split; lra).
  replace (f * (2 - f / 2 + k)) with ((f / 2 - k) * (4 - f + k) + k * (4 - f / 2 + k)) by field.
  assert (W : s2 * (k * (4 - f / 2 + k)) < eps * b).
  { assert (A : k * (4 - f / 2 + k) < q * 8).
    { apply Rle_lt_trans with (k * 8); [apply Rmult_le_compat_l; lra|lra]. }
    assert (A' : q * 8 <= eps * b / s2) by (replace (eps * b / s2) with (eps * b / (s2 * 8) * 8) by (field; lra); lra).
    apply Rlt_le_trans with (s2 * (eps * b / s2)); [apply Rmult_lt_compat_l; lra|right; field; lra]. }
  assert (eps * b <= eps * ((f / 2 - k) * (4 - f + k))) by (apply Rmult_le_compat_l; lra).
  lra.
Qed.

(** ** Entries *)
Lemma entry_translate : forall z a j e, same_shape z a -> entry (translate z a) j e = entry z j e + entry a j e.
Proof.
  intros z a j e H. replace (entry z j e + entry a j e) with (entry z j e + 1 * entry a j e) by ring. rewrite <- (entry_plus z 1 a j e H).
  unfold plus_multiple. f_equal. f_equal. clear. induction a as [|v a IH]; [reflexivity|]. cbn [map]. rewrite <- IH. f_equal.
  induction v as [|x v IHv]; [reflexivity|]. cbn [map]. rewrite <- IHv. f_equal. ring.
Qed.
Lemma nth_map_nil : forall (g : R -> R) (z : list tensor) j, nth j (map (map g) z) [] = map g (nth j z []).
Proof. intros g z j. exact (map_nth (map g) z [] j). Qed.
Lemma nth_mult : forall c v e, nth e (map (Rmult c) v) 0 = c * nth e v 0.
Proof. intros c. induction v as [|x v IH]; intros e; destruct e as [|e]; cbn [map nth]; try ring. apply IH. Qed.
Lemma nth_zeros : forall (v : list R) e, nth e (map (fun _ => 0) v) 0 = 0.
Proof. induction v as [|x v IH]; intros e; destruct e as [|e]; cbn [map nth]; try reflexivity. apply IH. Qed.
Lemma entry_mult : forall c z j e, entry (map (map (Rmult c)) z) j e = c * entry z j e.
Proof. intros c z j e. unfold entry. rewrite nth_map_nil. apply nth_mult. Qed.
Lemma entry_zeros : forall z j e, entry (zeros z) j e = 0.
Proof. intros z j e. unfold entry, zeros. rewrite nth_map_nil. apply nth_zeros. Qed.
Lemma shape_mult : forall c z, same_shape z (map (map (Rmult c)) z).
Proof. intros c z. induction z as [|v z IH]; [constructor|]. constructor; [symmetry; apply map_length|exact IH]. Qed.
Lemma shape_zeros : forall z, same_shape z (zeros z).
Proof. intros z. induction z as [|v z IH]; [constructor|]. constructor; [symmetry; apply map_length|exact IH]. Qed.
Lemma shape_translate : forall z a, same_shape z a -> same_shape z (translate z a).
Proof.
  intros z a H. induction H as [|v w z a L F IH]; [constructor|]. constructor; [|exact IH]. cbn [fst snd]. rewrite map_length, combine_length, <- L. symmetry. apply Nat.min_id.
Qed.

Lemma sghmc_gaussian : forall step friction s2, 0 < step -> 0 < friction < 4 -> 0 < s2 ->
  exists (w : nat -> R) (c : nat -> nat -> R),
  (step / 100 / s2 < friction / 2 -> Un_cv w 0 /\ s2 < stationary_variance (step / 100) friction s2 /\
     Un_cv (fun n => partial_sum (fun i => c n i * c n i) n) (stationary_variance (step / 100) friction s2)) /\
  (friction / 2 <= step / 100 / s2 -> cv_infty (fun n => partial_sum (fun i => c n i * c n i) n)) /\
  forall log_prob scale keys gradients z0 us,
  length z0 = length keys -> (forall f z, same_shape z0 z -> same_shape z0 (gradients f z)) ->
  (forall i, same_shape z0 (g_normal (fst (us i)))) ->
  forall tables m, row_is tables 0 z0 -> (forall rows, In rows tables -> (m <= length rows)%nat) ->
  let lp := fun k d v => Fin (log_prob k d v) in let latent := map (fun k => (k, None)) keys in
  exists s infos, updates (sghmc_kernel lp scale latent gradients step friction) (initial tables (zeros z0)) us 0 m = Some (s, infos) /\
  forall j e mu, (j < length z0)%nat ->
  (forall i z, same_shape z0 z -> entry (gradients (scaled_log_joint lp scale latent (g_data (fst (us i)))) z) j e = - (entry z j e - mu) / s2) ->
  forall n, (n < m)%nat -> exists v, nth_error (nth j (m_tables s) []) n = Some v /\
    nth e v 0 = mu + w (S n) * (entry z0 j e - mu) + partial_sum (fun i => c (S n) i * entry (g_normal (fst (us i))) j e) (S n).
Proof.
  intros step friction s2 Ps Pf P2. assert (Ph : 0 < step / 100) by lra.
  exists (hm_weight (step / 100) friction s2), (hm_coef (step / 100) friction s2).
  split; [|split].
  - intros K. destruct (hm_stable (step / 100) friction s2 Ph Pf P2 K) as [A B]. split; [exact A|]. split; [apply hm_bias; assumption|exact B].
  - intros K. apply hm_unstable; assumption.
  - intros log_prob scale keys gradients z0 us Hl Hg Hn tables m H0 Hm lp latent.
    destruct (sghmc_plain log_prob scale keys gradients step z0 us Hl Hg Hn friction tables m H0 Hm) as (s & infos & E & vs & st & V0 & S0 & Ss & Sr).
    exists s, infos. split; [exact E|]. intros j e mu Hj G n Hnm.
    assert (Sh : forall i, same_shape z0 (vs i) /\ same_shape z0 (st i)).
    { induction i as [|i [IV IZ]]; [rewrite V0, S0; split; [apply shape_zeros|apply shape_refl]|]. destruct (Ss i) as [-> ->]. split.
      - unfold plus_multiple at 1. pose proof (Hg (scaled_log_joint lp scale latent (g_data (fst (us i)))) (st i) IZ) as Gz. pose proof (shape_mult (1 - friction / 2) (vs i)) as M1.
        assert (P1 : same_shape z0 (plus_multiple (map (map (Rmult (1 - friction / 2))) (vs i)) (step / 100) (gradients (scaled_log_joint lp scale latent (g_data (fst (us i)))) (st i)))).
        { eapply shape_trans; [exact IV|]. eapply shape_trans; [exact M1|]. apply shape_plus. eapply shape_trans; [apply shape_sym; exact M1|]. eapply shape_trans; [apply shape_sym; exact IV|exact Gz]. }
        eapply shape_trans; [exact P1|]. apply shape_plus. eapply shape_trans; [apply shape_sym; exact P1|]. apply Hn.
      - eapply shape_trans; [exact IZ|]. apply shape_translate. eapply shape_trans; [apply shape_sym; exact IZ|exact IV]. }
    destruct (Sr n Hnm) as [Lr R]. exists (nth j (st (S n)) []). split.
    + apply R. apply nth_error_nth'. rewrite <- (shape_lengths _ _ (proj2 (Sh (S n)))). exact Hj.
    + change (nth e (nth j (st (S n)) []) 0) with (entry (st (S n)) j e).
      rewrite (hm_chain (step / 100) friction s2 P2 mu (fun i => entry (st i) j e) (fun i => entry (vs i) j e) (fun i => entry (g_normal (fst (us i))) j e)); [rewrite S0; reflexivity| | |].
      * rewrite V0. apply entry_zeros.
      * intros i. destruct (Ss i) as [-> _]. destruct (Sh i) as [IV IZ]. apply entry_translate. eapply shape_trans; [apply shape_sym; exact IZ|exact IV].
      * intros i. destruct (Ss i) as [_ ->]. destruct (Sh i) as [IV IZ]. pose proof (Hg (scaled_log_joint lp scale latent (g_data (fst (us i)))) (st i) IZ) as Gz.
        pose proof (shape_mult (1 - friction / 2) (vs i)) as M1.
        assert (A : same_shape (map (map (Rmult (1 - friction / 2))) (vs i)) (gradients (scaled_log_joint lp scale latent (g_data (fst (us i)))) (st i))).
        { eapply shape_trans; [apply shape_sym; exact M1|]. eapply shape_trans; [apply shape_sym; exact IV|exact Gz]. }
        rewrite entry_plus.
        -- rewrite entry_plus by exact A. rewrite entry_mult. f_equal. f_equal. f_equal. exact (G i (st i) IZ).
        -- eapply shape_trans; [apply shape_sym; apply shape_plus; exact A|]. eapply shape_trans; [apply shape_sym; exact M1|]. eapply shape_trans; [apply shape_sym; exact IV|]. apply Hn.
Qed.

Lemma hm_stationary : forall h f s2 X C V, 0 < h -> 0 < f < 4 -> 0 < s2 -> h / s2 < f / 2 ->
  X = X + 2 * C + V ->
  C = (1 - f / 2) * (C + V) - h / s2 * (X + C) ->
  V = (1 - f / 2) * (1 - f / 2) * V - 2 * (1 - f / 2) * (h / s2) * C + h / s2 * (h / s2) * X + h * f ->
  X = stationary_variance h f s2.
Proof.
  intros h f s2 X C V Ph Pf P2 K E1 E2 E3. pose proof (k_pos h s2 Ph P2) as K0.
  replace (h * f) with (h / s2 * s2 * f) in E3 by (field; lra). unfold stationary_variance. set (k := h / s2) in *. clearbody k.
  assert (EV : V = - 2 * C) by lra. subst V.
  assert (P : 0 < (f / 2 - k) * (4 - f + k)) by (apply Rmult_lt_0_compat; lra).
  assert (Q : 0 < 2 - f / 2 + k) by lra.
  apply (Rmult_eq_reg_r ((f / 2 - k) * (4 - f + k))); [|lra].
  replace (s2 * (f * (2 - f / 2 + k)) / ((f / 2 - k) * (4 - f + k)) * ((f / 2 - k) * (4 - f + k))) with (s2 * (f * (2 - f / 2 + k))) by (field; split; lra).
  assert (EC : C * (2 - f / 2 + k) = - (k * X)) by lra.
  assert (E4 : k * s2 * f = - C * (2 * (1 - (1 - f / 2) * (1 - f / 2)) - 2 * (1 - f / 2) * k) - k * k * X) by lra.
  apply (Rmult_eq_reg_l k); [|lra].
  replace (k * (s2 * (f * (2 - f / 2 + k)))) with (k * s2 * f * (2 - f / 2 + k)) by ring. rewrite E4.
  replace ((- C * (2 * (1 - (1 - f / 2) * (1 - f / 2)) - 2 * (1 - f / 2) * k) - k * k * X) * (2 - f / 2 + k)) with
    (- (C * (2 - f / 2 + k)) * (2 * (1 - (1 - f / 2) * (1 - f / 2)) - 2 * (1 - f / 2) * k) - k * k * X * (2 - f / 2 + k)) by ring.
  rewrite EC. field.
Qed.
