(** * Proofs for C86. *)
From Coq Require Import Reals List Arith Lra Lia Psatz.
From Verif Require Import Ext Feed MonteCarlo MonteCarloSpec Transform HMC HMCSpec HMCProofs SGLD SGLDSpec SGLDProofs SamplerProofs Optim Steps StepsSpec StepsProofs.
From Verif Require Import SGLDLimitSpec.
Import ListNotations.
Local Open Scope R_scope.
Set Bullet Behavior "Strict Subproofs".

(** ** Sequences that contract *)
Lemma sum_grows : forall a, (forall n, 0 <= a n) -> forall n m, (n <= m)%nat -> partial_sum a n <= partial_sum a m.
Proof. intros a H n m L. induction L as [|m L IH]; [lra|]. cbn [partial_sum]. pose proof (H m). lra. Qed.

Lemma tail_small : forall b, (forall n, 0 <= b n) -> (exists c, forall n, partial_sum b n <= c) ->
  forall eps, 0 < eps -> exists M, forall n, (M <= n)%nat -> partial_sum b n - partial_sum b M < eps.
Proof.
  intros b P [c C] eps E.
  destruct (growing_cv (partial_sum b)) as [l L].
  - intros n. cbn [partial_sum]. pose proof (P n). lra.
  - exists c. intros x [n ->]. apply C.
  - destruct (L eps E) as [M HM]. exists M. intros n Hn. pose proof (HM M (le_n M)) as D. unfold R_dist in D.
    assert (partial_sum b n <= l) by (apply growing_ineq; [intros k; cbn [partial_sum]; pose proof (P k); lra|exact L]).
    apply Rabs_def2 in D. lra.
Qed.

Lemma contracts : forall u a b N, (forall n, 0 <= u n) -> (forall n, 0 <= a n) -> (forall n, (N <= n)%nat -> a n <= 1) -> (forall n, 0 <= b n) ->
  goes_anywhere a -> (exists c, forall n, partial_sum b n <= c) ->
  (forall n, (N <= n)%nat -> u (S n) <= (1 - a n) * u n + b n) -> Un_cv u 0.
Proof.
  intros u a b N U A A1 B G C H eps E.
  destruct (tail_small b B C (eps / 2) ltac:(lra)) as [M0 T0]. set (M := max M0 N).
  assert (T : forall n, (M <= n)%nat -> partial_sum b n - partial_sum b M < eps / 2).
  { intros n Hn. pose proof (T0 n ltac:(lia)). pose proof (sum_grows b B M0 M ltac:(lia)). lra. }
  assert (Q : forall k, u (k + M)%nat <= exp (- (partial_sum a (k + M) - partial_sum a M)) * u M + (partial_sum b (k + M) - partial_sum b M)).
  { induction k as [|k IH].
    - cbn [Nat.add]. replace (- (partial_sum a M - partial_sum a M)) with 0 by ring. rewrite exp_0. lra.
    - cbn [Nat.add partial_sum]. pose proof (H (k + M)%nat ltac:(lia)) as S'. pose proof (A (k + M)%nat) as A0. pose proof (A1 (k + M)%nat ltac:(lia)) as A2.
      set (x := a (k + M)%nat) in *. set (D := partial_sum a (k + M) - partial_sum a M) in *.
      replace (- (partial_sum a (k + M) + x - partial_sum a M)) with (- x + - D) by (unfold D; ring). rewrite exp_plus.
      pose proof (exp_ge (- x)) as X. pose proof (exp_pos (- D)) as PD. pose proof (U M) as UM. pose proof (sum_grows b B M (k + M) ltac:(lia)) as SB.
      set (dB := partial_sum b (k + M) - partial_sum b M) in *.
      assert (P1 : (1 - x) * u (k + M)%nat <= (1 - x) * (exp (- D) * u M + dB)) by (apply Rmult_le_compat_l; lra).
      assert (P2 : (1 - x) * (exp (- D) * u M) <= exp (- x) * (exp (- D) * u M)) by (apply Rmult_le_compat_r; [apply Rmult_le_pos; lra|lra]).
      assert (P3 : (1 - x) * dB <= dB) by (assert (0 <= dB) by (unfold dB; lra); nra).
      unfold dB in *. nra. }
  destruct (G (partial_sum a M + u M * 2 / eps)) as [n0 Hn0].
  assert (K : 0 <= u M * 2 / eps) by (pose proof (U M); apply Rmult_le_pos; [lra|left; apply Rinv_0_lt_compat; lra]).
  exists (max n0 M). intros n Hn. unfold R_dist. rewrite Rminus_0_r, Rabs_pos_eq by apply U.
  pose proof (Q (n - M)%nat) as Qn. replace (n - M + M)%nat with n in Qn by lia. pose proof (T n ltac:(lia)) as Tn.
  assert (D : u M * 2 / eps < partial_sum a n - partial_sum a M) by (pose proof (sum_grows a A n0 n ltac:(lia)); lra).
  set (d := partial_sum a n - partial_sum a M) in *.
  assert (Z : exp (- d) * u M < eps / 2 \/ u M = 0).
  { pose proof (U M) as UM. destruct (Req_dec (u M) 0) as [Z|Z]; [right; exact Z|left].
    pose proof (exp_ge d) as X. pose proof (exp_pos d) as PX. rewrite exp_Ropp.
    assert (W : u M * 2 < eps * exp d).
    { assert (eps * (u M * 2 / eps) < eps * d) by (apply Rmult_lt_compat_l; lra).
      replace (eps * (u M * 2 / eps)) with (u M * 2) in H0 by (field; lra). nra. }
    apply (Rmult_lt_reg_l (exp d)); [exact PX|]. rewrite <- Rmult_assoc, Rinv_r by lra. lra. }
  destruct Z as [Z|Z]; [lra|rewrite Z, Rmult_0_r in Qn; lra].
Qed.

(** ** The coefficients *)
Section Coefficients.
Variables step s2 : R.
Hypothesis Ps : 0 < step.
Hypothesis P2 : 0 < s2.

Definition pull (n : nat) : R := learning_rate step n / (2 * s2).
Fixpoint weight (n : nat) : R := match n with O => 1 | S k => (1 - pull k) * weight k end.
Fixpoint coef (n i : nat) : R :=
  match n with O => 0 | S k => if Nat.eqb i k then sqrt (learning_rate step k) else (1 - pull k) * coef k i end.
Definition variance (n : nat) : R := partial_sum (fun i => coef n i * coef n i) n.

Lemma rate_pos : forall n, 0 < learning_rate step n.
Proof. intros n. unfold learning_rate. apply Rmult_lt_0_compat; [exact Ps|]. apply Rinv_0_lt_compat. apply rpower_pos. Qed.
Lemma pull_rate : forall n, pull n = learning_rate (step / (2 * s2)) n.
Proof. intros n. unfold pull, learning_rate. field. split; [lra|]. apply Rgt_not_eq. apply rpower_pos. Qed.
Lemma pull_step : 0 < step / (2 * s2).
Proof. apply Rmult_lt_0_compat; [exact Ps|apply Rinv_0_lt_compat; lra]. Qed.
Lemma pull_pos : forall n, 0 < pull n.
Proof. intros n. unfold pull. apply Rmult_lt_0_compat; [apply rate_pos|apply Rinv_0_lt_compat; lra]. Qed.
Lemma pull_decreases : forall n m, (n <= m)%nat -> pull m <= pull n.
Proof.
  intros n m L. rewrite !pull_rate. unfold learning_rate. pose proof pull_step. apply Rmult_le_compat_l; [lra|].
  apply Rinv_le_contravar; [apply rpower_pos|]. apply Rle_Rpower_l; [lra|]. split; [apply lt_0_INR; lia|apply le_INR; lia].
Qed.

Lemma partial_ext : forall f g n, (forall i, (i < n)%nat -> f i = g i) -> partial_sum f n = partial_sum g n.
Proof. intros f g. induction n as [|n IH]; intros H; [reflexivity|]. cbn [partial_sum]. rewrite (H n) by lia. rewrite IH; [reflexivity|]. intros; apply H; lia. Qed.
Lemma partial_scal : forall c f n, partial_sum (fun i => c * f i) n = c * partial_sum f n.
Proof. intros c f. induction n as [|n IH]; cbn [partial_sum]; [ring|]. rewrite IH. ring. Qed.

Lemma pull_settles : exists c, forall n, partial_sum (fun k => pull k * pull k) n <= c.
Proof.
  destruct (sgld_settles _ pull_step) as [c C]. exists c. intros n. eapply Rle_trans; [|apply C].
  right. apply partial_ext. intros i _. rewrite pull_rate. reflexivity.
Qed.

Lemma pull_far : goes_anywhere pull.
Proof.
  intros b. destruct (sgld_far _ pull_step b) as [n Hn]. exists n. eapply Rlt_le_trans; [exact Hn|].
  right. apply partial_ext. intros i _. rewrite pull_rate. reflexivity.
Qed.

Lemma pull_small : exists N, forall n, (N <= n)%nat -> pull n <= 1.
Proof.
  destruct pull_settles as [c C]. destruct (archimed (Rabs c)) as [U _]. pose proof (Rabs_pos c). pose proof (Rle_abs c).
  assert (Z : (0 <= up (Rabs c))%Z) by (apply le_IZR; lra).
  exists (Z.to_nat (up (Rabs c))). set (N := Z.to_nat (up (Rabs c))). intros n Hn.
  destruct (Rle_lt_dec (pull n) 1) as [L|L]; [exact L|exfalso].
  assert (G : forall k, (k <= N)%nat -> INR k <= partial_sum (fun k => pull k * pull k) k).
  { induction k as [|k IH]; intros Hk; [cbn; lra|]. cbn [partial_sum]. rewrite S_INR. pose proof (IH ltac:(lia)).
    pose proof (pull_decreases k n ltac:(lia)). nra. }
  pose proof (G N (le_n N)) as Q. pose proof (C N) as Q'. unfold N in Q at 1. rewrite INR_IZR_INZ, Z2Nat.id in Q by exact Z. lra.
Qed.

Lemma weight_cv : Un_cv weight 0.
Proof.
  destruct pull_small as [N HN].
  assert (L : Un_cv (fun n => Rabs (weight n)) 0).
  { apply (contracts _ pull (fun _ => 0) N).
    - intros; apply Rabs_pos.
    - intros n. pose proof (pull_pos n). lra.
    - exact HN.
    - intros; lra.
    - exact pull_far.
    - exists 0. intros n. right. induction n as [|n IH]; cbn [partial_sum]; lra.
    - intros n Hn. cbn [weight]. rewrite Rabs_mult, (Rabs_pos_eq (1 - pull n)); [lra|]. pose proof (HN n Hn). lra. }
  intros eps E. destruct (L eps E) as [M HM]. exists M. intros n Hn. specialize (HM n Hn). unfold R_dist in *. rewrite Rminus_0_r in *. rewrite Rabs_Rabsolu in HM. exact HM.
Qed.

Lemma coef_above : forall n i, (n <= i)%nat -> coef n i = 0.
Proof. induction n as [|n IH]; intros i H; [reflexivity|]. cbn [coef]. destruct (Nat.eqb_spec i n); [lia|]. rewrite IH by lia. ring. Qed.

Lemma variance_step : forall n, variance (S n) = (1 - pull n) * (1 - pull n) * variance n + learning_rate step n.
Proof.
  intros n. unfold variance at 1. cbn [partial_sum]. cbn [coef]. rewrite Nat.eqb_refl.
  rewrite sqrt_sqrt by (pose proof (rate_pos n); lra). f_equal. unfold variance. rewrite <- partial_scal. apply partial_ext. intros i Hi.
  destruct (Nat.eqb_spec i n); [lia|]. ring.
Qed.

Lemma variance_cv : Un_cv variance s2.
Proof.
  destruct pull_small as [N HN]. destruct pull_settles as [c C].
  assert (L : Un_cv (fun n => Rabs (variance n - s2)) 0).
  { apply (contracts _ pull (fun n => s2 * (pull n * pull n)) N).
    - intros; apply Rabs_pos.
    - intros n. pose proof (pull_pos n). lra.
    - exact HN.
    - intros n. pose proof (pull_pos n). apply Rmult_le_pos; nra.
    - exact pull_far.
    - exists (s2 * c). intros n. rewrite partial_scal. apply Rmult_le_compat_l; [lra|apply C].
    - intros n Hn. rewrite variance_step. pose proof (pull_pos n) as Pn. pose proof (HN n Hn) as P1.
      replace (learning_rate step n) with (2 * s2 * pull n) by (unfold pull; field; lra).
      replace ((1 - pull n) * (1 - pull n) * variance n + 2 * s2 * pull n - s2) with ((1 - pull n) * (1 - pull n) * (variance n - s2) + s2 * (pull n * pull n)) by ring.
      eapply Rle_trans; [apply Rabs_triang|]. rewrite (Rabs_pos_eq (s2 * _)) by (apply Rmult_le_pos; nra).
      assert (Q : 0 <= (1 - pull n) * (1 - pull n) <= 1 - pull n).
      { set (p := pull n) in *. clearbody p. split; [apply Rmult_le_pos; lra|]. apply Rle_trans with ((1 - p) * 1); [apply Rmult_le_compat_l; lra|lra]. }
      rewrite Rabs_mult, (Rabs_pos_eq ((1 - pull n) * (1 - pull n))) by lra. pose proof (Rabs_pos (variance n - s2)) as V0.
      apply Rplus_le_compat_r. apply Rmult_le_compat_r; lra. }
  intros eps E. destruct (L eps E) as [M HM]. exists M. intros n Hn. specialize (HM n Hn). unfold R_dist in *. rewrite Rminus_0_r, Rabs_Rabsolu in HM. exact HM.
Qed.

(** ** The chain *)
Lemma chain : forall mu (x xi : nat -> R),
  (forall i, x (S i) = x i + learning_rate step i / 2 * (- (x i - mu) / s2) + sqrt (learning_rate step i) * xi i) ->
  forall n, x n = mu + weight n * (x 0%nat - mu) + partial_sum (fun i => coef n i * xi i) n.
Proof.
  intros mu x xi H. induction n as [|n IH]; [cbn; ring|]. rewrite H, IH. cbn [weight partial_sum]. cbn [coef]. rewrite Nat.eqb_refl.
  rewrite (partial_ext (fun i => (if Nat.eqb i n then sqrt (learning_rate step n) else (1 - pull n) * coef n i) * xi i) (fun i => (1 - pull n) * (coef n i * xi i))).
  - rewrite partial_scal. unfold pull. field. lra.
  - intros i Hi. destruct (Nat.eqb_spec i n); [lia|]. ring.
Qed.
End Coefficients.

(** ** Entries *)
Lemma shape_lengths : forall a b, same_shape a b -> length a = length b.
Proof. intros a b H. induction H; cbn; congruence. Qed.

Lemma entry_plus : forall z c a j e, same_shape z a -> entry (plus_multiple z c a) j e = entry z j e + c * entry a j e.
Proof.
  unfold same_shape, entry, plus_multiple, translate. intros z c a j e H. revert j. induction H as [|v w z a L F IH]; intros j.
  - cbn. destruct j; cbn; destruct e; ring.
  - destruct j as [|j]; [|exact (IH j)]. cbn [map combine fst snd nth]. clear - L. revert w e L.
    induction v as [|x v IH]; intros [|y w] e L; try discriminate; [cbn; destruct e; ring|].
    destruct e as [|e]; cbn [map combine fst snd nth]; [reflexivity|]. apply IH. cbn in L. lia.
Qed.

Lemma sgld_gaussian : forall step s2, 0 < step -> 0 < s2 ->
  exists (w : nat -> R) (c : nat -> nat -> R), Un_cv w 0 /\ Un_cv (fun n => partial_sum (fun i => c n i * c n i) n) s2 /\
  forall log_prob scale keys gradients z0 us,
  length z0 = length keys -> (forall f z, same_shape z0 z -> same_shape z0 (gradients f z)) ->
  (forall i, same_shape z0 (g_normal (fst (us i)))) ->
  forall tables m, row_is tables 0 z0 -> (forall rows, In rows tables -> (m <= length rows)%nat) ->
  let lp := fun k d v => Fin (log_prob k d v) in let latent := map (fun k => (k, None)) keys in
  exists s infos, updates (sgld_kernel lp scale latent gradients step) (initial tables tt) us 0 m = Some (s, infos) /\
  forall j e mu, (j < length z0)%nat ->
  (forall i z, same_shape z0 z -> entry (gradients (scaled_log_joint lp scale latent (g_data (fst (us i)))) z) j e = - (entry z j e - mu) / s2) ->
  forall n, (n < m)%nat -> exists v, nth_error (nth j (m_tables s) []) n = Some v /\
    nth e v 0 = mu + w (S n) * (entry z0 j e - mu) + partial_sum (fun i => c (S n) i * entry (g_normal (fst (us i))) j e) (S n).
Proof.
  intros step s2 Ps P2. exists (weight step s2), (coef step s2).
  split; [apply weight_cv; assumption|]. split; [apply variance_cv; assumption|].
  intros log_prob scale keys gradients z0 us Hl Hg Hn tables m H0 Hm lp latent.
  destruct (sgld_plain log_prob scale keys gradients step z0 us Hl Hg Hn tables m H0 Hm) as (s & infos & E & st & S0 & Ss & Sr).
  exists s, infos. split; [exact E|]. intros j e mu Hj G n Hnm.
  assert (Sh : forall i, same_shape z0 (st i)).
  { induction i as [|i IH]; [rewrite S0; apply shape_refl|]. rewrite (Ss i). cbv zeta.
    pose proof (shape_plus (st i) (step / Rpower (INR (i + 1)) 0.55 / 2) _ (shape_trans _ _ _ (shape_sym _ _ IH) (Hg (scaled_log_joint lp scale latent (g_data (fst (us i)))) (st i) IH))) as A.
    eapply shape_trans; [exact IH|]. eapply shape_trans; [exact A|]. apply shape_plus. eapply shape_trans; [apply shape_sym; exact A|].
    eapply shape_trans; [apply shape_sym; exact IH|]. apply Hn. }
  destruct (Sr n Hnm) as [Lr R]. exists (nth j (st (S n)) []). split.
  - apply R. apply nth_error_nth'. rewrite <- (shape_lengths _ _ (Sh (S n))). exact Hj.
  - change (nth e (nth j (st (S n)) []) 0) with (entry (st (S n)) j e).
    rewrite (chain step s2 P2 mu (fun i => entry (st i) j e) (fun i => entry (g_normal (fst (us i))) j e)); [rewrite S0; reflexivity|].
    intros i. rewrite (Ss i). cbv zeta. pose proof (Sh i) as IH.
    pose proof (shape_trans _ _ _ (shape_sym _ _ IH) (Hg (scaled_log_joint lp scale latent (g_data (fst (us i)))) (st i) IH)) as A.
    rewrite entry_plus.
    + rewrite entry_plus by exact A. unfold learning_rate. f_equal. f_equal. f_equal. exact (G i (st i) IH).
    + eapply shape_trans; [apply shape_sym; apply shape_plus; exact A|]. eapply shape_trans; [apply shape_sym; exact IH|]. apply Hn.
Qed.
