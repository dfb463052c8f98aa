(** * Proofs for C86: entries that interact. *)
From Coq Require Import Reals List Arith Lra Lia Psatz.
From Verif Require Import Ext Feed MonteCarlo MonteCarloSpec Transform HMC HMCSpec HMCProofs SGLD SGLDSpec SGLDProofs SamplerProofs Optim Steps StepsSpec StepsProofs.
From Verif Require Import SGLDLimitSpec SGLDLimitProofs.
From Verif Require Import SGLDJointSpec.
Import ListNotations.
Local Open Scope R_scope.
Set Bullet Behavior "Strict Subproofs".

Lemma sum_add : forall f g n, partial_sum (fun i => f i + g i) n = partial_sum f n + partial_sum g n.
Proof. intros f g. induction n as [|n IH]; cbn [partial_sum]; [ring|]. rewrite IH. ring. Qed.

Section Abstract.
Variable X : Type.
Variable Sh : X -> Prop.
Variable pm : X -> R -> X -> X.
Variable inn : X -> X -> R.
Variable A : X -> X.
Variables step lambda L : R.
Hypothesis Ps : 0 < step.
Hypothesis Pl : 0 < lambda.
Hypothesis PL : 0 < L.
Hypothesis pm_sh : forall a c b, Sh a -> Sh b -> Sh (pm a c b).
Hypothesis in_pm : forall a c b v, Sh a -> Sh b -> Sh v -> inn (pm a c b) v = inn a v + c * inn b v.
Hypothesis in_sym : forall a b, Sh a -> Sh b -> inn a b = inn b a.
Hypothesis in_pos : forall a, Sh a -> 0 <= inn a a.
Hypothesis A_sh : forall a, Sh a -> Sh (A a).
Hypothesis A_lin : forall a c b, Sh a -> Sh b -> A (pm a c b) = pm (A a) c (A b).
Hypothesis A_sym : forall a b, Sh a -> Sh b -> inn (A a) b = inn a (A b).
Hypothesis A_low : forall a, Sh a -> lambda * inn a a <= inn a (A a).
Hypothesis A_up : forall a, Sh a -> inn (A a) (A a) <= L * inn a a.

Notation h := (learning_rate step).
Definition T (n : nat) (a : X) : X := pm a (- (h n / 2)) (A a).
Fixpoint W (n : nat) (a : X) : X := match n with O => a | S k => W k (T k a) end.
Fixpoint C (n i : nat) (a : X) : X := match n with O => a | S k => if Nat.eqb i k then pm a (sqrt (h k) - 1) a else C k i (T k a) end.
Definition Var (n : nat) (a : X) : R := partial_sum (fun i => inn (C n i a) (C n i a)) n.

Lemma T_sh : forall n a, Sh a -> Sh (T n a).
Proof. intros n a H. apply pm_sh; [exact H|apply A_sh; exact H]. Qed.
Lemma W_sh : forall n a, Sh a -> Sh (W n a).
Proof. induction n as [|n IH]; intros a H; [exact H|]. cbn [W]. apply IH, T_sh, H. Qed.
Lemma C_sh : forall n i a, Sh a -> Sh (C n i a).
Proof. induction n as [|n IH]; intros i a H; [exact H|]. cbn [C]. destruct (Nat.eqb i n); [apply pm_sh; exact H|apply IH, T_sh, H]. Qed.
Lemma in_pm2 : forall a c b v, Sh a -> Sh b -> Sh v -> inn v (pm a c b) = inn v a + c * inn v b.
Proof. intros a c b v Ha Hb Hv. rewrite (in_sym v), in_pm by auto. rewrite (in_sym a), (in_sym b) by auto. reflexivity. Qed.

(** The chain. *)
Lemma chain_inner : forall mu g (x xi : nat -> X), Sh mu -> (forall i, Sh (x i)) -> (forall i, Sh (xi i)) -> (forall i, Sh (g i)) ->
  (forall i a, Sh a -> inn a (g i) = - (inn (A a) (x i) - inn (A a) mu)) ->
  (forall i, x (S i) = pm (pm (x i) (h i / 2) (g i)) (sqrt (h i)) (xi i)) ->
  forall n a, Sh a -> inn a (x n) = inn a mu + (inn (W n a) (x 0%nat) - inn (W n a) mu) + partial_sum (fun i => inn (C n i a) (xi i)) n.
Proof.
  intros mu g x xi Hm Hx Hxi Hg G H. induction n as [|n IH]; intros a Ha; [cbn; ring|].
  rewrite H, in_pm2, in_pm2 by (auto; apply pm_sh; auto). rewrite (G n a Ha).
  pose proof (IH (T n a) (T_sh n a Ha)) as Q. unfold T at 1 2 in Q. rewrite !in_pm in Q by auto.
  cbn [W partial_sum]. cbn [C]. rewrite Nat.eqb_refl. rewrite in_pm by auto.
  rewrite (partial_ext (fun i => inn (if Nat.eqb i n then pm a (sqrt (h n) - 1) a else C n i (T n a)) (xi i)) (fun i => inn (C n i (T n a)) (xi i)))
    by (intros i Hi; destruct (Nat.eqb_spec i n); [lia|reflexivity]).
  lra.
Qed.

(** The norm of T. *)
Lemma T_norm : forall n a, Sh a -> inn (T n a) (T n a) = inn a a - h n * inn a (A a) + h n * h n / 4 * inn (A a) (A a).
Proof.
  intros n a Ha. pose proof (A_sh a Ha) as HA. unfold T. rewrite in_pm by (auto; apply pm_sh; auto). rewrite !in_pm2 by auto. rewrite (in_sym (A a) a) by auto. field.
Qed.
Definition rho (n : nat) : R := Rabs (1 - h n * lambda + h n * h n / 4 * L).
Lemma h_pos : forall n, 0 < h n.
Proof. intros n. apply (rate_pos step Ps). Qed.
Lemma T_contracts : forall n a, Sh a -> inn (T n a) (T n a) <= rho n * inn a a.
Proof.
  intros n a Ha. rewrite (T_norm n a Ha). pose proof (A_low a Ha) as P. pose proof (A_up a Ha) as Q. pose proof (in_pos a Ha) as N. pose proof (h_pos n) as Hp.
  assert (H2 : 0 <= h n * h n / 4) by nra.
  apply Rle_trans with ((1 - h n * lambda + h n * h n / 4 * L) * inn a a).
  - assert (h n * (lambda * inn a a) <= h n * inn a (A a)) by (apply Rmult_le_compat_l; lra).
    assert (h n * h n / 4 * inn (A a) (A a) <= h n * h n / 4 * (L * inn a a)) by (apply Rmult_le_compat_l; lra). lra.
  - apply Rmult_le_compat_r; [exact N|apply Rle_abs].
Qed.
Lemma half_sum : forall a b, Sh a -> Sh b -> Rabs (inn a b) <= (inn a a + inn b b) / 2.
Proof.
  intros a b Ha Hb. pose proof (in_pos (pm a 1 b) (pm_sh a 1 b Ha Hb)) as P. pose proof (in_pos (pm a (-1) b) (pm_sh a (-1) b Ha Hb)) as Q.
  rewrite in_pm in P by (auto; apply pm_sh; auto). rewrite in_pm in Q by (auto; apply pm_sh; auto). rewrite !in_pm2 in P, Q by auto.
  rewrite (in_sym b a) in P, Q by auto. apply Rabs_le. lra.
Qed.

(** The variance. *)
Lemma Var_step : forall n a, Sh a -> Var (S n) a = Var n (T n a) + h n * inn a a.
Proof.
  intros n a Ha. unfold Var. cbn [partial_sum]. cbn [C]. rewrite Nat.eqb_refl.
  rewrite in_pm by (auto; apply pm_sh; auto). rewrite !in_pm2 by auto.
  rewrite (partial_ext (fun i => inn (if Nat.eqb i n then pm a (sqrt (h n) - 1) a else C n i (T n a)) (if Nat.eqb i n then pm a (sqrt (h n) - 1) a else C n i (T n a))) (fun i => inn (C n i (T n a)) (C n i (T n a))))
    by (intros i Hi; destruct (Nat.eqb_spec i n); [lia|reflexivity]).
  f_equal. pose proof (h_pos n). rewrite <- (sqrt_sqrt (h n)) at 4 by lra. ring.
Qed.
Definition K : R := (L + L * L) / 2.
Fixpoint err (n : nat) : R := match n with O => (1 + L) / 2 | S k => rho k * err k + h k * h k / 4 * K end.
Lemma T_A : forall n b, Sh b -> T n (A b) = A (T n b).
Proof. intros n b Hb. unfold T. rewrite A_lin by auto. reflexivity. Qed.
Lemma target_step : forall n b, Sh b -> inn (T n b) (A (T n b)) + h n * inn (A b) (A b) - inn b (A b) = h n * h n / 4 * inn (A b) (A (A b)).
Proof.
  intros n b Hb. pose proof (A_sh b Hb) as HA. pose proof (A_sh _ HA) as HAA. rewrite <- T_A by exact Hb. unfold T. rewrite in_pm by (auto; apply pm_sh; auto). rewrite !in_pm2 by auto.
  rewrite <- (A_sym b (A b)) by auto. field.
Qed.
Lemma err_nonneg : forall n, 0 <= err n.
Proof.
  induction n as [|n IH]; cbn [err]; [lra|]. assert (0 <= K) by (unfold K; nra). pose proof (h_pos n). apply Rplus_le_le_0_compat; apply Rmult_le_pos; auto; [apply Rabs_pos|nra].
Qed.
Lemma Var_err : forall n b, Sh b -> Rabs (Var n (A b) - inn b (A b)) <= err n * inn b b.
Proof.
  induction n as [|n IH]; intros b Hb; pose proof (A_sh b Hb) as HA.
  - unfold Var. cbn [partial_sum err]. rewrite Rminus_0_l, Rabs_Ropp. pose proof (half_sum b (A b) Hb HA). pose proof (A_up b Hb). lra.
  - rewrite Var_step by exact HA. rewrite T_A by exact Hb. pose proof (target_step n b Hb) as E. pose proof (IH (T n b) (T_sh n b Hb)) as Q. cbn [err].
    replace (Var n (A (T n b)) + h n * inn (A b) (A b) - inn b (A b)) with ((Var n (A (T n b)) - inn (T n b) (A (T n b))) + h n * h n / 4 * inn (A b) (A (A b))) by (rewrite <- E; ring).
    eapply Rle_trans; [apply Rabs_triang|]. rewrite Rmult_plus_distr_r. apply Rplus_le_compat.
    + eapply Rle_trans; [exact Q|]. replace (rho n * err n * inn b b) with (err n * (rho n * inn b b)) by ring. apply Rmult_le_compat_l; [apply err_nonneg|apply T_contracts; exact Hb].
    + assert (H2 : 0 <= h n * h n / 4) by (pose proof (h_pos n); nra). rewrite Rabs_mult, (Rabs_pos_eq (h n * h n / 4)) by exact H2. rewrite Rmult_assoc. apply Rmult_le_compat_l; [exact H2|].
      pose proof (half_sum (A b) (A (A b)) HA (A_sh _ HA)). pose proof (A_up b Hb). pose proof (A_up (A b) HA). pose proof (in_pos b Hb). unfold K. nra.
Qed.

(** Limits. *)
Lemma rho_small : exists N, forall n, (N <= n)%nat -> rho n <= 1 - h n * lambda / 2 /\ h n * lambda / 2 <= 1.
Proof.
  set (s := Rmin (lambda / L) (/ lambda / 2)).
  assert (P : 0 < s) by (unfold s; apply Rmin_glb_lt; [apply Rdiv_lt_0_compat; lra|pose proof (Rinv_0_lt_compat lambda Pl); lra]).
  destruct (pull_small step s Ps P) as [N HN]. exists N. intros n Hn. specialize (HN n Hn). unfold pull in HN. pose proof (h_pos n) as Hp.
  assert (Q : h n <= 2 * s) by (apply (Rmult_le_reg_r (/ (2 * s))); [apply Rinv_0_lt_compat; lra|]; rewrite Rinv_r by lra; exact HN).
  assert (Q1 : h n * L <= 2 * lambda).
  { assert (s * L <= lambda) by (apply Rle_trans with (lambda / L * L); [apply Rmult_le_compat_r; [lra|apply Rmin_l]|right; field; lra]).
    assert (h n * L <= 2 * s * L) by (apply Rmult_le_compat_r; lra). lra. }
  assert (Q2 : h n * lambda <= 1).
  { assert (s * lambda <= / 2) by (apply Rle_trans with (/ lambda / 2 * lambda); [apply Rmult_le_compat_r; [lra|apply Rmin_r]|right; field; lra]).
    assert (h n * lambda <= 2 * s * lambda) by (apply Rmult_le_compat_r; lra). lra. }
  assert (Q3 : 0 <= h n * h n / 4 * L) by (apply Rmult_le_pos; nra).
  assert (Q4 : h n * h n / 4 * L <= h n * lambda / 2) by (assert (h n * (h n * L) <= h n * (2 * lambda)) by (apply Rmult_le_compat_l; lra); lra).
  unfold rho. rewrite Rabs_pos_eq by lra. split; lra.
Qed.
Lemma rate_far : goes_anywhere (fun n => h n * lambda / 2).
Proof.
  pose proof (Rinv_0_lt_compat lambda Pl) as P. intros b. destruct (pull_far step (/ lambda) Ps P b) as [n Hn]. exists n. eapply Rlt_le_trans; [exact Hn|].
  right. apply partial_ext. intros i _. unfold pull. field. lra.
Qed.
Lemma rate_settles : forall c, 0 <= c -> exists B, forall n, partial_sum (fun n => h n * h n / 4 * c) n <= B.
Proof.
  intros c Hc. destruct (pull_settles step 1 Ps Rlt_0_1) as [B HB]. exists (c * B). intros n. eapply Rle_trans; [|apply Rmult_le_compat_l; [exact Hc|apply (HB n)]].
  right. rewrite <- partial_scal. apply partial_ext. intros i _. unfold pull. field.
Qed.
Lemma shrinks : forall (u : nat -> R) c, 0 <= c -> (forall n, 0 <= u n) -> (forall n, u (S n) <= rho n * u n + h n * h n / 4 * c) -> Un_cv u 0.
Proof.
  intros u c Hc U H. destruct rho_small as [N HN]. apply (contracts u (fun n => h n * lambda / 2) (fun n => h n * h n / 4 * c) N).
  - exact U.
  - intros n. pose proof (h_pos n). nra.
  - intros n Hn. apply HN. exact Hn.
  - intros n. pose proof (h_pos n). apply Rmult_le_pos; nra.
  - exact rate_far.
  - apply rate_settles. exact Hc.
  - intros n Hn. destruct (HN n Hn) as [Q _]. eapply Rle_trans; [apply H|]. apply Rplus_le_compat_r. apply Rmult_le_compat_r; [apply U|exact Q].
Qed.
Lemma err_cv : Un_cv err 0.
Proof. apply (shrinks err K); [unfold K; nra|exact err_nonneg|intros n; cbn [err]; lra]. Qed.
Fixpoint fade (n : nat) : R := match n with O => 1 | S k => rho k * fade k end.
Lemma fade_nonneg : forall n, 0 <= fade n.
Proof. induction n as [|n IH]; cbn [fade]; [lra|]. apply Rmult_le_pos; [apply Rabs_pos|exact IH]. Qed.
Lemma fade_cv : Un_cv fade 0.
Proof. apply (shrinks fade 0); [lra|exact fade_nonneg|intros n; cbn [fade]; lra]. Qed.
Lemma W_fade : forall n a, Sh a -> inn (W n a) (W n a) <= fade n * inn a a.
Proof.
  induction n as [|n IH]; intros a Ha; cbn [W fade]; [lra|]. eapply Rle_trans; [apply IH, T_sh, Ha|].
  replace (rho n * fade n * inn a a) with (fade n * (rho n * inn a a)) by ring. apply Rmult_le_compat_l; [apply fade_nonneg|apply T_contracts; exact Ha].
Qed.
Lemma squeeze : forall (u e : nat -> R) l m, Un_cv e 0 -> (forall n, Rabs (u n - l) <= e n * m) -> Un_cv u l.
Proof.
  intros u e l m He H eps E. assert (P : 0 < Rabs m + 1) by (pose proof (Rabs_pos m); lra).
  destruct (He (eps / (Rabs m + 1)) ltac:(apply Rdiv_lt_0_compat; lra)) as [N HN]. exists N. intros n Hn. specialize (HN n Hn). unfold R_dist in *. rewrite Rminus_0_r in HN.
  eapply Rle_lt_trans; [apply H|]. eapply Rle_lt_trans; [apply Rle_abs|]. rewrite Rabs_mult.
  apply Rle_lt_trans with (Rabs (e n) * (Rabs m + 1)); [apply Rmult_le_compat_l; [apply Rabs_pos|lra]|].
  replace eps with (eps / (Rabs m + 1) * (Rabs m + 1)) by (field; lra). apply Rmult_lt_compat_r; [exact P|exact HN].
Qed.
Lemma Var_cv : forall b, Sh b -> Un_cv (fun n => Var n (A b)) (inn b (A b)).
Proof. intros b Hb. apply (squeeze _ err _ (inn b b) err_cv). intros n. apply Var_err. exact Hb. Qed.
Lemma W_cv : forall a, Sh a -> Un_cv (fun n => inn (W n a) (W n a)) 0.
Proof.
  intros a Ha. apply (squeeze _ fade _ (inn a a) fade_cv). intros n. rewrite Rminus_0_r, Rabs_pos_eq by (apply in_pos, W_sh, Ha). apply W_fade. exact Ha.
Qed.
End Abstract.

(** ** Tensors *)
Lemma inner_nil : forall b, inner [] b = 0.
Proof. intros b. reflexivity. Qed.
Definition dot (u v : list R) : R := sumR (map (fun p => fst p * snd p) (combine u v)).
Lemma dot_cons : forall x u y v, dot (x :: u) (y :: v) = x * y + dot u v.
Proof. reflexivity. Qed.
Lemma dot_app : forall u v a b, length u = length v -> dot (u ++ a) (v ++ b) = dot u v + dot a b.
Proof. induction u as [|x u IH]; intros [|y v] a b H; try discriminate; [change (dot a b = 0 + dot a b); ring|]. cbn [app]. rewrite !dot_cons, IH by (cbn in H; lia). ring. Qed.
Lemma inner_cons : forall u a v b, length u = length v -> inner (u :: a) (v :: b) = dot u v + inner a b.
Proof. intros u a v b H. unfold inner. cbn [concat]. exact (dot_app u v (concat a) (concat b) H). Qed.
Lemma dot_sym : forall u v, dot u v = dot v u.
Proof. induction u as [|x u IH]; intros [|y v]; try reflexivity. rewrite !dot_cons, IH. ring. Qed.
Lemma inner_sym : forall a b, inner a b = inner b a.
Proof. intros a b. exact (dot_sym (concat a) (concat b)). Qed.
Lemma dot_pos : forall u, 0 <= dot u u.
Proof. induction u as [|x u IH]; [cbn; lra|]. rewrite dot_cons. nra. Qed.
Lemma inner_pos : forall a, 0 <= inner a a.
Proof. intros a. exact (dot_pos (concat a)). Qed.
Lemma dot_plus : forall u c w v, length u = length w -> length u = length v ->
  dot (map (fun q => fst q + snd q) (combine u (map (Rmult c) w))) v = dot u v + c * dot w v.
Proof.
  induction u as [|x u IH]; intros c [|y w] [|z v] H K; try discriminate; [change (0 = 0 + c * 0); ring|].
  cbn [map combine fst snd]. rewrite !dot_cons, IH by (cbn in *; lia). ring.
Qed.
Lemma inner_plus : forall a c b v, same_shape a b -> same_shape a v -> inner (plus_multiple a c b) v = inner a v + c * inner b v.
Proof.
  intros a c b v H. revert v. induction H as [|x y a b E H IH]; intros v K; inversion K as [|x' z a' v' E' K']; subst; [change (0 = 0 + c * 0); ring|].
  unfold plus_multiple, translate. cbn [map combine fst snd]. fold (translate a (map (map (Rmult c)) b)). fold (plus_multiple a c b).
  rewrite !inner_cons by (try (rewrite map_length, combine_length, map_length); lia). rewrite dot_plus, IH by auto. ring.
Qed.
Lemma dot_mult : forall c u v, dot (map (Rmult c) u) v = c * dot u v.
Proof. intros c. induction u as [|x u IH]; intros [|y v]; try (change (0 = c * 0); ring). cbn [map]. rewrite !dot_cons, IH. ring. Qed.
Lemma inner_mult : forall c a b, inner (map (map (Rmult c)) a) b = c * inner a b.
Proof. intros c a b. change (dot (concat (map (map (Rmult c)) a)) (concat b) = c * dot (concat a) (concat b)). rewrite <- concat_map. apply dot_mult. Qed.

Lemma sgld_joint : forall step s0 A lambda L, 0 < step -> 0 < lambda -> 0 < L -> precision s0 A lambda L ->
  exists (w : nat -> list tensor -> list tensor) (c : nat -> nat -> list tensor -> list tensor),
  (forall b, same_shape s0 b -> Un_cv (fun n => inner (w n b) (w n b)) 0 /\
    Un_cv (fun n => partial_sum (fun i => inner (c n i b) (c n i b)) n) (inner b (A b))) /\
  forall log_prob scale keys gradients z0 mu us,
  same_shape s0 z0 -> same_shape s0 mu -> length z0 = length keys ->
  (forall f z, same_shape z0 z -> same_shape z0 (gradients f z)) ->
  (forall i, same_shape z0 (g_normal (fst (us i)))) ->
  let lp := fun k d v => Fin (log_prob k d v) in let latent := map (fun k => (k, None)) keys in
  (forall i z, same_shape z0 z -> gradients (scaled_log_joint lp scale latent (g_data (fst (us i)))) z = map (map (Rmult (-1))) (A (plus_multiple z (-1) mu))) ->
  forall tables m, row_is tables 0 z0 -> (forall rows, In rows tables -> (m <= length rows)%nat) ->
  exists s infos, updates (sgld_kernel lp scale latent gradients step) (initial tables tt) us 0 m = Some (s, infos) /\
  forall n, (n < m)%nat -> exists z, row_is (m_tables s) n z /\ same_shape z0 z /\ forall b, same_shape s0 b ->
    inner (A b) z = inner (A b) mu + inner (w (S n) b) (plus_multiple z0 (-1) mu) + partial_sum (fun i => inner (c (S n) i b) (g_normal (fst (us i)))) (S n).
Proof.
  intros step s0 A lambda L Ps Pl PL [Ash Alin Asym Alow Aup].
  assert (P0 : forall a c b, same_shape s0 a -> same_shape s0 b -> same_shape s0 (plus_multiple a c b)).
  { intros a c b Ha Hb. eapply shape_trans; [exact Ha|]. apply shape_plus. eapply shape_trans; [apply shape_sym; exact Ha|exact Hb]. }
  assert (P1 : forall a c b v, same_shape s0 a -> same_shape s0 b -> same_shape s0 v -> inner (plus_multiple a c b) v = inner a v + c * inner b v).
  { intros a c b v Ha Hb Hv. apply inner_plus; (eapply shape_trans; [apply shape_sym; exact Ha|assumption]). }
  assert (P2 : forall a b, same_shape s0 a -> same_shape s0 b -> inner a b = inner b a) by (intros; apply inner_sym).
  assert (P3 : forall a, same_shape s0 a -> 0 <= inner a a) by (intros; apply inner_pos).
  exists (fun n b => W _ plus_multiple A step n (A b)), (fun n i b => C _ plus_multiple A step n i (A b)). split.
  - intros b Hb. split.
    + apply (W_cv _ (same_shape s0) plus_multiple inner A step lambda L); auto.
    + apply (Var_cv _ (same_shape s0) plus_multiple inner A step lambda L); auto.
  - intros log_prob scale keys gradients z0 mu us Hz0 Hmu Hl Hg Hn lp latent G tables m H0 Hm.
    destruct (sgld_plain log_prob scale keys gradients step z0 us Hl Hg Hn tables m H0 Hm) as (s & infos & E & st & S0 & Ss & Sr).
    exists s, infos. split; [exact E|]. intros n Hnm.
    assert (Sh : forall i, same_shape z0 (st i)).
    { induction i as [|i IH]; [rewrite S0; apply shape_refl|]. rewrite (Ss i). cbv zeta.
      pose proof (shape_plus (st i) (step / Rpower (INR (i + 1)) 0.55 / 2) _ (shape_trans _ _ _ (shape_sym _ _ IH) (Hg (scaled_log_joint lp scale latent (g_data (fst (us i)))) (st i) IH))) as B.
      eapply shape_trans; [exact IH|]. eapply shape_trans; [exact B|]. apply shape_plus. eapply shape_trans; [apply shape_sym; exact B|].
      eapply shape_trans; [apply shape_sym; exact IH|]. apply Hn. }
    assert (Sh0 : forall i, same_shape s0 (st i)) by (intros i; eapply shape_trans; [exact Hz0|apply Sh]).
    exists (st (S n)). split; [exact (Sr n Hnm)|]. split; [apply Sh|]. intros b Hb.
    pose proof (Ash b Hb) as HA.
    pose proof (chain_inner _ (same_shape s0) plus_multiple inner A step P0 P1 P2 Ash mu (fun i => gradients (scaled_log_joint lp scale latent (g_data (fst (us i)))) (st i)) st (fun i => g_normal (fst (us i))) Hmu Sh0
      ltac:(intros i; eapply shape_trans; [exact Hz0|apply Hn]) ltac:(intros i; eapply shape_trans; [exact Hz0|apply Hg, Sh])) as Q.
    rewrite Q; [|..|exact HA].
    + rewrite S0. f_equal. f_equal. rewrite (inner_sym _ (plus_multiple z0 (-1) mu)), P1, (inner_sym z0), (inner_sym mu); auto; [ring|].
      apply (W_sh _ (same_shape s0)); auto.
    + intros i a Ha. rewrite (G i _ (Sh i)), inner_sym, inner_mult, inner_sym. rewrite <- (Asym a) by auto. rewrite inner_sym, P1, (inner_sym (st i)), (inner_sym mu) by auto. ring.
    + intros i. exact (Ss i).
Qed.
