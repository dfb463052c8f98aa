(** * Proofs for C92: averages on spaces where only some functions have means; Metropolis-Hastings on R^n. *)
From Coquelicot Require Import Coquelicot.
From Coq Require Import Reals List Arith Bool Lia Lra FunctionalExtensionality.
From Verif Require Import Ext Feed MonteCarlo Transform MH MHSpec HMC HMCSpec VI VISpec VIIntegralSpec ExtProofs VIProofs MHProofs InvariantSpec InvariantProofs.
From Verif Require Import VolumeSpec VolumeProofs VolumeMassProofs VolumeHMCSpec VolumeFlatProofs VolumeHMCProofs VolumeStepProofs VolumeWalkSpec VolumeWalkProofs VolumeGibbsProofs.
From Verif Require Import ForgetSpec ForgetProofs ForgetWalkProofs.
From Verif Require Import SGLDLimitProofs VISpec AverageSpec AverageProofs.
Import ListNotations.
Local Open Scope R_scope.
Set Bullet Behavior "Strict Subproofs".

Lemma path_ext : forall {A : Type} (D : A -> Prop) (step : (A -> R) -> (A -> R) -> Prop) n F F' G, path_mean D step n F G ->
  (forall l, length l = n -> F l = F' l) -> path_mean D step n F' G.
Proof.
  intros A D step. induction n as [|n IH]; intros F F' G HG E.
  - intros z Hz. rewrite <- (E [] eq_refl). exact (HG z Hz).
  - destruct HG as (H & HH & HG). exists H. split; [|exact HG]. intros z' Hz'. apply (IH _ _ _ (HH z' Hz')). intros l L. apply E. cbn. lia.
Qed.

Section Class.
Context {A : Type} (D : A -> Prop) (step : (A -> R) -> (A -> R) -> Prop) (fine : (A -> R) -> Prop).
Hypothesis Gadd : forall c f g, fine f -> fine g -> fine (fun z => f z + c * g z).
Hypothesis Gmul : forall f g, fine f -> fine g -> fine (fun z => f z * g z).
Hypothesis Gconst : forall k, fine (fun _ => k).
Hypothesis Gstep : forall f, fine f -> exists a, fine a /\ step f a.
Hypothesis Hadd : forall c f a g b, fine f -> fine g -> step f a -> step g b -> step (fun z => f z + c * g z) (fun z => a z + c * b z).
Hypothesis Hconst : forall k, step (fun _ => k) (fun _ => k).
Hypothesis Hmono : forall f a g b, step f a -> step g b -> (forall z, D z -> f z <= g z) -> forall z, D z -> a z <= b z.

Lemma fine_square : forall (g h : A -> R) Gb alpha beta, fine g -> step g h -> (forall z, D z -> Rabs (g z) <= Gb) -> 0 <= alpha ->
  forall n F G s z, D z -> path_mean D step n F G ->
  (forall l, length l = n -> Forall D l -> F l <= alpha * Rsqr (s + sumR (map (fun z => g z - h z) l) + h (final z l)) + beta) ->
  G z <= alpha * (Rsqr (s + h z) + INR n * (Gb * Gb)) + beta.
Proof.
  intros g h Gb alpha beta Fg Hgh Hg Ha. induction n as [|n IH]; intros F G s z Hz HG HF.
  - rewrite (HG z Hz). eapply Rle_trans; [apply (HF [] eq_refl); constructor|]. cbn. rewrite Rplus_0_r. lra.
  - destruct HG as (H & HH & HG). rewrite S_INR.
    assert (B : forall z', D z' -> H z' z' <= alpha * (Rsqr (s + g z') + INR n * (Gb * Gb)) + beta).
    { intros z' Hz'. pose proof (IH _ _ (s + (g z' - h z')) z' Hz' (HH z' Hz')) as Q.
      replace (s + (g z' - h z') + h z') with (s + g z') in Q by ring. apply Q. intros l L FD.
      eapply Rle_trans; [apply (HF (z' :: l)); [cbn; lia|constructor; assumption]|]. cbn [map sumR]. change (final z (z' :: l)) with (final z' l).
      right. f_equal. f_equal. f_equal. ring. }
    destruct (Gstep (fun z => g z * g z) (Gmul g g Fg Fg)) as (q & Fq & Hq).
    pose (k0 := alpha * (s * s) + alpha * INR n * (Gb * Gb) + beta).
    pose proof (Hadd (2 * alpha * s) _ _ _ _ (Gconst k0) Fg (Hconst k0) Hgh) as S1.
    pose proof (Hadd alpha _ _ _ _ (Gadd (2 * alpha * s) _ _ (Gconst k0) Fg) (Gmul g g Fg Fg) S1 Hq) as S2. cbv beta in S2.
    pose proof (Hmono _ _ _ _ HG S2) as M. cbv beta in M. unfold k0 in M.
    assert (M1 : G z <= alpha * (s * s) + alpha * INR n * (Gb * Gb) + beta + 2 * alpha * s * h z + alpha * q z).
    { apply M; [|exact Hz]. intros z' Hz'. eapply Rle_trans; [apply B; exact Hz'|]. right. unfold Rsqr. ring. }
    assert (M2 : q z <= Gb * Gb).
    { refine (Hmono _ _ _ _ Hq (Hconst (Gb * Gb)) _ z Hz). intros z' Hz'. apply square_le. apply Hg. exact Hz'. }
    apply (Rmult_le_compat_l alpha) in M2; [|exact Ha].
    assert (M3 : 0 <= alpha * (h z * h z)) by (apply Rmult_le_pos; [exact Ha|apply Rle_0_sqr]).
    unfold Rsqr. lra.
Qed.

Variables (phi : A -> R).
Hypothesis Fphi : fine phi.

(** The square of a sum along the run has an expected value. *)
Lemma square_path : forall n, exists a b, fine a /\ fine b /\ forall k s,
  path_mean D step n (fun l => k * Rsqr (s + sumR (map phi l))) (fun z => k * (s * s) + 2 * k * s * a z + k * b z).
Proof.
  induction n as [|n (a & b & Fa & Fb & IH)].
  - exists (fun _ => 0), (fun _ => 0). split; [apply Gconst|]. split; [apply Gconst|]. intros k s z _. cbn. unfold Rsqr. ring.
  - pose proof (Gadd 1 phi a Fphi Fa) as F1.
    pose proof (Gadd 1 _ b (Gadd 2 _ _ (Gmul phi phi Fphi Fphi) (Gmul phi a Fphi Fa)) Fb) as F2. cbv beta in F2.
    destruct (Gstep _ F1) as (a' & Fa' & Ha'). destruct (Gstep _ F2) as (b' & Fb' & Hb'). exists a', b'. split; [exact Fa'|]. split; [exact Fb'|].
    intros k s. exists (fun z' z => k * ((s + phi z') * (s + phi z')) + 2 * k * (s + phi z') * a z + k * b z). split.
    + intros z' _. refine (path_ext D step n _ _ _ (IH k (s + phi z')) _). intros l _. cbn [map sumR]. f_equal. f_equal. ring.
    + pose proof (Hadd (2 * k * s) _ _ _ _ (Gconst (k * (s * s))) F1 (Hconst (k * (s * s))) Ha') as S1.
      pose proof (Hadd k _ _ _ _ (Gadd (2 * k * s) _ _ (Gconst (k * (s * s))) F1) F2 S1 Hb') as S2. cbv beta in S2.
      match type of S2 with step ?x _ => match goal with |- step ?y _ => replace y with x; [exact S2|] end end.
      apply functional_extensionality. intros z. ring.
Qed.

Variables (m B rho : R).
Hypothesis Hrho : 0 <= rho < 1.
Hypothesis HB : 0 <= B.
Inductive iter : nat -> (A -> R) -> Prop :=
| iter_none : iter O phi
| iter_more : forall k a b, iter k a -> fine a -> fine b -> step a b -> iter (S k) b.
Hypothesis Hiter : forall k psi, iter k psi -> forall z, D z -> Rabs (psi z - m) <= rho ^ k * B.

Lemma sums : forall N, exists g h b, fine g /\ fine b /\ step g h /\ iter N b /\ (forall z, D z -> g z - h z = phi z - b z) /\
  (forall z, D z -> Rabs (g z) <= B * (1 - rho ^ N) / (1 - rho)) /\ (forall z, D z -> Rabs (h z) <= B * rho * (1 - rho ^ N) / (1 - rho)).
Proof.
  induction N as [|N (g & h & b & Fg & Fb & Hgh & Hb & E & Bg & Bh)].
  - exists (fun _ => 0), (fun _ => 0), phi. split; [apply Gconst|]. split; [exact Fphi|]. split; [apply Hconst|]. split; [constructor|].
    split; [intros; ring|]. cbn [pow]. split; intros z Hz; rewrite Rabs_R0; right; field; lra.
  - destruct (Gstep b Fb) as (b' & Fb' & Hb'). pose proof (iter_more N b b' Hb Fb Fb' Hb') as I1.
    exists (fun z => g z + 1 * (b z + -1 * m)), (fun z => h z + 1 * (b' z + -1 * m)), b'.
    split; [apply Gadd; [exact Fg|]; apply (Gadd (-1) b (fun _ => m)); [exact Fb|apply Gconst]|]. split; [exact Fb'|].
    split; [apply (Hadd 1 g h (fun z => b z + -1 * m) (fun z => b' z + -1 * m)); [exact Fg|apply (Gadd (-1) b (fun _ => m)); [exact Fb|apply Gconst]|exact Hgh|]|].
    { apply (Hadd (-1) b b' (fun _ => m) (fun _ => m)); [exact Fb|apply Gconst|exact Hb'|apply Hconst]. }
    split; [exact I1|]. split; [intros z Hz; specialize (E z Hz); lra|]. split; intros z Hz.
    + eapply Rle_trans; [apply Rabs_triang|]. pose proof (Hiter N b Hb z Hz) as Q. replace (1 * (b z + -1 * m)) with (b z - m) by ring.
      eapply Rle_trans; [apply Rplus_le_compat; [apply Bg; exact Hz|exact Q]|]. right. cbn [pow]. field. lra.
    + eapply Rle_trans; [apply Rabs_triang|]. pose proof (Hiter (S N) b' I1 z Hz) as Q. replace (1 * (b' z + -1 * m)) with (b' z - m) by ring.
      eapply Rle_trans; [apply Rplus_le_compat; [apply Bh; exact Hz|exact Q]|]. right. cbn [pow]. field. lra.
Qed.
Notation Gb := (B / (1 - rho)).

Theorem fine_average : forall n, (0 < n)%nat ->
  (exists G, path_mean D step n (fun l => Rsqr (average (map phi l) - m)) G) /\
  forall G, path_mean D step n (fun l => Rsqr (average (map phi l) - m)) G -> forall z, D z -> 0 <= G z <= 12 / Rsqr (1 - rho) * (B * B) / INR n.
Proof.
  intros n Hn. assert (N0 : 0 < INR n) by (apply lt_0_INR; exact Hn). assert (N1 : 1 <= INR n) by (apply (le_INR 1); lia). split.
  { destruct (square_path n) as (a & b & _ & _ & Q). eexists. refine (path_ext D step n _ _ _ (Q (/ (INR n * INR n)) (- (INR n * m))) _).
    intros l L. unfold average. rewrite map_length, L. unfold Rsqr. field. lra. }
  intros G HG z Hz. split; [refine (path_low D step Hconst Hmono 0 n _ G HG _ z Hz); intros l _ _; apply Rle_0_sqr|].
  assert (G0 : 0 <= Gb) by (apply Rmult_le_pos; [exact HB|left; apply Rinv_0_lt_compat; lra]).
  destruct (sums n) as (g & h & b & Fg & Fb & Hgh & Hb & E & Bg & Bh).
  pose proof (power_range rho Hrho n) as PR. pose proof (power_many rho Hrho n) as PM.
  assert (Bg' : forall z, D z -> Rabs (g z) <= Gb).
  { intros y Hy. eapply Rle_trans; [apply Bg; exact Hy|]. unfold Rdiv. apply Rmult_le_compat_r; [left; apply Rinv_0_lt_compat; lra|].
    apply Rle_trans with (B * 1); [apply Rmult_le_compat_l; lra|lra]. }
  assert (Bh' : forall z, D z -> Rabs (h z) <= Gb).
  { intros y Hy. eapply Rle_trans; [apply Bh; exact Hy|]. unfold Rdiv. apply Rmult_le_compat_r; [left; apply Rinv_0_lt_compat; lra|].
    rewrite Rmult_assoc. apply Rle_trans with (B * 1); [apply Rmult_le_compat_l; [exact HB|]|lra].
    apply Rle_trans with (1 * 1); [apply Rmult_le_compat; lra|lra]. }
  pose (al := 3 / (INR n * INR n)). pose (be := 6 * (Gb * Gb) / (INR n * INR n)).
  assert (I0 : 0 < / (INR n * INR n)) by (apply Rinv_0_lt_compat, Rmult_lt_0_compat; exact N0).
  assert (A0 : 0 <= al) by (unfold al, Rdiv; lra).
  assert (Q1 : G z <= al * (Rsqr (0 + h z) + INR n * (Gb * Gb)) + be).
  { apply (fine_square g h Gb al be Fg Hgh Bg' A0 n _ G 0 z Hz HG). intros l L FD.
    assert (Es : sumR (map phi l) - INR (length l) * m = sumR (map (fun z => g z - h z) l) + sumR (map (fun z => b z - m) l)).
    { clear - E FD. induction FD as [|x l Hx FD IH]; [cbn; ring|]. cbn [map sumR length]. rewrite S_INR, (E x Hx). lra. }
    assert (Er : Rabs (sumR (map (fun z => b z - m) l)) <= INR (length l) * (rho ^ n * B)).
    { clear - Hiter Hb FD. induction FD as [|x l Hx FD IH]; [cbn; rewrite Rabs_R0; lra|]. cbn [map sumR length]. rewrite S_INR.
      eapply Rle_trans; [apply Rabs_triang|]. pose proof (Hiter n b Hb x Hx). lra. }
    rewrite L in Es, Er. unfold average. rewrite map_length, L.
    set (U := sumR (map (fun z => g z - h z) l)) in *. set (e := sumR (map (fun z => b z - m) l)) in *.
    pose proof (Bh' _ (final_in D l z Hz FD)) as Hh. set (x := h (final z l)) in *.
    assert (He : Rabs e <= Gb) by (eapply Rle_trans; [exact Er|]; apply (Rmult_le_compat_r B) in PM; [|exact HB]; unfold Rdiv; lra).
    apply square_le in He. apply square_le in Hh.
    replace (sumR (map phi l) / INR n - m) with ((U + e) / INR n) by (rewrite <- Es; field; lra).
    assert (S3 : (U + e) * (U + e) <= 3 * ((U + x) * (U + x)) + 6 * (Gb * Gb)).
    { pose proof (Rle_0_sqr ((U + x) - (- x))) as K1. pose proof (Rle_0_sqr ((U + x) - e)) as K2. pose proof (Rle_0_sqr ((- x) - e)) as K3. unfold Rsqr in *. nra. }
    unfold Rsqr. replace ((U + e) / INR n * ((U + e) / INR n)) with (/ (INR n * INR n) * ((U + e) * (U + e))) by (field; lra).
    replace (al * ((0 + U + x) * (0 + U + x)) + be) with (/ (INR n * INR n) * (3 * ((U + x) * (U + x)) + 6 * (Gb * Gb))) by (unfold al, be; field; repeat split; lra).
    apply Rmult_le_compat_l; [lra|exact S3]. }
  eapply Rle_trans; [exact Q1|]. rewrite Rplus_0_l. unfold Rsqr at 1. pose proof (square_le _ _ (Bh' z Hz)) as Hh.
  apply Rle_trans with (al * (Gb * Gb + INR n * (Gb * Gb)) + be); [apply Rplus_le_compat_r, Rmult_le_compat_l; [exact A0|lra]|].
  replace (12 / Rsqr (1 - rho) * (B * B) / INR n) with (al * (4 * INR n * (Gb * Gb))) by (unfold al, Rsqr; field; repeat split; lra).
  replace be with (al * (2 * (Gb * Gb))) by (unfold al, be; field; repeat split; lra).
  rewrite <- Rmult_plus_distr_l. apply Rmult_le_compat_l; [exact A0|].
  pose proof (Rle_0_sqr Gb) as S0. unfold Rsqr in S0. nra.
Qed.
End Class.

Section Walk.
Context {V : Type} (veq : forall a b : V, {a = b} + {a <> b}).
Variable log_prob proposal_log_prob : nat -> list (nat * V) -> V -> ext.
Variable latent proposals : list nat.
Variable data : list (nat * V).
Hypothesis WF : well_posed latent proposals data.
Hypothesis LD : log_densities log_prob proposal_log_prob.
Hypothesis NE : latent <> [].
Variable D : list V -> Prop.
Variable I : (list V -> R) -> R -> Prop.
Hypothesis HI : integral D I.
Hypothesis HP : positive_integral D I.
Hypothesis HD : forall z, D z -> length z = length latent.
Notation p := (joint log_prob latent data).
Notation g := (propose_density veq proposal_log_prob latent proposals data).
Notation ap z z' := (accept_prob (p z' * g z' z) (p z * g z z')).
Hypothesis HG : forall z, D z -> I (g z) 1.
Notation step := (one_step veq log_prob proposal_log_prob latent proposals data D I).

Lemma step_value : forall f a, step f a -> forall z, D z -> I (fun z' => g z z' * (ap z z' * f z' + (1 - ap z z') * f z)) (a z).
Proof.
  intros f a (e & He & Hp & _) z Hz. cbv zeta in *. eapply (int_ext D I HI); [|exact (Hp z Hz)]. intros z' Hz'. cbv beta.
  destruct (Req_dec (g z z') 0) as [->|Hg]; [ring|]. f_equal.
  exact (mean_step_eq veq log_prob proposal_log_prob latent proposals data WF LD NE D HD z z' f (e z z') Hz Hz' Hg (He z z' Hz Hz' Hg)).
Qed.
Lemma step_change : forall f a b, step f a -> (forall z, D z -> a z = b z) -> step f b.
Proof.
  intros f a b (e & He & Hp & Hx) E. exists e. split; [exact He|]. split; [|exact Hx]. intros z Hz. rewrite <- (E z Hz). exact (Hp z Hz).
Qed.
Lemma step_mono : forall f a h b, step f a -> step h b -> (forall z, D z -> f z <= h z) -> forall z, D z -> a z <= b z.
Proof.
  intros f a h b Ha Hb L z Hz. pose proof (step_value f a Ha z Hz) as Ia. pose proof (step_value h b Hb z Hz) as Ib.
  refine (int_le D I HI HP _ _ _ _ _ Ia Ib). intros z' Hz'. apply Rmult_le_compat_l; [apply g_nonneg|].
  pose proof (ap_range veq log_prob proposal_log_prob latent proposals data z z') as Q. pose proof (L z Hz). pose proof (L z' Hz').
  apply Rplus_le_compat; apply Rmult_le_compat_l; lra.
Qed.
Lemma step_sum : forall c f a h b q, step f a -> step h b -> step (fun z => f z + c * h z) q -> step (fun z => f z + c * h z) (fun z => a z + c * b z).
Proof.
  intros c f a h b q Ha Hb Hq. apply (step_change _ q); [exact Hq|]. intros z Hz.
  pose proof (step_value f a Ha z Hz) as Ia. pose proof (step_value h b Hb z Hz) as Ib. pose proof (step_value _ q Hq z Hz) as Iq. cbv beta in Iq.
  eapply (int_unique D I HI); [exact Iq|]. eapply (int_ext D I HI); [|apply (int_add D I HI); [exact Ia|apply (int_scal D I HI c); exact Ib]].
  intros z' Hz'. cbv beta. ring.
Qed.
Lemma step_one : forall k q, step (fun _ => k) q -> step (fun _ => k) (fun _ => k).
Proof.
  intros k q Hq. apply (step_change _ q); [exact Hq|]. intros z Hz. pose proof (step_value _ q Hq z Hz) as Iq. cbv beta in Iq.
  eapply (int_unique D I HI); [exact Iq|]. pose proof (int_scal D I HI k _ _ (HG z Hz)) as J. rewrite Rmult_1_r in J.
  eapply (int_ext D I HI); [|exact J]. intros z' Hz'. cbv beta. ring.
Qed.
End Walk.

Lemma real_averages : forall (veq : forall a b : tensor, {a = b} + {a <> b})
  (log_prob proposal_log_prob : nat -> list (nat * tensor) -> tensor -> ext) latent proposals data,
  well_posed latent proposals data -> log_densities log_prob proposal_log_prob -> latent <> [] ->
  forall s0, length s0 = length latent ->
  let p := joint log_prob latent data in
  let g := propose_density veq proposal_log_prob latent proposals data in
  (forall z, same_shape s0 z -> 0 < p z) -> continuous_tensors s0 p -> continuous_pairs s0 g ->
  (forall z, same_shape s0 z -> by_tensors s0 (g z) 1) ->
  forall total, by_tensors s0 p total ->
  forall eps, 0 < eps -> (forall z z', same_shape s0 z -> same_shape s0 z' -> eps * p z' / total <= g z z') ->
  let step := one_step veq log_prob proposal_log_prob latent proposals data (same_shape s0) (by_tensors s0) in
  forall phi B, continuous_tensors s0 phi -> (forall z, same_shape s0 z -> Rabs (phi z) <= B) ->
  exists c, by_tensors s0 (fun z => p z * phi z) c /\
  forall n, (0 < n)%nat ->
    (exists G, path_mean (same_shape s0) step n (fun l => Rsqr (average (map phi l) - c / total)) G) /\
    forall G, path_mean (same_shape s0) step n (fun l => Rsqr (average (map phi l) - c / total)) G ->
      forall z, same_shape s0 z -> 0 <= G z <= 48 * Rsqr (B / eps) / INR n.
Proof.
  intros veq lp plp latent proposals data WF LD NE s0 Hs p g PP Cp Cg HG total HT eps E0 HM step phi B Cphi Bphi.
  assert (T0 : 0 < total).
  { apply (mass_positive (size s0) (fun l => p (cut s0 l)) total Cp); [intros x Hx; apply PP, cut_shape; exact Hx|].
    apply by_volume_mass; [exact Cp|intros x Hx; left; apply PP, cut_shape; exact Hx|exact HT]. }
  pose (fine := fun f => continuous_tensors s0 f /\ exists K, forall z, same_shape s0 z -> Rabs (f z) <= K).
  pose proof (by_tensors_integral s0) as HI. pose proof (by_tensors_positive s0) as HP.
  assert (HD : forall z, same_shape s0 z -> length z = length latent) by (intros z Hz; exact (eq_trans (eq_sym (shape_lengths _ _ Hz)) Hs)).
  assert (INT : forall f, fine f -> exists b, by_tensors s0 (fun z => p z * f z) b).
  { intros f (Cf & K & BK). apply (by_volume_dominated (size s0) (fun l => p (cut s0 l) * f (cut s0 l)) (fun l => K * p (cut s0 l)) (K * total)).
    - apply (cn_mult (size s0) (fun l => p (cut s0 l)) (fun l => f (cut s0 l))); assumption.
    - apply (int_scal _ _ (by_volume_integral (size s0)) K _ _ HT).
    - intros l Hl. rewrite !Rabs_mult, Rmult_comm. apply Rmult_le_compat_r; [apply Rabs_pos|].
      eapply Rle_trans; [apply BK, cut_shape; exact Hl|apply RRle_abs]. }
  assert (Fphi : fine phi) by (split; [exact Cphi|exists B; exact Bphi]).
  assert (Gadd : forall c f h, fine f -> fine h -> fine (fun z => f z + c * h z)).
  { intros c f h (Cf & K1 & B1) (Ch & K2 & B2). split.
    - apply (cn_plus (size s0) (fun l => f (cut s0 l)) (fun l => c * h (cut s0 l))); [exact Cf|]. apply (cn_scal (size s0) (fun l => h (cut s0 l)) c). exact Ch.
    - exists (K1 + Rabs c * K2). intros z Hz. eapply Rle_trans; [apply Rabs_triang|]. rewrite Rabs_mult. apply Rplus_le_compat; [apply B1; exact Hz|].
      apply Rmult_le_compat_l; [apply Rabs_pos|apply B2; exact Hz]. }
  assert (Gmul : forall f h, fine f -> fine h -> fine (fun z => f z * h z)).
  { intros f h (Cf & K1 & B1) (Ch & K2 & B2). split.
    - apply (cn_mult (size s0) (fun l => f (cut s0 l)) (fun l => h (cut s0 l))); assumption.
    - exists (K1 * K2). intros z Hz. rewrite Rabs_mult. apply Rmult_le_compat; [apply Rabs_pos|apply Rabs_pos|apply B1; exact Hz|apply B2; exact Hz]. }
  assert (Gconst : forall k, fine (fun _ => k)).
  { intros k. split; [apply (cn_const (size s0) k)|exists (Rabs k); intros; lra]. }
  assert (Gstep : forall f, fine f -> exists a, fine a /\ step f a).
  { intros f (Cf & K & BK).
    destruct (walk_exists veq lp plp latent proposals data WF LD s0 Hs PP Cp Cg HG total HT f K Cf BK 1) as (psi & H1 & C1 & B1).
    exists psi. split; [split; [exact C1|exists K; exact B1]|]. inversion H1 as [|n0 f0 psi0 chi0 b0 S0 S1 I1]; subst. inversion S0; subst. exact S1. }
  assert (Hadd : forall c f a h b, fine f -> fine h -> step f a -> step h b -> step (fun z => f z + c * h z) (fun z => a z + c * b z)).
  { intros c f a h b Ff Fh Ha Hb. destruct (Gstep _ (Gadd c f h Ff Fh)) as (q & _ & Hq).
    exact (step_sum veq lp plp latent proposals data WF LD NE (same_shape s0) (by_tensors s0) HI HD c f a h b q Ha Hb Hq). }
  assert (Hconst : forall k, step (fun _ => k) (fun _ => k)).
  { intros k. destruct (Gstep _ (Gconst k)) as (q & _ & Hq).
    exact (step_one veq lp plp latent proposals data WF LD NE (same_shape s0) (by_tensors s0) HI HD HG k q Hq). }
  assert (Hmono : forall f a h b, step f a -> step h b -> (forall z, same_shape s0 z -> f z <= h z) -> forall z, same_shape s0 z -> a z <= b z).
  { exact (step_mono veq lp plp latent proposals data WF LD NE (same_shape s0) (by_tensors s0) HI HP HD). }
  destruct (INT phi Fphi) as [c Hc]. exists c. split; [exact Hc|]. intros n Hn.
  assert (B0 : 0 <= B).
  { pose proof (Bphi (cut s0 (repeat 0 (size s0)))) as Q. eapply Rle_trans; [apply Rabs_pos|apply Q]. apply cut_shape. apply repeat_length. }
  assert (Hphi : forall z, same_shape s0 z -> - B <= phi z <= B) by (intros z Hz; apply Rabs_le_between; apply Bphi; exact Hz).
  assert (SM : forall k psi, iter step fine phi k psi -> steps_mean veq lp plp latent proposals data (same_shape s0) (by_tensors s0) k phi psi).
  { intros k psi Hk. induction Hk as [|k a b Hk IH Fa Fb Hab]; [constructor|]. destruct (INT b Fb) as [b0 Hb0]. econstructor; [exact IH|exact Hab|exact Hb0]. }
  assert (FG : forall k psi, iter step fine phi k psi -> forall z, same_shape s0 z -> Rabs (psi z - c / total) <= (1 - eps) ^ k * (2 * B) /\ 0 <= 1 - eps < 1).
  { intros k psi Hk z Hz. replace (2 * B) with (B - - B) by ring.
    exact (forgets veq lp plp latent proposals data WF LD NE (same_shape s0) (by_tensors s0) HI HP HD HG PP total eps HT T0 E0 HM k phi psi (- B) B c (SM k psi Hk) Hphi Hc z Hz). }
  assert (Hr : 0 <= 1 - eps < 1).
  { pose proof (FG O phi (iter_none step fine phi) (cut s0 (repeat 0 (size s0)))) as Q. apply Q. apply cut_shape. apply repeat_length. }
  replace (48 * Rsqr (B / eps) / INR n) with (12 / Rsqr (1 - (1 - eps)) * (2 * B * (2 * B)) / INR n).
  2:{ replace (1 - (1 - eps)) with eps by ring. unfold Rsqr. assert (INR n <> 0) by (apply not_0_INR; lia). field. split; lra. }
  exact (fine_average (same_shape s0) step fine Gadd Gmul Gconst Gstep Hadd Hconst Hmono phi Fphi (c / total) (2 * B) (1 - eps) Hr ltac:(lra)
    (fun k psi Hk z Hz => proj1 (FG k psi Hk z Hz)) n Hn).
Qed.
