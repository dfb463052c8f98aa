(** * Proofs for C89. *)
From Coquelicot Require Import Coquelicot.
From Coq Require Import Reals List Arith Bool Lia Lra.
From Verif Require Import Ext Feed MonteCarlo Transform MH MHSpec HMC HMCSpec VI VISpec VIIntegralSpec ExtProofs MHProofs InvariantSpec InvariantProofs.
From Verif Require Import VolumeSpec VolumeProofs VolumeMassProofs VolumeHMCSpec VolumeFlatProofs VolumeHMCProofs VolumeWalkSpec VolumeWalkProofs.
From Verif Require Import ForgetSpec.
Import ListNotations.
Local Open Scope R_scope.
Set Bullet Behavior "Strict Subproofs".

Section Walk.
Context {V : Type} (veq : forall a b : V, {a = b} + {a <> b}).
Notation dict := (list (nat * V)).
Variable log_prob proposal_log_prob : nat -> dict -> V -> ext.
Variable latent proposals : list nat.
Variable data : dict.
Hypothesis WF : well_posed latent proposals data.
Hypothesis LD : log_densities log_prob proposal_log_prob.
Hypothesis NE : latent <> [].
Variable D : list V -> Prop.
Variable I : (list V -> R) -> R -> Prop.
Hypothesis HI : integral D I.
Hypothesis HP : positive_integral D I.
Hypothesis HD : forall z, D z -> length z = length latent.
Notation p := (joint log_prob latent data).
Notation g := (propose_density veq proposal_log_prob latent proposals data).
Notation ap z z' := (accept_prob (p z' * g z' z) (p z * g z z')).
Hypothesis HG : forall z, D z -> I (g z) 1.
Hypothesis PP : forall z, D z -> 0 < p z.
Variables Z eps : R.
Hypothesis HZ : I p Z.
Hypothesis Z0 : 0 < Z.
Hypothesis E0 : 0 < eps.
Hypothesis HM : forall z z', D z -> D z' -> eps * p z' / Z <= g z z'.

Lemma int_le : forall f h a b, (forall x, D x -> f x <= h x) -> I f a -> I h b -> a <= b.
Proof.
  intros f h a b H Hf Hh. assert (0 <= b + -1 * a); [|lra].
  apply (HP (fun x => h x + -1 * f x)); [intros x Hx; specialize (H x Hx); lra|].
  apply (int_add D I HI); [exact Hh|]. apply (int_scal D I HI). exact Hf.
Qed.

Lemma moving : forall z z', D z -> D z' -> eps * p z' / Z <= g z z' * ap z z'.
Proof.
  intros z z' Hz Hz'. pose proof (PP z Hz) as Pz. pose proof (PP z' Hz') as Pz'. pose proof (HM z z' Hz Hz') as M1. pose proof (HM z' z Hz' Hz) as M2.
  assert (Q : forall x, 0 < x -> 0 < eps * x / Z) by (intros x Hx; apply Rmult_lt_0_compat; [apply Rmult_lt_0_compat; assumption|apply Rinv_0_lt_compat; assumption]).
  pose proof (Q _ Pz) as Q1. pose proof (Q _ Pz') as Q2.
  assert (G1 : 0 < g z z') by lra. assert (G2 : 0 < g z' z) by lra.
  assert (N0 : 0 < p z * g z z') by (apply Rmult_lt_0_compat; assumption).
  unfold accept_prob. destruct (Req_EM_T (p z * g z z') 0) as [E|_]; [lra|].
  unfold Rmin. destruct (Rle_dec 1 _) as [L|L]; [lra|].
  replace (g z z' * (p z' * g z' z / (p z * g z z'))) with (p z' * (g z' z / p z)) by (field; split; lra).
  replace (eps * p z' / Z) with (p z' * (eps * p z / Z / p z)) by (field; split; lra).
  apply Rmult_le_compat_l; [lra|]. apply Rmult_le_compat_r; [left; apply Rinv_0_lt_compat; exact Pz|exact M2].
Qed.

Lemma one_step_bounds : forall phi psi lo hi c, one_step veq log_prob proposal_log_prob latent proposals data D I phi psi ->
  (forall z, D z -> lo <= phi z <= hi) -> I (fun z => p z * phi z) c ->
  forall z, D z -> eps * (c / Z) + (1 - eps) * lo <= psi z <= eps * (c / Z) + (1 - eps) * hi.
Proof.
  intros phi psi lo hi c (e & He & Hp & _) B Hc z Hz. cbv zeta in *.
  assert (W : forall z', D z' -> g z z' * e z z' = g z z' * ap z z' * phi z' + g z z' * (1 - ap z z') * phi z).
  { intros z' Hz'. destruct (Req_dec (g z z') 0) as [->|Hg]; [ring|].
    rewrite (mean_step_eq veq log_prob proposal_log_prob latent proposals data WF LD NE D HD z z' phi (e z z') Hz Hz' Hg (He z z' Hz Hz' Hg)). ring. }
  assert (T : forall b, I (fun z' => eps / Z * (p z' * phi z') + (b * g z z' + - (b * eps / Z) * p z')) (eps / Z * c + (b * 1 + - (b * eps / Z) * Z))).
  { intros b. apply (int_add D I HI (fun z' => eps / Z * (p z' * phi z')) (fun z' => b * g z z' + - (b * eps / Z) * p z')); [exact (int_scal D I HI (eps / Z) _ _ Hc)|].
    apply (int_add D I HI (fun z' => b * g z z') (fun z' => - (b * eps / Z) * p z')); [exact (int_scal D I HI b _ _ (HG z Hz))|exact (int_scal D I HI _ _ _ HZ)]. }
  assert (V1 : forall b, eps / Z * c + (b * 1 + - (b * eps / Z) * Z) = eps * (c / Z) + (1 - eps) * b) by (intros b; field; lra).
  assert (RG : forall z', 0 <= ap z z' <= 1) by (intros z'; apply ap_range).
  assert (GN : forall z', 0 <= g z z') by (intros z'; apply g_nonneg).
  split; rewrite <- V1.
  - eapply int_le; [|apply T|apply (Hp z Hz)]. intros z' Hz'. cbv beta. rewrite W by exact Hz'. pose proof (moving z z' Hz Hz') as M. destruct (B z' Hz') as [B1 _]. destruct (B z Hz) as [B2 _].
    pose proof (RG z') as R'. pose proof (GN z') as G'. set (x := ap z z') in *. set (y := g z z') in *.
    assert (A1 : 0 <= (y * x - eps * p z' / Z) * (phi z' - lo)) by (apply Rmult_le_pos; lra).
    assert (A2 : 0 <= y * (1 - x) * (phi z - lo)) by (apply Rmult_le_pos; [apply Rmult_le_pos; lra|lra]).
    replace (eps / Z * (p z' * phi z')) with (eps * p z' / Z * phi z') by (unfold Rdiv; ring). replace (- (lo * eps / Z) * p z') with (- lo * (eps * p z' / Z)) by (unfold Rdiv; ring). lra.
  - eapply int_le; [|apply (Hp z Hz)|apply T]. intros z' Hz'. cbv beta. rewrite W by exact Hz'. pose proof (moving z z' Hz Hz') as M. destruct (B z' Hz') as [_ B1]. destruct (B z Hz) as [_ B2].
    pose proof (RG z') as R'. pose proof (GN z') as G'. set (x := ap z z') in *. set (y := g z z') in *.
    assert (A1 : 0 <= (y * x - eps * p z' / Z) * (hi - phi z')) by (apply Rmult_le_pos; lra).
    assert (A2 : 0 <= y * (1 - x) * (hi - phi z)) by (apply Rmult_le_pos; [apply Rmult_le_pos; lra|lra]).
    replace (eps / Z * (p z' * phi z')) with (eps * p z' / Z * phi z') by (unfold Rdiv; ring). replace (- (hi * eps / Z) * p z') with (- hi * (eps * p z' / Z)) by (unfold Rdiv; ring). lra.
Qed.

Lemma mean_between : forall phi lo hi c, (forall z, D z -> lo <= phi z <= hi) -> I (fun z => p z * phi z) c -> lo <= c / Z <= hi.
Proof.
  intros phi lo hi c B Hc.
  assert (L : lo * Z <= c) by (eapply int_le; [|apply (int_scal D I HI lo); exact HZ|exact Hc]; intros z Hz; cbv beta; pose proof (PP z Hz); rewrite Rmult_comm; apply Rmult_le_compat_l; [lra|apply B; exact Hz]).
  assert (U : c <= hi * Z) by (eapply int_le; [|exact Hc|apply (int_scal D I HI hi); exact HZ]; intros z Hz; cbv beta; pose proof (PP z Hz); rewrite (Rmult_comm hi); apply Rmult_le_compat_l; [lra|apply B; exact Hz]).
  split; apply (Rmult_le_reg_r Z); try exact Z0; unfold Rdiv; rewrite Rmult_assoc, Rinv_l, Rmult_1_r by lra; assumption.
Qed.

Lemma steps_bounds : forall n phi psi lo hi c, steps_mean veq log_prob proposal_log_prob latent proposals data D I n phi psi ->
  (forall z, D z -> lo <= phi z <= hi) -> I (fun z => p z * phi z) c -> forall z, D z ->
  c / Z - (1 - eps) ^ n * (c / Z - lo) <= psi z <= c / Z + (1 - eps) ^ n * (hi - c / Z).
Proof.
  intros n phi psi lo hi c H B Hc. induction H as [phi|n phi psi chi b H IH H1 Hb]; intros z Hz.
  - specialize (B z Hz). cbn [pow]. lra.
  - specialize (IH B Hc).
    pose proof (stationary_steps veq log_prob proposal_log_prob latent proposals data WF LD NE D I HI HD HG n phi psi c H Hc) as Hs.
    pose proof (one_step_bounds psi chi _ _ c H1 IH Hs z Hz) as Q. cbn [pow].
    split; [replace (c / Z - (1 - eps) * (1 - eps) ^ n * (c / Z - lo)) with (eps * (c / Z) + (1 - eps) * (c / Z - (1 - eps) ^ n * (c / Z - lo))) by ring|
      replace (c / Z + (1 - eps) * (1 - eps) ^ n * (hi - c / Z)) with (eps * (c / Z) + (1 - eps) * (c / Z + (1 - eps) ^ n * (hi - c / Z))) by ring]; lra.
Qed.

Lemma eps_le : forall z, D z -> eps <= 1.
Proof.
  intros z Hz. replace eps with (eps / Z * Z) by (field; lra). eapply int_le; [|apply (int_scal D I HI (eps / Z)); exact HZ|apply (HG z Hz)].
  intros z' Hz'. cbv beta. replace (eps / Z * p z') with (eps * p z' / Z) by (unfold Rdiv; ring). apply HM; assumption.
Qed.

Lemma forgets : forall n phi psi lo hi c, steps_mean veq log_prob proposal_log_prob latent proposals data D I n phi psi ->
  (forall z, D z -> lo <= phi z <= hi) -> I (fun z => p z * phi z) c -> forall z, D z ->
  Rabs (psi z - c / Z) <= (1 - eps) ^ n * (hi - lo) /\ 0 <= 1 - eps < 1.
Proof.
  intros n phi psi lo hi c H B Hc z Hz. pose proof (steps_bounds n phi psi lo hi c H B Hc z Hz) as Q. pose proof (mean_between phi lo hi c B Hc) as M.
  pose proof (eps_le z Hz) as E. split; [|lra]. pose proof (pow_le (1 - eps) n ltac:(lra)) as P. set (r := (1 - eps) ^ n) in *.
  assert (A1 : r * (c / Z - lo) <= r * (hi - lo)) by (apply Rmult_le_compat_l; lra).
  assert (A2 : r * (hi - c / Z) <= r * (hi - lo)) by (apply Rmult_le_compat_l; lra).
  apply Rabs_le. lra.
Qed.
End Walk.

(** ** Instances *)
Lemma by_sum_positive : forall {A} (l : list A), positive_integral (fun x => In x l) (by_sum l).
Proof.
  intros A l f a H <-. induction l as [|x l IH]; cbn; [lra|]. pose proof (H x (or_introl eq_refl)). specialize (IH (fun y Hy => H y (or_intror Hy))). lra.
Qed.
Lemma by_tensors_positive : forall s0, positive_integral (same_shape s0) (by_tensors s0).
Proof.
  intros s0 f a H Ha. unfold by_tensors in Ha.
  pose proof (int_scal _ _ (by_volume_integral (size s0)) 0 _ _ Ha) as Z. rewrite Rmult_0_l in Z.
  eapply by_volume_le; [exact Z|exact Ha|]. intros x Hx. cbv beta. rewrite Rmult_0_l. apply H. apply cut_shape. exact Hx.
Qed.

Lemma list_low : forall {A} (l : list A) (f : A -> R), (forall x, In x l -> 0 < f x) -> exists e, 0 < e /\ forall x, In x l -> e <= f x.
Proof.
  intros A l f. induction l as [|x l IH]; intros H; [exists 1; split; [lra|intros ? []]|].
  destruct IH as (e & E0 & E); [intros; apply H; right; assumption|]. exists (Rmin e (f x)). split; [apply Rmin_glb_lt; [exact E0|apply H; left; reflexivity]|].
  intros y [<-|Hy]; [apply Rmin_r|]. eapply Rle_trans; [apply Rmin_l|apply E; exact Hy].
Qed.
