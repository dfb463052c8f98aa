(** * Proofs for C90: tensors of real numbers. *)
From Coquelicot Require Import Coquelicot.
From Coq Require Import Reals List Arith Bool Lia Lra.
From Verif Require Import Transform HMC HMCSpec VolumeSpec VolumeProofs VolumeMassProofs VolumeHMCSpec VolumeFlatProofs VolumeHMCProofs VolumeWalkSpec VolumeWalkProofs VolumeGibbsSpec VolumeGibbsProofs.
From Verif Require Import VIIntegralSpec.
From Verif Require Import ElboSpec.
Import ListNotations.
Local Open Scope R_scope.
Set Bullet Behavior "Strict Subproofs".

Lemma RInt_point : forall u M a, uc1 u -> (forall x, 0 <= u x) -> - M < a < M -> 0 < u a -> 0 < RInt u (- M) M.
Proof.
  intros u M a Hu P Ha Pa. destruct (Hu (u a) Pa) as [d [Hd Hc]].
  set (e := Rmin (d / 2) (Rmin (a + M) (M - a))).
  assert (He : 0 < e /\ e <= d / 2 /\ e <= a + M /\ e <= M - a).
  { unfold e. repeat split; try (repeat apply Rmin_glb_lt; lra).
    - apply Rmin_l.
    - eapply Rle_trans; [apply Rmin_r|apply Rmin_l].
    - eapply Rle_trans; [apply Rmin_r|apply Rmin_r]. }
  destruct He as (E0 & E1 & E2 & E3).
  rewrite <- (RInt_chasles3 u (- M) (a - e) M Hu), <- (RInt_chasles3 u (a - e) (a + e) M Hu).
  assert (Q1 : 0 <= RInt u (- M) (a - e)) by (apply RInt_ge_0; [lra|apply uc1_ex; exact Hu|intros; apply P]).
  assert (Q2 : 0 <= RInt u (a + e) M) by (apply RInt_ge_0; [lra|apply uc1_ex; exact Hu|intros; apply P]).
  assert (Q3 : 0 < RInt u (a - e) (a + e)).
  { apply RInt_gt_0; [lra| |intros x _; apply uc1_continuous; exact Hu].
    intros x Hx. assert (B : Rabs (x - a) < d) by (apply Rabs_def1; lra). apply Hc in B. apply Rabs_def2 in B. lra. }
  lra.
Qed.

Lemma J_point : forall n M f x0, tst n M f -> (forall x, length x = n -> 0 <= f x) -> length x0 = n -> 0 < f x0 -> 0 < cube_integral M n f.
Proof.
  induction n as [|n IH]; intros M f x0 T P L0 P0.
  - destruct x0; [exact P0|discriminate].
  - rewrite <- (J_wider (S n) M (M + 1) f ltac:(lra) T). assert (T' : tst (S n) (M + 1) f) by (apply (tst_wider _ M); [lra|exact T]).
    destruct x0 as [|a x0]; [discriminate|]. cbn [length] in L0. injection L0 as L0. cbn [cube_integral].
    apply (RInt_point _ _ a).
    + exact (J_uc n (M + 1) f T').
    + intros x. apply J_nonneg; [apply tst_slice; exact T'|]. intros l Hl. apply P. cbn. lia.
    + assert (B : Rabs a <= M).
      { destruct (Rle_lt_dec (Rabs a) M) as [B|B]; [exact B|]. rewrite (tst_far n M f a x0 T B L0) in P0. lra. }
      unfold Rabs in B. destruct (Rcase_abs a) in B; lra.
    + apply (IH (M + 1) (fun l => f (a :: l)) x0); [apply tst_slice; exact T'| |exact L0|exact P0]. intros l Hl. apply P. cbn. lia.
Qed.
Lemma cube_of : forall x, exists M, 0 <= M /\ cube M x.
Proof.
  induction x as [|a x [M [H0 H]]]; [exists 0; split; [lra|constructor]|]. exists (Rmax M (Rabs a)). split; [eapply Rle_trans; [exact H0|apply Rmax_l]|].
  constructor; [apply Rmax_r|]. apply (cube_mono M); [apply Rmax_l|exact H].
Qed.
Lemma mass_point : forall n f a x0, continuous_n n f -> (forall x, length x = n -> 0 <= f x) -> length x0 = n -> 0 < f x0 -> mass n f a -> 0 < a.
Proof.
  intros n f a x0 Cf Pf L0 P0 Ha. destruct (cube_of x0) as [M [HM HC]].
  eapply Rlt_le_trans; [|apply (mass_part n f a (std M) (M + 1) Ha (std_window n M HM))].
  apply (J_point n _ _ x0); [apply window_tst; [apply std_window; exact HM|exact Cf]| |exact L0|].
  - intros x Hx. apply Rmult_le_pos; [apply std_range|apply Pf; exact Hx].
  - rewrite (std_one M x0 HC). lra.
Qed.
Lemma faithful_tensors : forall s0, faithful (same_shape s0) (by_tensors s0) (continuous_tensors s0).
Proof.
  intros s0 f Cf P E x Hx. destruct (P x Hx) as [Q|Q]; [exfalso|symmetry; exact Q].
  apply (Rlt_irrefl 0). apply (mass_point (size s0) (fun l => f (cut s0 l)) 0 (concat x)).
  - exact Cf.
  - intros l Hl. apply P, cut_shape, Hl.
  - apply concat_length. exact Hx.
  - rewrite (cut_concat s0 x Hx). exact Q.
  - apply by_volume_mass; [exact Cf|intros l Hl; apply P, cut_shape, Hl|exact E].
Qed.
