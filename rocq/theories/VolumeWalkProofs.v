(** * Metropolis-Hastings on R^n. *)
From Coquelicot Require Import Coquelicot.
From Coq Require Import Reals List Arith Bool Lia Lra.
From Verif Require Import Ext Feed MonteCarlo Transform MH MHSpec ExtProofs MHProofs HMC HMCSpec VI VISpec VIIntegralSpec InvariantSpec InvariantProofs.
From Verif Require Import VolumeSpec VolumeProofs VolumeMassProofs VolumeHMCSpec VolumeFlatProofs VolumeHMCProofs.
From Verif Require Import VolumeFubiniProofs VolumeWalkSpec.
Import ListNotations.
Local Open Scope R_scope.
Set Bullet Behavior "Strict Subproofs".

(** ** More about volume *)
Lemma mass_le : forall n f g a b, continuous_n n f -> continuous_n n g -> (forall x, length x = n -> f x <= g x) ->
  mass n f a -> mass n g b -> a <= b.
Proof.
  intros n f g a b Cf Cg H Ha Hb. apply Ha. intros v [chi [M [W ->]]]. eapply Rle_trans; [|apply (mass_part n g b chi M Hb W)].
  apply J_le; try (apply window_tst; auto). intros x Hx. destruct W as [_ [_ [Wr _]]]. specialize (Wr x Hx). specialize (H x Hx). nra.
Qed.
Lemma by_volume_nonneg : forall n f a, by_volume n f a -> (forall x, length x = n -> 0 <= f x) -> 0 <= a.
Proof.
  intros n f a [g [h [b [c [Cg [Ch [P [Mg [Mh ->]]]]]]]]] H. assert (c <= b); [|lra].
  eapply (mass_le n h g); eauto. intros x Hx. specialize (P x Hx). specialize (H x Hx). lra.
Qed.
Lemma by_volume_le : forall n f g a b, by_volume n f a -> by_volume n g b -> (forall x, length x = n -> f x <= g x) -> a <= b.
Proof.
  intros n f g a b Ha Hb H. pose proof (by_volume_integral n) as HI. assert (0 <= b + -1 * a); [|lra].
  apply (by_volume_nonneg n (fun x => g x + -1 * f x)).
  - apply (int_add _ _ HI); auto. apply (int_scal _ _ HI); auto.
  - intros x Hx. specialize (H x Hx). lra.
Qed.
Lemma by_volume_mass : forall n f a, continuous_n n f -> (forall x, length x = n -> 0 <= f x) -> by_volume n f a -> mass n f a.
Proof.
  intros n f a Cf Pf [g [h [b [c [Cg [Ch [P [Mg [Mh ->]]]]]]]]].
  destruct (mass_dominated n f g b Cf Cg) as [a' Ha']; auto.
  { intros x Hx. specialize (Pf x Hx). specialize (P x Hx). lra. }
  replace (b - c) with a'; [exact Ha'|]. assert (a' + c = b); [|lra].
  eapply (mass_unique n (fun x => f x + h x)).
  - apply mass_add; auto. intros x Hx. apply P; auto.
  - eapply mass_ext; [|exact Mg]. intros x Hx. specialize (P x Hx). lra.
Qed.
Lemma by_volume_cn : forall n f a, by_volume n f a -> continuous_n n f.
Proof.
  intros n f a [g [h [b [c [Cg [Ch [P _]]]]]]]. apply (cn_ext n (fun x => 1 * g x + -1 * h x)).
  - intros x Hx. specialize (P x Hx). lra.
  - apply cn_lin; auto.
Qed.
Lemma cn_inv : forall n f, continuous_n n f -> (forall x, length x = n -> 0 < f x) -> continuous_n n (fun x => / f x).
Proof.
  intros n f Cf Pf M eps He. set (K := Rabs M). assert (HK : 0 <= K) by apply Rabs_pos.
  (* bounded away from 0 on the cube *)
  destruct (compact_cube n K (fun d x => d <= f x) HK) as [m [Hm E]].
  { intros d d' x H1 H2 H. lra. }
  { intros x Hx Cx. destruct (Cf K (f x / 2)) as [d [Hd E]]; [specialize (Pf x Hx); lra|]. specialize (Pf x Hx).
    exists (Rmin d (f x / 2)). split; [apply Rmin_pos; lra|]. intros x' Hx' Cx' C.
    assert (Q : Rabs (f x' - f x) < f x / 2). { apply E; auto. eapply close_mono; [apply Rmin_l|exact C]. }
    apply Rabs_def2 in Q. eapply Rle_trans; [apply Rmin_r|]. lra. }
  destruct (Cf M (eps * (m * m))) as [d [Hd E2]]; [apply Rmult_lt_0_compat; auto; nra|]. exists d. split; [exact Hd|].
  intros x y Hx Hy Cx Cy C. specialize (E2 x y Hx Hy Cx Cy C).
  assert (Kx : m <= f x) by (apply E; auto; eapply cube_mono; [apply RRle_abs|exact Cx]).
  assert (Ky : m <= f y) by (apply E; auto; eapply cube_mono; [apply RRle_abs|exact Cy]).
  assert (P2 : 0 < f x * f y) by nra.
  replace (/ f x - / f y) with ((f y - f x) * / (f x * f y)) by (field; split; lra).
  rewrite Rabs_mult, Rabs_minus_sym, (Rabs_right (/ _)) by (apply Rle_ge; left; apply Rinv_0_lt_compat; auto).
  apply Rmult_lt_reg_r with (f x * f y); [exact P2|]. rewrite Rmult_assoc, Rinv_l by lra. rewrite Rmult_1_r.
  eapply Rlt_le_trans; [exact E2|]. apply Rmult_le_compat_l; [lra|]. nra.
Qed.

(** ** Tensors *)
Lemma by_tensors_integral : forall s0, integral (same_shape s0) (by_tensors s0).
Proof.
  intros s0. pose proof (by_volume_integral (size s0)) as HI. unfold by_tensors. constructor.
  - intros f a b. apply (int_unique _ _ HI).
  - intros f g a E H. eapply (int_ext _ _ HI); [|exact H]. intros l Hl. apply E. apply cut_shape; auto.
  - intros f g a b H1 H2. apply (int_add _ _ HI _ _ _ _ H1 H2).
  - intros c f a H. apply (int_scal _ _ HI c _ _ H).
Qed.
Lemma ct_bounds : forall s0 f B, (forall z, same_shape s0 z -> Rabs (f z) <= B) -> forall l, length l = size s0 -> Rabs (f (cut s0 l)) <= B.
Proof. intros s0 f B H l Hl. apply H. apply cut_shape; auto. Qed.

Section Walk.
Variable veq : forall a b : tensor, {a = b} + {a <> b}.
Variable log_prob proposal_log_prob : nat -> list (nat * tensor) -> tensor -> ext.
Variable latent proposals : list nat.
Variable data : list (nat * tensor).
Hypothesis WF : well_posed latent proposals data.
Hypothesis LD : log_densities log_prob proposal_log_prob.
Hypothesis NE : latent <> [].
Variable s0 : list tensor.
Hypothesis Hs0 : length s0 = length latent.
Notation p := (joint log_prob latent data).
Notation g := (propose_density veq proposal_log_prob latent proposals data).
Notation ap z z' := (accept_prob (p z' * g z' z) (p z * g z z')).
Notation D := (same_shape s0).
Notation I := (by_tensors s0).
Notation n := (size s0).
Hypothesis Pp : forall z, D z -> 0 < p z.
Hypothesis Cp : continuous_tensors s0 p.
Hypothesis Cg : continuous_pairs s0 g.
Hypothesis HG : forall z, D z -> I (g z) 1.
Variable Z : R.
Hypothesis HZ : I p Z.

Lemma HDl : forall z, D z -> length z = length latent.
Proof. intros z Hz. rewrite <- Hs0. symmetry. apply (Forall2_len Hz) || (clear - Hz; induction Hz; cbn; auto). Qed.


Lemma fst_len : forall l : list R, length l = (n + n)%nat -> length (firstn n l) = n.
Proof. intros l Hl. rewrite firstn_length. lia. Qed.
Lemma snd_len : forall l : list R, length l = (n + n)%nat -> length (skipn n l) = n.
Proof. intros l Hl. rewrite skipn_length. lia. Qed.

Section Step.
Variable phi : list tensor -> R.
Variable B : R.
Hypothesis Cphi : continuous_tensors s0 phi.
Hypothesis Bphi : forall z, D z -> Rabs (phi z) <= B.

Definition flow (z z' : list tensor) : R := Rmin (p z * g z z') (p z' * g z' z) * (phi z' - phi z).
Lemma flow_anti : forall z z', flow z' z = - flow z z'.
Proof. intros. unfold flow. rewrite Rmin_comm. ring. Qed.
Lemma flow_ap : forall z z', p z * (g z z' * (ap z z' * phi z' + (1 - ap z z') * phi z - phi z)) = flow z z'.
Proof.
  intros z z'. unfold flow. rewrite <- accept_min.
  - ring.
  - apply Rmult_le_pos; [apply joint_nonneg|apply g_nonneg].
  - apply Rmult_le_pos; [apply joint_nonneg|apply g_nonneg].
Qed.

Lemma cn_turn : forall F, continuous_pairs s0 F -> continuous_pairs s0 (fun z z' => F z' z).
Proof.
  intros F HF. unfold continuous_pairs in *. destruct (good_turn (n + n) n) as [HT _]; [lia|].
  apply (cn_ext _ (fun l => F (cut s0 (firstn n (turn n l))) (cut s0 (skipn n (turn n l))))).
  - intros l Hl. rewrite <- (firstn_skipn n l) at 1 2. rewrite turn_app by (apply fst_len; auto).
    rewrite firstn_app_l, skipn_app_l by (apply snd_len; auto). reflexivity.
  - apply (cn_comp _ _ (turn n) (fun l => F (cut s0 (firstn n l)) (cut s0 (skipn n l))) HT HF).
Qed.
Lemma cp_l : forall f, continuous_tensors s0 f -> continuous_pairs s0 (fun z _ => f z).
Proof. intros f Hf. apply (cn_first n n (fun l => f (cut s0 l))). exact Hf. Qed.
Lemma cp_r : forall f, continuous_tensors s0 f -> continuous_pairs s0 (fun _ z => f z).
Proof. intros f Hf. apply (cn_last n n (fun l => f (cut s0 l))). exact Hf. Qed.
Lemma cp_mult : forall F G, continuous_pairs s0 F -> continuous_pairs s0 G -> continuous_pairs s0 (fun z z' => F z z' * G z z').
Proof. intros F G HF HG'. apply (cn_mult (n + n) _ _ HF HG'). Qed.
Lemma cp_flow : continuous_pairs s0 flow.
Proof.
  assert (C1 : continuous_pairs s0 (fun z z' => p z * g z z')) by (apply (cp_mult (fun z _ => p z) g); [apply cp_l|]; auto).
  assert (C2 : continuous_pairs s0 (fun z z' => p z' * g z' z)) by (apply (cn_turn (fun z z' => p z * g z z')); auto).
  apply (cp_mult (fun z z' => Rmin (p z * g z z') (p z' * g z' z)) (fun z z' => phi z' - phi z)).
  - apply (cn_min (n + n) _ _ C1 C2).
  - unfold continuous_pairs. pose proof (cp_l phi Cphi) as H1. pose proof (cp_r phi Cphi) as H2. unfold continuous_pairs in H1, H2.
    eapply cn_ext; [|apply (cn_lin (n + n) _ _ 1 (-1) H2 H1)]. intros l _. cbv beta. ring.
Qed.

Lemma B_nonneg : 0 <= B.
Proof.
  assert (Hs : D (cut s0 (repeat 0 n))) by (apply cut_shape; apply repeat_length).
  eapply Rle_trans; [apply Rabs_pos|apply (Bphi _ Hs)].
Qed.

Lemma flow_integral : exists h A, continuous_n n h /\
  (forall x, length x = n -> by_volume n (fun y => flow (cut s0 x) (cut s0 y)) (h x)) /\
  by_volume n h A /\ by_volume (n + n) (fun l => flow (cut s0 (firstn n l)) (cut s0 (skipn n l))) A.
Proof.
  pose proof B_nonneg as HB.
  destruct (fubini_dominated n n (fun l => flow (cut s0 (firstn n l)) (cut s0 (skipn n l)))
    (fun l => 2 * B * (p (cut s0 (firstn n l)) * g (cut s0 (firstn n l)) (cut s0 (skipn n l))))
    (fun x => 2 * B * p (cut s0 x)) (2 * B * Z)) as (h & A & H1 & H2 & H3 & H4 & _).
  - apply cp_flow.
  - apply (cn_scal (n + n) (fun l => p (cut s0 (firstn n l)) * g (cut s0 (firstn n l)) (cut s0 (skipn n l)))).
    apply (cp_mult (fun z _ => p z) g); [apply cp_l|]; auto.
  - apply (cn_scal n (fun x => p (cut s0 x))). exact Cp.
  - intros l Hl. set (z := cut s0 (firstn n l)). set (z' := cut s0 (skipn n l)).
    assert (Dz : D z) by (apply cut_shape, fst_len; auto). assert (Dz' : D z') by (apply cut_shape, snd_len; auto).
    unfold flow. rewrite Rabs_mult. rewrite (Rmult_comm (2 * B)).
    pose proof (joint_nonneg log_prob latent data z). pose proof (joint_nonneg log_prob latent data z').
    pose proof (g_nonneg veq proposal_log_prob latent proposals data z z'). pose proof (g_nonneg veq proposal_log_prob latent proposals data z' z).
    apply Rmult_le_compat; try apply Rabs_pos.
    + assert (0 <= p z * g z z') by (apply Rmult_le_pos; auto). assert (0 <= p z' * g z' z) by (apply Rmult_le_pos; auto).
      rewrite Rabs_right; [apply Rmin_l|]. unfold Rmin. destruct (Rle_dec _ _); lra.
    + pose proof (Bphi z Dz). pose proof (Bphi z' Dz'). eapply Rle_trans; [apply Rabs_triang|]. rewrite Rabs_Ropp. lra.
  - intros x Hx. assert (Dz : D (cut s0 x)) by (apply cut_shape; auto).
    apply (mass_ext n (fun y => 2 * B * p (cut s0 x) * g (cut s0 x) (cut s0 y))).
    { intros y Hy. rewrite firstn_app_l, skipn_app_l by auto. ring. }
    assert (Cy : continuous_n n (fun y => g (cut s0 x) (cut s0 y))) by (eapply by_volume_cn; apply (HG _ Dz)).
    cbv beta. set (k := 2 * B * p (cut s0 x)). replace (mass n (fun y => k * g (cut s0 x) (cut s0 y)) k) with (mass n (fun y => k * g (cut s0 x) (cut s0 y)) (k * 1)) by (f_equal; ring).
    apply (mass_scal n (fun y => g (cut s0 x) (cut s0 y)) 1 k); auto.
    + pose proof (Pp _ Dz). unfold k. apply Rmult_le_pos; lra.
    + apply by_volume_mass; auto; [|apply (HG _ Dz)]. intros y Hy. apply g_nonneg.
  - apply mass_scal; [lra|exact Cp|]. apply by_volume_mass; auto. intros x Hx. apply joint_nonneg.
  - exists h, A. split; [exact H1|]. split; [|split; auto]. intros x Hx.
    eapply (int_ext _ _ (by_volume_integral n)); [|apply (H2 x Hx)]. intros y Hy. cbv beta. rewrite firstn_app_l, skipn_app_l by auto. reflexivity.
Qed.

Lemma one_step_exists : exists psi, continuous_tensors s0 psi /\ (forall z, D z -> Rabs (psi z) <= B) /\
  one_step veq log_prob proposal_log_prob latent proposals data D I phi psi.
Proof.
  destruct flow_integral as (h & A & Ch & Hh & HA & HF). pose proof B_nonneg as HB.
  pose proof (by_volume_integral n) as HV. pose proof (by_tensors_integral s0) as HT.
  set (psi := fun z => phi z + / p z * h (concat z)).
  assert (Cpsi : continuous_tensors s0 psi).
  { unfold continuous_tensors. apply (cn_ext n (fun l => phi (cut s0 l) + / p (cut s0 l) * h l)).
    - intros l Hl. unfold psi. rewrite concat_cut by auto. reflexivity.
    - apply (cn_plus n (fun l => phi (cut s0 l)) (fun l => / p (cut s0 l) * h l)); [exact Cphi|].
      apply (cn_mult n (fun l => / p (cut s0 l)) h); [|exact Ch]. apply (cn_inv n (fun l => p (cut s0 l))); [exact Cp|].
      intros l Hl. apply Pp, cut_shape; auto. }
  set (e := fun z z' => ap z z' * phi z' + (1 - ap z z') * phi z).
  assert (Hpsi : forall z, D z -> I (fun z' => g z z' * e z z') (psi z)).
  { intros z Hz. assert (Lz : length (concat z) = n) by (apply concat_length; auto).
    assert (E : cut s0 (concat z) = z) by (apply cut_concat; auto).
    pose proof (Hh _ Lz) as H1. rewrite E in H1.
    assert (H2 : I (fun z' => flow z z') (h (concat z))) by exact H1.
    eapply (int_ext _ _ HT) with (f := fun z' => phi z * g z z' + / p z * flow z z').
    - intros z' Hz'. rewrite <- flow_ap. unfold e. pose proof (Pp z Hz). field. lra.
    - replace (psi z) with (phi z * 1 + / p z * h (concat z)) by (unfold psi; ring).
      apply (int_add _ _ HT (fun z' => phi z * g z z') (fun z' => / p z * flow z z'));
        [apply (int_scal _ _ HT (phi z) (g z) 1 (HG z Hz))|apply (int_scal _ _ HT (/ p z) (flow z) _ H2)]. }
  assert (He : forall z z', D z -> D z' -> Rabs (e z z') <= B).
  { intros z z' Hz Hz'. unfold e. pose proof (ap_range veq log_prob proposal_log_prob latent proposals data z z') as [A0 A1].
    pose proof (Bphi z Hz) as B1. pose proof (Bphi z' Hz') as B2.
    eapply Rle_trans; [apply Rabs_triang|]. rewrite !Rabs_mult. rewrite (Rabs_right (ap z z')), (Rabs_right (1 - ap z z')) by lra. nra. }
  exists psi. split; [exact Cpsi|]. split.
  - intros z Hz. pose proof (Hpsi z Hz) as H1. pose proof (int_scal _ _ HT B _ _ (HG z Hz)) as H2. pose proof (int_scal _ _ HT (- B) _ _ (HG z Hz)) as H3.
    assert (U : psi z <= B * 1).
    { apply (by_volume_le n _ _ _ _ H1 H2). intros y Hy. assert (Dy : D (cut s0 y)) by (apply cut_shape; auto).
      pose proof (He z _ Hz Dy) as Q. pose proof (g_nonneg veq proposal_log_prob latent proposals data z (cut s0 y)). apply Rabs_le_between in Q. nra. }
    assert (L : - B * 1 <= psi z).
    { apply (by_volume_le n _ _ _ _ H3 H1). intros y Hy. assert (Dy : D (cut s0 y)) by (apply cut_shape; auto).
      pose proof (He z _ Hz Dy) as Q. pose proof (g_nonneg veq proposal_log_prob latent proposals data z (cut s0 y)). apply Rabs_le_between in Q. nra. }
    apply Rabs_le. lra.
  - exists e. split; [|split].
    + intros z z' Hz Hz' Hg. apply (mean_step_exists veq log_prob proposal_log_prob latent proposals data WF LD D HDl z z' phi Hz Hz' Hg).
    + exact Hpsi.
    + (* the flow is antisymmetric, so that its integral vanishes in either order *)
      intros a (k & K1 & K2).
      assert (Ek : forall z, D z -> k z = h (concat z)).
      { intros z Hz. eapply (int_unique _ _ HT); [apply K1; exact Hz|]. assert (Lz : length (concat z) = n) by (apply concat_length; auto).
        pose proof (Hh _ Lz) as H1. rewrite (cut_concat s0 z Hz) in H1.
        eapply (int_ext _ _ HT) with (f := flow z); [|exact H1]. intros z' Hz'. unfold e. rewrite flow_ap. reflexivity. }
      assert (Ea : a = A).
      { eapply (int_unique _ _ HV); [exact K2|]. eapply (int_ext _ _ HV); [|exact HA]. intros l Hl. cbv beta.
        rewrite Ek by (apply cut_shape; auto). rewrite concat_cut; auto. }
      assert (A0 : A = 0).
      { destruct (Nat.le_exists_sub n (n + n)) as [_ _]; [lia|]. assert (G : good (n + n) (turn n)) by (apply good_turn; lia).
        pose proof (by_volume_good _ _ _ _ G HF) as H1.
        assert (A = -1 * A); [|lra]. eapply (int_unique _ _ (by_volume_integral (n + n))); [exact H1|].
        eapply (int_ext _ _ (by_volume_integral (n + n))); [|apply (int_scal _ _ (by_volume_integral (n + n)) (-1) _ _ HF)].
        intros l Hl. cbv beta. rewrite <- (firstn_skipn n l) at 3 4. rewrite turn_app by (apply fst_len; auto).
        rewrite firstn_app_l, skipn_app_l by (apply snd_len; auto). rewrite flow_anti. ring. }
      exists (fun z => -1 * k z). split.
      * intros z Hz. eapply (int_ext _ _ HT); [|apply (int_scal _ _ HT (-1) _ _ (K1 z Hz))]. intros z' Hz'. cbv beta.
        unfold e. rewrite !flow_ap, flow_anti. ring.
      * replace a with (-1 * a) by lra. apply (int_scal _ _ HT (-1) _ _ K2).
Qed.
End Step.

Lemma walk_exists : forall phi B, continuous_tensors s0 phi -> (forall z, D z -> Rabs (phi z) <= B) -> forall k,
  exists psi, steps_mean veq log_prob proposal_log_prob latent proposals data D I k phi psi /\
    continuous_tensors s0 psi /\ (forall z, D z -> Rabs (psi z) <= B).
Proof.
  intros phi B Cphi Bphi k. induction k as [|k (psi & H & Cpsi & Bpsi)].
  - exists phi. split; [constructor|]. split; auto.
  - destruct (one_step_exists psi B Cpsi Bpsi) as (chi & Cchi & Bchi & H1).
    assert (Hb : exists b, I (fun z => p z * chi z) b).
    { apply (by_volume_dominated n (fun l => p (cut s0 l) * chi (cut s0 l)) (fun l => B * p (cut s0 l)) (B * Z)).
      - apply (cn_mult n (fun l => p (cut s0 l)) (fun l => chi (cut s0 l))); auto.
      - apply (int_scal _ _ (by_volume_integral n) B _ _ HZ).
      - intros l Hl. rewrite !Rabs_mult, Rmult_comm. apply Rmult_le_compat_r; [apply Rabs_pos|].
        eapply Rle_trans; [apply Bchi, cut_shape; auto|apply RRle_abs]. }
    destruct Hb as [b Hb]. exists chi. split; [econstructor; eauto|]. split; auto.
Qed.

Lemma walk_stationary : forall phi B, continuous_tensors s0 phi -> (forall z, D z -> Rabs (phi z) <= B) -> forall k,
  exists psi c, steps_mean veq log_prob proposal_log_prob latent proposals data D I k phi psi /\
    (forall z, D z -> Rabs (psi z) <= B) /\
    I (fun z => p z * phi z) c /\ I (fun z => p z * psi z) c /\
    forall psi', steps_mean veq log_prob proposal_log_prob latent proposals data D I k phi psi' -> I (fun z => p z * psi' z) c.
Proof.
  intros phi B Cphi Bphi k. destruct (walk_exists phi B Cphi Bphi k) as (psi & H & Cpsi & Bpsi).
  assert (Hb : exists c, I (fun z => p z * phi z) c).
  { apply (by_volume_dominated n (fun l => p (cut s0 l) * phi (cut s0 l)) (fun l => B * p (cut s0 l)) (B * Z)).
    - apply (cn_mult n (fun l => p (cut s0 l)) (fun l => phi (cut s0 l))); auto.
    - apply (int_scal _ _ (by_volume_integral n) B _ _ HZ).
    - intros l Hl. rewrite !Rabs_mult, Rmult_comm. apply Rmult_le_compat_r; [apply Rabs_pos|].
      eapply Rle_trans; [apply Bphi, cut_shape; auto|apply RRle_abs]. }
  destruct Hb as [c Hc]. exists psi, c. split; [exact H|]. split; [exact Bpsi|]. split; [exact Hc|].
  assert (Q : forall psi', steps_mean veq log_prob proposal_log_prob latent proposals data D I k phi psi' -> I (fun z => p z * psi' z) c); [|auto].
  intros psi' H'. apply (stationary_steps veq log_prob proposal_log_prob latent proposals data WF LD NE D I (by_tensors_integral s0) HDl HG k phi psi' c H' Hc).
Qed.
End Walk.
