(** * Derivatives below the integral sign on R^n. *)
From Coquelicot Require Import Coquelicot.
From Coq Require Import Reals List Arith Bool Lia Lra Psatz Classical.
From Verif Require Import Transform VI VISpec VIIntegralSpec VolumeSpec.
From Verif Require Import VIGradProofs VIIntegralProofs VolumeProofs VolumeMassProofs VolumeFubiniProofs VolumeWalkProofs.
From Verif Require Import VolumeDeriveSpec.
Import ListNotations.
Local Open Scope R_scope.
Set Bullet Behavior "Strict Subproofs".

Definition clip (x0 del x : R) : R := Rmax (x0 - del) (Rmin (x0 + del) x).
Lemma clip_in : forall x0 del x, 0 < del -> Rabs (clip x0 del x - x0) <= del.
Proof. intros x0 del x H. unfold clip, Rmax, Rmin. apply Rabs_le. repeat destruct (Rle_dec _ _); lra. Qed.
Lemma clip_same : forall x0 del x, Rabs (x - x0) <= del -> clip x0 del x = x.
Proof. intros x0 del x H. apply Rabs_le_between in H. unfold clip, Rmax, Rmin. repeat destruct (Rle_dec _ _); lra. Qed.
Lemma clip_le : forall x0 del x y, 0 < del -> Rabs (clip x0 del x - clip x0 del y) <= Rabs (x - y).
Proof. intros x0 del x y H. unfold clip, Rmax, Rmin. repeat destruct (Rle_dec _ _); unfold Rabs; repeat destruct (Rcase_abs _); lra. Qed.

Section Derive.
Variable n : nat.
Variable x0 del : R.
Variable f h : R -> list R -> R.
Variable G : list R -> R.
Variable A : R.
Hypothesis Hdel : 0 < del.
Hypothesis Df : forall x z, Rabs (x - x0) <= del -> length z = n -> is_derive (fun t => f t z) x (h x z).
Hypothesis Ch : continuous_near n x0 del h.
Hypothesis CG : continuous_n n G.
Hypothesis MG : mass n G A.
Hypothesis Bh : forall x z, Rabs (x - x0) <= del -> length z = n -> Rabs (h x z) <= G z.

(** The mean of the derivative between [x0] and [x]. *)
Definition mean_slope (x : R) (z : list R) : R := RInt (fun s => h (x0 + s * (clip x0 del x - x0)) z) 0 1.

Lemma path_in : forall x s, 0 <= s <= 1 -> Rabs (x0 + s * (clip x0 del x - x0) - x0) <= del.
Proof.
  intros x s Hs. replace (x0 + s * (clip x0 del x - x0) - x0) with (s * (clip x0 del x - x0)) by ring. rewrite Rabs_mult.
  pose proof (clip_in x0 del x Hdel). rewrite (Rabs_right s) by lra. pose proof (Rabs_pos (clip x0 del x - x0)). nra.
Qed.
Lemma close_same : forall d z, 0 < d -> close d z z.
Proof. intros d z Hd. induction z; constructor; auto. rewrite Rminus_eq_0, Rabs_R0. exact Hd. Qed.
Lemma in_cube : forall z : list R, exists M, 0 <= M /\ cube M z.
Proof.
  induction z as [|u z [K [HK HC]]]; [exists 0; split; [lra|constructor]|]. exists (Rmax (Rabs u) K).
  split; [eapply Rle_trans; [exact HK|apply Rmax_r]|].
  constructor; [apply Rmax_l|]. eapply Forall_impl; [|exact HC]. intros a Ha. eapply Rle_trans; [exact Ha|apply Rmax_r].
Qed.
Lemma path_continuous : forall x z s, length z = n -> 0 <= s <= 1 ->
  continuous (fun s => h (clip x0 del (x0 + s * (clip x0 del x - x0))) z) s.
Proof.
  intros x z s Hz Hs. destruct (in_cube z) as [M [HM HC]]. apply continuity_pt_filterlim. intros eps He.
  destruct (Ch M eps He) as [d [Hd E]]. pose proof (clip_in x0 del x Hdel) as K. pose proof (Rabs_pos (clip x0 del x - x0)).
  exists (d / (del + 1)). split; [apply Rdiv_lt_0_compat; lra|]. intros t [_ Ht].
  change (Rabs (t - s) < d / (del + 1)) in Ht. change (Rabs (h (clip x0 del (x0 + t * (clip x0 del x - x0))) z - h (clip x0 del (x0 + s * (clip x0 del x - x0))) z) < eps).
  apply E; auto using clip_in; [|apply close_same; auto].
  eapply Rle_lt_trans; [apply clip_le; auto|].
  replace (x0 + t * (clip x0 del x - x0) - (x0 + s * (clip x0 del x - x0))) with ((t - s) * (clip x0 del x - x0)) by ring.
  rewrite Rabs_mult. apply Rle_lt_trans with (Rabs (t - s) * del); [apply Rmult_le_compat_l; auto; apply Rabs_pos|].
  apply Rle_lt_trans with (Rabs (t - s) * (del + 1)); [apply Rmult_le_compat_l; [apply Rabs_pos|lra]|].
  apply Rmult_lt_reg_r with (/ (del + 1)); [apply Rinv_0_lt_compat; lra|]. rewrite Rmult_assoc, Rinv_r, Rmult_1_r by lra. exact Ht.
Qed.
Lemma mean_slope_ex : forall x z, length z = n -> ex_RInt (fun s => h (x0 + s * (clip x0 del x - x0)) z) 0 1.
Proof.
  intros x z Hz. apply (ex_RInt_ext (fun s => h (clip x0 del (x0 + s * (clip x0 del x - x0))) z)).
  - intros s Hs. rewrite Rmin_left, Rmax_right in Hs by lra. rewrite (clip_same x0 del (x0 + s * _)) by (apply path_in; lra). reflexivity.
  - apply (ex_RInt_continuous (V := R_CompleteNormedModule)). intros s Hs. rewrite Rmin_left, Rmax_right in Hs by lra. apply path_continuous; auto.
Qed.
Lemma mean_slope_bound : forall x z, length z = n -> Rabs (mean_slope x z) <= G z.
Proof.
  intros x z Hz. unfold mean_slope. replace (G z) with ((1 - 0) * G z) by ring.
  apply abs_RInt_le_const; [lra|apply mean_slope_ex; auto|]. intros s Hs. apply Bh; auto. apply path_in; lra.
Qed.
Lemma mean_slope_diff : forall x z y w e, length z = n -> length w = n ->
  (forall s, 0 <= s <= 1 -> Rabs (h (x0 + s * (clip x0 del x - x0)) z - h (x0 + s * (clip x0 del y - x0)) w) <= e) ->
  Rabs (mean_slope x z - mean_slope y w) <= e.
Proof.
  intros x z y w e Hz Hw H. unfold mean_slope.
  pose proof (RInt_minus (V := R_CompleteNormedModule) _ _ 0 1 (mean_slope_ex x z Hz) (mean_slope_ex y w Hw)) as E.
  match type of E with _ = minus ?a ?b => change (minus a b) with (a - b) in E end. rewrite <- E. replace e with ((1 - 0) * e) by ring.
  apply abs_RInt_le_const; [lra| |exact H].
  apply (ex_RInt_minus (V := R_NormedModule)); apply mean_slope_ex; auto.
Qed.
Lemma mean_slope_cn : continuous_n (1 + n) (fun l => mean_slope (hd 0 l) (tl l)).
Proof.
  intros M eps He. destruct (Ch M (eps / 2)) as [d [Hd E]]; [lra|]. exists d. split; [exact Hd|].
  intros [|x z] [|y w] Hl Hl' C C' K; try discriminate. cbn [hd tl]. inversion C as [|? ? Cx Cz]; subst. inversion C' as [|? ? Cy Cw]; subst.
  inversion K as [|? ? ? ? Kx Kz]; subst. cbn in Hl, Hl'.
  apply Rle_lt_trans with (eps / 2); [|lra]. apply mean_slope_diff; [lia|lia|]. intros s Hs. left.
  apply E; auto; try lia; try (apply path_in; auto).
  replace (x0 + s * (clip x0 del x - x0) - (x0 + s * (clip x0 del y - x0))) with (s * (clip x0 del x - clip x0 del y)) by ring.
  rewrite Rabs_mult, (Rabs_right s) by lra. pose proof (clip_le x0 del x y Hdel). pose proof (Rabs_pos (clip x0 del x - clip x0 del y)). nra.
Qed.
(** What it is for. *)
Lemma mean_slope_eq : forall x z, Rabs (x - x0) <= del -> length z = n -> f x z = f x0 z + (x - x0) * mean_slope x z.
Proof.
  intros x z Hx Hz. unfold mean_slope. rewrite (clip_same x0 del x) by auto.
  assert (E : is_RInt (fun s => (x - x0) * h (x0 + s * (x - x0)) z) 0 1 (f (x0 + 1 * (x - x0)) z - f (x0 + 0 * (x - x0)) z)).
  { apply (is_RInt_ext (fun s => (x - x0) * h (clip x0 del (x0 + s * (clip x0 del x - x0))) z)).
    { intros s Hs. rewrite Rmin_left, Rmax_right in Hs by lra. rewrite (clip_same x0 del (x0 + s * _)) by (apply path_in; lra).
      rewrite (clip_same x0 del x) by auto. reflexivity. }
    apply (is_RInt_derive (V := R_CompleteNormedModule) (fun s => f (x0 + s * (x - x0)) z) (fun s => (x - x0) * h (clip x0 del (x0 + s * (clip x0 del x - x0))) z)).
    - intros s Hs. rewrite Rmin_left, Rmax_right in Hs by lra.
      pose proof (path_in x s Hs) as P. rewrite (clip_same x0 del x) in * by auto. rewrite (clip_same x0 del (x0 + s * _)) by auto.
      apply (is_derive_comp (fun t => f t z) (fun s => x0 + s * (x - x0)) s (h (x0 + s * (x - x0)) z) (x - x0)); [apply Df; auto|].
      auto_derive; [auto|ring].
    - intros s Hs. rewrite Rmin_left, Rmax_right in Hs by lra.
      apply (continuous_scal_r (V := R_NormedModule) (x - x0)). apply path_continuous; auto. }
  pose proof (mean_slope_ex x z Hz) as S. rewrite (clip_same x0 del x) in S by auto.
  pose proof (is_RInt_scal (V := R_NormedModule) _ 0 1 (x - x0) _ (RInt_correct (V := R_CompleteNormedModule) _ _ _ S)) as E'.
  pose proof (is_RInt_unique (V := R_CompleteNormedModule) _ _ _ _ E) as U. pose proof (is_RInt_unique (V := R_CompleteNormedModule) _ _ _ _ E') as U'.
  assert (U2 : (x - x0) * RInt (fun s => h (x0 + s * (x - x0)) z) 0 1 = f (x0 + 1 * (x - x0)) z - f (x0 + 0 * (x - x0)) z).
  { rewrite <- U. symmetry. exact U'. }
  rewrite U2. replace (x0 + 1 * (x - x0)) with x by ring. replace (x0 + 0 * (x - x0)) with x0 by ring. ring.
Qed.
Lemma mean_slope_at : forall z, length z = n -> mean_slope x0 z = h x0 z.
Proof.
  intros z Hz. unfold mean_slope. rewrite (clip_same x0 del x0) by (rewrite Rminus_eq_0, Rabs_R0; lra).
  rewrite (RInt_ext _ (fun _ => h x0 z)). - rewrite RInt_const. unfold scal. cbn. unfold mult. cbn. ring.
  - intros s _. replace (x0 + s * (x0 - x0)) with x0 by ring. reflexivity.
Qed.

Lemma slopes_integral : exists r, continuous_n 1 (fun l => r (hd 0 l)) /\ forall x, by_volume n (mean_slope x) (r x).
Proof.
  destruct (inner_continuous 1 n (fun l => mean_slope (hd 0 l) (tl l) + G (skipn 1 l)) (fun l => 2 * G (skipn 1 l)) (fun _ => 2 * A)) as [q [Cq Hq]].
  - apply cn_plus; [exact mean_slope_cn|]. apply (cn_last 1 n G CG).
  - apply cn_scal. apply (cn_last 1 n G CG).
  - apply cn_const.
  - intros [|x z] Hl; [discriminate|]. cbn [hd tl skipn]. cbn in Hl. pose proof (mean_slope_bound x z ltac:(lia)) as K. apply Rabs_le_between in K. lra.
  - intros [|x [|y l]] Hl; try discriminate. cbn [app skipn]. apply mass_scal; auto; try lra.
  - exists (fun x => q [x] - A). split.
    + apply (cn_ext 1 (fun l => q l + (- A))); [intros [|x [|y l]] Hl; try discriminate; reflexivity|]. apply (cn_plus 1 q (fun _ => - A)); [auto|exact (cn_const _ _)].
    + intros x. exists (fun z => mean_slope x z + G z), G, (q [x]), A. split; [|split; [exact CG|split; [|split; [|split; [exact MG|ring]]]]].
      * apply (cn_ext n (fun z => (fun l => mean_slope (hd 0 l) (tl l) + G (skipn 1 l)) ([x] ++ z))); [intros z _; reflexivity|].
        apply (cn_app 1 n (fun l => mean_slope (hd 0 l) (tl l) + G (skipn 1 l)) [x]); [|reflexivity].
        apply cn_plus; [exact mean_slope_cn|]. apply (cn_last 1 n G CG).
      * intros z Hz. pose proof (mean_slope_bound x z Hz) as K. apply Rabs_le_between in K. pose proof (Rabs_pos (mean_slope x z)). lra.
      * exact (Hq [x] eq_refl).
Qed.

Lemma derive_integral : forall L0, by_volume n (f x0) L0 -> exists L d, L x0 = L0 /\
  (forall x, Rabs (x - x0) <= del -> by_volume n (f x) (L x)) /\ is_derive L x0 d /\ by_volume n (h x0) d.
Proof.
  intros L0 H0. destruct slopes_integral as [r [Cr Hr]]. exists (fun x => L0 + (x - x0) * r x), (r x0). split; [ring|].
  pose proof (by_volume_integral n) as HI. split; [|split].
  - intros x Hx. apply (int_ext _ _ HI (fun z => f x0 z + (x - x0) * mean_slope x z)); [intros z Hz; symmetry; apply mean_slope_eq; auto|].
    apply (int_add _ _ HI); auto. apply (int_scal _ _ HI); auto.
  - apply is_derive_Reals. intros eps He. destruct (Cr (Rabs x0 + 1) eps He) as [d [Hd E]].
    assert (Hm : 0 < Rmin d 1) by (apply Rmin_glb_lt; lra). exists (mkposreal _ Hm). intros u Hu Ku. cbn in Ku.
    replace ((L0 + (x0 + u - x0) * r (x0 + u) - (L0 + (x0 - x0) * r x0)) / u - r x0) with (r (x0 + u) - r x0) by (field; auto).
    apply (E [x0 + u] [x0]); try reflexivity.
    + constructor; [|constructor]. eapply Rle_trans; [apply Rabs_triang|]. pose proof (Rmin_r d 1). lra.
    + constructor; [|constructor]. lra.
    + constructor; [|constructor]. replace (x0 + u - x0) with u by ring. pose proof (Rmin_l d 1). lra.
  - apply (int_ext _ _ HI (mean_slope x0)); [intros z Hz; apply mean_slope_at; auto|]. apply Hr.
Qed.
End Derive.

Lemma interchange_volume : forall n (F : params -> list R -> R) th v L0, dominated_derivative n F th v ->
  by_volume n (F th) L0 -> interchange (by_volume n) F th v.
Proof.
  intros n F th v L0 (del & h & G & A & Hdel & Df & Ch & CG & MG & Bh) H0.
  rewrite <- (VIGradProofs.set_same th v) in H0.
  assert (SV : forall x, set_param th v x v = x) by (intros x; unfold set_param; rewrite Nat.eqb_refl; reflexivity).
  destruct (derive_integral n (th v) del (fun x => F (set_param th v x)) h G A Hdel Df Ch CG MG Bh L0 H0) as (L & d & _ & HL & DL & Hd).
  exists (fun t => L (t v)), d. split; [|split].
  - exists (mkposreal _ Hdel). intros x Hx. rewrite SV. apply HL. left. exact Hx.
  - apply (is_derive_ext L); [|exact DL]. intros x. rewrite SV. reflexivity.
  - apply (int_ext _ _ (by_volume_integral n) (h (th v))); [|exact Hd]. intros z Hz. unfold partial. symmetry. apply is_derive_unique.
    apply Df; auto. rewrite Rminus_eq_0, Rabs_R0. lra.
Qed.

(** Score-function gradients of draws in R^m. *)
Lemma score_unbiased_volume : forall {V} (log_prob : params -> nat -> list (nat * V) -> V -> list R) q_log_prob latent scale reg
  m (draw : list R -> sample V) base th v n L0,
  let D := fun x : list R => length x = m in
  let dens := fun t x => draw_density q_log_prob latent base t (draw x) in
  let F := fun t x => dens t x * (log_joint log_prob latent scale t (draw x) - log_q q_log_prob latent scale t (draw x)) in
  (0 < n)%nat -> (forall zq, In zq latent -> factor scale (fst zq) = 1) -> (forall x, D x -> posed latent (draw x)) ->
  (forall x, D x -> differentiable (fun t => log_q q_log_prob latent [] t (draw x)) th v) -> differentiable (penalty reg) th v ->
  nearby (fun t => by_volume m (dens t) 1) th v -> dominated_derivative m dens th v ->
  (forall x, D x -> independent (fun t => log_joint log_prob latent scale t (draw x)) th v) ->
  by_volume m (F th) L0 -> dominated_derivative m F th v ->
  exists L, nearby (fun t => by_volume m (F t) (L t)) th v /\ differentiable L th v /\
  expected_by D (by_volume m) (dens th) n
    (fun l => gradient (score_objective log_prob q_log_prob latent scale reg (fixed_draws (map draw l)) th) th v)
    (partial (fun t => - L t + penalty reg t) th v).
Proof.
  intros V log_prob q_log_prob latent scale reg m draw base th v n L0 D dens F Hn Hu Hp Hq Hr H1 H2 Hi HF HD.
  assert (N : nearby (fun t => by_volume m (dens t) 1) th v) by exact H1.
  assert (H0 : by_volume m (dens th) 1).
  { apply locally_singleton in N. rewrite VIGradProofs.set_same in N. exact N. }
  pose proof (interchange_volume m dens th v 1 H2 H0) as I1. pose proof (interchange_volume m F th v L0 HD HF) as I2.
  pose proof I2 as (L & d & NL & _ & _). exists L. split; [exact NL|].
  exact (score_unbiased_by log_prob q_log_prob latent scale reg D (by_volume m) (by_volume_integral m) draw base th v n Hn Hu Hp Hq Hr H1 I1 L Hi I2 NL).
Qed.
