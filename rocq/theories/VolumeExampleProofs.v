(** * Integrals that exist: functions that vanish outside a cube, and normal densities. *)
From Coquelicot Require Import Coquelicot.
From Coq Require Import Reals List Arith Bool Lia Lra Psatz.
From Verif Require Import Ext ExtProofs Feed MonteCarlo Transform MHSpec HMC HMCSpec HMCProofs VI VISpec VIIntegralSpec InvariantSpec InvariantProofs.
From Verif Require Import VolumeSpec VolumeProofs VolumeMassProofs VolumeStepProofs VolumeHMCSpec VolumeFlatProofs VolumeHMCProofs.
Import ListNotations.
Local Open Scope R_scope.
Set Bullet Behavior "Strict Subproofs".

Lemma mass_compact : forall n M f, 0 <= M -> continuous_n n f -> (forall x, length x = n -> 0 <= f x) ->
  (forall x, length x = n -> ~ cube M x -> f x = 0) -> mass n f (J M n f).
Proof.
  intros n M f HM Cf Pf Zf. pose proof (tst_of n M f HM Cf Zf) as Tf.
  assert (W : forall M', M <= M' -> tst n M' f) by (intros M' H; apply (tst_wider n M); auto). split.
  - intros v [chi [M' [Wc ->]]]. pose proof Wc as [HM' [_ [Rc _]]].
    pose proof (window_tst n M' chi f Wc Cf) as Tc. set (L := Rmax M M').
    rewrite <- (J_wider n M' L _ (Rmax_r _ _) Tc), <- (J_wider n M L f (Rmax_l _ _) Tf).
    apply J_le; [apply (tst_wider n M'); auto; apply Rmax_r|apply W, Rmax_l|].
    intros x Hx. specialize (Rc x Hx). specialize (Pf x Hx). nra.
  - intros b Hb. rewrite <- (J_wider n M (M + 1) f) by (auto; lra).
    rewrite (J_ext n (M + 1) f (fun x => std M x * f x)).
    + apply Hb. exists (std M), (M + 1). split; [apply std_window; auto|reflexivity].
    + intros x Hx. destruct (Forall_dec (fun a => Rabs a <= M) (fun a => Rle_dec (Rabs a) M) x) as [H|H].
      * rewrite std_one by exact H. ring.
      * rewrite Zf by auto. ring.
Qed.

(** For continuous functions that vanish outside a cube it is the iterated
    Riemann integral. *)
Lemma by_volume_compact : forall n M f, 0 <= M -> continuous_n n f ->
  (forall x, length x = n -> ~ cube M x -> f x = 0) -> by_volume n f (cube_integral M n f).
Proof.
  intros n M f HM Cf Zf.
  assert (Cp : continuous_n n (fun x => Rmax (f x) 0)) by (apply cn_max; auto; apply cn_const).
  assert (Cm : continuous_n n (fun x => Rmax (- f x) 0)) by (apply (cn_max n (fun x => - f x)); [apply cn_opp; auto|apply cn_const]).
  assert (Zp : forall x, length x = n -> ~ cube M x -> Rmax (f x) 0 = 0) by (intros x Hx Hc; rewrite Zf by auto; apply Rmax_left; lra).
  assert (Zm : forall x, length x = n -> ~ cube M x -> Rmax (- f x) 0 = 0) by (intros x Hx Hc; rewrite Zf by auto; rewrite Ropp_0; apply Rmax_left; lra).
  assert (E : forall x, f x = Rmax (f x) 0 - Rmax (- f x) 0).
  { intros x. unfold Rmax. destruct (Rle_dec (f x) 0), (Rle_dec (- f x) 0); lra. }
  exists (fun x => Rmax (f x) 0), (fun x => Rmax (- f x) 0), (J M n (fun x => Rmax (f x) 0)), (J M n (fun x => Rmax (- f x) 0)).
  split; [exact Cp|]. split; [exact Cm|]. split; [intros x Hx; split; [apply Rmax_r|split; [apply Rmax_r|apply E]]|].
  split; [apply mass_compact; auto; intros; apply Rmax_r|]. split; [apply mass_compact; auto; intros; apply Rmax_r|].
  rewrite (J_ext n M f (fun x => 1 * Rmax (f x) 0 + -1 * Rmax (- f x) 0)) by (intros x Hx; rewrite (E x) at 1; ring).
  rewrite J_lin by (apply tst_of; auto). ring.
Qed.

(** ** The normal density *)
Definition bell (x : R) : R := exp (- (x * x / 2)).
Definition bells (x : list R) : R := exp (- sumR (map (fun a => a * a / 2) x)).
Lemma bells_cons : forall a x, bells (a :: x) = bell a * bells x.
Proof. intros. unfold bells, bell. rewrite <- exp_plus. f_equal. unfold sumR. cbn. lra. Qed.
Lemma cn_bells : forall n, continuous_n n bells.
Proof. intros n. apply cn_exp, cn_opp, cn_squares. Qed.
Lemma bell_le : forall x, bell x <= 2 * / (1 + x²).
Proof.
  intros x. unfold bell. rewrite exp_Ropp. pose proof (exp_ineq1_le (x * x / 2)) as H. unfold Rsqr.
  assert (0 <= x * x) by nra. replace (2 * / (1 + x * x)) with (/ ((1 + x * x) / 2)) by (field; nra).
  apply Rinv_le_contravar; lra.
Qed.
(** A product of bells, cut off outside of the cube. *)
Definition cap (M : R) (a : R) : R := bell a * ramp M a.
Definition caps (M : R) (x : list R) : R := fold_right (fun a acc => cap M a * acc) 1 x.
Lemma cap_nonneg : forall M a, 0 <= cap M a.
Proof. intros. unfold cap. apply Rmult_le_pos; [left; apply exp_pos|apply ramp_range]. Qed.
Lemma caps_cons : forall M a x, caps M (a :: x) = cap M a * caps M x.
Proof. reflexivity. Qed.
Lemma caps_nonneg : forall M x, 0 <= caps M x.
Proof. induction x as [|a x IH]; [cbn; lra|]. rewrite caps_cons. apply Rmult_le_pos; auto using cap_nonneg. Qed.
Lemma cn_head : forall n g, (forall M eps, 0 < eps -> exists d, 0 < d /\ forall a b, Rabs a <= M -> Rabs b <= M -> Rabs (a - b) < d -> Rabs (g a - g b) < eps) ->
  continuous_n (S n) (fun x => g (nth 0 x 0)).
Proof.
  intros n g H M eps He. destruct (H M eps He) as [d [Hd E]]. exists d. split; [exact Hd|]. intros [|a x] [|b y] Hx Hy Hcx Hcy Hc; try discriminate.
  cbn. inversion Hcx; inversion Hcy; inversion Hc; subst. apply E; auto.
Qed.
Lemma cn_cap : forall n M, continuous_n (S n) (fun x => cap M (nth 0 x 0)).
Proof.
  intros n M. unfold cap. apply (cn_mult (S n) (fun x => bell (nth 0 x 0)) (fun x => ramp M (nth 0 x 0))).
  - unfold bell. apply cn_exp, cn_opp. apply (cn_ext _ (fun x => / 2 * (nth 0 x 0 * nth 0 x 0))); [intros; lra|].
    apply cn_scal, cn_mult; apply cn_coord; lia.
  - apply cn_head. intros L eps He. exists eps. split; auto. intros. apply ramp_lip. auto.
Qed.
Lemma cn_caps : forall n M, continuous_n n (caps M).
Proof.
  intros n M. induction n as [|n IH].
  - apply (cn_ext _ (fun _ => 1)); [|apply cn_const]. intros [|a x] H; [reflexivity|discriminate].
  - apply (cn_ext _ (fun x => cap M (nth 0 x 0) * caps M (skipn 1 x))).
    + intros [|a x] H; [discriminate|]. reflexivity.
    + apply cn_mult; [apply cn_cap|]. apply (cn_comp (S n) n (skipn 1) (caps M)); auto. apply (cmap_skipn 1 n).
Qed.
Lemma ramp_zero : forall M a, M + 1 < Rabs a -> ramp M a = 0.
Proof. intros M a H. unfold ramp. rewrite Rmax_left; auto. eapply Rle_trans; [apply Rmin_r|]. lra. Qed.
Lemma ramp_one : forall M a, Rabs a <= M -> ramp M a = 1.
Proof. intros M a H. unfold ramp. rewrite Rmin_left by lra. apply Rmax_right. lra. Qed.
Lemma caps_zero : forall M x, ~ cube (M + 1) x -> caps M x = 0.
Proof.
  intros M x. induction x as [|a x IH]; intros H; [exfalso; apply H; constructor|]. rewrite caps_cons.
  destruct (Rle_dec (Rabs a) (M + 1)) as [Ha|Ha].
  - rewrite IH; [ring|]. intros Hx. apply H. constructor; auto.
  - unfold cap. rewrite ramp_zero by lra. ring.
Qed.
Lemma caps_tst : forall n M, 0 <= M -> tst n (M + 1) (caps M).
Proof. intros n M HM. apply tst_of; [lra|apply cn_caps|]. intros. apply caps_zero; auto. Qed.

Lemma cap_integral : forall M, 0 <= M -> 0 <= J (M + 1) 1 (caps M) <= 2 * PI.
Proof.
  intros M HM. split; [apply J_nonneg; [apply caps_tst; auto|intros; apply caps_nonneg]|]. cbn [cube_integral].
  assert (D : is_RInt (fun x => 2 * / (1 + x²)) (- (M + 1)) (M + 1) (2 * (atan (M + 1) - atan (- (M + 1))))).
  { apply (is_RInt_scal (V := R_NormedModule) (fun x => / (1 + x²)) _ _ 2 (atan (M + 1) - atan (- (M + 1)))).
    apply (is_RInt_derive (V := R_CompleteNormedModule) atan (fun x => / (1 + x²))).
    - intros x _. apply is_derive_Reals. replace (x²) with (x ^ 2) by (unfold Rsqr; ring). apply derivable_pt_lim_atan.
    - intros x _. apply continuity_pt_filterlim. apply (continuity_pt_inv (fun x => 1 + x²)); [|unfold Rsqr; nra].
      apply derivable_continuous_pt. reg. }
  apply Rle_trans with (2 * (atan (M + 1) - atan (- (M + 1)))).
  - rewrite <- (is_RInt_unique _ _ _ _ D). apply RInt_le; [lra| |eexists; exact D|].
    + apply uc1_ex. exact (J_uc 0 (M + 1) (caps M) (caps_tst 1 M HM)).
    + intros x _. cbn. unfold cap. rewrite Rmult_1_r. eapply Rle_trans; [|apply bell_le].
      pose proof (ramp_range M x). assert (0 < bell x) by apply exp_pos. nra.
  - pose proof (atan_bound (M + 1)). pose proof (atan_bound (- (M + 1))). lra.
Qed.
Lemma caps_integral : forall n M, 0 <= M -> J (M + 1) n (caps M) <= (2 * PI) ^ n.
Proof.
  intros n M HM. induction n as [|n IH]; [cbn; lra|].
  assert (E : J (M + 1) (S n) (caps M) = J (M + 1) n (caps M) * J (M + 1) 1 (caps M)).
  { cbn [cube_integral]. transitivity (RInt (fun x => J (M + 1) n (caps M) * caps M [x]) (- (M + 1)) (M + 1)).
    - apply RInt_ext. intros x _. transitivity (J (M + 1) n (fun l => cap M x * caps M l + 0 * caps M l)).
      + apply J_ext. intros l Hl. rewrite caps_cons. ring.
      + rewrite J_lin by (apply caps_tst; auto). cbn. ring.
    - apply (RInt_scal (V := R_CompleteNormedModule) (fun x => caps M [x]) (- (M + 1)) (M + 1) (J (M + 1) n (caps M))).
      apply uc1_ex. exact (J_uc 0 (M + 1) (caps M) (caps_tst 1 M HM)). }
  rewrite E. destruct (cap_integral M HM) as [C0 C1]. cbn [pow]. rewrite Rmult_comm.
  pose proof (J_nonneg n (M + 1) (caps M) (caps_tst n M HM) (fun x _ => caps_nonneg M x)).
  apply Rmult_le_compat; auto.
Qed.

Lemma bells_mass : forall n, exists a, mass n bells a.
Proof.
  intros n. destruct (completeness (fun v => exists chi M, window n M chi /\ v = J M n (fun x => chi x * bells x))) as [a Ha].
  - exists ((2 * PI) ^ n). intros v [chi [M [W ->]]]. pose proof W as [HM [_ [Rc Zc]]].
    eapply Rle_trans; [|apply (caps_integral n M HM)].
    pose proof (window_tst n M chi bells W (cn_bells n)) as T. rewrite <- (J_wider n M (M + 1)) by (auto; lra).
    apply J_le; [apply (tst_wider n M); auto; lra|apply caps_tst; auto|]. intros x Hx.
    destruct (Forall_dec (fun a => Rabs a <= M) (fun a => Rle_dec (Rabs a) M) x) as [H|H].
    + assert (E : caps M x = bells x).
      { clear -H. induction H as [|a x Ha H IH]; [unfold bells; cbn; rewrite Ropp_0, exp_0; reflexivity|].
        rewrite bells_cons, caps_cons, IH. unfold cap. rewrite ramp_one by auto. ring. }
      rewrite E. specialize (Rc x Hx). assert (0 < bells x) by apply exp_pos. nra.
    + rewrite Zc by auto. rewrite Rmult_0_l. apply caps_nonneg.
  - exists (J (0 + 1) n (fun x => std 0 x * bells x)), (std 0), (0 + 1). split; [apply std_window; lra|reflexivity].
  - exists a. exact Ha.
Qed.
Lemma by_volume_bells : forall n f B, continuous_n n f -> (forall x, length x = n -> Rabs (f x) <= B * bells x) -> exists a, by_volume n f a.
Proof.
  intros n f B Cf H. destruct (bells_mass n) as [a Ha].
  assert (P : forall x, 0 < bells x) by (intros; apply exp_pos).
  assert (HB : by_volume n (fun x => Rmax B 0 * bells x) (Rmax B 0 * a)).
  { exists (fun x => Rmax B 0 * bells x), (fun _ => 0), (Rmax B 0 * a), 0.
    split; [apply cn_scal, cn_bells|]. split; [apply cn_const|].
    split. { intros x _. specialize (P x). pose proof (Rmax_r B 0). repeat split; try lra. apply Rmult_le_pos; lra. }
    split; [apply mass_scal; auto; [apply Rmax_r|apply cn_bells]|]. split; [apply mass_zero; auto|]. ring. }
  apply (by_volume_dominated n f _ _ Cf HB). intros x Hx. eapply Rle_trans; [apply H; auto|]. rewrite Rabs_right.
  - apply Rmult_le_compat_r; [left; auto|apply Rmax_l].
  - apply Rle_ge, Rmult_le_pos; [apply Rmax_r|left; auto].
Qed.

(** ** A normal mean with a normal observation *)
Definition normal_model : nat -> list (nat * tensor) -> tensor -> ext := fun k env v =>
  let mean := match k with O => 0 | _ => hd 0 (snd (hd (O, []) env)) end in
  Fin (- ((hd 0 v - mean) * (hd 0 v - mean) / 2)).
Definition normal_grad : list (nat * tensor) -> list tensor -> list tensor := fun data z =>
  [[hd 0 (snd (hd (O, []) data)) - 2 * hd 0 (hd [] z)]].
Lemma normal_posed : forall y, hmc_posed normal_model [(O, None)] [(1%nat, [y])].
Proof.
  intros y. unfold hmc_posed. cbn. split; [repeat constructor; auto|]. split; [repeat constructor; auto|].
  split; [intros k [<-|[]] [H|[]]; discriminate|]. intros k d v. right. unfold normal_model. eexists. reflexivity.
Qed.
Lemma normal_target : forall y m, target normal_model [(O, None)] [(1%nat, [y])] [[m]] = bell m * bell (y - m).
Proof.
  intros y m. unfold target, density_at, volume_factor, constrain, normal_model, product, bell. cbn. rewrite !Rminus_0_r. ring.
Qed.
Lemma one_entry : forall l : list R, length l = 1%nat -> l = [hd 0 l].
Proof. intros [|a [|b l]] H; try discriminate. reflexivity. Qed.
Lemma normal_target_cn : forall y, continuous_tensors [[0]] (target normal_model [(O, None)] [(1%nat, [y])]).
Proof.
  intros y. unfold continuous_tensors, size. cbn [concat app length].
  apply (cn_ext _ (fun l => exp (- (/ 2 * (nth 0 l 0 * nth 0 l 0))) * exp (- (/ 2 * ((y + -1 * nth 0 l 0) * (y + -1 * nth 0 l 0)))))).
  - intros [|a [|b l]] Hl; try discriminate. cbn [cut firstn length]. rewrite normal_target. unfold bell. cbn [nth]. f_equal; f_equal; lra.
  - pose proof (cn_coord 1 0 (le_n 1)) as C.
    assert (C' : continuous_n 1 (fun l => y + -1 * nth 0 l 0)) by (apply cn_plus; [apply cn_const|apply cn_scal; auto]).
    apply cn_mult; apply cn_exp, cn_opp, cn_scal, cn_mult; auto.
Qed.
Lemma normal_grad_cn : forall y k, (k < size [[0%R]])%nat -> continuous_tensors [[0]] (fun z => nth k (concat (normal_grad [(1%nat, [y])] z)) 0).
Proof.
  intros y k Hk. unfold continuous_tensors, size in *. cbn [concat app length] in *. replace k with O by lia.
  apply (cn_ext _ (fun l => y + -2 * nth 0 l 0)).
  - intros [|a [|b l]] Hl; try discriminate. cbn. ring.
  - apply cn_plus; [apply cn_const|apply cn_scal, cn_coord; lia].
Qed.
Lemma normal_grad_shape : forall d z, same_shape [[0]] z -> same_shape [[0]] (normal_grad d z).
Proof. intros. constructor; [reflexivity|constructor]. Qed.

(** Expectations of bounded continuous functions exist. *)
Lemma normal_integrable : forall y K phi B, continuous_tensors [[0]] phi -> (forall z, same_shape [[0]] z -> Rabs (phi z) <= B) ->
  exists c, by_blocks [[0]] (S K) (fun b => run_density normal_model [(O, None)] [(1%nat, [y])] b * phi (hd [] b)) c.
Proof.
  intros y K phi B Cphi Bphi. unfold by_blocks. apply by_volume_bells with (B := B).
  - apply (cn_mult _ (fun l => run_density normal_model [(O, None)] [(1%nat, [y])] (blocks [[0]] (S K) l)) (fun l => phi (hd [] (blocks [[0]] (S K) l)))).
    + apply cn_weight. apply normal_target_cn.
    + apply cn_state. exact Cphi.
  - intros x Hx. pose proof (blocks_wf [[0]] (S K) x Hx) as [A L]. rewrite <- (flat_blocks [[0]] (S K) x Hx) at 3.
    destruct (blocks [[0]] (S K) x) as [|z rs]; [discriminate|]. inversion A as [|? ? Hz Hrs]; subst. cbn [hd run_density].
    assert (Ez : exists m, z = [[m]]).
    { inversion Hz as [|? v ? ? Hv Hl]; subst. inversion Hl; subst. cbn in Hv. exists (hd 0 v). rewrite (one_entry v) at 1; auto. }
    destruct Ez as [m ->]. rewrite normal_target, flat_cons. cbn [concat app]. rewrite bells_cons.
    assert (E : bells (flat rs) = product (map momentum_density rs)).
    { clear. induction rs as [|r rs IH]; [unfold bells; cbn; rewrite Ropp_0, exp_0; reflexivity|]. rewrite flat_cons. cbn [map].
      change (product (momentum_density r :: map momentum_density rs)) with (momentum_density r * product (map momentum_density rs)).
      rewrite <- IH, momentum_flat. unfold bells. rewrite <- exp_plus, map_app, sumR_app. f_equal. lra. }
    rewrite E. pose proof (product_pos rs) as P. set (Q := product (map momentum_density rs)) in *.
    assert (0 < bell m) by apply exp_pos. assert (0 < bell (y - m) <= 1).
    { split; [apply exp_pos|]. unfold bell. assert (Hq : 0 <= (y - m) * (y - m) / 2) by (pose proof (Rle_0_sqr (y - m)) as Hs; unfold Rsqr in Hs; lra). pose proof (exp_ineq1_le ((y - m) * (y - m) / 2)).
      rewrite exp_Ropp. apply Rle_trans with (/ 1); [apply Rinv_le_contravar; lra|]. rewrite Rinv_1. apply Rle_refl. }
    rewrite Rabs_mult. rewrite (Rabs_right (_ * _ * _)) by (apply Rle_ge; repeat apply Rmult_le_pos; lra).
    specialize (Bphi _ Hz). pose proof (Rabs_pos (phi [[m]])).
    assert (0 < bell m * Q) by (apply Rmult_lt_0_compat; auto).
    apply Rle_trans with (bell m * Q * Rabs (phi [[m]])); [|nra].
    replace (bell m * bell (y - m) * Q) with (bell m * Q * bell (y - m)) by ring. apply Rmult_le_compat_r; auto. nra.
Qed.

Lemma clip_example : continuous_tensors [[0]] (fun z => Rmin 1 (Rmax (-1) (hd 0 (hd [] z)))) /\
  forall z : list tensor, Rabs (Rmin 1 (Rmax (-1) (hd 0 (hd [] z)))) <= 1.
Proof.
  split.
  - unfold continuous_tensors, size. cbn [concat app length].
    apply (cn_ext _ (fun l => Rmin 1 (Rmax (-1) (nth 0 l 0)))).
    + intros [|a [|b l]] H; try discriminate. reflexivity.
    + apply cn_min; [apply cn_const|]. apply cn_max; [apply cn_const|]. apply cn_coord. lia.
  - intros z. apply Rabs_le. unfold Rmin, Rmax. destruct (Rle_dec _ _), (Rle_dec _ _); lra.
Qed.
