(** * A normal approximation of a normal latent variable. *)
From Coquelicot Require Import Coquelicot.
From Coq Require Import Reals List Arith Bool Lia Lra Psatz ZArith.
From Verif Require Import Transform VI VISpec VIIntegralSpec VIGradProofs VIIntegralProofs VolumeSpec.
From Verif Require Import VolumeProofs VolumeMassProofs VolumeStepProofs VolumeFlatProofs VolumeHMCProofs VolumeExampleProofs VolumeFubiniProofs VolumeWalkProofs VolumeWalkExampleProofs.
From Verif Require Import VolumeDeriveSpec VolumeDeriveProofs.
Import ListNotations.
Local Open Scope R_scope.
Set Bullet Behavior "Strict Subproofs".

(** Latent variable 0 is Normal(0, 1); its approximation is Normal(variable 0, 1). *)
Definition bell_p (th : params) (k : nat) (d : list (nat * R)) (u : R) : list R := [- (u * u / 2)].
Definition bell_q (c : R) (th : params) (q : nat) (e : nat -> R) (u : R) : list R := [- ((u - th 0%nat) * (u - th 0%nat) / 2) - ln c].
Definition bell_draw (z : list R) : sample R := mksample (fun _ => hd 0 z) [] (fun _ => 0).
Definition bell_base (d : sample R) : R := 1.

Lemma near_of_cn : forall n x0 del h, continuous_n (1 + n) (fun l => h (hd 0 l) (tl l)) -> continuous_near n x0 del h.
Proof.
  intros n x0 del h C M eps He. destruct (C (Rmax M (Rabs x0 + del)) eps He) as [d [Hd E]]. exists d. split; [exact Hd|].
  intros x y z w Hx Hy Hz Hw Cz Cw K K'.
  assert (Q : forall u, Rabs (u - x0) <= del -> Rabs u <= Rmax M (Rabs x0 + del)).
  { intros u Hu. eapply Rle_trans; [|apply Rmax_r]. replace u with (x0 + (u - x0)) by ring. eapply Rle_trans; [apply Rabs_triang|lra]. }
  apply (E (x :: z) (y :: w)); cbn [length]; try lia; constructor; auto; eapply Forall_impl; try eassumption; intros a Ha; (eapply Rle_trans; [exact Ha|apply Rmax_l]).
Qed.

Definition cauchy (z : list R) : R := / (1 + hd 0 z * hd 0 z).
Lemma cauchy_pos : forall z, 0 < cauchy z.
Proof. intros z. apply Rinv_0_lt_compat. nra. Qed.
Lemma cauchy_cn : continuous_n 1 cauchy.
Proof.
  apply (cn_inv 1 (fun z => 1 + hd 0 z * hd 0 z)); [|intros; nra].
  apply (cn_ext 1 (fun z => 1 + nth 0 z 0 * nth 0 z 0)); [intros [|a l] H; reflexivity|].
  apply (cn_plus 1 (fun _ => 1)); [exact (cn_const _ _)|]. apply cn_mult; apply cn_coord; lia.
Qed.
Lemma cauchy_mass : exists a, mass 1 cauchy a.
Proof.
  destruct (completeness (fun v => exists chi M, window 1 M chi /\ v = cube_integral M 1 (fun x => chi x * cauchy x))) as [a Ha].
  - exists PI. intros v [chi [M [W ->]]]. pose proof (window_tst 1 M chi cauchy W cauchy_cn) as T. pose proof W as [HM [_ [Rc _]]].
    cbn [cube_integral].
    assert (I : is_RInt (fun x => / (1 + x²)) (- M) M (atan M - atan (- M))).
    { apply (is_RInt_derive (V := R_CompleteNormedModule) atan (fun x => / (1 + x²))).
      - intros x _. apply is_derive_Reals. replace (x²) with (x ^ 2) by (unfold Rsqr; ring). apply derivable_pt_lim_atan.
      - intros x _. apply (ex_derive_continuous (K := R_AbsRing) (V := R_NormedModule)). unfold Rsqr. auto_derive. nra. }
    apply Rle_trans with (RInt (fun x => / (1 + x²)) (- M) M).
    + apply RInt_le; [lra|apply (uc1_ex (fun x => chi [x] * cauchy [x])); exact (J_uc 0 M _ T)|eexists; exact I|].
      intros x _. unfold cauchy. cbn [hd]. change (x²) with (x * x). specialize (Rc [x] eq_refl). assert (0 < / (1 + x * x)) by (apply Rinv_0_lt_compat; nra). nra.
    + rewrite (is_RInt_unique (V := R_CompleteNormedModule) _ _ _ _ I). pose proof (atan_bound M). pose proof (atan_bound (- M)). lra.
  - exists (cube_integral (0 + 1) 1 (fun x => std 0 x * cauchy x)), (std 0), (0 + 1). split; [apply std_window; lra|reflexivity].
  - exists a. exact Ha.
Qed.

Lemma bell_small : forall t, bell t * ((1 + t * t) * (1 + t * t)) <= 16.
Proof.
  intros t. unfold bell. rewrite exp_Ropp. set (s := t * t). assert (Hs : 0 <= s) by (unfold s; nra).
  pose proof (exp_ineq1_le (s / 4)) as H. unfold s in *. clear s. set (s := t * t) in *. replace (s / 2) with (s / 4 + s / 4) by lra. rewrite exp_plus.
  set (e := exp (s / 4)) in *. apply Rmult_le_reg_l with (e * e); [nra|]. rewrite <- Rmult_assoc, Rinv_r by nra. nra.
Qed.
(** A polynomial of degree 2 times the density, when the mean is at most 1. *)
Lemma bell_dominated : forall x z p K, Rabs x <= 1 -> 0 <= K -> Rabs p <= K * (1 + (z - x) * (z - x)) -> Rabs (bell (z - x) * p) <= 48 * K * / (1 + z * z).
Proof.
  intros x z p K Hx HK Hp. apply Rabs_le_between in Hx. set (t := z - x) in *. pose proof (bell_small t) as B. pose proof (bell_pos t) as P.
  rewrite Rabs_mult, (Rabs_right (bell t)) by lra.
  assert (Z : 1 + z * z <= 3 * (1 + t * t)).
  { assert (Ez : z = t + x) by (unfold t; ring). clearbody t. subst z. clear -Hx. pose proof (Rle_0_sqr (t - x)) as S. unfold Rsqr in S. nra. }
  assert (Q : 0 < 1 + z * z) by nra. apply Rmult_le_reg_r with (1 + z * z); [exact Q|]. rewrite Rmult_assoc, (Rmult_assoc (48 * K)), Rinv_l by lra.
  apply Rle_trans with (bell t * ((K * (1 + t * t)) * (3 * (1 + t * t)))).
  - apply Rmult_le_compat_l; [lra|]. apply Rmult_le_compat; auto; [apply Rabs_pos|lra].
  - replace (bell t * (K * (1 + t * t) * (3 * (1 + t * t)))) with (3 * K * (bell t * ((1 + t * t) * (1 + t * t)))) by ring. nra.
Qed.

Section Normal.
Variable c : R.
Hypothesis Hc : mass 1 bells c.
Notation th0 := (fun _ : nat => 0).
Notation dens := (fun t z => draw_density (bell_q c) [(0%nat, 1%nat)] bell_base t (bell_draw z)).
Notation integrand := (fun t z => draw_density (bell_q c) [(0%nat, 1%nat)] bell_base t (bell_draw z) *
  (log_joint bell_p [(0%nat, 1%nat)] [] t (bell_draw z) - log_q (bell_q c) [(0%nat, 1%nat)] [] t (bell_draw z))).
Lemma c0 : 0 < c.
Proof. now apply bells_positive. Qed.
Lemma bell_log_q : forall t z, log_q (bell_q c) [(0%nat, 1%nat)] [] t (bell_draw z) = - ((hd 0 z - t 0%nat) * (hd 0 z - t 0%nat) / 2) - ln c.
Proof. intros. assert (E : factor [] 0 = 1) by reflexivity. unfold log_q, bell_q. simpl. rewrite E. lra. Qed.
Lemma bell_joint : forall t z, log_joint bell_p [(0%nat, 1%nat)] [] t (bell_draw z) = - (hd 0 z * hd 0 z / 2).
Proof. intros. assert (E : factor [] 0 = 1) by reflexivity. unfold log_joint, scaled_sum, latent_values, bindings, bell_p. simpl. rewrite E. lra. Qed.
Lemma bell_dens : forall t z, dens t z = / c * bell (hd 0 z - t 0%nat).
Proof.
  intros t z. cbv beta. unfold draw_density, bell_base. rewrite bell_log_q. unfold Rminus at 1. rewrite exp_plus, (exp_Ropp (ln c)), exp_ln by exact c0.
  unfold bell. ring.
Qed.
Lemma bell_integrand : forall t z, integrand t z = / c * (bell (hd 0 z - t 0%nat) * (ln c - t 0%nat * (2 * (hd 0 z - t 0%nat) + t 0%nat) / 2)).
Proof. intros t z. cbv beta. rewrite (bell_dens t z), bell_joint, bell_log_q. field. apply Rgt_not_eq, c0. Qed.

Definition d_dens (x : R) (z : list R) : R := / c * (bell (hd 0 z - x) * (hd 0 z - x)).
Definition d_integrand (x : R) (z : list R) : R :=
  / c * (bell (hd 0 z - x) * ((hd 0 z - x) * (ln c - x * (2 * (hd 0 z - x) + x) / 2) - (hd 0 z - x))).

Lemma cn_gap : continuous_n 2 (fun l => nth 1 l 0 + -1 * nth 0 l 0).
Proof. apply cn_plus; [apply cn_coord; lia|apply cn_scal, cn_coord; lia]. Qed.
Lemma d_dens_cn : continuous_n 2 (fun l => d_dens (hd 0 l) (tl l)).
Proof.
  set (g := fun l : list R => nth 1 l 0 + -1 * nth 0 l 0). apply (cn_ext 2 (fun l => / c * (exp (- (/ 2 * (g l * g l))) * g l))).
  - intros [|x [|z [|? ?]]] H; try discriminate. unfold d_dens, g, bell. cbn [hd tl nth].
    replace (z + -1 * x) with (z - x) by ring. f_equal. f_equal. f_equal. lra.
  - pose proof cn_gap as C. fold g in C. apply cn_scal, cn_mult; auto. apply cn_exp, cn_opp, cn_scal, cn_mult; auto.
Qed.
Lemma d_integrand_cn : continuous_n 2 (fun l => d_integrand (hd 0 l) (tl l)).
Proof.
  set (g := fun l : list R => nth 1 l 0 + -1 * nth 0 l 0). set (m := fun l : list R => nth 0 l 0).
  apply (cn_ext 2 (fun l => / c * (exp (- (/ 2 * (g l * g l))) * (g l * (ln c + - (m l * (g l + / 2 * m l))) + -1 * g l)))).
  - intros [|x [|z [|? ?]]] H; try discriminate. unfold d_integrand, g, m, bell. cbn [hd tl nth].
    replace (z + -1 * x) with (z - x) by ring. f_equal. replace (/ 2 * ((z - x) * (z - x))) with ((z - x) * (z - x) / 2) by lra. f_equal. lra.
  - pose proof cn_gap as C. fold g in C. assert (Cm : continuous_n 2 m) by (apply cn_coord; lia).
    apply cn_scal, cn_mult. { apply cn_exp, cn_opp, cn_scal, cn_mult; auto. }
    apply cn_plus; [|apply cn_scal; auto]. apply cn_mult; auto. apply (cn_plus 2 (fun _ => ln c)); [exact (cn_const _ _)|].
    apply cn_opp, cn_mult; auto. apply cn_plus; auto. apply cn_scal; auto.
Qed.
Lemma set_zero' : forall y, set_param th0 0 y 0%nat = y.
Proof. reflexivity. Qed.
Lemma abs_le_sq : forall t, Rabs t <= 1 + t * t.
Proof. intros t. unfold Rabs. destruct (Rcase_abs t); nra. Qed.
Lemma inv_c_pos : 0 < / c.
Proof. apply Rinv_0_lt_compat, c0. Qed.

Lemma dens_dominated : dominated_derivative 1 dens th0 0.
Proof.
  destruct cauchy_mass as [a Ha]. pose proof inv_c_pos as P. exists 1, d_dens, (fun z => / c * (48 * 1) * cauchy z), (/ c * (48 * 1) * a).
  split; [lra|]. split; [|split; [|split; [apply cn_scal, cauchy_cn|split]]].
  - intros x z _ _. apply (is_derive_ext (fun t => / c * bell (hd 0 z - t))); [intros t; rewrite bell_dens, set_zero'; reflexivity|].
    unfold d_dens, bell. auto_derive; [auto|]. change (hd 0 z + - x) with (hd 0 z - x). lra.
  - apply near_of_cn. exact d_dens_cn.
  - apply mass_scal; auto; [lra|exact cauchy_cn].
  - intros x z Hx _. rewrite Rminus_0_r in Hx. unfold d_dens. rewrite Rabs_mult, (Rabs_right (/ c)) by lra. rewrite Rmult_assoc.
    apply Rmult_le_compat_l; [lra|]. apply (bell_dominated x (hd 0 z) _ 1); auto; [lra|]. rewrite Rmult_1_l. apply abs_le_sq.
Qed.
Lemma integrand_dominated : dominated_derivative 1 integrand th0 0.
Proof.
  destruct cauchy_mass as [a Ha]. pose proof inv_c_pos as P. set (K := 4 + Rabs (ln c)). pose proof (Rabs_pos (ln c)) as HL.
  exists 1, d_integrand, (fun z => / c * (48 * K) * cauchy z), (/ c * (48 * K) * a).
  assert (HK : 0 <= / c * (48 * K)) by (apply Rmult_le_pos; unfold K; lra).
  split; [lra|]. split; [|split; [|split; [apply cn_scal, cauchy_cn|split]]].
  - intros x z _ _. apply (is_derive_ext (fun t => / c * (bell (hd 0 z - t) * (ln c - t * (2 * (hd 0 z - t) + t) / 2)))).
    { intros t. rewrite bell_integrand, set_zero'. reflexivity. }
    unfold d_integrand, bell. auto_derive; [auto|]. change (hd 0 z + - x) with (hd 0 z - x). lra.
  - apply near_of_cn. exact d_integrand_cn.
  - apply mass_scal; auto. exact cauchy_cn.
  - intros x z Hx _. rewrite Rminus_0_r in Hx. unfold d_integrand. rewrite Rabs_mult, (Rabs_right (/ c)) by lra. rewrite Rmult_assoc.
    apply Rmult_le_compat_l; [lra|]. apply (bell_dominated x (hd 0 z) _ K); auto; [unfold K; lra|].
    set (t := hd 0 z - x). apply Rle_trans with (Rabs t * (Rabs (ln c) + (Rabs t + 1) + 1)).
    + replace (t * (ln c - x * (2 * t + x) / 2) - t) with (t * (ln c - x * (2 * t + x) / 2 - 1)) by ring. rewrite Rabs_mult.
      apply Rmult_le_compat_l; [apply Rabs_pos|]. apply Rabs_le_between in Hx. pose proof (Rle_abs (ln c)). pose proof (Rle_abs (- ln c)). rewrite Rabs_Ropp in *.
      assert (X : Rabs (x * (2 * t + x) / 2) <= Rabs t + 1).
      { replace (x * (2 * t + x) / 2) with (x * t + x * x / 2) by lra. eapply Rle_trans; [apply Rabs_triang|]. rewrite Rabs_mult.
        assert (Rabs x <= 1) by (apply Rabs_le; lra). pose proof (Rabs_pos t). rewrite (Rabs_right (x * x / 2)) by nra. nra. }
      apply Rabs_le_between in X. apply Rabs_le. lra.
    + assert (T : t * t = Rabs t * Rabs t) by (rewrite <- Rabs_mult, Rabs_right; nra). rewrite T. unfold K. pose proof (Rabs_pos t). generalize dependent (Rabs t). intros r _ Hr. revert HL. clear. generalize (Rabs (ln c)). intros l Hl.
      assert (0 <= l * (1 + r * r - r)) by (apply Rmult_le_pos; nra). nra.
Qed.
Lemma dens_total : forall t, by_volume 1 (dens t) 1.
Proof.
  intros t. pose proof (by_volume_integral 1) as HI.
  assert (H : by_volume 1 bells c) by (apply mass_volume; [apply cn_bells|intros; left; apply exp_pos|exact Hc]).
  pose proof (by_volume_good 1 _ _ _ (shift_good (t 0%nat)) H) as H1. pose proof (int_scal _ _ HI (/ c) _ _ H1) as H2.
  rewrite Rinv_l in H2 by (apply Rgt_not_eq, c0). eapply (int_ext _ _ HI); [|exact H2].
  intros [|a [|b l]] Hl; try discriminate. rewrite (bell_dens t [a]). unfold plusl. cbn. rewrite bells_one. reflexivity.
Qed.
Lemma bell_hypotheses : exists L,
  integral (fun z => length z = 1%nat) (by_volume 1) /\
  (forall z, length z = 1%nat -> posed [(0%nat, 1%nat)] (bell_draw z)) /\
  (forall z, length z = 1%nat -> differentiable (fun t => log_q (bell_q c) [(0%nat, 1%nat)] [] t (bell_draw z)) th0 0) /\
  nearby (fun t => by_volume 1 (dens t) 1) th0 0 /\
  (forall z, length z = 1%nat -> independent (fun t => log_joint bell_p [(0%nat, 1%nat)] [] t (bell_draw z)) th0 0) /\
  dominated_derivative 1 dens th0 0 /\ dominated_derivative 1 integrand th0 0 /\
  by_volume 1 (dens th0) 1 /\ by_volume 1 (integrand th0) (ln c) /\ nearby (fun t => by_volume 1 (integrand t) (L t)) th0 0.
Proof.
  assert (I0 : by_volume 1 (integrand th0) (ln c)).
  { apply (int_ext _ _ (by_volume_integral 1) (fun z => ln c * dens th0 z)).
    - intros z _. rewrite bell_integrand, bell_dens. field. apply Rgt_not_eq, c0.
    - pose proof (int_scal _ _ (by_volume_integral 1) (ln c) _ _ (dens_total th0)) as H. rewrite Rmult_1_r in H. exact H. }
  destruct (interchange_volume 1 integrand th0 0 (ln c) integrand_dominated I0) as (L & d & N & _ & _).
  exists L. split; [apply by_volume_integral|]. split.
  { intros z _. split; [constructor; [simpl; tauto|constructor]|]. split; [constructor|]. simpl. tauto. }
  split.
  { intros z _. unfold differentiable. apply (ex_derive_ext (fun y => - ((hd 0 z - y) * (hd 0 z - y) / 2) - ln c)).
    - intros y. rewrite bell_log_q. reflexivity.
    - auto_derive. auto. }
  split; [exists (mkposreal 1 Rlt_0_1); intros x _; apply dens_total|]. split; [intros z _ y; rewrite !bell_joint; reflexivity|].
  split; [exact dens_dominated|]. split; [exact integrand_dominated|]. split; [apply dens_total|]. split; [exact I0|exact N].
Qed.
End Normal.
