(** * Proofs for C90: a normal mean with a normal observation. *)
From Coquelicot Require Import Coquelicot.
From Coq Require Import Reals List Arith Bool Lia Lra Psatz.
From Verif Require Import HMC HMCSpec VolumeSpec VolumeProofs VolumeMassProofs VolumeStepProofs VolumeHMCSpec VolumeFlatProofs VolumeHMCProofs VolumeWalkSpec VolumeWalkProofs VolumeExampleProofs VolumeGibbsSpec VolumeGibbsProofs.
From Verif Require Import Feed Transform VI VISpec VIProofs VIIntegralSpec VIIntegralProofs.
From Verif Require Import ElboSpec ElboProofs.
Import ListNotations.
Local Open Scope R_scope.
Set Bullet Behavior "Strict Subproofs".

Definition np (_ : params) (z : nat) (d : list (nat * R)) (v : R) : list R :=
  match z with 0%nat => [- (v * v / 2)] | _ => let m := match Feed.dict_get d 0 with Some m => m | None => 0 end in [- ((v - m) * (v - m) / 2)] end.
Definition nlat : list (nat * nat) := [(0, 10)]%nat.
Definition ndraw (y : R) (z : list tensor) : sample R := mksample (fun _ => hd 0 (hd [] z)) [(1%nat, y)] (fun _ => 0).
Definition nq (y : R) (c : R) (_ : params) (_ : nat) (_ : nat -> R) (v : R) : list R := [- (v * v / 2) - (y - v) * (y - v) / 2 - c].
Lemma njoint : forall y th z, log_joint np nlat [] th (ndraw y z) = - (hd 0 (hd [] z) * hd 0 (hd [] z) / 2) - (y - hd 0 (hd [] z)) * (y - hd 0 (hd [] z)) / 2.
Proof. intros y th z. unfold log_joint, scaled_sum. cbn. ring. Qed.
Lemma nqlog : forall y c th z, log_q (nq y c) nlat [] th (ndraw y z) = log_joint np nlat [] th (ndraw y z) - c.
Proof. intros y c th z. rewrite njoint. unfold log_q. cbn. ring. Qed.
Lemma exp_small : forall t, t <= 0 -> exp t <= 1.
Proof. intros t [H| ->]; [rewrite <- exp_0; left; apply exp_increasing; exact H|rewrite exp_0; lra]. Qed.
Lemma nexists : forall y th, exists Z, 0 < Z /\ by_tensors [[0]] (fun z => exp (log_joint np nlat [] th (ndraw y z))) Z.
Proof.
  intros y th. set (F := fun l : list R => exp (- (/ 2 * (nth 0 l 0 * nth 0 l 0))) * exp (- (/ 2 * ((y + -1 * nth 0 l 0) * (y + -1 * nth 0 l 0))))).
  assert (CF : continuous_n 1 F).
  { pose proof (cn_coord 1 0 (le_n 1)) as C.
    assert (C' : continuous_n 1 (fun l => y + -1 * nth 0 l 0)) by (apply cn_plus; [apply cn_const|apply cn_scal; auto]).
    apply cn_mult; apply cn_exp, cn_opp, cn_scal, cn_mult; auto. }
  destruct (by_volume_bells 1 F 1 CF) as [Z HZ].
  - intros [|a [|b l]] Hl; try discriminate. unfold F. cbn [nth]. rewrite Rabs_right by (left; apply Rmult_lt_0_compat; apply exp_pos).
    rewrite bells_cons. unfold bells. cbn. rewrite Ropp_0, exp_0. unfold bell.
    assert (E : exp (- (/ 2 * ((y + -1 * a) * (y + -1 * a)))) <= 1) by (apply exp_small; pose proof (Rle_0_sqr (y + -1 * a)) as Q; unfold Rsqr in Q; lra).
    assert (E0 : - (a * a / 2) = - (/ 2 * (a * a))) by field. rewrite E0. pose proof (exp_pos (- (/ 2 * (a * a)))). nra.
  - assert (Q : by_tensors [[0]] (fun z => exp (log_joint np nlat [] th (ndraw y z))) Z).
    { unfold by_tensors, size. cbn [concat app length]. apply (int_ext _ _ (by_volume_integral 1) F); [|exact HZ].
      intros [|a [|b l]] Hl; try discriminate. unfold F. cbn [nth]. rewrite <- exp_plus, njoint. cbn. f_equal. field. }
    exists Z. split; [|exact Q].
    apply (mass_positive 1 F Z CF); [intros x _; apply Rmult_lt_0_compat; apply exp_pos|].
    apply by_volume_mass; [exact CF|intros x _; left; apply Rmult_lt_0_compat; apply exp_pos|exact HZ].
Qed.
Lemma nmet : forall y th, exists Z, 0 < Z /\
  by_tensors [[0]] (fun z => exp (log_joint np nlat [] th (ndraw y z))) Z /\
  by_tensors [[0]] (fun z => draw_density (nq y (ln Z)) nlat (fun _ => 1) th (ndraw y z)) 1 /\
  by_tensors [[0]] (fun z => draw_density (nq y (ln Z)) nlat (fun _ => 1) th (ndraw y z) *
    (log_joint np nlat [] th (ndraw y z) - log_q (nq y (ln Z)) nlat [] th (ndraw y z))) (ln Z) /\
  continuous_tensors [[0]] (fun z => draw_density (nq y (ln Z)) nlat (fun _ => 1) th (ndraw y z) *
    above_tangent (log_joint np nlat [] th (ndraw y z) - log_q (nq y (ln Z)) nlat [] th (ndraw y z) - ln Z)).
Proof.
  intros y th. destruct (nexists y th) as [Z [Z0 HZ]]. exists Z. split; [exact Z0|]. split; [exact HZ|].
  pose proof (by_tensors_integral [[0]]) as HI.
  assert (H1 : by_tensors [[0]] (fun z => draw_density (nq y (ln Z)) nlat (fun _ => 1) th (ndraw y z)) 1).
  { pose proof (int_scal _ _ HI (/ Z) _ _ HZ) as Q. rewrite Rinv_l in Q by lra. apply (int_ext _ _ HI) with (2 := Q).
    intros z _. unfold draw_density. rewrite nqlog. unfold Rminus. rewrite exp_plus, exp_Ropp, exp_ln by exact Z0. ring. }
  split; [exact H1|]. split.
  - pose proof (int_scal _ _ HI (ln Z) _ _ H1) as Q. rewrite Rmult_1_r in Q. apply (int_ext _ _ HI) with (2 := Q). intros z _. rewrite nqlog. ring.
  - unfold continuous_tensors. apply (cn_ext _ (fun _ => 0)); [|apply cn_const]. intros l _. rewrite nqlog. unfold above_tangent.
    match goal with |- 0 = _ * (exp ?e - 1 - _) => replace e with 0 by ring end. rewrite exp_0. ring.
Qed.
