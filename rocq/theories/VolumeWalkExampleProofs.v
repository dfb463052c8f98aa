(** * A random walk on the posterior of a normal mean. *)
From Coquelicot Require Import Coquelicot.
From Coq Require Import Reals List Arith Bool Lia Lra.
From Verif Require Import Ext Feed MonteCarlo Transform MH MHSpec HMC HMCSpec VI VISpec VIIntegralSpec InvariantSpec.
From Verif Require Import VolumeSpec VolumeProofs VolumeMassProofs VolumeStepProofs VolumeHMCSpec VolumeFlatProofs VolumeHMCProofs VolumeExampleProofs.
From Verif Require Import VolumeFubiniProofs VolumeWalkSpec VolumeWalkProofs.
Import ListNotations.
Local Open Scope R_scope.
Set Bullet Behavior "Strict Subproofs".

(** The value of variable 0. *)
Definition value0 (env : list (nat * tensor)) : R :=
  match find (fun kv => Nat.eqb (fst kv) O) env with Some kv => hd 0 (snd kv) | None => 0 end.
(** Variable 0 is Normal(0, 1), variable 1 is Normal(variable 0, 1), without constants. *)
Definition walk_model : nat -> list (nat * tensor) -> tensor -> ext := fun k env v =>
  let mean := match k with O => 0 | _ => value0 env end in
  Fin (- ((hd 0 v - mean) * (hd 0 v - mean) / 2)).
(** The proposal Normal(variable 0, 1), with its constant. *)
Definition walk_proposal (c : R) : nat -> list (nat * tensor) -> tensor -> ext := fun _ env v =>
  Fin (- ((hd 0 v - value0 env) * (hd 0 v - value0 env) / 2) - ln c).
Definition tensor_eq : forall a b : tensor, {a = b} + {a <> b} := list_eq_dec Req_EM_T.

Lemma walk_posed : forall y : R, well_posed [O] [O] [(1%nat, [y])].
Proof.
  intros y. unfold well_posed. split; [repeat constructor; auto|]. split; [repeat constructor; auto|].
  split; [apply incl_refl|]. cbn. split; [repeat constructor; auto|]. intros k [<-|[]] [H|[]]. discriminate.
Qed.
Lemma walk_log : forall c, log_densities walk_model (walk_proposal c).
Proof. intros c. split; intros; right; eexists; reflexivity. Qed.
Lemma walk_joint : forall y m, joint walk_model [O] [(1%nat, [y])] [[m]] = bell m * bell (y - m).
Proof. intros y m. unfold joint, env, walk_model, value0, product, bell. cbn. rewrite !Rminus_0_r. ring. Qed.
Lemma walk_density : forall y c m m', 0 < c ->
  propose_density tensor_eq (walk_proposal c) [O] [O] [(1%nat, [y])] [[m]] [[m']] = / c * bell (m' - m).
Proof.
  intros y c m m' Hc. unfold propose_density, env, walk_proposal, value0, product, bell. cbn.
  replace (- ((m' - m) * (m' - m) / 2) - ln c) with (- ((m' - m) * (m' - m) / 2) + - ln c) by ring.
  rewrite exp_plus, (exp_Ropp (ln c)), exp_ln by auto. ring.
Qed.
Lemma shape_one : forall z, same_shape [[0]] z -> exists m, z = [[m]].
Proof.
  intros z Hz. inversion Hz as [|? v ? ? Hv Hl]; subst. inversion Hl; subst. cbn in Hv. exists (hd 0 v). rewrite (one_entry v) at 1; auto.
Qed.
Lemma bell_pos : forall x, 0 < bell x.
Proof. intros. apply exp_pos. Qed.
Lemma bell_le_1 : forall x, bell x <= 1.
Proof.
  intros x. unfold bell. rewrite <- exp_0. assert (0 <= x * x) by (pose proof (Rle_0_sqr x) as Hs; unfold Rsqr in Hs; lra).
  destruct (Req_dec (x * x) 0) as [E|E]; [right; f_equal; lra|left; apply exp_increasing; lra].
Qed.
Lemma walk_joint_cn : forall y, continuous_tensors [[0]] (joint walk_model [O] [(1%nat, [y])]).
Proof.
  intros y. unfold continuous_tensors, size. cbn [concat app length].
  apply (cn_ext _ (fun l => exp (- (/ 2 * (nth 0 l 0 * nth 0 l 0))) * exp (- (/ 2 * ((y + -1 * nth 0 l 0) * (y + -1 * nth 0 l 0)))))).
  - intros [|a [|b l]] Hl; try discriminate. cbn [cut firstn length]. rewrite walk_joint. unfold bell. cbn [nth]. f_equal; f_equal; lra.
  - pose proof (cn_coord 1 0 (le_n 1)) as C.
    assert (C' : continuous_n 1 (fun l => y + -1 * nth 0 l 0)) by (apply cn_plus; [apply cn_const|apply cn_scal; auto]).
    apply cn_mult; apply cn_exp, cn_opp, cn_scal, cn_mult; auto.
Qed.
Lemma walk_density_cn : forall y c, 0 < c -> continuous_pairs [[0]] (propose_density tensor_eq (walk_proposal c) [O] [O] [(1%nat, [y])]).
Proof.
  intros y c Hc. unfold continuous_pairs, size. cbn [concat app length].
  apply (cn_ext _ (fun l => / c * exp (- (/ 2 * ((nth 1 l 0 + -1 * nth 0 l 0) * (nth 1 l 0 + -1 * nth 0 l 0)))))).
  - intros [|a [|b [|d l]]] Hl; try discriminate. cbn [cut firstn skipn length]. rewrite walk_density by auto. unfold bell. cbn [nth]. f_equal. f_equal. lra.
  - assert (C : continuous_n 2 (fun l => nth 1 l 0 + -1 * nth 0 l 0)) by (apply cn_plus; [apply cn_coord; lia|apply cn_scal, cn_coord; lia]).
    apply cn_scal, cn_exp, cn_opp, cn_scal, cn_mult; auto.
Qed.
Lemma bells_one : forall a, bells [a] = bell a.
Proof. intros a. rewrite bells_cons. unfold bells. cbn. rewrite Ropp_0, exp_0. ring. Qed.

Lemma shift_good : forall m, good 1 (fun x => plusl x [- m]).
Proof.
  intros m. apply (good_kick 0 1 (fun _ => [- m])). split; [auto|]. split.
  - intros M. exists (Rabs m). split; [apply Rabs_pos|]. intros x _ _. constructor; [rewrite Rabs_Ropp; lra|constructor].
  - intros M eps He. exists 1. split; [lra|]. intros x y _ _ _ _ _. constructor; [rewrite Rminus_eq_0, Rabs_R0; auto|constructor].
Qed.

(** With the right constant it is a density. *)
Lemma bells_positive : forall c, mass 1 bells c -> 0 < c.
Proof.
  intros c Hc. eapply Rlt_le_trans; [|apply (mass_part 1 bells c (std 1) (1 + 1) Hc (std_window 1 1 Rle_0_1))].
  assert (T : tst 1 (1 + 1) (fun x => std 1 x * bells x)) by (apply (window_tst 1 (1 + 1) (std 1) bells); [apply std_window; lra|apply cn_bells]).
  cbn [cube_integral]. apply RInt_gt_0; [lra| |].
  - intros x Hx. apply Rmult_lt_0_compat; [|apply exp_pos]. rewrite std_cons. unfold std, ramp. cbn [fold_right].
    assert (Rabs x < 1 + 1) by (apply Rabs_def1; lra). unfold Rmin, Rmax. repeat destruct (Rle_dec _ _); lra.
  - intros x _. apply (uc1_continuous (fun x => std 1 [x] * bells [x])). exact (J_uc 0 (1 + 1) _ T).
Qed.
Lemma mass_volume : forall n f a, continuous_n n f -> (forall x, length x = n -> 0 <= f x) -> mass n f a -> by_volume n f a.
Proof.
  intros n f a Cf Pf Ha. exists f, (fun _ => 0), a, 0. split; [exact Cf|]. split; [apply cn_const|]. split; [|split; [exact Ha|split; [apply mass_zero; auto|ring]]].
  intros x Hx. specialize (Pf x Hx). lra.
Qed.
Lemma walk_normal : exists c, 0 < c /\ forall y z, same_shape [[0]] z ->
  by_tensors [[0]] (propose_density tensor_eq (walk_proposal c) [O] [O] [(1%nat, [y])] z) 1.
Proof.
  destruct (bells_mass 1) as [c Hc]. pose proof (bells_positive c Hc) as c0. exists c. split; [exact c0|]. intros y z Hz.
  destruct (shape_one z Hz) as [m ->]. unfold by_tensors. change (size [[0]]) with 1%nat. pose proof (by_volume_integral 1) as HI.
  assert (H : by_volume 1 bells c) by (apply mass_volume; [apply cn_bells|intros; left; apply exp_pos|exact Hc]).
  pose proof (by_volume_good 1 _ _ _ (shift_good m) H) as H1. pose proof (int_scal _ _ HI (/ c) _ _ H1) as H2.
  rewrite Rinv_l in H2 by lra. eapply (int_ext _ _ HI); [|exact H2].
  intros [|a [|b l]] Hl; try discriminate. cbn [cut firstn length]. rewrite walk_density by auto. unfold plusl. cbn. rewrite bells_one. reflexivity.
Qed.
Lemma walk_total : forall y, exists Z, by_tensors [[0]] (joint walk_model [O] [(1%nat, [y])]) Z.
Proof.
  intros y. apply (by_volume_bells 1) with (B := 1).
  - apply walk_joint_cn.
  - intros [|a [|b l]] Hl; try discriminate. cbn [cut firstn length]. rewrite walk_joint, bells_one.
    pose proof (bell_pos a). pose proof (bell_pos (y - a)). pose proof (bell_le_1 (y - a)). rewrite Rabs_right by (apply Rle_ge, Rmult_le_pos; lra). nra.
Qed.
