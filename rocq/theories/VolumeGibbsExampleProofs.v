(** * A posterior of two correlated normal variables, scanned. *)
From Coquelicot Require Import Coquelicot.
From Coq Require Import Reals List Arith Bool Lia Lra.
From Verif Require Import Transform Feed Gibbs GibbsSpec VIIntegralSpec GibbsBlockSpec HMC HMCSpec.
From Verif Require Import VolumeSpec VolumeProofs VolumeMassProofs VolumeStepProofs VolumeHMCSpec VolumeFlatProofs VolumeHMCProofs VolumeExampleProofs VolumeWalkSpec VolumeWalkProofs VolumeWalkExampleProofs.
From Verif Require Import VolumeGibbsSpec.
Import ListNotations.
Local Open Scope R_scope.
Set Bullet Behavior "Strict Subproofs".

Lemma shape_two : forall s, same_shape [[0]; [0]] s -> exists x y, s = [[x]; [y]].
Proof.
  intros s H. inversion H as [|? v ? ? Hv Hl]; subst. destruct (shape_one _ Hl) as [y ->]. cbn in Hv. destruct v as [|x [|x' v]]; try discriminate. eauto.
Qed.
Lemma one_list : forall l : list R, length l = 1%nat -> exists a, l = [a].
Proof. intros [|a [|b l]] H; try discriminate. eauto. Qed.
Lemma inside_two : forall s, inside [4%nat; 7%nat] (tensor_values [[0]; [0]]) s -> exists x y, s = [[x]; [y]].
Proof.
  intros [|u [|v [|? ?]]] [L H]; try discriminate. destruct (one_list u (H 0%nat u eq_refl)) as [x ->]. destruct (one_list v (H 1%nat v eq_refl)) as [y ->]. eauto.
Qed.
Definition narrow (l : list R) : R := exp (- (hd 0 l * hd 0 l)).
Lemma cn_narrow : continuous_n 1 narrow.
Proof.
  apply (cn_ext 1 (fun l => exp (- (nth 0 l 0 * nth 0 l 0)))); [intros [|a l] _; reflexivity|].
  apply cn_exp, cn_opp, cn_mult; apply cn_coord; lia.
Qed.
Lemma sq_pos : forall x : R, 0 <= x * x.
Proof. intros x. pose proof (Rle_0_sqr x) as Hs. unfold Rsqr in Hs. lra. Qed.
Lemma narrow_volume : exists k1, by_volume 1 narrow k1.
Proof.
  apply (by_volume_bells 1 narrow 1 cn_narrow). intros [|a [|b l]] Hl; try discriminate. rewrite bells_one. unfold narrow, bell. cbn [hd].
  rewrite Rabs_right by (apply Rle_ge; left; apply exp_pos). rewrite Rmult_1_l. pose proof (sq_pos a).
  destruct (Req_dec (a * a) 0) as [E|E]; [right; f_equal; lra|left; apply exp_increasing; lra].
Qed.
Lemma kick_good : good 2 (kick_block 1 (fun x => [- hd 0 x])).
Proof.
  apply (good_kick 1 1). apply cmap_coords; [auto|]. intros k Hk. destruct k; [|lia]. cbn [nth].
  apply (cn_ext 1 (fun l => - nth 0 l 0)); [intros [|a l] _; reflexivity|]. apply cn_opp, cn_coord. lia.
Qed.
Lemma ladder_bell : forall x y, ladder [[x]; [y]] = bell x * bell (y - x).
Proof. reflexivity. Qed.
Lemma ladder_regular : exists k1 k2, regular_posterior [[0]; [0]] ladder (ladder_c k1 k2).
Proof.
  destruct narrow_volume as [k1 H1]. destruct (bells_mass 1) as [k2 Hk]. exists k1, k2.
  assert (H2 : by_volume 1 bells k2) by (apply mass_volume; [apply cn_bells|intros; left; apply exp_pos|exact Hk]).
  pose proof (by_volume_integral 1) as HI.
  assert (C0 : continuous_n 2 (fun l => nth 0 l 0)) by (apply cn_coord; lia).
  assert (C1 : continuous_n 2 (fun l => nth 1 l 0)) by (apply cn_coord; lia).
  constructor.
  - intros s Hs. destruct (shape_two s Hs) as (x & y & ->). apply Rmult_lt_0_compat; apply exp_pos.
  - unfold continuous_tensors. change (size [[0]; [0]]) with 2%nat.
    apply (cn_ext _ (fun l => exp (- (/ 2 * (nth 0 l 0 * nth 0 l 0))) * exp (- (/ 2 * ((nth 1 l 0 + -1 * nth 0 l 0) * (nth 1 l 0 + -1 * nth 0 l 0)))))).
    + intros [|a [|b [|d l]]] Hl; try discriminate. cbn [cut firstn skipn length]. rewrite ladder_bell. unfold bell. cbn [nth]. f_equal; f_equal; lra.
    + assert (C : continuous_n 2 (fun l => nth 1 l 0 + -1 * nth 0 l 0)) by (apply cn_plus; [auto|apply cn_scal; auto]).
      apply cn_mult; apply cn_exp, cn_opp, cn_scal, cn_mult; auto.
  - destruct (bells_mass 2) as [Z HZ]. exists Z. unfold by_tensors. change (size [[0]; [0]]) with 2%nat.
    assert (H : by_volume 2 bells Z) by (apply mass_volume; [apply cn_bells|intros; left; apply exp_pos|exact HZ]).
    pose proof (by_volume_good 2 _ _ _ kick_good H) as H3. eapply (int_ext _ _ (by_volume_integral 2)); [|exact H3].
    intros [|a [|b [|d l]]] Hl; try discriminate. cbn [cut firstn skipn length]. rewrite ladder_bell. unfold kick_block, plusl. cbn. rewrite bells_cons, bells_one. reflexivity.
  - intros i s Hi Hs. destruct (shape_two s Hs) as (x & y & ->). unfold over_tensor. destruct i as [|[|i]]; [| |cbn in Hi; lia].
    + change (length (nth 0 [[0]; [0]] [])) with 1%nat. unfold ladder_c.
      pose proof (by_volume_good 1 _ _ _ (shift_good (y / 2)) H1) as H3. pose proof (int_scal _ _ HI (exp (- (y * y / 4))) _ _ H3) as H4.
      rewrite Rmult_comm. eapply (int_ext _ _ HI); [|exact H4]. intros [|a [|b l]] Hl; try discriminate. unfold replaced. cbn [firstn skipn app].
      rewrite ladder_bell. unfold bell, narrow, plusl. cbn. rewrite <- !exp_plus. f_equal. field.
    + change (length (nth 1 [[0]; [0]] [])) with 1%nat. unfold ladder_c.
      pose proof (by_volume_good 1 _ _ _ (shift_good x) H2) as H3. pose proof (int_scal _ _ HI (exp (- (x * x / 2))) _ _ H3) as H4.
      rewrite Rmult_comm. eapply (int_ext _ _ HI); [|exact H4]. intros [|a [|b l]] Hl; try discriminate. unfold replaced. cbn [firstn skipn app].
      rewrite ladder_bell. unfold plusl. cbn. rewrite bells_one. reflexivity.
  - intros i Hi. unfold continuous_tensors. change (size [[0]; [0]]) with 2%nat. destruct i as [|i].
    + apply (cn_ext _ (fun l => k1 * exp (- (/ 4 * (nth 1 l 0 * nth 1 l 0))))).
      * intros [|a [|b [|d l]]] Hl; try discriminate. cbn [cut firstn skipn length nth ladder_c]. f_equal. f_equal. lra.
      * apply cn_scal, cn_exp, cn_opp, cn_scal, cn_mult; auto.
    + apply (cn_ext _ (fun l => k2 * exp (- (/ 2 * (nth 0 l 0 * nth 0 l 0))))).
      * intros [|a [|b [|d l]]] Hl; try discriminate. cbn [cut firstn skipn length nth ladder_c]. f_equal. f_equal. lra.
      * apply cn_scal, cn_exp, cn_opp, cn_scal, cn_mult; auto.
Qed.
(** A bounded continuous function: a squashed second variable. *)
Lemma squash_bounded : bounded_by [[0]; [0]] 1 (fun s => bell (hd 0 (nth 1 s []))).
Proof.
  split.
  - unfold continuous_tensors. change (size [[0]; [0]]) with 2%nat. apply (cn_ext _ (fun l => exp (- (/ 2 * (nth 1 l 0 * nth 1 l 0))))).
    + intros [|a [|b [|d l]]] Hl; try discriminate. unfold bell. cbn [cut firstn skipn length nth hd]. f_equal. lra.
    + apply cn_exp, cn_opp, cn_scal, cn_mult; apply cn_coord; lia.
  - intros s _. pose proof (bell_pos (hd 0 (nth 1 s []))). pose proof (bell_le_1 (hd 0 (nth 1 s []))). rewrite Rabs_right; lra.
Qed.
Lemma apart_regular : exists k, regular_posterior [[0]; [0]] apart (apart_c k) /\
  scan_order [4%nat; 7%nat] [[0%nat; 1%nat]] /\ free_block [4%nat; 7%nat] (tensor_values [[0]; [0]]) apart (apart_c k) [0%nat; 1%nat].
Proof.
  destruct (bells_mass 1) as [k Hk]. pose proof (bells_positive k Hk) as k0. exists k.
  assert (H2 : by_volume 1 bells k) by (apply mass_volume; [apply cn_bells|intros; left; apply exp_pos|exact Hk]).
  pose proof (by_volume_integral 1) as HI.
  assert (C : forall j, (j < 2)%nat -> continuous_n 2 (fun l => exp (- (/ 2 * (nth j l 0 * nth j l 0)))))
    by (intros; apply cn_exp, cn_opp, cn_scal, cn_mult; apply cn_coord; auto).
  split; [constructor|split].
  - intros s Hs. destruct (shape_two s Hs) as (x & y & ->). apply Rmult_lt_0_compat; apply exp_pos.
  - unfold continuous_tensors. change (size [[0]; [0]]) with 2%nat.
    apply (cn_ext _ (fun l => exp (- (/ 2 * (nth 0 l 0 * nth 0 l 0))) * exp (- (/ 2 * (nth 1 l 0 * nth 1 l 0))))).
    + intros [|a [|b [|d l]]] Hl; try discriminate. cbn [cut firstn skipn length apart nth]. f_equal; f_equal; lra.
    + apply cn_mult; apply C; lia.
  - destruct (bells_mass 2) as [Z HZ]. exists Z. unfold by_tensors. change (size [[0]; [0]]) with 2%nat.
    assert (H : by_volume 2 bells Z) by (apply mass_volume; [apply cn_bells|intros; left; apply exp_pos|exact HZ]).
    eapply (int_ext _ _ (by_volume_integral 2)); [|exact H].
    intros [|a [|b [|d l]]] Hl; try discriminate. cbn [cut firstn skipn length apart]. rewrite bells_cons, bells_one. reflexivity.
  - intros i s Hi Hs. destruct (shape_two s Hs) as (x & y & ->). unfold over_tensor. destruct i as [|[|i]]; [| |cbn in Hi; lia].
    + change (length (nth 0 [[0]; [0]] [])) with 1%nat. unfold apart_c. pose proof (int_scal _ _ HI (exp (- (y * y / 2))) _ _ H2) as H4.
      rewrite Rmult_comm. eapply (int_ext _ _ HI); [|exact H4]. intros [|a [|b l]] Hl; try discriminate. unfold replaced. cbn [firstn skipn app apart].
      rewrite bells_one. unfold bell. ring.
    + change (length (nth 1 [[0]; [0]] [])) with 1%nat. unfold apart_c. pose proof (int_scal _ _ HI (exp (- (x * x / 2))) _ _ H2) as H4.
      rewrite Rmult_comm. eapply (int_ext _ _ HI); [|exact H4]. intros [|a [|b l]] Hl; try discriminate. unfold replaced. cbn [firstn skipn app apart].
      rewrite bells_one. unfold bell. ring.
  - intros i Hi. unfold continuous_tensors. change (size [[0]; [0]]) with 2%nat. destruct i as [|i].
    + apply (cn_ext _ (fun l => k * exp (- (/ 2 * (nth 1 l 0 * nth 1 l 0))))); [|apply cn_scal, C; lia].
      intros [|a [|b [|d l]]] Hl; try discriminate. cbn [cut firstn skipn length nth apart_c]. f_equal. f_equal. lra.
    + apply (cn_ext _ (fun l => k * exp (- (/ 2 * (nth 0 l 0 * nth 0 l 0))))); [|apply cn_scal, C; lia].
      intros [|a [|b [|d l]]] Hl; try discriminate. cbn [cut firstn skipn length nth apart_c]. f_equal. f_equal. lra.
  - intros b [<-|[]]. split; [discriminate|]. split; [repeat constructor; cbn; intuition lia|]. cbn. intros i Hi. lia.
  - intros i j Hi Hj N s w v Hs Hw Hv. apply inside_two in Hs. destruct Hs as (x & y & ->).
    assert (Ew : exists a, w = [a]) by (destruct j as [|[|j]]; [| |cbn in Hj; lia]; apply one_list; exact Hw). destruct Ew as [a ->].
    assert (Ev : exists a, v = [a]) by (destruct i as [|[|i]]; [| |cbn in Hi; lia]; apply one_list; exact Hv). destruct Ev as [b ->].
    unfold conditional_density. destruct i as [|[|i]]; [| |cbn in Hi; lia]; (destruct j as [|[|j]]; [| |cbn in Hj; lia]); try congruence;
      unfold replaced; cbn [firstn skipn app apart apart_c];
      repeat match goal with |- context [exp ?t] => let E := fresh in pose proof (exp_pos t) as E; generalize dependent (exp t); intros end; field; repeat split; lra.
Qed.
