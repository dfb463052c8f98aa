(** * Gibbs sampling on R^n. *)
From Coquelicot Require Import Coquelicot.
From Coq Require Import Reals List Arith Bool Lia Lra.
From Verif Require Import Transform Feed Gibbs GibbsSpec GibbsLawProofs VIIntegralSpec GibbsBlockSpec GibbsBlockProofs HMC HMCSpec.
From Verif Require Import VolumeSpec VolumeProofs VolumeMassProofs VolumeStepProofs VolumeHMCSpec VolumeFlatProofs VolumeHMCProofs VolumeFubiniProofs VolumeWalkSpec VolumeWalkProofs VolumeWalkExampleProofs.
From Verif Require Import VolumeGibbsSpec.
Import ListNotations.
Local Open Scope R_scope.
Set Bullet Behavior "Strict Subproofs".

Lemma shape_nth : forall s0 z i v, same_shape s0 z -> nth_error z i = Some v -> length v = length (nth i s0 []).
Proof.
  intros s0 z i v H. revert i. induction H as [|u w s0 z E H IH]; intros [|i] K; try discriminate; cbn in *; [congruence|auto].
Qed.
Lemma shape_of_nth : forall s0 z, length z = length s0 -> (forall i v, nth_error z i = Some v -> length v = length (nth i s0 [])) -> same_shape s0 z.
Proof.
  induction s0 as [|u s0 IH]; intros [|w z] L H; try discriminate; constructor.
  - symmetry. exact (H O w eq_refl).
  - apply IH; [cbn in L; lia|]. intros i v K. exact (H (S i) v K).
Qed.
Lemma shape_length : forall s0 z, same_shape s0 z -> length z = length s0.
Proof. intros s0 z H. induction H; cbn; auto. Qed.
Lemma shape_sym : forall a b, same_shape a b -> same_shape b a.
Proof. intros a b H. induction H; constructor; auto. Qed.

Lemma split_at : forall (s : list tensor) i, (i < length s)%nat -> s = firstn i s ++ nth i s [] :: skipn (S i) s.
Proof.
  induction s as [|u s IH]; intros i Hi; [cbn in Hi; lia|]. destruct i as [|i]; [reflexivity|]. cbn. f_equal. apply IH. cbn in Hi. lia.
Qed.
Lemma shape_first : forall s0 s i, same_shape s0 s -> same_shape (firstn i s0) (firstn i s).
Proof. intros s0 s i H. revert i. induction H; intros [|i]; cbn; try constructor; auto. apply IHForall2. Qed.
Lemma shape_skip : forall s0 s i, same_shape s0 s -> same_shape (skipn (S i) s0) (skipn (S i) s).
Proof.
  intros s0 s i H. revert i. induction H as [|u w a b E H IH]; intros i; [constructor|]. destruct i as [|i]; [exact H|]. exact (IH i).
Qed.

(** Integrals of positive functions are positive. *)
Definition open_cube (M : R) (x : list R) : Prop := Forall (fun a => Rabs a < M) x.
Lemma J_positive : forall n M f, 0 < M -> tst n M f -> (forall x, length x = n -> open_cube M x -> 0 < f x) -> 0 < cube_integral M n f.
Proof.
  induction n as [|n IH]; intros M f HM T P.
  - cbn. apply P; [reflexivity|constructor].
  - cbn [cube_integral]. apply RInt_gt_0; [lra| |].
    + intros x Hx. apply IH; auto; [apply tst_slice; auto|]. intros l Hl O. apply P; [cbn; lia|]. constructor; auto. apply Rabs_def1; lra.
    + intros x _. apply (uc1_continuous (fun x => cube_integral M n (fun l => f (x :: l)))). exact (J_uc n M f T).
Qed.
Lemma std_pos : forall x, open_cube (1 + 1) x -> 0 < std 1 x.
Proof.
  induction x as [|a x IH]; intros O; [unfold std; cbn; lra|]. inversion O; subst. rewrite std_cons. apply Rmin_pos; auto.
  unfold ramp, Rmin, Rmax. repeat destruct (Rle_dec _ _); lra.
Qed.
Lemma mass_positive : forall n f a, continuous_n n f -> (forall x, length x = n -> 0 < f x) -> mass n f a -> 0 < a.
Proof.
  intros n f a Cf Pf Ha. eapply Rlt_le_trans; [|apply (mass_part n f a (std 1) (1 + 1) Ha (std_window n 1 Rle_0_1))].
  apply J_positive; [lra|apply window_tst; auto; apply std_window; lra|]. intros x Hx O. apply Rmult_lt_0_compat; auto. now apply std_pos.
Qed.

Section Gibbs.
Variable s0 : list tensor.
Notation D := (tensor_values s0).
Notation I := (over_tensor s0).
Notation J := (by_tensors s0).
Notation N := (size s0).

Lemma inside_shape : forall latent : list nat, length s0 = length latent -> forall s, inside latent D s <-> same_shape s0 s.
Proof.
  intros latent L0 s. split.
  - intros [L H]. apply shape_of_nth; [exact (eq_trans L (eq_sym L0))|exact H].
  - intros H. split; [rewrite (shape_length _ _ H); auto|]. intros i v K. exact (shape_nth _ _ _ _ H K).
Qed.

Section One.
Variable i : nat.
Hypothesis Hi : (i < length s0)%nat.
Notation k := (length (nth i s0 [])).
Notation na := (size (firstn i s0)).
Notation nb := (size (skipn (S i) s0)).

Lemma split_s0 : s0 = firstn i s0 ++ nth i s0 [] :: skipn (S i) s0.
Proof. apply split_at; auto. Qed.
Lemma size_app : forall a b, size (a ++ b) = (size a + size b)%nat.
Proof. intros. unfold size. rewrite concat_app. apply app_length. Qed.
Lemma size_split : N = (na + (k + nb))%nat.
Proof. rewrite split_s0 at 1. rewrite size_app, size_cons. reflexivity. Qed.
(** Coordinates of the other variables. *)
Definition others (s : list tensor) : list R := concat (skipn (S i) s) ++ concat (firstn i s).
Definition build (m : list R) : list tensor := cut s0 (turn nb m).
Definition M := (nb + na)%nat.
Lemma size_M : N = (M + k)%nat.
Proof. unfold M. rewrite size_split. lia. Qed.
Lemma others_length : forall s, same_shape s0 s -> length (others s) = M.
Proof.
  intros s H. unfold others, M. rewrite app_length, (concat_length _ _ (shape_first s0 s i H)), (concat_length _ _ (shape_skip s0 s i H)). reflexivity.
Qed.
Lemma replaced_shape : forall s v, same_shape s0 s -> length v = k -> same_shape s0 (replaced i v s).
Proof.
  intros s v H Hv. rewrite split_s0 at 1. unfold replaced. apply Forall2_app; [exact (shape_first s0 s i H)|]. constructor; [auto|exact (shape_skip s0 s i H)].
Qed.
Lemma build_replaced : forall s v, same_shape s0 s -> length v = k -> build (others s ++ v) = replaced i v s.
Proof.
  intros s v H Hv. unfold build, others. rewrite <- app_assoc. rewrite turn_app by (apply (concat_length _ _ (shape_skip s0 s i H))).
  rewrite <- app_assoc.
  replace (concat (firstn i s) ++ v ++ concat (skipn (S i) s)) with (concat (replaced i v s)) by (unfold replaced; rewrite concat_app; reflexivity).
  apply cut_concat. now apply replaced_shape.
Qed.
Lemma build_shape : forall m, length m = (M + k)%nat -> same_shape s0 (build m).
Proof.
  intros m Hm. apply cut_shape. unfold turn. rewrite app_length, skipn_length, firstn_length. rewrite size_M. unfold M in *. lia.
Qed.
Lemma others_build : forall r v, length r = M -> length v = k -> others (build (r ++ v)) = r /\ nth_error (build (r ++ v)) i = Some v.
Proof.
  intros r v Hr Hv. set (s := build (r ++ v)). assert (Hs : same_shape s0 s) by (apply build_shape; rewrite app_length; lia).
  pose proof (shape_length _ _ Hs) as Ls. destruct (nth_error s i) as [w|] eqn:E; [|apply nth_error_None in E; lia].
  pose proof (shape_nth _ _ _ _ Hs E) as Hw. pose proof (eq_trans (build_replaced s w Hs Hw) (replaced_same i s w E)) as E1.
  unfold s at 2 in E1. assert (E2 : others s ++ w = r ++ v).
  { apply (f_equal (@concat R)) in E1. unfold build in E1. rewrite !concat_cut in E1
      by (unfold turn; rewrite app_length, skipn_length, firstn_length, app_length, ?(others_length s Hs); rewrite size_M; unfold M in *; lia).
    apply (f_equal (turn (na + k))) in E1. revert E1.
    assert (TT : forall m : list R, length m = (M + k)%nat -> turn (na + k) (turn nb m) = m).
    { intros m Hm. rewrite <- (firstn_skipn nb m). unfold M in Hm. rewrite (turn_app nb) by (rewrite firstn_length; lia).
      apply turn_app. rewrite skipn_length. lia. }
    rewrite !TT; auto; rewrite app_length, ?(others_length s Hs); lia. }
  assert (E3 : others s = r) by (apply (f_equal (firstn M)) in E2; rewrite !firstn_app_l in E2; auto using others_length).
  split; [exact E3|]. rewrite E3 in E2. apply app_inv_head in E2. exact (f_equal (@Some tensor) E2).
Qed.
Lemma turn_inverse : forall l, length l = N -> turn nb (turn (na + k) l) = l.
Proof.
  intros l Hl. rewrite <- (firstn_skipn (na + k) l). rewrite size_M in Hl. unfold M in Hl.
  rewrite (turn_app (na + k)) by (rewrite firstn_length; lia). apply turn_app. rewrite skipn_length. lia.
Qed.
Lemma build_turn : forall l, length l = N -> build (turn (na + k) l) = cut s0 l.
Proof. intros l Hl. unfold build. rewrite turn_inverse; auto. Qed.

Lemma cn_build : forall f, continuous_tensors s0 f -> continuous_n (M + k) (fun m => f (build m)).
Proof.
  intros f Cf. unfold build. destruct (good_turn N nb) as [HT _]; [rewrite size_M; unfold M; lia|]. rewrite <- size_M.
  apply (cn_comp N N (turn nb) (fun l => f (cut s0 l)) HT Cf).
Qed.
Lemma cn_unbuild : forall f, continuous_n (M + k) f -> continuous_tensors s0 (fun s => f (turn (na + k) (concat s))).
Proof.
  intros f Cf. unfold continuous_tensors. destruct (good_turn N (na + k)) as [HT _]; [rewrite size_M; unfold M; lia|]. rewrite <- size_M in Cf.
  apply (cn_ext N (fun l => f (turn (na + k) l))); [intros l Hl; rewrite concat_cut; auto|]. apply (cn_comp N N (turn (na + k)) f HT Cf).
Qed.
Lemma by_build : forall f a, J f a <-> by_volume (M + k) (fun m => f (build m)) a.
Proof.
  intros f a. unfold by_tensors. rewrite <- size_M. split; intros H.
  - apply (by_volume_good N (turn nb) (fun l => f (cut s0 l)) a); auto. apply good_turn. rewrite size_M. unfold M. lia.
  - apply (int_ext _ _ (by_volume_integral N) (fun l => f (build (turn (na + k) l)))); [intros l Hl; rewrite build_turn; auto|].
    apply (by_volume_good N (turn (na + k)) (fun m => f (build m)) a); auto. apply good_turn. rewrite size_M. unfold M. lia.
Qed.
Lemma turn_state : forall s v, same_shape s0 s -> nth_error s i = Some v -> turn (na + k) (concat s) = others s ++ v.
Proof.
  intros s v Hs E. pose proof (shape_nth _ _ _ _ Hs E) as Hv. rewrite <- (replaced_same i s v E) at 1. unfold replaced.
  rewrite concat_app. cbn [concat]. rewrite app_assoc. rewrite turn_app by (rewrite app_length, (concat_length _ _ (shape_first s0 s i Hs)); lia).
  unfold others. rewrite <- app_assoc. reflexivity.
Qed.

Variable p : list tensor -> R.
Variable c : list tensor -> R.
Variable Z : R.
Hypothesis Pp : forall s, same_shape s0 s -> 0 < p s.
Hypothesis Cp : continuous_tensors s0 p.
Hypothesis HZ : J p Z.
Hypothesis Hc : forall s, same_shape s0 s -> by_volume k (fun v => p (replaced i v s)) (c s).
Hypothesis Cc : continuous_tensors s0 c.

Lemma c_build : forall r, length r = M -> mass k (fun v => p (build (r ++ v))) (c (build (r ++ repeat 0 k))).
Proof.
  intros r Hr. assert (K : length (repeat 0 k) = k) by apply repeat_length. destruct (others_build r (repeat 0 k) Hr K) as [E _].
  assert (Hs : same_shape s0 (build (r ++ repeat 0 k))) by (apply build_shape; rewrite app_length; lia).
  apply by_volume_mass.
  - apply (cn_app M k (fun m => p (build m)) r); auto. apply cn_build; auto.
  - intros v Hv. left. apply Pp. apply build_shape. rewrite app_length. lia.
  - apply (int_ext _ _ (by_volume_integral k) (fun v => p (replaced i v (build (r ++ repeat 0 k))))); [|apply Hc; auto].
    intros v Hv. rewrite <- build_replaced by auto. rewrite E. reflexivity.
Qed.
Lemma c_cn : continuous_n M (fun r => c (build (r ++ repeat 0 k))).
Proof.
  apply (cn_comp M (M + k) (fun r => r ++ repeat 0 k) (fun m => c (build m))); [|apply cn_build; auto].
  split; [intros x Hx; rewrite app_length, repeat_length; lia|]. split.
  - intros B. exists (Rabs B). split; [apply Rabs_pos|]. intros x Hx Cx. apply cube_app. split; [eapply cube_mono; [apply RRle_abs|exact Cx]|].
    apply Forall_forall. intros u Hu. apply repeat_spec in Hu. subst. rewrite Rabs_R0. apply Rabs_pos.
  - intros B eps He. exists eps. split; [exact He|]. intros x y Hx Hy _ _ C. apply close_app; auto. now apply close_refl.
Qed.
Lemma c_const : forall s, same_shape s0 s -> c (build (others s ++ repeat 0 k)) = c s.
Proof.
  intros s Hs. assert (K : length (repeat 0 k) = k) by apply repeat_length. rewrite build_replaced by auto.
  apply (int_unique _ _ (by_volume_integral k) (fun v => p (replaced i v s))); [|apply Hc; auto].
  apply (int_ext _ _ (by_volume_integral k) (fun v => p (replaced i v (replaced i (repeat 0 k) s)))); [|apply Hc; apply replaced_shape; auto].
  intros v Hv. rewrite replaced_twice; auto. exact (eq_ind_r (fun n => (i < n)%nat) Hi (shape_length _ _ Hs)).
Qed.
Lemma c_pos : forall s, same_shape s0 s -> 0 < c s.
Proof.
  intros s Hs. pose proof (Hc s Hs) as H.
  assert (Cv : continuous_n k (fun v => p (replaced i v s))).
  { apply (cn_ext k (fun v => p (build (others s ++ v)))); [intros v Hv; rewrite build_replaced; auto|].
    apply (cn_app M k (fun m => p (build m))); [apply cn_build; auto|apply others_length; auto]. }
  assert (Pv : forall v, length v = k -> 0 < p (replaced i v s)) by (intros v Hv; apply Pp, replaced_shape; auto).
  apply by_volume_mass in H; auto; [|intros; left; auto].
  eapply mass_positive; eauto.
Qed.

Variable f : list tensor -> R.
Variable B : R.
Hypothesis Cf : continuous_tensors s0 f.
Hypothesis Bf : forall s, same_shape s0 s -> Rabs (f s) <= B.
Hypothesis B0 : 0 <= B.

Lemma average : exists q a, continuous_n M q /\
  (forall r, length r = M -> by_volume k (fun v => p (build (r ++ v)) * f (build (r ++ v))) (q r)) /\
  by_volume M q a /\ J (fun s => p s * f s) a /\ (forall r, length r = M -> Rabs (q r) <= B * c (build (r ++ repeat 0 k))).
Proof.
  assert (Mp : mass (M + k) (fun m => p (build m)) Z).
  { apply by_volume_mass; [apply cn_build; auto|intros m Hm; left; apply Pp, build_shape; auto|]. apply by_build; auto. }
  destruct (fubini_dominated M k (fun m => p (build m) * f (build m)) (fun m => B * p (build m)) (fun r => B * c (build (r ++ repeat 0 k))) (B * Z))
    as (q & a & Cq & Hq & Hqa & Ha & Bq).
  - apply cn_mult; apply cn_build; auto.
  - apply cn_scal, cn_build; auto.
  - apply cn_scal, c_cn.
  - intros m Hm. pose proof (build_shape m Hm) as Hs. specialize (Pp _ Hs). specialize (Bf _ Hs). rewrite Rabs_mult, (Rabs_right (p (build m))) by lra. nra.
  - intros r Hr. apply mass_scal; auto; [|apply c_build; auto]. apply (cn_app M k (fun m => p (build m))); auto. apply cn_build; auto.
  - apply mass_scal; auto; [apply c_cn|]. apply (tonelli M k (fun m => p (build m))); auto; [apply cn_build; auto|apply c_cn| |].
    + intros m Hm. left. apply Pp, build_shape. auto.
    + apply c_build.
  - exists q, a. split; [exact Cq|]. split; [exact Hq|]. split; [exact Hqa|]. split; [|exact Bq]. apply by_build. exact Ha.
Qed.
(** The conditional expectation. *)
Lemma conditional_mean : exists g, continuous_tensors s0 g /\ (forall s, same_shape s0 s -> Rabs (g s) <= B) /\
  (forall s, same_shape s0 s -> by_volume k (fun v => p (replaced i v s) / c s * f (replaced i v s)) (g s)).
Proof.
  destruct average as (q & a & Cq & Hq & _ & _ & Bq). exists (fun s => q (others s) / c s).
  assert (E : forall s, same_shape s0 s -> others s = firstn M (turn (na + k) (concat s))).
  { intros s Hs. pose proof (shape_length _ _ Hs) as Ls. destruct (nth_error s i) as [v|] eqn:E; [|apply nth_error_None in E; lia].
    rewrite (turn_state s v Hs E), firstn_app_l; auto using others_length. }
  split; [|split].
  - unfold continuous_tensors. unfold Rdiv. apply cn_mult.
    + apply (cn_ext N (fun l => (fun s => q (firstn M (turn (na + k) (concat s)))) (cut s0 l))).
      { intros l Hl. cbv beta. rewrite (E (cut s0 l)); auto. apply cut_shape; auto. }
      exact (cn_unbuild (fun m => q (firstn M m)) (cn_first M k q Cq)).
    + apply (cn_inv N (fun l => c (cut s0 l))); auto. intros l Hl. apply c_pos, cut_shape. auto.
  - intros s Hs. pose proof (c_pos s Hs) as P. unfold Rdiv. rewrite Rabs_mult, (Rabs_right (/ c s)) by (apply Rle_ge; left; apply Rinv_0_lt_compat; auto).
    pose proof (Bq _ (others_length s Hs)) as H. rewrite c_const in H by auto.
    apply Rmult_le_reg_r with (c s); auto. rewrite Rmult_assoc, Rinv_l, Rmult_1_r by lra. exact H.
  - intros s Hs. pose proof (c_pos s Hs) as P. pose proof (int_scal _ _ (by_volume_integral k) (/ c s) _ _ (Hq _ (others_length s Hs))) as H.
    replace (q (others s) / c s) with (/ c s * q (others s)) by (unfold Rdiv; ring).
    eapply (int_ext _ _ (by_volume_integral k)); [|exact H]. intros v Hv. cbv beta. rewrite build_replaced by auto. unfold Rdiv. ring.
Qed.
Lemma in_turn_real : forall h, (forall s, same_shape s0 s -> by_volume k (fun v => p (replaced i v s) * f (replaced i v s)) (h s)) ->
  forall a, J (fun s => p s * f s) a <-> by_volume M (fun r => h (build (r ++ repeat 0 k))) a.
Proof.
  intros h Hh. destruct average as (q & b & _ & Hq & Hb & Jb & _).
  assert (E : by_volume M (fun r => h (build (r ++ repeat 0 k))) b).
  { eapply (int_ext _ _ (by_volume_integral M)); [|exact Hb]. intros r Hr. cbv beta.
    assert (K : length (repeat 0 k) = k) by apply repeat_length. destruct (others_build r (repeat 0 k) Hr K) as [E _].
    assert (Hs : same_shape s0 (build (r ++ repeat 0 k))) by (apply build_shape; rewrite app_length; lia).
    apply (int_unique _ _ (by_volume_integral k) (fun v => p (build (r ++ v)) * f (build (r ++ v)))); [auto|].
    eapply (int_ext _ _ (by_volume_integral k)); [|apply (Hh _ Hs)]. intros v Hv. cbv beta. rewrite <- build_replaced by auto. rewrite E. reflexivity. }
  intros a. split; intros H.
  - replace a with b; auto. exact (int_unique _ _ (by_volume_integral N) _ _ _ Jb H).
  - replace a with b; auto. exact (int_unique _ _ (by_volume_integral M) _ _ _ E H).
Qed.
End One.
End Gibbs.

Section Main.
Variable latent : list nat.
Variable s0 : list tensor.
Variable p : list tensor -> R.
Variable c : nat -> list tensor -> R.
Hypothesis Hlat : NoDup latent.
Hypothesis L0 : length s0 = length latent.
Hypothesis HP : regular_posterior s0 p c.

Lemma some_shape : same_shape s0 s0.
Proof. unfold same_shape. clear. induction s0; constructor; auto. Qed.
Lemma bound_pos : forall B f, bounded_by s0 B f -> 0 <= B.
Proof. intros B f [_ H]. eapply Rle_trans; [apply Rabs_pos|apply (H _ some_shape)]. Qed.

Definition rest (i : nat) (h : list tensor -> R) (a : R) : Prop :=
  by_volume (M s0 i) (fun r => h (build s0 i (r ++ repeat 0 (length (nth i s0 []))))) a.
Definition G (f : list tensor -> R) : Prop := exists B, bounded_by s0 B f.

Lemma mean_exists : forall i f B, (i < length s0)%nat -> bounded_by s0 B f ->
  exists g, bounded_by s0 B g /\ redrawn latent (tensor_values s0) (over_tensor s0) p c i f g.
Proof.
  intros i f B Hi Hf. pose proof (bound_pos B f Hf) as B0. destruct Hf as [Cf Bf]. destruct (density_total _ _ _ HP) as [Z HZ].
  destruct (conditional_mean s0 i Hi p (c i) Z (density_positive _ _ _ HP) (density_continuous _ _ _ HP) HZ
    (fun s => conditionals _ _ _ HP i s Hi) (conditionals_continuous _ _ _ HP i Hi) f B Cf Bf B0) as (g & Cg & Bg & Hg).
  exists g. split; [split; auto|]. intros s Hs. apply (proj1 (inside_shape s0 latent L0 s)) in Hs. exact (Hg s Hs).
Qed.
Theorem real_integration : integration latent (tensor_values s0) (over_tensor s0) p c (by_tensors s0) rest G.
Proof.
  pose proof (inside_shape s0 latent L0) as IS. constructor.
  - intros i _. apply by_volume_integral.
  - pose proof (by_tensors_integral s0) as HI. constructor.
    + apply (int_unique _ _ HI).
    + intros f g a E H. eapply (int_ext _ _ HI); [|exact H]. intros s Hs. apply E, IS. exact Hs.
    + apply (int_add _ _ HI).
    + apply (int_scal _ _ HI).
  - intros i s Hi Hs. rewrite <- L0 in Hi. apply IS in Hs. split; [apply (conditionals _ _ _ HP); auto|].
    apply Rgt_not_eq. apply (c_pos s0 i Hi p (c i) (density_positive _ _ _ HP) (density_continuous _ _ _ HP)); auto.
    intros z Hz. apply (conditionals _ _ _ HP); auto.
  - intros i f Hi [B Hf] h Hh a. rewrite <- L0 in Hi. pose proof (bound_pos B f Hf) as B0. destruct Hf as [Cf Bf].
    destruct (density_total _ _ _ HP) as [Z HZ].
    apply (in_turn_real s0 i Hi p (c i) Z (density_positive _ _ _ HP) (density_continuous _ _ _ HP) HZ
      (fun s => conditionals _ _ _ HP i s Hi) (conditionals_continuous _ _ _ HP i Hi) f B Cf Bf B0).
    intros s Hs. apply Hh, IS. exact Hs.
  - intros i f g Hi [B Hf] Hg. rewrite <- L0 in Hi. destruct (mean_exists i f B Hi Hf) as (g' & [Cg Bg] & Hg').
    assert (E : forall s, same_shape s0 s -> g' s = g s).
    { intros s Hs. apply IS in Hs. exact (int_unique _ _ (by_volume_integral _) _ _ _ (Hg' s Hs) (Hg s Hs)). }
    exists B. split.
    + apply (cn_ext _ (fun l => g' (cut s0 l))); auto. intros l Hl. apply E, cut_shape. auto.
    + intros s Hs. rewrite <- E; auto.
  - intros f g [B [Cf Bf]] E. exists B. split.
    + apply (cn_ext _ (fun l => f (cut s0 l))); auto. intros l Hl. apply E, IS, cut_shape. auto.
    + intros s Hs. rewrite <- E; auto. apply IS. exact Hs.
Qed.
Notation D := (tensor_values s0).
Notation I := (over_tensor s0).
Lemma drawing_exists : forall block f B, NoDup block -> (forall i, In i block -> (i < length latent)%nat) ->
  free_block latent D p c block -> bounded_by s0 B f -> forall todo pre, pre ++ todo = block ->
  exists g, bounded_by s0 B g /\ drawing latent D I p c block todo f (fun s w => g (put latent w pre s)).
Proof.
  intros block f B Hnd Hb Hf HB todo. induction todo as [|i todo IH]; intros pre E.
  - rewrite app_nil_r in E. subst pre. exists f. split; [exact HB|]. intros s w t Hs _ Ht. f_equal.
    pose proof (scanned_put latent Hlat block w s (proj1 Hs) Hb) as Q. unfold scanned_block in *. rewrite Ht in Q. apply map_Some_inj in Q. auto.
  - destruct (IH (pre ++ [i])) as (h & Hh & Dh); [rewrite <- app_assoc; exact E|].
    assert (Hib : In i block) by (rewrite <- E; apply in_or_app; simpl; auto).
    assert (Hpre : forall j, In j pre -> In j block) by (intros; rewrite <- E; apply in_or_app; auto).
    assert (Hn : ~ In i pre). { rewrite <- E in Hnd. apply NoDup_remove_2 in Hnd. intros H. apply Hnd. apply in_or_app; auto. }
    assert (Hi : (i < length latent)%nat) by auto.
    destruct (mean_exists i h B) as (g & Hg & Rg); auto; [rewrite L0; auto|]. exists g. split; [exact Hg|]. eexists. split; [exact Dh|].
    intros s w Hs Hw. pose proof (put_inside latent D w pre s Hs Hw (fun j Hj => Hb j (Hpre j Hj))) as Hs'.
    eapply (int_ext _ _ (by_volume_integral _)); [|exact (Rg _ Hs')]. intros v Hv. cbv beta.
    rewrite (free_put latent D p c block Hb Hf i pre s w v); auto. f_equal. f_equal. symmetry. apply put_next; auto. exact (proj1 Hs).
Qed.
Lemma scan_exists : forall order f B, scan_order latent order -> (forall block, In block order -> free_block latent D p c block) ->
  bounded_by s0 B f -> exists g, bounded_by s0 B g /\ after_scan latent D I p c order f g.
Proof.
  induction order as [|b order IH]; intros f B Ho Hb Hf.
  - exists f. split; auto. intros s Hs. reflexivity.
  - destruct (IH f B (fun x Hx => Ho x (or_intror Hx)) (fun x Hx => Hb x (or_intror Hx)) Hf) as (h & Hh & Ah).
    destruct (Ho b (or_introl eq_refl)) as (_ & N2 & N3).
    destruct (drawing_exists b h B N2 N3 (Hb b (or_introl eq_refl)) Hh b [] eq_refl) as (g & Hg & Dg).
    exists g. split; [exact Hg|]. exists h. split; [exact Ah|]. eexists. split; [exact Dg|]. reflexivity.
Qed.
Theorem real_free : forall order f B, scan_order latent order -> (forall block, In block order -> free_block latent D p c block) ->
  bounded_by s0 B f -> exists g a, after_scan latent D I p c order f g /\ bounded_by s0 B g /\
    by_tensors s0 (fun s => p s * f s) a /\ by_tensors s0 (fun s => p s * g s) a /\
    forall g', after_scan latent D I p c order f g' -> by_tensors s0 (fun s => p s * g' s) a.
Proof.
  intros order f B Ho Hb Hf. destruct (scan_exists order f B Ho Hb Hf) as (g & Hg & Ag). exists g.
  assert (Ha : exists a, by_tensors s0 (fun s => p s * f s) a).
  { destruct (density_total _ _ _ HP) as [Z HZ]. destruct Hf as [Cf Bf].
    apply (by_volume_dominated (size s0) _ (fun l => B * p (cut s0 l)) (B * Z)).
    - apply cn_mult; [apply (density_continuous _ _ _ HP)|exact Cf].
    - exact (int_scal _ _ (by_volume_integral _) B _ _ HZ).
    - intros l Hl. pose proof (cut_shape _ _ Hl) as Hs. pose proof (density_positive _ _ _ HP _ Hs) as P. pose proof (Bf _ Hs) as Q.
      rewrite !Rabs_mult, (Rabs_right (p (cut s0 l))) by lra. pose proof (RRle_abs B). nra. }
  destruct Ha as [a Ha]. exists a. split; [exact Ag|]. split; [exact Hg|]. split; [exact Ha|].
  assert (X : exists s, inside latent (tensor_values s0) s) by (exists s0; apply inside_shape; auto; apply some_shape).
  pose proof (scan_invariant' latent _ _ p c _ _ _ Hlat real_integration X order f) as Q.
  split; [apply (Q g a Ho Hb); auto; exists B; auto|]. intros g' Ag'. apply (Q g' a Ho Hb); auto. exists B. auto.
Qed.
Theorem real_single : forall order f B, (forall i, In i order -> (i < length latent)%nat) -> bounded_by s0 B f ->
  exists g a, after_scan latent D I p c (map (fun i => [i]) order) f g /\ bounded_by s0 B g /\
    by_tensors s0 (fun s => p s * f s) a /\ by_tensors s0 (fun s => p s * g s) a /\
    forall g', after_scan latent D I p c (map (fun i => [i]) order) f g' -> by_tensors s0 (fun s => p s * g' s) a.
Proof.
  intros order f B Ho Hf. apply real_free; auto.
  - intros b Hin. apply in_map_iff in Hin. destruct Hin as (i & <- & Hi). split; [discriminate|split].
    + repeat constructor. simpl. tauto.
    + intros j [<-|[]]. auto.
  - intros b Hin. apply in_map_iff in Hin. destruct Hin as (i & <- & Hi). apply single_free.
Qed.
End Main.
