(** * Proofs for C89: finite spaces, R^n, and a walk that does not forget. *)
From Coquelicot Require Import Coquelicot.
From Coq Require Import Reals List Arith Bool Lia Lra.
From Verif Require Import Ext Feed MonteCarlo Transform MH MHSpec HMC HMCSpec VI VISpec VIIntegralSpec ExtProofs MHProofs InvariantSpec InvariantProofs.
From Verif Require Import VolumeSpec VolumeProofs VolumeMassProofs VolumeHMCSpec VolumeFlatProofs VolumeHMCProofs VolumeStepProofs VolumeWalkSpec VolumeWalkProofs VolumeGibbsProofs VolumeExampleProofs VolumeWalkExampleProofs.
From Verif Require Import SGLDLimitProofs.
From Verif Require Import ForgetSpec ForgetProofs.
Import ListNotations.
Local Open Scope R_scope.
Set Bullet Behavior "Strict Subproofs".

Lemma finite_forgets : forall {V} (veq : forall a b : V, {a = b} + {a <> b})
  (log_prob proposal_log_prob : nat -> list (nat * V) -> V -> ext) latent proposals data,
  well_posed latent proposals data -> log_densities log_prob proposal_log_prob -> latent <> [] ->
  forall space, space <> [] -> (forall z, In z space -> length z = length latent) ->
  let p := joint log_prob latent data in
  let g := propose_density veq proposal_log_prob latent proposals data in
  (forall z, In z space -> 0 < p z) -> (forall z z', In z space -> In z' space -> 0 < g z z') ->
  (forall z, In z space -> by_sum space (g z) 1) ->
  exists rho, 0 <= rho < 1 /\ forall n phi lo hi, (forall z, In z space -> lo <= phi z <= hi) ->
    exists psi, steps_mean veq log_prob proposal_log_prob latent proposals data (fun z => In z space) (by_sum space) n phi psi /\
    forall psi', steps_mean veq log_prob proposal_log_prob latent proposals data (fun z => In z space) (by_sum space) n phi psi' ->
    forall z, In z space -> Rabs (psi' z - sumR (map (fun z => p z * phi z) space) / sumR (map p space)) <= rho ^ n * (hi - lo).
Proof.
  intros V veq lp plp latent proposals data WF LD NE space NS HL p g PP PG HG.
  set (Z := sumR (map p space)).
  assert (Z0 : 0 < Z).
  { unfold Z. destruct space as [|z0 l]; [congruence|]. cbn [map sumR]. pose proof (PP z0 (or_introl eq_refl)).
    assert (0 <= sumR (map p l)); [|lra]. apply (by_sum_positive l p); [intros x Hx; pose proof (PP x (or_intror Hx)); lra|reflexivity]. }
  destruct (list_low (list_prod space space) (fun zz => g (fst zz) (snd zz) * Z / p (snd zz))) as (e & E0 & E).
  { intros [z z'] H. apply in_prod_iff in H. destruct H as [Hz Hz']. cbn [fst snd].
    apply Rmult_lt_0_compat; [apply Rmult_lt_0_compat; auto|apply Rinv_0_lt_compat; auto]. }
  assert (HM : forall z z', In z space -> In z' space -> e * p z' / Z <= g z z').
  { intros z z' Hz Hz'. pose proof (E (z, z') (proj2 (in_prod_iff _ _ _ _) (conj Hz Hz'))) as Q. cbn [fst snd] in Q. pose proof (PP z' Hz') as P'.
    apply (Rmult_le_compat_r (p z' / Z)) in Q; [|left; apply Rmult_lt_0_compat; [exact P'|apply Rinv_0_lt_compat; exact Z0]].
    replace (g z z' * Z / p z' * (p z' / Z)) with (g z z') in Q by (field; split; lra). unfold Rdiv in *. lra. }
  assert (F := fun n phi psi lo hi c => forgets veq lp plp latent proposals data WF LD NE (fun z => In z space) (by_sum space) (by_sum_integral space) (by_sum_positive space) HL HG PP Z e eq_refl Z0 E0 HM n phi psi lo hi c).
  assert (E1 : e <= 1).
  { destruct space as [|z0 l]; [congruence|].
    destruct (finite_steps veq lp plp latent proposals data (z0 :: l) WF LD HL 0 (fun _ => 0)) as [psi S'].
    destruct (F 0%nat (fun _ => 0) psi 0 0 _ S' (fun _ _ => conj (Rle_refl 0) (Rle_refl 0)) eq_refl z0 (or_introl eq_refl)) as [_ Q]. lra. }
  exists (1 - e). split; [lra|]. intros n phi lo hi B.
  destruct (finite_steps veq lp plp latent proposals data space WF LD HL n phi) as [psi S'].
  exists psi. split; [exact S'|]. intros psi' S2 z Hz. exact (proj1 (F n phi psi' lo hi _ S2 B eq_refl z Hz)).
Qed.

Lemma real_forgets : forall (veq : forall a b : tensor, {a = b} + {a <> b})
  (log_prob proposal_log_prob : nat -> list (nat * tensor) -> tensor -> ext) latent proposals data,
  well_posed latent proposals data -> log_densities log_prob proposal_log_prob -> latent <> [] ->
  forall s0, length s0 = length latent ->
  let p := joint log_prob latent data in
  let g := propose_density veq proposal_log_prob latent proposals data in
  (forall z, same_shape s0 z -> 0 < p z) -> continuous_tensors s0 p -> continuous_pairs s0 g ->
  (forall z, same_shape s0 z -> by_tensors s0 (g z) 1) ->
  forall total, by_tensors s0 p total ->
  forall eps, 0 < eps -> (forall z z', same_shape s0 z -> same_shape s0 z' -> eps * p z' / total <= g z z') ->
  forall phi B, continuous_tensors s0 phi -> (forall z, same_shape s0 z -> Rabs (phi z) <= B) ->
  forall n, exists psi c,
    steps_mean veq log_prob proposal_log_prob latent proposals data (same_shape s0) (by_tensors s0) n phi psi /\
    by_tensors s0 (fun z => p z * phi z) c /\
    forall psi', steps_mean veq log_prob proposal_log_prob latent proposals data (same_shape s0) (by_tensors s0) n phi psi' ->
    forall z, same_shape s0 z -> Rabs (psi' z - c / total) <= (1 - eps) ^ n * (2 * B) /\ 0 <= 1 - eps < 1.
Proof.
  intros veq lp plp latent proposals data WF LD NE s0 Hs p g PP Cp Cg HG total HT eps E0 HM phi B Cphi Bphi n.
  assert (T0 : 0 < total).
  { apply (mass_positive (size s0) (fun l => p (cut s0 l)) total Cp); [intros x Hx; apply PP, cut_shape; exact Hx|].
    apply by_volume_mass; [exact Cp|intros x Hx; left; apply PP, cut_shape; exact Hx|exact HT]. }
  destruct (walk_stationary veq lp plp latent proposals data WF LD NE s0 Hs PP Cp Cg HG total HT phi B Cphi Bphi n) as (psi & c & H1 & _ & H2 & _).
  exists psi, c. split; [exact H1|]. split; [exact H2|]. intros psi' S2 z Hz.
  replace (2 * B) with (B - - B) by ring.
  apply (forgets veq lp plp latent proposals data WF LD NE (same_shape s0) (by_tensors s0) (by_tensors_integral s0) (by_tensors_positive s0)
    (fun z Hz => eq_trans (eq_sym (shape_lengths _ _ Hz)) Hs) HG PP total eps HT T0 E0 HM n phi psi' (- B) B c S2); [|exact H2|exact Hz].
  intros x Hx. pose proof (Bphi x Hx) as Q. apply Rabs_le_between in Q. exact Q.
Qed.

(** ** Proposals from the prior *)
(** Normal(0, 1), whatever the state. *)
Definition prior_proposal (c : R) : nat -> list (nat * tensor) -> tensor -> ext := fun _ _ v =>
  Fin (- (hd 0 v * hd 0 v / 2) - ln c).
Lemma prior_density : forall y c m m', 0 < c ->
  propose_density tensor_eq (prior_proposal c) [O] [O] [(1%nat, [y])] [[m]] [[m']] = / c * bell m'.
Proof.
  intros y c m m' Hc. unfold propose_density, env, prior_proposal, product, bell. cbn.
  replace (- (m' * m' / 2) - ln c) with (- (m' * m' / 2) + - ln c) by ring.
  rewrite exp_plus, (exp_Ropp (ln c)), exp_ln by auto. ring.
Qed.
Lemma prior_cn : forall y c, 0 < c -> continuous_pairs [[0]] (propose_density tensor_eq (prior_proposal c) [O] [O] [(1%nat, [y])]).
Proof.
  intros y c Hc. unfold continuous_pairs, size. cbn [concat app length].
  apply (cn_ext _ (fun l => / c * exp (- (/ 2 * (nth 1 l 0 * nth 1 l 0))))).
  - intros [|a [|b [|d l]]] Hl; try discriminate. cbn [cut firstn skipn length]. rewrite prior_density by auto. unfold bell. cbn [nth]. f_equal. f_equal. lra.
  - apply cn_scal, cn_exp, cn_opp, cn_scal, cn_mult; apply cn_coord; lia.
Qed.
Lemma prior_demo : exists c, 0 < c /\ forall y,
  well_posed [O] [O] [(1%nat, [y])] /\ log_densities walk_model (prior_proposal c) /\
  (forall z, same_shape [[0]] z -> 0 < joint walk_model [O] [(1%nat, [y])] z) /\
  continuous_tensors [[0]] (joint walk_model [O] [(1%nat, [y])]) /\
  continuous_pairs [[0]] (propose_density tensor_eq (prior_proposal c) [O] [O] [(1%nat, [y])]) /\
  (forall z, same_shape [[0]] z -> by_tensors [[0]] (propose_density tensor_eq (prior_proposal c) [O] [O] [(1%nat, [y])] z) 1) /\
  exists total, by_tensors [[0]] (joint walk_model [O] [(1%nat, [y])]) total /\ 0 < total / c /\
  forall z z', same_shape [[0]] z -> same_shape [[0]] z' ->
    total / c * joint walk_model [O] [(1%nat, [y])] z' / total <= propose_density tensor_eq (prior_proposal c) [O] [O] [(1%nat, [y])] z z'.
Proof.
  destruct (bells_mass 1) as [c Hc]. pose proof (bells_positive c Hc) as c0. exists c. split; [exact c0|]. intros y.
  assert (PP : forall z, same_shape [[0]] z -> 0 < joint walk_model [O] [(1%nat, [y])] z).
  { intros z Hz. destruct (shape_one z Hz) as [m ->]. rewrite walk_joint. apply Rmult_lt_0_compat; apply bell_pos. }
  split; [apply walk_posed|]. split; [split; intros; right; eexists; reflexivity|]. split; [exact PP|].
  split; [apply walk_joint_cn|]. split; [apply prior_cn; exact c0|]. split.
  - intros z Hz. destruct (shape_one z Hz) as [m ->]. unfold by_tensors. change (size [[0]]) with 1%nat. pose proof (by_volume_integral 1) as HI.
    assert (H : by_volume 1 bells c) by (apply mass_volume; [apply cn_bells|intros; left; apply exp_pos|exact Hc]).
    pose proof (int_scal _ _ HI (/ c) _ _ H) as H2. rewrite Rinv_l in H2 by lra. eapply (int_ext _ _ HI); [|exact H2].
    intros [|a [|b l]] Hl; try discriminate. cbn [cut firstn length]. rewrite prior_density by auto. rewrite bells_one. reflexivity.
  - destruct (walk_total y) as [total HT].
    assert (T0 : 0 < total).
    { apply (mass_positive 1 (fun l => joint walk_model [O] [(1%nat, [y])] (cut [[0]] l)) total); [apply (walk_joint_cn y)|intros x Hx; apply PP, cut_shape; exact Hx|].
      apply by_volume_mass; [apply (walk_joint_cn y)|intros x Hx; left; apply PP, cut_shape; exact Hx|exact HT]. }
    exists total. split; [exact HT|]. split; [apply Rmult_lt_0_compat; [exact T0|apply Rinv_0_lt_compat; exact c0]|].
    intros z z' Hz Hz'. destruct (shape_one z Hz) as [m ->]. destruct (shape_one z' Hz') as [m' ->]. rewrite walk_joint, prior_density by exact c0.
    replace (total / c * (bell m' * bell (y - m')) / total) with (/ c * (bell m' * bell (y - m'))) by (field; split; lra).
    apply Rmult_le_compat_l; [left; apply Rinv_0_lt_compat; exact c0|]. pose proof (bell_pos m'). pose proof (bell_le_1 (y - m')).
    rewrite <- (Rmult_1_r (bell m')) at 2. apply Rmult_le_compat_l; lra.
Qed.

(** ** A walk that does not *)
Definition flip_model (k : nat) (d : list (nat * bool)) (v : bool) : ext := Fin 0.
Definition flip_proposal (k : nat) (d : list (nat * bool)) (v : bool) : ext :=
  match dict_get d k with Some b => if Bool.eqb v (negb b) then Fin 0 else NInf | None => NInf end.
Definition one_true (z : list bool) : R := match z with [b] => if b then 1 else 0 | _ => 0 end.

Lemma flip_g : forall a b, propose_density Bool.bool_dec flip_proposal [0%nat] [0%nat] [] [a] [b] = if Bool.eqb b (negb a) then 1 else 0.
Proof.
  intros a b. unfold propose_density, product, flip_proposal, env. cbn. destruct (Bool.eqb b (negb a)); cbn [density]; [rewrite exp_0|]; ring.
Qed.
Lemma flip_p : forall a, joint flip_model [0%nat] [] [a] = 1.
Proof. intros a. unfold joint, product, flip_model. cbn. rewrite exp_0. ring. Qed.

Lemma flip_posed : well_posed (V := bool) [0%nat] [0%nat] [] /\ log_densities flip_model flip_proposal.
Proof.
  split.
  - assert (N : NoDup [0%nat]) by (constructor; [cbn; tauto|constructor]).
    split; [exact N|]. split; [exact N|]. split; [apply incl_refl|]. split; [constructor|]. cbn. tauto.
  - split; [intros; right; eexists; reflexivity|]. intros k d v. unfold flip_proposal. destruct (dict_get d k) as [b|]; [|left; reflexivity].
    destruct (Bool.eqb v (negb b)); [right; eexists; reflexivity|left; reflexivity].
Qed.

Lemma flip_walks : forall n psi, steps_mean Bool.bool_dec flip_model flip_proposal [0%nat] [0%nat] [] (fun z => In z [[true]; [false]]) (by_sum [[true]; [false]]) n one_true psi ->
  forall b, psi [b] = if Bool.eqb b (Nat.even n) then 1 else 0.
Proof.
  intros n psi H. remember one_true as phi eqn:Ephi. induction H as [phi|n phi psi chi r H IH H1 Hb]; intros b.
  - subst. destruct b; reflexivity.
  - specialize (IH Ephi). destruct H1 as (e & He & Hp & _). cbv zeta in *.
    assert (I1 : forall b, In [b] [[true]; [false]]) by (intros [|]; cbn; auto).
    specialize (Hp [b] (I1 b)). unfold by_sum in Hp. cbn [map sumR] in Hp. rewrite !flip_g in Hp.
    assert (Q : e [b] [negb b] = psi [negb b]).
    { assert (NZ : propose_density Bool.bool_dec flip_proposal [0%nat] [0%nat] [] [b] [negb b] <> 0) by (rewrite flip_g, Bool.eqb_reflx; lra).
      destruct flip_posed as [WF LD].
      rewrite (mean_step_eq Bool.bool_dec flip_model flip_proposal [0%nat] [0%nat] [] WF LD ltac:(discriminate) (fun z => In z [[true]; [false]])
        ltac:(intros z [<-|[<-|[]]]; reflexivity) [b] [negb b] psi (e [b] [negb b]) (I1 b) (I1 _) NZ (He _ _ (I1 b) (I1 _) NZ)).
      rewrite !flip_p, !flip_g, negb_involutive, !Bool.eqb_reflx. unfold accept_prob. destruct (Req_EM_T (1 * 1) 0); [lra|].
      replace (1 * 1 / (1 * 1)) with 1 by field. rewrite Rmin_left by lra. ring. }
    rewrite <- Hp. rewrite Nat.even_succ, <- Nat.negb_even. rewrite IH in Q.
    destruct b; cbn [negb Bool.eqb] in *; rewrite Q; destruct (Nat.even n); cbn; ring.
Qed.

Lemma flip_refuted : exists (log_prob proposal_log_prob : nat -> list (nat * bool) -> bool -> ext) latent proposals data space phi,
  well_posed latent proposals data /\ log_densities log_prob proposal_log_prob /\ latent <> [] /\
  (forall z, In z space -> length z = length latent) /\
  (forall z, In z space -> 0 < joint log_prob latent data z) /\
  (forall z, In z space -> by_sum space (propose_density Bool.bool_dec proposal_log_prob latent proposals data z) 1) /\
  (forall n, exists psi, steps_mean Bool.bool_dec log_prob proposal_log_prob latent proposals data (fun z => In z space) (by_sum space) n phi psi) /\
  forall n psi, steps_mean Bool.bool_dec log_prob proposal_log_prob latent proposals data (fun z => In z space) (by_sum space) n phi psi ->
  forall z, In z space -> Rabs (psi z - sumR (map (fun z => joint log_prob latent data z * phi z) space) / sumR (map (joint log_prob latent data) space)) = / 2.
Proof.
  destruct flip_posed as [WF LD].
  assert (HL : forall z, In z [[true]; [false]] -> length z = length [0%nat]) by (intros z [<-|[<-|[]]]; reflexivity).
  exists flip_model, flip_proposal, [0%nat], [0%nat], [], [[true]; [false]], one_true.
  split; [exact WF|]. split; [exact LD|]. split; [discriminate|]. split; [exact HL|].
  split; [intros z [<-|[<-|[]]]; rewrite flip_p; lra|].
  split; [intros z [<-|[<-|[]]]; unfold by_sum; cbn [map sumR]; rewrite !flip_g; cbn; ring|].
  split; [intros n; apply finite_steps; assumption|].
  intros n psi H z Hz. cbn [map sumR]. rewrite !flip_p. cbn [one_true].
  replace ((1 * 1 + (1 * 0 + 0)) / (1 + (1 + 0))) with (/ 2) by field.
  destruct Hz as [<-|[<-|[]]]; rewrite (flip_walks n psi H); destruct (Nat.even n); cbn [Bool.eqb];
    first [rewrite Rabs_pos_eq by lra; lra|rewrite Rabs_left by lra; lra].
Qed.
