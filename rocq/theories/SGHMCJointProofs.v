(** * Proofs for C88: entries that interact, along the eigenvectors of the precision matrix. *)
From Coq Require Import Reals List Arith Lra Lia.
From Verif Require Import Ext Feed MonteCarlo MonteCarloSpec Transform HMC HMCSpec HMCProofs SGLD SGLDSpec SGLDProofs SamplerProofs StepsSpec SGLDLimitSpec SGLDLimitProofs.
From Verif Require Import SGHMCLimitSpec SGHMCLimitProofs SGLDJointSpec SGLDJointProofs.
Import ListNotations.
Local Open Scope R_scope.
Set Bullet Behavior "Strict Subproofs".

Lemma translate_plus : forall z a, translate z a = plus_multiple z 1 a.
Proof.
  intros z a. unfold plus_multiple. f_equal. induction a as [|v a IH]; [reflexivity|]. cbn [map]. rewrite <- IH. f_equal.
  induction v as [|x v IHv]; [reflexivity|]. cbn [map]. rewrite <- IHv. f_equal. ring.
Qed.
Lemma inner_zeros : forall z b, inner (zeros z) b = 0.
Proof.
  intros z b. assert (E : zeros z = map (map (Rmult 0)) z).
  { unfold zeros. apply map_ext. intros v. apply map_ext. intros x. ring. }
  rewrite E, inner_mult. ring.
Qed.

Lemma sghmc_joint : forall step friction s2, 0 < step -> 0 < friction < 4 -> 0 < s2 ->
  exists (w : nat -> R) (c : nat -> nat -> R),
  (step / 100 / s2 < friction / 2 -> Un_cv w 0 /\ s2 < stationary_variance (step / 100) friction s2 /\
     Un_cv (fun n => partial_sum (fun i => c n i * c n i) n) (stationary_variance (step / 100) friction s2)) /\
  (friction / 2 <= step / 100 / s2 -> cv_infty (fun n => partial_sum (fun i => c n i * c n i) n)) /\
  forall s0 A lambda L b, precision s0 A lambda L -> same_shape s0 b -> A b = map (map (Rmult (/ s2))) b ->
  forall log_prob scale keys gradients z0 mu us,
  same_shape s0 z0 -> same_shape s0 mu -> length z0 = length keys ->
  (forall f z, same_shape z0 z -> same_shape z0 (gradients f z)) ->
  (forall i, same_shape z0 (g_normal (fst (us i)))) ->
  let lp := fun k d v => Fin (log_prob k d v) in let latent := map (fun k => (k, None)) keys in
  (forall i z, same_shape z0 z -> gradients (scaled_log_joint lp scale latent (g_data (fst (us i)))) z = map (map (Rmult (-1))) (A (plus_multiple z (-1) mu))) ->
  forall tables m, row_is tables 0 z0 -> (forall rows, In rows tables -> (m <= length rows)%nat) ->
  exists s infos, updates (sghmc_kernel lp scale latent gradients step friction) (initial tables (zeros z0)) us 0 m = Some (s, infos) /\
  forall n, (n < m)%nat -> exists z, row_is (m_tables s) n z /\ same_shape z0 z /\
    inner b z = inner b mu + w (S n) * inner b (plus_multiple z0 (-1) mu) + partial_sum (fun i => c (S n) i * inner b (g_normal (fst (us i)))) (S n).
Proof.
  intros step friction s2 Ps Pf P2. assert (Ph : 0 < step / 100) by lra.
  exists (hm_weight (step / 100) friction s2), (hm_coef (step / 100) friction s2).
  split; [|split].
  - intros K. destruct (hm_stable (step / 100) friction s2 Ph Pf P2 K) as [A B]. split; [exact A|]. split; [apply hm_bias; assumption|exact B].
  - intros K. apply hm_unstable; assumption.
  - intros s0 A lambda L b [Ash Alin Asym Alow Aup] Hb Eb log_prob scale keys gradients z0 mu us Hz0 Hmu Hl Hg Hn lp latent G tables m H0 Hm.
    assert (P0 : forall a c b, same_shape s0 a -> same_shape s0 b -> same_shape s0 (plus_multiple a c b)).
    { intros a c b' Ha Hb'. eapply shape_trans; [exact Ha|]. apply shape_plus. eapply shape_trans; [apply shape_sym; exact Ha|exact Hb']. }
    assert (P1 : forall a c v, same_shape s0 a -> same_shape s0 v -> inner b (plus_multiple a c v) = inner b a + c * inner b v).
    { intros a c v Ha Hv. rewrite inner_sym, inner_plus, (inner_sym a), (inner_sym v); [reflexivity| |]; (eapply shape_trans; [apply shape_sym; exact Ha|assumption]). }
    assert (Im : forall c a, inner b (map (map (Rmult c)) a) = c * inner b a) by (intros c a; rewrite inner_sym, inner_mult, inner_sym; reflexivity).
    assert (Sm : forall c a, same_shape s0 a -> same_shape s0 (map (map (Rmult c)) a)) by (intros c a Ha; eapply shape_trans; [exact Ha|apply shape_mult]).
    destruct (sghmc_plain log_prob scale keys gradients step z0 us Hl Hg Hn friction tables m H0 Hm) as (s & infos & E & vs & st & V0 & S0 & Ss & Sr).
    exists s, infos. split; [exact E|]. intros n Hnm.
    assert (HN : forall i, same_shape s0 (g_normal (fst (us i)))) by (intros i; eapply shape_trans; [exact Hz0|apply Hn]).
    assert (HG : forall i z, same_shape s0 z -> same_shape s0 (gradients (scaled_log_joint lp scale latent (g_data (fst (us i)))) z)).
    { intros i z Hz. eapply shape_trans; [exact Hz0|]. apply Hg. eapply shape_trans; [apply shape_sym; exact Hz0|exact Hz]. }
    assert (Sh : forall i, same_shape s0 (vs i) /\ same_shape s0 (st i)).
    { induction i as [|i [IV IZ]]; [rewrite V0, S0; split; [eapply shape_trans; [exact Hz0|apply shape_zeros]|exact Hz0]|]. destruct (Ss i) as [-> ->]. split.
      - apply P0; [apply P0; [apply Sm; exact IV|apply HG; exact IZ]|apply HN].
      - rewrite translate_plus. apply P0; assumption. }
    exists (st (S n)). split; [exact (Sr n Hnm)|]. split; [eapply shape_trans; [apply shape_sym; exact Hz0|apply Sh]|].
    rewrite (hm_chain (step / 100) friction s2 P2 (inner b mu) (fun i => inner b (st i)) (fun i => inner b (vs i)) (fun i => inner b (g_normal (fst (us i))))).
    + rewrite S0, P1 by assumption. f_equal. f_equal. ring.
    + rewrite V0, inner_sym. apply inner_zeros.
    + intros i. destruct (Ss i) as [-> _]. destruct (Sh i) as [IV IZ]. rewrite translate_plus, P1 by assumption. ring.
    + intros i. destruct (Ss i) as [_ ->]. destruct (Sh i) as [IV IZ]. pose proof (HG i (st i) IZ) as Gz.
      rewrite P1 by (first [apply HN|apply P0; [apply Sm; exact IV|exact Gz]]). rewrite P1 by (first [exact Gz|apply Sm; exact IV]). rewrite Im. f_equal. f_equal. f_equal.
      transitivity (inner b (map (map (Rmult (-1))) (A (plus_multiple (st i) (-1) mu)))); [exact (f_equal (inner b) (G i (st i) (shape_trans _ _ _ (shape_sym _ _ Hz0) IZ)))|]. rewrite Im, inner_sym, Asym, Eb by (first [exact Hb|apply P0; assumption]).
      rewrite inner_sym, inner_mult, P1 by assumption. field. lra.
Qed.
