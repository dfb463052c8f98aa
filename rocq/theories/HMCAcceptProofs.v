(** * Proofs for C93: the energy along HMC's trajectories on normal posteriors. *)
From Coquelicot Require Import Coquelicot.
From Coq Require Import Reals List Arith Bool Lia Lra Psatz.
From Verif Require Import Ext Feed MonteCarlo Transform MHSpec MHProofs HMC HMCSpec HMCProofs SGLD SGLDSpec SGLDProofs SGLDJointSpec SGLDJointProofs ExtProofs.
From Verif Require Import HMCAcceptSpec.
Import ListNotations.
Local Open Scope R_scope.
Set Bullet Behavior "Strict Subproofs".

Lemma vec_swap : forall c (z r m : tensor), length z = length r -> length z = length m ->
  map (fun q => fst q + snd q) (combine (map (fun q => fst q + snd q) (combine z (map (Rmult c) r))) (map (Rmult (-1)) m)) =
  map (fun q => fst q + snd q) (combine (map (fun q => fst q + snd q) (combine z (map (Rmult (-1)) m))) (map (Rmult c) r)).
Proof.
  intros c. induction z as [|x z IH]; intros [|y r] [|w m] H K; try discriminate; [reflexivity|]. cbn [map combine fst snd]. f_equal; [ring|]. apply IH; cbn in *; lia.
Qed.
Lemma plus_swap : forall c z r m, same_shape z r -> same_shape z m ->
  plus_multiple (plus_multiple z c r) (-1) m = plus_multiple (plus_multiple z (-1) m) c r.
Proof.
  intros c z r m H. revert m. induction H as [|x y z r E H IH]; intros m K; inversion K as [|x' w z' m' E' K']; subst; [reflexivity|].
  unfold plus_multiple, translate. cbn [map combine fst snd]. f_equal; [apply vec_swap; assumption|]. exact (IH m' K').
Qed.

Section Energy.
Variable s0 : list tensor.
Variable A : list tensor -> list tensor.
Variables lambda M e : R.
Hypothesis Hl : 0 <= lambda.
Hypothesis HM : 0 < M.
Hypothesis HA : precision s0 A lambda (M * M).
Variable mu : list tensor.
Hypothesis Hmu : same_shape s0 mu.
Variable grad : list tensor -> list tensor.
Notation Sh := (same_shape s0).
Notation pm := plus_multiple.
Hypothesis Hg : forall z, Sh z -> grad z = map (map (Rmult (-1))) (A (pm z (-1) mu)).

Lemma sh_pm : forall a c b, Sh a -> Sh b -> Sh (pm a c b).
Proof. intros a c b Ha Hb. eapply shape_trans; [exact Ha|]. apply shape_plus. eapply shape_trans; [apply shape_sym; exact Ha|exact Hb]. Qed.
Lemma in_l : forall a c b v, Sh a -> Sh b -> Sh v -> inner (pm a c b) v = inner a v + c * inner b v.
Proof. intros a c b v Ha Hb Hv. apply inner_plus; (eapply shape_trans; [apply shape_sym; exact Ha|assumption]). Qed.
Lemma in_r : forall a c b v, Sh a -> Sh b -> Sh v -> inner v (pm a c b) = inner v a + c * inner v b.
Proof. intros a c b v Ha Hb Hv. rewrite inner_sym, in_l, (inner_sym a), (inner_sym b) by assumption. reflexivity. Qed.
Lemma sh_neg : forall a, Sh a -> Sh (map (map (Rmult (-1))) a).
Proof. intros a Ha. eapply shape_trans; [exact Ha|]. exact (shape_scal (-1) a). Qed.
Lemma grad_sh : forall z, Sh z -> Sh (grad z).
Proof. intros z Hz. rewrite (Hg z Hz). apply sh_neg. apply (prec_shape _ _ _ _ HA). apply sh_pm; assumption. Qed.

(** The largest eigenvalue is at most M. *)
Lemma form_high : forall a, Sh a -> inner (A a) (A a) <= M * inner a (A a).
Proof.
  intros a Ha. pose proof (prec_shape _ _ _ _ HA a Ha) as S1. pose proof (prec_shape _ _ _ _ HA _ S1) as S2.
  pose proof (sh_pm a (- / M) (A a) Ha S1) as S3.
  pose proof (prec_low _ _ _ _ HA _ S3) as L1. pose proof (inner_pos (pm a (- / M) (A a))) as P1.
  assert (L2 : 0 <= lambda * inner (pm a (- / M) (A a)) (pm a (- / M) (A a))) by (apply Rmult_le_pos; assumption).
  assert (E1 : inner a (A (A a)) = inner (A a) (A a)) by (symmetry; apply (prec_symmetric _ _ _ _ HA); assumption).
  assert (L3 : inner (pm a (- / M) (A a)) (A (pm a (- / M) (A a))) =
    inner a (A a) + - / M * inner (A a) (A a) + - / M * (inner (A a) (A a) + - / M * inner (A a) (A (A a)))).
  { rewrite (prec_linear _ _ _ _ HA) by assumption. rewrite in_r by assumption. rewrite !in_l by assumption. rewrite E1. reflexivity. }
  (* <Aa, AAa> <= M |Aa|^2 *)
  pose proof (prec_high _ _ _ _ HA _ S1) as H1. pose proof (inner_pos (pm (A (A a)) (- M) (A a))) as P2.
  rewrite in_l, !in_r in P2 by (try assumption; apply sh_pm; assumption). rewrite (inner_sym (A a) (A (A a))) in *.
  set (p := inner a (A a)) in *. set (q := inner (A a) (A a)) in *. set (t := inner (A (A a)) (A a)) in *. set (w := inner (A (A a)) (A (A a))) in *.
  assert (T1 : t <= M * q).
  { apply (Rmult_le_reg_l (2 * M)); [lra|]. lra. }
  assert (K : 0 <= p + - / M * q + - / M * (q + - / M * t)) by lra.
  apply (Rmult_le_compat_l M) in K; [|lra].
  assert (E2 : M * (p + - / M * q + - / M * (q + - / M * t)) = M * p - 2 * q + / M * t) by (field; lra).
  assert (T2 : / M * t <= q) by (apply (Rmult_le_reg_l M); [exact HM|]; rewrite <- Rmult_assoc, Rinv_r, Rmult_1_l by lra; exact T1). lra.
Qed.
Lemma form_pos : forall a, Sh a -> 0 <= inner a (A a).
Proof. intros a Ha. pose proof (prec_low _ _ _ _ HA a Ha). pose proof (inner_pos a). assert (0 <= lambda * inner a a) by (apply Rmult_le_pos; assumption). lra. Qed.

(** The quantity that leapfrog steps keep. *)
Notation off := (off mu).
Definition kept (p : list tensor * list tensor) : R :=
  inner (snd p) (snd p) + inner (off (fst p)) (A (off (fst p))) - e * e / 4 * inner (A (off (fst p))) (A (off (fst p))).
Notation energy := (fun p => energy A mu (fst p) (snd p)).

Lemma kept_step : forall z r, Sh z -> Sh r -> kept (step grad e (z, r)) = kept (z, r).
Proof.
  intros z r Hz Hr. unfold step, drift, half. cbn [fst snd].
  set (r1 := translate r (map (vscal (/ 2 * e)) (grad z))). set (z1 := translate z (map (vscal e) r1)).
  assert (E1 : r1 = pm r (/ 2 * e) (map (map (Rmult (-1))) (A (off z)))) by (unfold r1; rewrite (Hg z Hz); reflexivity).
  assert (So : Sh (off z)) by (apply sh_pm; assumption). pose proof (prec_shape _ _ _ _ HA _ So) as Sa. pose proof (sh_neg _ Sa) as Sn.
  assert (Sr1 : Sh r1) by (rewrite E1; apply sh_pm; assumption).
  assert (E2 : z1 = pm z e r1) by reflexivity.
  assert (Sz1 : Sh z1) by (rewrite E2; apply sh_pm; assumption).
  assert (Eo : off z1 = pm (off z) e r1).
  { unfold HMCAcceptSpec.off. rewrite E2. apply plus_swap; (eapply shape_trans; [apply shape_sym; exact Hz|assumption]). }
  assert (So1 : Sh (off z1)) by (apply sh_pm; assumption). pose proof (prec_shape _ _ _ _ HA _ So1) as Sa1. pose proof (sh_neg _ Sa1) as Sn1.
  unfold kept. cbn [fst snd]. fold z1.
  change (translate r1 (map (vscal (/ 2 * e)) (grad z1))) with (pm r1 (/ 2 * e) (grad z1)). rewrite (Hg z1 Sz1). fold (off z1).
  rewrite in_l, !in_r by (try assumption; apply sh_pm; assumption). rewrite (inner_sym r1 (map _ _)), !inner_mult, (inner_sym (A (off z1)) (map _ _)), inner_mult.
  assert (Er : forall v, Sh v -> inner r v = inner r1 v + / 2 * e * inner (A (off z)) v).
  { intros v Hv. rewrite E1, in_l, inner_mult by assumption. ring. }
  rewrite (Er r Hr), (inner_sym r1 r), (inner_sym (A (off z)) r), (Er r1 Sr1), (Er (A (off z)) Sa).
  assert (X1 : forall v, Sh v -> inner (off z1) v = inner (off z) v + e * inner r1 v) by (intros v Hv; rewrite Eo; apply in_l; assumption).
  rewrite (X1 _ Sa1). pose proof (prec_symmetric _ _ _ _ HA (off z1) (off z) So1 So) as SY. rewrite (X1 _ Sa) in SY. rewrite (inner_sym (A (off z1)) (off z)) in SY.
  rewrite (inner_sym (A (off z1)) r1), (inner_sym (A (off z)) r1) in *. lra.
Qed.

Lemma kept_all : forall n z r, Sh z -> Sh r -> kept (leapfrog grad e n z r) = kept (z, r) /\ Sh (fst (leapfrog grad e n z r)) /\ Sh (snd (leapfrog grad e n z r)).
Proof.
  intros n z r Hz Hr. rewrite (leapfrog_iter grad e s0 grad_sh n z r Hz Hr).
  pose proof (fun k => iter_shape grad e s0 grad_sh k (z, r) Hz Hr) as IS. split; [|exact (IS n)].
  induction n as [|n IH]; [reflexivity|]. change (Nat.iter (S n) (step grad e) (z, r)) with (step grad e (Nat.iter n (step grad e) (z, r))). destruct (IS n) as [S1 S2].
  destruct (Nat.iter n (step grad e) (z, r)) as [z' r']. rewrite kept_step by assumption. exact IH.
Qed.

Hypothesis He : e * e * M < 4.
Theorem energy_close : forall n z r, Sh z -> Sh r -> energy (leapfrog grad e n z r) - energy (z, r) <= e * e * M / (4 - e * e * M) * energy (z, r).
Proof.
  intros n z r Hz Hr. destruct (kept_all n z r Hz Hr) as (K & S1 & S2). destruct (leapfrog grad e n z r) as [z' r'].
  unfold kept, HMCAcceptSpec.energy in *. cbn [fst snd] in *.
  assert (So : Sh (off z)) by (apply sh_pm; assumption). assert (So' : Sh (off z')) by (apply sh_pm; assumption).
  pose proof (form_high _ So') as F1. pose proof (inner_pos (A (off z))) as F2. pose proof (form_pos _ So) as F3. pose proof (inner_pos r) as F4. pose proof (inner_pos r') as F5. pose proof (form_pos _ So') as F6.
  set (q := inner (A (off z)) (A (off z))) in *. set (q' := inner (A (off z')) (A (off z'))) in *. set (p := inner (off z) (A (off z))) in *. set (p' := inner (off z') (A (off z'))) in *.
  set (k := inner r r) in *. set (k' := inner r' r') in *.
  assert (E0 : 0 <= e * e) by apply Rle_0_sqr. set (s := e * e) in *. assert (D0 : 0 < 4 - s * M) by lra.
  assert (Q1 : (4 - s * M) * q' <= 4 * M * (k + p)).
  { (* q' (4 - s M) <= M (4 p' - s q') <= 4 M kept *)
    assert (s * q <= s * q) by lra. assert (0 <= s * q) by (apply Rmult_le_pos; [exact E0|exact F2]).
    assert (A1 : 4 * p' - s * q' <= 4 * (k + p)) by lra. apply (Rmult_le_compat_l M) in A1; [|lra]. lra. }
  assert (Q2 : p' / 2 + k' / 2 - (p / 2 + k / 2) = s / 8 * (q' - q)) by lra. rewrite Q2.
  apply (Rmult_le_reg_l (4 - s * M)); [exact D0|].
  replace ((4 - s * M) * (s * M / (4 - s * M) * (p / 2 + k / 2))) with (s * (M * (p + k) / 2)) by (field; lra).
  replace ((4 - s * M) * (s / 8 * (q' - q))) with (s * ((4 - s * M) * q' / 8 - (4 - s * M) * q / 8)) by field.
  apply Rmult_le_compat_l; [exact E0|]. assert (0 <= (4 - s * M) * q) by (apply Rmult_le_pos; [lra|exact F2]). lra.
Qed.
End Energy.

Lemma sumR_app : forall a b, sumR (a ++ b) = sumR a + sumR b.
Proof. induction a as [|x a IH]; intros b; [unfold sumR at 2; cbn; ring|]. change (x + sumR (a ++ b) = (x + sumR a) + sumR b). rewrite IH. ring. Qed.
Lemma kinetic_inner : forall r, kinetic r = inner r r / 2.
Proof.
  intros r. rewrite kinetic_half. unfold inner.
  assert (E : forall l : list R, map (fun p => fst p * snd p) (combine l l) = map (fun x => x * x) l) by (induction l as [|x l IH]; [reflexivity|]; cbn; f_equal; exact IH).
  rewrite E. induction r as [|v r IH]; [unfold sumR; cbn; lra|]. cbn [map concat]. rewrite map_app, sumR_app.
  change (sumR (map (fun x => x * x / 2) v) + sumR (map (fun v => sumR (map (fun x => x * x / 2) v)) r) = (sumR (map (fun x => x * x) v) + sumR (map (fun x => x * x) (concat r))) / 2).
  rewrite IH. assert (H : sumR (map (fun x => x * x / 2) v) = sumR (map (fun x => x * x) v) / 2); [|lra].
  induction v as [|x v IV]; [unfold sumR; cbn; lra|]. change (x * x / 2 + sumR (map (fun x => x * x / 2) v) = (x * x + sumR (map (fun x => x * x) v)) / 2). rewrite IV. field.
Qed.

Section Normal.
Variable log_prob : nat -> list (nat * tensor) -> tensor -> ext.
Variable latent : list (nat * option bij).
Variable data : list (nat * tensor).
Variable grad : list (nat * tensor) -> list tensor -> list tensor.
Variable s0 : list tensor.
Variable A : list tensor -> list tensor.
Variables lambda M : R.
Variable mu : list tensor.
Hypothesis Hl : 0 <= lambda.
Hypothesis HM : 0 < M.
Hypothesis HA : precision s0 A lambda (M * M).
Hypothesis HN : normal_posterior log_prob latent data grad s0 A mu.
Notation Sh := (same_shape s0).

Lemma normal_move : forall e n z r, Sh z -> Sh r ->
  let p := leapfrog (grad data) e n z r in
  move_probability log_prob latent data grad e n z r (Rmin 1 (exp (energy A mu z r - energy A mu (fst p) (snd p)))).
Proof.
  intros e n z r Hz Hr p. destruct HN as (Hp & Hlen & Hmu & (c & Ht) & Hg).
  assert (Gs : forall z, Sh z -> Sh (grad data z)) by (intros w Hw; exact (grad_sh s0 A lambda M HA mu Hmu (grad data) Hg w Hw)).
  destruct (kept_all s0 A lambda M e HA mu Hmu (grad data) Hg n z r Hz Hr) as (_ & S1 & S2).
  pose proof (hmc_move log_prob latent data Hp grad e n s0 Hlen Gs z r Hz Hr) as Mv. cbv zeta in Mv. fold p in Mv, S1, S2.
  assert (E : forall z' r', Sh z' -> phase_density log_prob latent data z' r' = exp (c - energy A mu z' r')).
  { intros z' r' Hz'. unfold phase_density. rewrite (Ht z' Hz'), <- kinetic_half, kinetic_inner, <- exp_plus. f_equal. unfold energy. lra. }
  rewrite !E in Mv by assumption.
  replace (Rmin 1 (exp (energy A mu z r - energy A mu (fst p) (snd p)))) with (accept_prob (exp (c - energy A mu (fst p) (snd p))) (exp (c - energy A mu z r))); [exact Mv|].
  unfold accept_prob. destruct (Req_EM_T (exp (c - energy A mu z r)) 0) as [Z|Z]; [pose proof (exp_pos (c - energy A mu z r)); lra|].
  f_equal. unfold Rdiv. rewrite <- exp_Ropp, <- exp_plus. f_equal. lra.
Qed.

Theorem accept_bound : forall e n z r, e * e * M < 4 -> Sh z -> Sh r ->
  exists q, move_probability log_prob latent data grad e n z r q /\ exp (- (e * e * M / (4 - e * e * M) * energy A mu z r)) <= q <= 1.
Proof.
  intros e n z r He Hz Hr. eexists. split; [apply normal_move; assumption|]. split; [|apply Rmin_l].
  destruct HN as (_ & _ & Hmu & _ & Hg). pose proof (energy_close s0 A lambda M e Hl HM HA mu Hmu (grad data) Hg He n z r Hz Hr) as E. cbn [fst snd] in E.
  assert (E0 : 0 <= energy A mu z r).
  { unfold energy. assert (So : Sh (off mu z)) by (apply (sh_pm s0); assumption).
    pose proof (form_pos s0 A lambda M Hl HA _ So). pose proof (inner_pos r). lra. }
  assert (E1 : 0 <= e * e * M / (4 - e * e * M)).
  { pose proof (Rle_0_sqr e) as Q. unfold Rsqr in Q. apply Rmult_le_pos; [apply Rmult_le_pos; lra|left; apply Rinv_0_lt_compat; lra]. }
  assert (E2 : 0 <= e * e * M / (4 - e * e * M) * energy A mu z r) by (apply Rmult_le_pos; assumption).
  apply Rmin_glb.
  - rewrite <- exp_0. destruct (Req_dec (e * e * M / (4 - e * e * M) * energy A mu z r) 0) as [-> | Z]; [rewrite Ropp_0; apply Rle_refl|]. left. apply exp_increasing. lra.
  - set (p := leapfrog (grad data) e n z r) in *.
    destruct (Rle_lt_or_eq_dec _ _ E) as [L|L]; [left; apply exp_increasing; lra|right; f_equal; lra].
Qed.

Theorem accept_small : forall z r delta, Sh z -> Sh r -> 0 < delta ->
  exists e0, 0 < e0 /\ forall e n, 0 < e < e0 -> exists q, move_probability log_prob latent data grad e n z r q /\ 1 - delta <= q <= 1.
Proof.
  intros z r delta Hz Hr Hd. set (H := energy A mu z r).
  assert (H0 : 0 <= H).
  { unfold H, energy. destruct HN as (_ & _ & Hmu & _). assert (So : Sh (off mu z)) by (apply (sh_pm s0); assumption).
    pose proof (form_pos s0 A lambda M Hl HA _ So). pose proof (inner_pos r). lra. }
  set (t := Rmin 2 (2 * delta / (H + 1)) / M). assert (T0 : 0 < Rmin 2 (2 * delta / (H + 1))) by (apply Rmin_glb_lt; [lra|]; apply Rmult_lt_0_compat; [lra|apply Rinv_0_lt_compat; lra]).
  assert (T1 : 0 < t) by (apply Rmult_lt_0_compat; [exact T0|apply Rinv_0_lt_compat; exact HM]).
  assert (Et : t * M = Rmin 2 (2 * delta / (H + 1))) by (unfold t; field; lra).
  exists (sqrt t). split; [apply sqrt_lt_R0; exact T1|]. intros e n [He0 He1].
  assert (Es : e * e < t) by (rewrite <- (sqrt_sqrt t) by lra; apply Rmult_le_0_lt_compat; lra).
  assert (Em : e * e * M < Rmin 2 (2 * delta / (H + 1))) by (rewrite <- Et; apply Rmult_lt_compat_r; assumption).
  pose proof (Rmin_l 2 (2 * delta / (H + 1))) as R1. pose proof (Rmin_r 2 (2 * delta / (H + 1))) as R2.
  destruct (accept_bound e n z r) as (q & Q1 & Q2 & Q3); [lra|exact Hz|exact Hr|]. exists q. split; [exact Q1|]. split; [|exact Q3].
  eapply Rle_trans; [|exact Q2]. fold H. set (w := e * e * M) in *.
  assert (W0 : 0 <= w) by (pose proof (Rle_0_sqr e) as Q; unfold Rsqr in Q; apply Rmult_le_pos; lra).
  eapply Rle_trans; [|apply exp_ineq1_le].
  assert (W1 : w / (4 - w) * H <= delta); [|lra].
  apply Rle_trans with (w / 2 * (H + 1)).
  - apply Rmult_le_compat; try lra; [apply Rmult_le_pos; [exact W0|left; apply Rinv_0_lt_compat; lra]|]. apply Rmult_le_compat_l; [exact W0|]. apply Rinv_le_contravar; lra.
  - assert (W2 : w <= 2 * delta / (H + 1)) by lra. apply (Rmult_le_compat_r (H + 1)) in W2; [|lra]. unfold Rdiv in W2. rewrite Rmult_assoc, Rinv_l in W2 by lra. lra.
Qed.
End Normal.

(** ** Step sizes beyond the stability limit *)
Section Unstable.
Variables lambda e m : R.
Hypothesis Hlam : 0 < lambda.
Hypothesis He : 0 < e.
Hypothesis Hbig : 4 < e * e * lambda.
Definition scalar_matrix : list tensor -> list tensor := map (map (Rmult lambda)).
Lemma one_shape : forall z, same_shape [[0]] z -> exists x, z = [[x]].
Proof. intros z H. inversion H as [|a b l l' L F]; subst. inversion F; subst. destruct b as [|x [|? ?]]; try discriminate. eauto. Qed.
Lemma scalar_precision : precision [[0]] scalar_matrix lambda (lambda * lambda).
Proof.
  split.
  - intros a H. destruct (one_shape a H) as (x & ->). repeat constructor.
  - intros a c b H K. destruct (one_shape a H) as (x & ->), (one_shape b K) as (y & ->). unfold plus_multiple, translate, scalar_matrix. cbn. do 2 f_equal. ring.
  - intros a b H K. destruct (one_shape a H) as (x & ->), (one_shape b K) as (y & ->). unfold inner, scalar_matrix. cbn. ring.
  - intros a H. destruct (one_shape a H) as (x & ->). unfold inner, scalar_matrix. cbn. lra.
  - intros a H. destruct (one_shape a H) as (x & ->). unfold inner, scalar_matrix. cbn. lra.
Qed.
Definition kappa : R := sqrt (lambda * (e * e * lambda / 4 - 1)).
Definition rate : R := e * e * lambda / 2 - 1 + e * kappa.
Lemma kappa_sqr : kappa * kappa = lambda * (e * e * lambda / 4 - 1).
Proof. apply sqrt_sqrt. apply Rmult_le_pos; lra. Qed.
Lemma kappa_pos : 0 < kappa.
Proof. apply sqrt_lt_R0. apply Rmult_lt_0_compat; lra. Qed.
Lemma rate_big : 1 < rate.
Proof. unfold rate. pose proof (Rmult_lt_0_compat _ _ He kappa_pos). lra. Qed.
Lemma rate_inv : rate * (e * e * lambda / 2 - 1 - e * kappa) = 1.
Proof. unfold rate. replace ((e * e * lambda / 2 - 1 + e * kappa) * (e * e * lambda / 2 - 1 - e * kappa)) with ((e * e * lambda / 2 - 1) * (e * e * lambda / 2 - 1) - e * e * (kappa * kappa)) by ring. rewrite kappa_sqr. field. Qed.

Variable grad : list tensor -> list tensor.
Hypothesis Hg : forall z, same_shape [[0]] z -> grad z = map (map (Rmult (-1))) (scalar_matrix (off [[m]] z)).

Lemma iter_scalar : forall n x r, exists x' r', Nat.iter n (step grad e) ([[x]], [[r]]) = ([[x']], [[r']]) /\
  r' - kappa * (x' - m) = (- rate) ^ n * (r - kappa * (x - m)) /\
  r' + kappa * (x' - m) = (- / rate) ^ n * (r + kappa * (x - m)).
Proof.
  intros n x r. pose proof rate_big as RB. pose proof kappa_sqr as KS.
  assert (RI : / rate = e * e * lambda / 2 - 1 - e * kappa) by (apply (Rmult_eq_reg_l rate); [rewrite rate_inv; field; lra|lra]).
  induction n as [|n (x' & r' & E & U & V)].
  - exists x, r. cbn. split; [reflexivity|]. split; ring.
  - change (Nat.iter (S n) (step grad e) ([[x]], [[r]])) with (step grad e (Nat.iter n (step grad e) ([[x]], [[r]]))). rewrite E.
    unfold step, half, drift. cbn [fst snd]. rewrite (Hg [[x']]) by repeat constructor.
    unfold translate, vscal, scalar_matrix, off, plus_multiple, translate. cbn [map combine fst snd].
    set (x1 := x' + e * (r' + / 2 * e * (-1 * (lambda * (x' + -1 * m))))). rewrite (Hg [[x1]]) by repeat constructor.
    unfold scalar_matrix, off, plus_multiple, translate. cbn [map combine fst snd].
    eexists. eexists. split; [reflexivity|]. cbn [pow]. rewrite !Rmult_assoc, <- U, <- V, RI. unfold rate, x1.
    set (k := kappa) in *. split.
    + assert (Z : e * (x' - m) * (k * k) = e * (x' - m) * (lambda * (e * e * lambda / 4 - 1))) by (rewrite KS; reflexivity). lra.
    + assert (Z : e * (x' - m) * (k * k) = e * (x' - m) * (lambda * (e * e * lambda / 4 - 1))) by (rewrite KS; reflexivity). lra.
Qed.

Lemma far_away : forall x r B, r <> kappa * (x - m) -> exists N, forall n, (N <= n)%nat -> exists x' r',
  Nat.iter n (step grad e) ([[x]], [[r]]) = ([[x']], [[r']]) /\ B <= Rabs (x' - m).
Proof.
  intros x r B Hne. set (u := r - kappa * (x - m)). set (v := r + kappa * (x - m)). assert (Hu : 0 < Rabs u) by (apply Rabs_pos_lt; unfold u; lra).
  pose proof rate_big as RB. pose proof kappa_pos as KP.
  destruct (Pow_x_infinity (- rate)) with (b := (2 * kappa * B + Rabs v) / Rabs u) as [N HN]; [rewrite Rabs_Ropp, Rabs_right; lra|].
  exists N. intros n Hn. destruct (iter_scalar n x r) as (x' & r' & E & U & V). exists x', r'. split; [exact E|]. fold u in U. fold v in V.
  specialize (HN n Hn). apply Rge_le in HN. apply (Rmult_le_compat_r (Rabs u)) in HN; [|lra]. unfold Rdiv in HN. rewrite Rmult_assoc, Rinv_l, Rmult_1_r, <- Rabs_mult, <- U in HN by lra.
  assert (V' : Rabs (r' + kappa * (x' - m)) <= Rabs v).
  { rewrite V, Rabs_mult. rewrite <- (Rmult_1_l (Rabs v)) at 2. apply Rmult_le_compat_r; [apply Rabs_pos|]. rewrite <- RPow_abs, Rabs_Ropp, Rabs_right by (left; apply Rinv_0_lt_compat; lra).
    rewrite <- (pow1 n). apply pow_incr. split; [left; apply Rinv_0_lt_compat; lra|]. rewrite <- Rinv_1. apply Rinv_le_contravar; lra. }
  pose proof (Rabs_triang (r' + kappa * (x' - m)) (- (2 * kappa * (x' - m)))) as T. rewrite Rabs_Ropp, Rabs_mult, (Rabs_right (2 * kappa)) in T by lra.
  replace (r' + kappa * (x' - m) + - (2 * kappa * (x' - m))) with (r' - kappa * (x' - m)) in T by ring.
  apply (Rmult_le_reg_l (2 * kappa)); lra.
Qed.
End Unstable.

Theorem accept_vanishes : forall log_prob latent data grad lambda e m x r, 0 < lambda -> 0 < e -> 4 < e * e * lambda ->
  normal_posterior log_prob latent data grad [[0]] (map (map (Rmult lambda))) [[m]] ->
  r <> sqrt (lambda * (e * e * lambda / 4 - 1)) * (x - m) ->
  exists q : nat -> R, (forall n, move_probability log_prob latent data grad e n [[x]] [[r]] (q n)) /\ is_lim_seq q 0.
Proof.
  intros log_prob latent data grad lambda e m x r Hlam He Hbig HN Hne.
  pose proof (scalar_precision lambda) as HA. set (A := scalar_matrix lambda) in *. change (map (map (Rmult lambda))) with A in HN.
  assert (Sx : same_shape [[0]] [[x]]) by repeat constructor. assert (Sr : same_shape [[0]] [[r]]) by repeat constructor.
  exists (fun n => Rmin 1 (exp (energy A [[m]] [[x]] [[r]] - energy A [[m]] (fst (leapfrog (grad data) e n [[x]] [[r]])) (snd (leapfrog (grad data) e n [[x]] [[r]]))))). split.
  { intros n. exact (normal_move log_prob latent data grad [[0]] A lambda lambda [[m]] HA HN e n [[x]] [[r]] Sx Sr). }
  destruct HN as (_ & _ & Hmu & _ & Hg).
  apply is_lim_seq_spec. intros [d Hd]. cbn [pos].
  set (k := e * e * (lambda * lambda) / 8). assert (K0 : 0 < k) by (unfold k; apply Rmult_lt_0_compat; [repeat apply Rmult_lt_0_compat; lra|lra]).
  set (D := (x - m) * (x - m) + (Rabs (ln d) + 1) / k).
  assert (D0 : 0 <= (Rabs (ln d) + 1) / k) by (apply Rmult_le_pos; [pose proof (Rabs_pos (ln d)); lra|left; apply Rinv_0_lt_compat; exact K0]).
  destruct (far_away lambda e m Hlam He Hbig (grad data) Hg x r (D + 1) Hne) as [N HF]. exists N. intros n Hn.
  destruct (HF n Hn) as (x' & r' & E & FB).
  destruct (kept_all [[0]] A lambda lambda e HA [[m]] Hmu (grad data) Hg n [[x]] [[r]] Sx Sr) as (K & _).
  assert (Gs : forall z, same_shape [[0]] z -> same_shape [[0]] (grad data z)) by (intros w Hw; exact (grad_sh [[0]] A lambda lambda HA [[m]] Hmu (grad data) Hg w Hw)).
  assert (EL : leapfrog (grad data) e n [[x]] [[r]] = ([[x']], [[r']])) by (etransitivity; [exact (leapfrog_iter (grad data) e [[0]] Gs n _ _ Sx Sr)|exact E]).
  cbv beta. rewrite EL in K. rewrite EL. cbn [fst snd].
  assert (EN : energy A [[m]] [[x]] [[r]] - energy A [[m]] [[x']] [[r']] = - (k * ((x' - m) * (x' - m) - (x - m) * (x - m)))).
  { unfold kept, energy, inner, A, scalar_matrix, off, plus_multiple, translate in *. cbn in *. unfold k. lra. }
  rewrite EN. set (y := Rabs (x' - m)) in *. replace ((x' - m) * (x' - m)) with (y * y) by (unfold y; rewrite <- Rabs_mult, Rabs_right; [reflexivity|]; apply Rle_ge, Rle_0_sqr).
  assert (X0 : 0 <= (x - m) * (x - m)) by apply Rle_0_sqr. assert (D1 : 0 <= D) by (unfold D; lra).
  assert (Y : D <= y * y) by (assert (1 * y <= y * y) by (apply Rmult_le_compat_r; lra); lra).
  assert (L : Rabs (ln d) + 1 <= k * (y * y - (x - m) * (x - m))).
  { replace (Rabs (ln d) + 1) with (k * ((Rabs (ln d) + 1) / k)) by (field; lra). apply Rmult_le_compat_l; [lra|]. unfold D in Y. lra. }
  pose proof (exp_pos (- (k * (y * y - (x - m) * (x - m))))) as EP.
  rewrite Rminus_0_r, Rabs_right by (apply Rle_ge, Rmin_glb; lra).
  eapply Rle_lt_trans; [apply Rmin_r|]. rewrite <- (exp_ln d) by exact Hd. apply exp_increasing.
  pose proof (Rle_abs (- ln d)) as RA. rewrite Rabs_Ropp in RA. lra.
Qed.

(** ** Several variables: an eigenvector beyond the limit *)
Section Direction.
Variable s0 : list tensor.
Variable A : list tensor -> list tensor.
Variables low M e lambda : R.
Hypothesis HA : precision s0 A low (M * M).
Variable mu : list tensor.
Hypothesis Hmu : same_shape s0 mu.
Variable grad : list tensor -> list tensor.
Notation Sh := (same_shape s0).
Hypothesis Hg : forall z, Sh z -> grad z = map (map (Rmult (-1))) (A (off mu z)).
Variable b : list tensor.
Hypothesis Hb : Sh b.
Hypothesis Eb : A b = map (map (Rmult lambda)) b.
Hypothesis Hlam : 0 < lambda.
Hypothesis He : 0 < e.
Hypothesis Hbig : 4 < e * e * lambda.

Lemma along : forall x, Sh x -> inner b (A x) = lambda * inner b x.
Proof. intros x Hx. rewrite inner_sym, (prec_symmetric _ _ _ _ HA x b Hx Hb), Eb, inner_sym, inner_mult. reflexivity. Qed.
Lemma step_along : forall z r, Sh z -> Sh r -> let p := step grad e (z, r) in
  let s1 := inner b r - e / 2 * (lambda * inner b (off mu z)) in
  inner b (off mu (fst p)) = inner b (off mu z) + e * s1 /\ inner b (snd p) = s1 - e / 2 * (lambda * (inner b (off mu z) + e * s1)).
Proof.
  intros z r Hz Hr. cbv zeta. unfold step, drift, half. cbn [fst snd].
  set (r1 := translate r (map (vscal (/ 2 * e)) (grad z))). set (z1 := translate z (map (vscal e) r1)).
  assert (E1 : r1 = plus_multiple r (/ 2 * e) (map (map (Rmult (-1))) (A (off mu z)))) by (unfold r1; rewrite (Hg z Hz); reflexivity).
  assert (So : Sh (off mu z)) by (apply (sh_pm s0); assumption). pose proof (prec_shape _ _ _ _ HA _ So) as Sa. pose proof (sh_neg s0 _ Sa) as Sn.
  assert (Sr1 : Sh r1) by (rewrite E1; apply (sh_pm s0); assumption).
  assert (Sz1 : Sh z1) by (change (Sh (plus_multiple z e r1)); apply (sh_pm s0); assumption).
  assert (Eo : off mu z1 = plus_multiple (off mu z) e r1).
  { unfold off. change z1 with (plus_multiple z e r1). apply plus_swap; (eapply shape_trans; [apply shape_sym; exact Hz|assumption]). }
  assert (So1 : Sh (off mu z1)) by (apply (sh_pm s0); assumption). pose proof (prec_shape _ _ _ _ HA _ So1) as Sa1. pose proof (sh_neg s0 _ Sa1) as Sn1.
  assert (N : forall a, inner b (map (map (Rmult (-1))) a) = - inner b a) by (intros a; rewrite inner_sym, inner_mult, inner_sym; ring).
  assert (B1 : inner b r1 = inner b r - e / 2 * (lambda * inner b (off mu z))).
  { rewrite E1, (in_r s0), N, along by assumption. field. }
  assert (B2 : inner b (off mu z1) = inner b (off mu z) + e * inner b r1) by (rewrite Eo; apply (in_r s0); assumption).
  split; [rewrite B2, B1; reflexivity|].
  change (translate r1 (map (vscal (/ 2 * e)) (grad z1))) with (plus_multiple r1 (/ 2 * e) (grad z1)). rewrite (Hg z1 Sz1).
  rewrite (in_r s0), N, along by assumption. rewrite B2, B1. field.
Qed.

Lemma iter_along : forall n z r, Sh z -> Sh r -> let p := Nat.iter n (step grad e) (z, r) in let k := kappa lambda e in
  inner b (snd p) - k * inner b (off mu (fst p)) = (- rate lambda e) ^ n * (inner b r - k * inner b (off mu z)) /\
  inner b (snd p) + k * inner b (off mu (fst p)) = (- / rate lambda e) ^ n * (inner b r + k * inner b (off mu z)).
Proof.
  intros n z r Hz Hr. cbv zeta. pose proof (rate_big lambda e Hlam He Hbig) as RB. pose proof (kappa_sqr lambda e Hlam Hbig) as KS.
  assert (RI : / rate lambda e = e * e * lambda / 2 - 1 - e * kappa lambda e) by (apply (Rmult_eq_reg_l (rate lambda e)); [rewrite (rate_inv lambda e Hlam Hbig); field; lra|lra]).
  assert (Gs : forall z, Sh z -> Sh (grad z)) by (intros w Hw; exact (grad_sh s0 A low M HA mu Hmu grad Hg w Hw)).
  induction n as [|n IH]; [change (Nat.iter 0 (step grad e) (z, r)) with (z, r); cbn [fst snd pow]; split; ring|].
  change (Nat.iter (S n) (step grad e) (z, r)) with (step grad e (Nat.iter n (step grad e) (z, r))).
  destruct (iter_shape grad e s0 Gs n (z, r) Hz Hr) as [S1 S2]. destruct (Nat.iter n (step grad e) (z, r)) as [z' r']. cbn [fst snd] in IH, S1, S2.
  destruct IH as [U V]. destruct (step_along z' r' S1 S2) as [-> ->]. cbn [pow]. rewrite !Rmult_assoc, <- U, <- V, RI. unfold rate.
  set (k := kappa lambda e) in *. set (x := inner b (off mu z')). set (s := inner b r').
  assert (Z : e * x * (k * k) = e * x * (lambda * (e * e * lambda / 4 - 1))) by (rewrite KS; reflexivity). split; lra.
Qed.

Lemma far_along : forall z r B, Sh z -> Sh r -> inner b r <> kappa lambda e * inner b (off mu z) -> exists N, forall n, (N <= n)%nat ->
  B <= Rabs (inner b (off mu (fst (Nat.iter n (step grad e) (z, r))))).
Proof.
  intros z r B Hz Hr Hne. set (k := kappa lambda e) in *. set (u := inner b r - k * inner b (off mu z)). set (v := inner b r + k * inner b (off mu z)).
  assert (Hu : 0 < Rabs u) by (apply Rabs_pos_lt; unfold u; lra).
  pose proof (rate_big lambda e Hlam He Hbig) as RB. pose proof (kappa_pos lambda e Hlam Hbig) as KP. fold k in KP.
  destruct (Pow_x_infinity (- rate lambda e)) with (b := (2 * k * B + Rabs v) / Rabs u) as [N HN]; [rewrite Rabs_Ropp, Rabs_right; lra|].
  exists N. intros n Hn. destruct (iter_along n z r Hz Hr) as (U & V). fold k in U, V. fold u in U. fold v in V.
  set (x' := inner b (off mu (fst (Nat.iter n (step grad e) (z, r))))) in *. set (r' := inner b (snd (Nat.iter n (step grad e) (z, r)))) in *.
  specialize (HN n Hn). apply Rge_le in HN. apply (Rmult_le_compat_r (Rabs u)) in HN; [|lra]. unfold Rdiv in HN. rewrite Rmult_assoc, Rinv_l, Rmult_1_r, <- Rabs_mult, <- U in HN by lra.
  assert (V' : Rabs (r' + k * x') <= Rabs v).
  { rewrite V, Rabs_mult. rewrite <- (Rmult_1_l (Rabs v)) at 2. apply Rmult_le_compat_r; [apply Rabs_pos|]. rewrite <- RPow_abs, Rabs_Ropp, Rabs_right by (left; apply Rinv_0_lt_compat; lra).
    rewrite <- (pow1 n). apply pow_incr. split; [left; apply Rinv_0_lt_compat; lra|]. rewrite <- Rinv_1. apply Rinv_le_contravar; lra. }
  pose proof (Rabs_triang (r' + k * x') (- (2 * k * x'))) as T. rewrite Rabs_Ropp, Rabs_mult, (Rabs_right (2 * k)) in T by lra.
  replace (r' + k * x' + - (2 * k * x')) with (r' - k * x') in T by ring.
  apply (Rmult_le_reg_l (2 * k)); lra.
Qed.

(** Cauchy-Schwarz. *)
Lemma square_along : forall x, Sh x -> 0 < inner b b -> inner b x * inner b x <= inner b b * inner x x.
Proof.
  intros x Hx P. pose proof (inner_pos (plus_multiple x (- (inner b x / inner b b)) b)) as Q.
  rewrite (in_l s0), !(in_r s0) in Q by (try assumption; apply (sh_pm s0); assumption). rewrite (inner_sym x b) in Q.
  set (p := inner b b) in *. set (q := inner x x) in *. set (w := inner b x) in *.
  apply (Rmult_le_compat_l p) in Q; [|lra].
  replace (p * (q + - (w / p) * w + - (w / p) * (w + - (w / p) * p))) with (p * q - w * w) in Q by (field; lra). lra.
Qed.
End Direction.

Theorem accept_vanishes_along : forall log_prob latent data grad s0 A mu low M lambda e b z r, 0 < lambda -> 0 < e -> 4 < e * e * lambda ->
  normal_posterior log_prob latent data grad s0 A mu -> precision s0 A low (M * M) ->
  same_shape s0 b -> 0 < inner b b -> A b = map (map (Rmult lambda)) b -> same_shape s0 z -> same_shape s0 r ->
  inner b r <> sqrt (lambda * (e * e * lambda / 4 - 1)) * inner b (off mu z) ->
  exists q : nat -> R, (forall n, move_probability log_prob latent data grad e n z r (q n)) /\ is_lim_seq q 0.
Proof.
  intros log_prob latent data grad s0 A mu low M lambda e b z r Hlam He Hbig HN HA Hb Pb Eb Hz Hr Hne.
  exists (fun n => Rmin 1 (exp (energy A mu z r - energy A mu (fst (leapfrog (grad data) e n z r)) (snd (leapfrog (grad data) e n z r))))). split.
  { intros n. exact (normal_move log_prob latent data grad s0 A low M mu HA HN e n z r Hz Hr). }
  destruct HN as (_ & _ & Hmu & _ & Hg).
  apply is_lim_seq_spec. intros [d Hd]. cbn [pos].
  set (a0 := inner (A (off mu z)) (A (off mu z))). pose proof (inner_pos (A (off mu z))) as A0. fold a0 in A0.
  set (k := e * e / 8 * (lambda * lambda / inner b b)). assert (K0 : 0 < k) by (unfold k; repeat apply Rmult_lt_0_compat; try lra; apply Rinv_0_lt_compat; lra).
  set (D := (Rabs (ln d) + 1 + e * e / 8 * a0) / k).
  assert (E8 : 0 < e * e / 8) by (apply Rmult_lt_0_compat; [apply Rmult_lt_0_compat; exact He|lra]).
  assert (D0 : 0 <= D).
  { apply Rmult_le_pos; [|left; apply Rinv_0_lt_compat; exact K0]. pose proof (Rabs_pos (ln d)). assert (0 <= e * e / 8 * a0) by (apply Rmult_le_pos; lra). lra. }
  destruct (far_along s0 A low M e lambda HA mu Hmu (grad data) Hg b Hb Eb Hlam He Hbig z r (D + 1) Hz Hr Hne) as [N HF]. exists N. intros n Hn.
  specialize (HF n Hn).
  assert (Gs : forall z, same_shape s0 z -> same_shape s0 (grad data z)) by (intros w Hw; exact (grad_sh s0 A low M HA mu Hmu (grad data) Hg w Hw)).
  destruct (kept_all s0 A low M e HA mu Hmu (grad data) Hg n z r Hz Hr) as (K & S1 & S2).
  pose proof (leapfrog_iter (grad data) e s0 Gs n z r Hz Hr) as EL. cbv beta.
  destruct (leapfrog (grad data) e n z r) as [z' r']. rewrite <- EL in HF. cbn [fst snd] in *.
  assert (So' : same_shape s0 (off mu z')) by (apply (sh_pm s0); assumption). pose proof (prec_shape _ _ _ _ HA _ So') as Sa'.
  set (a' := inner (A (off mu z')) (A (off mu z'))).
  assert (EN : energy A mu z r - energy A mu z' r' = - (e * e / 8 * (a' - a0))).
  { unfold kept, energy in *. cbn [fst snd] in K. unfold a', a0. lra. }
  pose proof (square_along s0 b Hb (A (off mu z')) Sa' Pb) as CS. rewrite (along s0 A low M lambda HA b Hb Eb (off mu z') So') in CS. fold a' in CS.
  set (y := Rabs (inner b (off mu z'))) in *.
  assert (Ey : lambda * inner b (off mu z') * (lambda * inner b (off mu z')) = lambda * lambda * (y * y)).
  { unfold y. rewrite <- Rabs_mult, Rabs_right; [ring|]. apply Rle_ge, Rle_0_sqr. }
  rewrite Ey in CS.
  assert (Y : D <= y * y) by (assert (1 * y <= y * y) by (apply Rmult_le_compat_r; lra); lra).
  assert (L : Rabs (ln d) + 1 <= e * e / 8 * (a' - a0)).
  { assert (L1 : k * (y * y) <= e * e / 8 * a').
    { unfold k. rewrite Rmult_assoc. apply Rmult_le_compat_l; [lra|]. apply (Rmult_le_reg_l (inner b b)); [exact Pb|].
      replace (inner b b * (lambda * lambda / inner b b * (y * y))) with (lambda * lambda * (y * y)) by (field; lra). exact CS. }
    apply (Rmult_le_compat_l k) in Y; [|lra]. replace (k * D) with (Rabs (ln d) + 1 + e * e / 8 * a0) in Y by (unfold D; field; lra). lra. }
  rewrite EN. pose proof (exp_pos (- (e * e / 8 * (a' - a0)))) as EP.
  rewrite Rminus_0_r, Rabs_right by (apply Rle_ge, Rmin_glb; lra).
  eapply Rle_lt_trans; [apply Rmin_r|]. rewrite <- (exp_ln d) by exact Hd. apply exp_increasing.
  pose proof (Rle_abs (- ln d)) as RA. rewrite Rabs_Ropp in RA. lra.
Qed.
