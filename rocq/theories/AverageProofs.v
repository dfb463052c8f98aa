(** * Proofs for C92: averages over a run of a chain that forgets its start. *)
From Coquelicot Require Import Coquelicot.
From Coq Require Import Reals List Arith Bool Lia Lra.
From Verif Require Import Ext Transform VI VISpec VIIntegralSpec VIProofs.
From Verif Require Import AverageSpec.
Import ListNotations.
Local Open Scope R_scope.
Set Bullet Behavior "Strict Subproofs".

Definition final {A} (z : A) (l : list A) : A := fold_left (fun _ x => x) l z.

Section Chain.
Context {A : Type} (D : A -> Prop) (step : (A -> R) -> (A -> R) -> Prop) (P : (A -> R) -> A -> R).
Hypothesis Hadd : forall c f a g b, step f a -> step g b -> step (fun z => f z + c * g z) (fun z => a z + c * b z).
Hypothesis Hconst : forall k, step (fun _ => k) (fun _ => k).
Hypothesis Hmono : forall f a g b, step f a -> step g b -> (forall z, D z -> f z <= g z) -> forall z, D z -> a z <= b z.
Hypothesis Htot : forall f, step f (P f).

Lemma path_exists : forall n F, exists G, path_mean D step n F G.
Proof.
  intros n. pose (E := fix E n (F : list A -> R) : A -> R := match n with O => fun _ => F [] | S n' => P (fun z' => E n' (fun l => F (z' :: l)) z') end).
  assert (Q : forall n F, path_mean D step n F (E n F)).
  { clear n. induction n as [|n IH]; intros F; [intros z _; reflexivity|]. exists (fun z' => E n (fun l => F (z' :: l))).
    split; [intros z' _; apply IH|]. exact (Htot (fun z' => E n (fun l => F (z' :: l)) z')). }
  intros F. exists (E n F). apply Q.
Qed.

Lemma path_low : forall c n F G, path_mean D step n F G -> (forall l, length l = n -> Forall D l -> c <= F l) -> forall z, D z -> c <= G z.
Proof.
  intros c. induction n as [|n IH]; intros F G HG HF z Hz.
  - rewrite (HG z Hz). apply HF; [reflexivity|constructor].
  - destruct HG as (H & HH & HG). refine (Hmono _ _ _ _ (Hconst c) HG _ z Hz).
    intros z' Hz'. refine (IH _ _ (HH z' Hz') _ z' Hz'). intros l L FD. apply HF; [cbn; lia|constructor; assumption].
Qed.

Section Square.
Variables (g h : A -> R) (Gb alpha beta : R).
Hypothesis Hgh : step g h.
Hypothesis Hg : forall z, D z -> Rabs (g z) <= Gb.
Hypothesis Ha : 0 <= alpha.

Lemma square_le : forall x y, Rabs x <= y -> x * x <= y * y.
Proof. intros x y Hx. rewrite <- (Rabs_pos_eq (x * x)) by apply Rle_0_sqr. rewrite Rabs_mult. pose proof (Rabs_pos x). apply Rmult_le_compat; assumption. Qed.

Lemma path_square : forall n F G s z, D z -> path_mean D step n F G ->
  (forall l, length l = n -> Forall D l -> F l <= alpha * Rsqr (s + sumR (map (fun z => g z - h z) l) + h (final z l)) + beta) ->
  G z <= alpha * (Rsqr (s + h z) + INR n * (Gb * Gb)) + beta.
Proof.
  induction n as [|n IH]; intros F G s z Hz HG HF.
  - rewrite (HG z Hz). eapply Rle_trans; [apply (HF [] eq_refl); constructor|]. cbn. rewrite Rplus_0_r. lra.
  - destruct HG as (H & HH & HG). rewrite S_INR.
    assert (B : forall z', D z' -> H z' z' <= alpha * (Rsqr (s + g z') + INR n * (Gb * Gb)) + beta).
    { intros z' Hz'. pose proof (IH _ _ (s + (g z' - h z')) z' Hz' (HH z' Hz')) as Q.
      replace (s + (g z' - h z') + h z') with (s + g z') in Q by ring. apply Q. intros l L FD.
      eapply Rle_trans; [apply (HF (z' :: l)); [cbn; lia|constructor; assumption]|]. cbn [map sumR]. change (final z (z' :: l)) with (final z' l).
      right. f_equal. f_equal. f_equal. ring. }
    pose proof (Hadd (2 * alpha * s) _ _ _ _ (Hconst (alpha * (s * s) + alpha * INR n * (Gb * Gb) + beta)) Hgh) as S1.
    pose proof (Hadd alpha _ _ _ _ S1 (Htot (fun z => g z * g z))) as S2. cbv beta in S2.
    pose proof (Hmono _ _ _ _ HG S2) as M. cbv beta in M.
    assert (M1 : G z <= alpha * (s * s) + alpha * INR n * (Gb * Gb) + beta + 2 * alpha * s * h z + alpha * P (fun z => g z * g z) z).
    { apply M; [|exact Hz]. intros z' Hz'. eapply Rle_trans; [apply B; exact Hz'|]. right. unfold Rsqr. ring. }
    assert (M2 : P (fun z => g z * g z) z <= Gb * Gb).
    { refine (Hmono _ _ _ _ (Htot _) (Hconst (Gb * Gb)) _ z Hz). intros z' Hz'. apply square_le. apply Hg. exact Hz'. }
    apply (Rmult_le_compat_l alpha) in M2; [|exact Ha].
    assert (M3 : 0 <= alpha * (h z * h z)) by (apply Rmult_le_pos; [exact Ha|apply Rle_0_sqr]).
    unfold Rsqr. lra.
Qed.
End Square.

Variables (phi : A -> R) (m B rho : R).
Hypothesis Hrho : 0 <= rho < 1.
Hypothesis HB : 0 <= B.
Fixpoint later (k : nat) : A -> R := match k with O => phi | S k' => P (later k') end.
Hypothesis Hlater : forall k z, D z -> Rabs (later k z - m) <= rho ^ k * B.

Fixpoint gsum (N : nat) (z : A) : R := match N with O => 0 | S N' => gsum N' z + 1 * (later N' z + -1 * m) end.
Fixpoint hsum (N : nat) (z : A) : R := match N with O => 0 | S N' => hsum N' z + 1 * (later (S N') z + -1 * m) end.

Lemma sums_step : forall N, step (gsum N) (hsum N).
Proof.
  induction N as [|N IH]; [apply (Hconst 0)|]. apply (Hadd 1 (gsum N) (hsum N) (fun z => later N z + -1 * m) (fun z => later (S N) z + -1 * m) IH).
  apply (Hadd (-1) (later N) (later (S N)) (fun _ => m) (fun _ => m)); [apply Htot|apply Hconst].
Qed.
Lemma sums_diff : forall N z, gsum N z - hsum N z = phi z - later N z.
Proof. induction N as [|N IH]; intros z; [cbn; ring|]. specialize (IH z). cbn [gsum hsum]. lra. Qed.
Lemma gsum_le : forall N z, D z -> Rabs (gsum N z) <= B * (1 - rho ^ N) / (1 - rho).
Proof.
  intros N z Hz. induction N as [|N IH]; [cbn; rewrite Rabs_R0; right; field; lra|].
  cbn [gsum]. eapply Rle_trans; [apply Rabs_triang|]. pose proof (Hlater N z Hz) as Q.
  replace (1 * (later N z + -1 * m)) with (later N z - m) by ring. eapply Rle_trans; [apply Rplus_le_compat; [exact IH|exact Q]|]. right. cbn [pow]. field. lra.
Qed.
Lemma hsum_le : forall N z, D z -> Rabs (hsum N z) <= B * rho * (1 - rho ^ N) / (1 - rho).
Proof.
  intros N z Hz. induction N as [|N IH]; [cbn; rewrite Rabs_R0; right; field; lra|].
  cbn [hsum]. eapply Rle_trans; [apply Rabs_triang|]. pose proof (Hlater (S N) z Hz) as Q.
  replace (1 * (later (S N) z + -1 * m)) with (later (S N) z - m) by ring. eapply Rle_trans; [apply Rplus_le_compat; [exact IH|exact Q]|]. right. cbn [pow]. field. lra.
Qed.
Lemma power_range : forall N, 0 <= rho ^ N <= 1.
Proof. induction N as [|N IH]; cbn [pow]; [lra|]. split; [apply Rmult_le_pos; lra|]. apply Rle_trans with (1 * 1); [apply Rmult_le_compat; lra|lra]. Qed.
Lemma power_many : forall n, INR n * rho ^ n <= / (1 - rho).
Proof.
  intros n. apply (Rmult_le_reg_r (1 - rho)); [lra|]. rewrite Rinv_l by lra. apply Rle_trans with (1 - rho ^ n); [|pose proof (power_range n); lra].
  induction n as [|n IH]; [cbn; lra|]. rewrite S_INR. cbn [pow]. pose proof (power_range n) as R0. set (x := rho ^ n) in *.
  apply (Rmult_le_compat_l rho) in IH; [|lra].
  assert (X : 0 <= (1 - rho) * (1 - rho * x)) by (apply Rmult_le_pos; [lra|]; assert (rho * x <= 1 * 1) by (apply Rmult_le_compat; lra); lra). lra.
Qed.
Notation Gb := (B / (1 - rho)).
Lemma gsum_bound : forall N z, D z -> Rabs (gsum N z) <= Gb.
Proof.
  intros N z Hz. eapply Rle_trans; [apply gsum_le; exact Hz|]. unfold Rdiv. apply Rmult_le_compat_r; [left; apply Rinv_0_lt_compat; lra|].
  pose proof (power_range N). apply Rle_trans with (B * 1); [apply Rmult_le_compat_l; lra|lra].
Qed.
Lemma hsum_bound : forall N z, D z -> Rabs (hsum N z) <= Gb.
Proof.
  intros N z Hz. eapply Rle_trans; [apply hsum_le; exact Hz|]. unfold Rdiv. apply Rmult_le_compat_r; [left; apply Rinv_0_lt_compat; lra|].
  pose proof (power_range N). rewrite Rmult_assoc. apply Rle_trans with (B * 1); [apply Rmult_le_compat_l; [exact HB|]|lra].
  apply Rle_trans with (1 * 1); [apply Rmult_le_compat; lra|lra].
Qed.

Lemma final_in : forall l z, D z -> Forall D l -> D (final z l).
Proof. induction l as [|x l IH]; intros z Hz F; [exact Hz|]. inversion F; subst. apply (IH x); assumption. Qed.

Lemma rest_sum : forall N l, Forall D l -> Rabs (sumR (map (fun z => later N z - m) l)) <= INR (length l) * (rho ^ N * B).
Proof.
  intros N l. induction l as [|z l IH]; intros F; [cbn; rewrite Rabs_R0; lra|]. inversion F; subst.
  cbn [map sumR length]. rewrite S_INR. eapply Rle_trans; [apply Rabs_triang|]. pose proof (Hlater N z ltac:(assumption)). pose proof (IH ltac:(assumption)). lra.
Qed.
Lemma sum_split : forall N l, sumR (map phi l) - INR (length l) * m =
  sumR (map (fun z => gsum N z - hsum N z) l) + sumR (map (fun z => later N z - m) l).
Proof.
  intros N. induction l as [|z l IH]; [cbn; ring|]. cbn [map sumR length]. rewrite S_INR, (sums_diff N z). lra.
Qed.

Theorem average_square : forall n a F G, (0 < n)%nat -> 0 <= a -> path_mean D step n F G ->
  (forall l, length l = n -> Forall D l -> F l <= a * Rsqr (average (map phi l) - m)) ->
  forall z, D z -> G z <= a * (12 / Rsqr (1 - rho) * (B * B) / INR n).
Proof.
  intros n a F G Hn Ha HG HF z Hz. assert (N0 : 0 < INR n) by (apply lt_0_INR; exact Hn).
  assert (N1 : 1 <= INR n) by (apply (le_INR 1); lia).
  assert (G0 : 0 <= Gb) by (apply Rmult_le_pos; [exact HB|left; apply Rinv_0_lt_compat; lra]).
  pose (al := 3 * a / (INR n * INR n)). pose (be := 6 * a * (Gb * Gb) / (INR n * INR n)).
  assert (A0 : 0 <= al).
  { unfold al, Rdiv. apply Rmult_le_pos; [lra|]. left. apply Rinv_0_lt_compat. apply Rmult_lt_0_compat; exact N0. }
  pose proof (path_square (gsum n) (hsum n) Gb al be (sums_step n) (gsum_bound n) A0 n F G 0 z Hz HG) as Q.
  assert (Q1 : G z <= al * (Rsqr (0 + hsum n z) + INR n * (Gb * Gb)) + be).
  { apply Q. intros l L FD. eapply Rle_trans; [apply HF; assumption|].
    pose proof (sum_split n l) as E. rewrite L in E. pose proof (rest_sum n l FD) as Er. rewrite L in Er.
    unfold average. rewrite map_length, L.
    set (U := sumR (map (fun z => gsum n z - hsum n z) l)) in *. set (e := sumR (map (fun z => later n z - m) l)) in *.
    pose proof (hsum_bound n _ (final_in l z Hz FD)) as Hh. set (x := hsum n (final z l)) in *.
    assert (He : Rabs e <= Gb).
    { eapply Rle_trans; [exact Er|]. pose proof (power_many n) as PM. apply (Rmult_le_compat_r B) in PM; [|exact HB]. unfold Rdiv. lra. }
    apply square_le in He. apply square_le in Hh.
    replace (sumR (map phi l) / INR n - m) with ((U + e) / INR n) by (rewrite <- E; field; lra).
    assert (S3 : (U + e) * (U + e) <= 3 * ((U + x) * (U + x)) + 6 * (Gb * Gb)).
    { pose proof (Rle_0_sqr ((U + x) - (- x))) as K1. pose proof (Rle_0_sqr ((U + x) - e)) as K2. pose proof (Rle_0_sqr ((- x) - e)) as K3. unfold Rsqr in *. nra. }
    unfold Rsqr. replace (a * ((U + e) / INR n * ((U + e) / INR n))) with (a / (INR n * INR n) * ((U + e) * (U + e))) by (field; lra).
    replace (al * ((0 + U + x) * (0 + U + x)) + be) with (a / (INR n * INR n) * (3 * ((U + x) * (U + x)) + 6 * (Gb * Gb))) by (unfold al, be; field; repeat split; lra).
    apply Rmult_le_compat_l; [|exact S3]. unfold Rdiv. apply Rmult_le_pos; [exact Ha|]. left. apply Rinv_0_lt_compat. apply Rmult_lt_0_compat; exact N0. }
  eapply Rle_trans; [exact Q1|]. rewrite Rplus_0_l. unfold Rsqr at 1. pose proof (square_le _ _ (hsum_bound n z Hz)) as Hh.
  apply Rle_trans with (al * (Gb * Gb + INR n * (Gb * Gb)) + be); [apply Rplus_le_compat_r, Rmult_le_compat_l; [exact A0|lra]|].
  replace (a * (12 / Rsqr (1 - rho) * (B * B) / INR n)) with (al * (4 * INR n * (Gb * Gb))) by (unfold al, Rsqr; field; repeat split; lra).
  replace be with (al * (2 * (Gb * Gb))) by (unfold al, be; field; repeat split; lra).
  rewrite <- Rmult_plus_distr_l. apply Rmult_le_compat_l; [exact A0|].
  pose proof (Rle_0_sqr Gb) as S0. unfold Rsqr in S0. nra.
Qed.
End Chain.
