(** * Proofs for C85. *)
From Coq Require Import Reals String List Arith Lra Lia Psatz.
From Verif Require Import Transform Optim SGLD.
From Verif Require Import Steps StepsSpec.
Import ListNotations.
Local Open Scope R_scope.
Set Bullet Behavior "Strict Subproofs".

(** ** Sums of learning rates *)
Lemma iter_r : forall {A} (f : A -> A) k x, Nat.iter (S k) f x = Nat.iter k f (f x).
Proof. intros A f k x. induction k as [|k IH]; [reflexivity|]. change (f (Nat.iter (S k) f x) = f (Nat.iter k f (f x))). rewrite IH. reflexivity. Qed.

Lemma rate_iter : forall r gs n value k, (k < n)%nat -> nth k (rates r gs value n) 0 = rate_at r (Nat.iter k (train gs) value).
Proof.
  intros r gs. induction n as [|n IH]; intros value k H; [lia|]. destruct k as [|k]; [reflexivity|].
  cbn [rates nth]. rewrite IH by lia. rewrite <- iter_r. reflexivity.
Qed.

Lemma rate_of_iter : forall r gs value k, rate_of r gs value k = rate_at r (Nat.iter k (train gs) value).
Proof. intros. unfold rate_of. apply rate_iter. lia. Qed.

Lemma train_iter : forall v value k, Nat.iter k (train (StepVar v)) value v = (k + value v)%nat.
Proof. intros v value. induction k as [|k IH]; [reflexivity|]. change (train (StepVar v) (Nat.iter k (train (StepVar v)) value) v = S (k + value v)). cbn [train]. rewrite Nat.eqb_refl, IH. reflexivity. Qed.

Lemma sumR_rates : forall r gs value n, sumR (rates r gs value n) = partial_sum (rate_of r gs value) n.
Proof.
  intros r gs value n. revert value. induction n as [|n IH]; intros value; [reflexivity|]. cbn [rates sumR]. rewrite IH.
  assert (G : forall m, rate_at r value + partial_sum (rate_of r gs (train gs value)) m = partial_sum (rate_of r gs value) (S m)).
  { induction m as [|m L]; [cbn [partial_sum]; rewrite rate_of_iter; cbn; lra|].
    cbn [partial_sum] in L |- *. rewrite <- L, !rate_of_iter, <- iter_r. lra. }
  apply G.
Qed.

(** What a decaying rate still adds after step [j]. *)
Definition left_over (j : nat) : R := 0.9 ^ (j / 100) * (100 - 0.1 * INR (j mod 100)).

Lemma left_step : forall j, left_over j = 0.1 * 0.9 ^ (j / 100) + left_over (S j).
Proof.
  intros j. unfold left_over.
  destruct (Nat.eq_dec (j mod 100) 99) as [E|E].
  - assert (E1 : (S j / 100 = S (j / 100))%nat) by (pose proof (Nat.div_mod j 100 ltac:(lia)); symmetry; apply (Nat.div_unique _ _ _ 0); lia).
    assert (E2 : (S j mod 100 = 0)%nat) by (pose proof (Nat.div_mod j 100 ltac:(lia)); symmetry; apply (Nat.mod_unique _ _ (S (j / 100))); lia).
    rewrite E1, E2, E. replace (INR 99) with 99 by (rewrite INR_IZR_INZ; reflexivity). cbn [pow INR]. lra.
  - pose proof (Nat.mod_upper_bound j 100 ltac:(lia)) as U.
    assert (E1 : (S j / 100 = j / 100)%nat) by (pose proof (Nat.div_mod j 100 ltac:(lia)); symmetry; apply (Nat.div_unique _ _ _ (S (j mod 100))); lia).
    assert (E2 : (S j mod 100 = S (j mod 100))%nat) by (pose proof (Nat.div_mod j 100 ltac:(lia)); symmetry; apply (Nat.mod_unique _ _ (j / 100)); lia).
    rewrite E1, E2, S_INR. lra.
Qed.

Lemma left_range : forall j, 0 < left_over j <= 100.
Proof.
  intros j. unfold left_over. pose proof (Nat.mod_upper_bound j 100 ltac:(lia)) as U.
  assert (0 <= INR (j mod 100) <= 100).
  { split; [apply pos_INR|]. replace 100 with (INR 100) by (rewrite INR_IZR_INZ; reflexivity). apply le_INR. lia. }
  assert (P : 0 < 0.9 ^ (j / 100)) by (apply pow_lt; lra).
  assert (0.9 ^ (j / 100) <= 1).
  { rewrite <- (pow1 (j / 100)). apply pow_incr. lra. }
  split; [apply Rmult_lt_0_compat; lra|].
  apply Rle_trans with (1 * 100); [|lra]. apply Rmult_le_compat; lra.
Qed.

Lemma decay_sum : forall v value n, partial_sum (rate_of (Decay 0.1 v 100 0.9) (StepVar v) value) n = left_over (value v) - left_over (n + value v).
Proof.
  intros v value. induction n as [|n IH]; [cbn; lra|]. cbn [partial_sum]. rewrite IH, rate_of_iter.
  unfold rate_at. rewrite train_iter. pose proof (left_step (n + value v)) as L. cbn [Nat.add]. lra.
Qed.

Lemma decay_le : forall v value n, partial_sum (rate_of (Decay 0.1 v 100 0.9) (StepVar v) value) n <= 100.
Proof. intros. rewrite decay_sum. pose proof (left_range (value v)). pose proof (left_range (n + value v)). lra. Qed.

Lemma decay_nonneg : forall v value n r, In r (rates (Decay 0.1 v 100 0.9) (StepVar v) value n) -> 0 < r <= 0.1.
Proof.
  intros v value n. revert value. induction n as [|n IH]; intros value r H; [destruct H|]. destruct H as [<-|H].
  - cbn [rate_at]. assert (0 < 0.9 ^ (value v / 100)) by (apply pow_lt; lra).
    assert (0.9 ^ (value v / 100) <= 1) by (rewrite <- (pow1 (value v / 100)); apply pow_incr; lra). lra.
  - apply (IH _ _ H).
Qed.

Lemma built_rate : forall fresh o g c r m gs, build_optimizer fresh o g = inl (New c r m, gs) ->
  (exists v, gs = StepVar v /\ r = Decay 0.1 v 100 0.9) \/ r = Constant 0.01.
Proof.
  intros fresh o g c r m gs. unfold build_optimizer.
  destruct o as [|s| |]; [| |discriminate|discriminate].
  - destruct g; intros H; injection H as <- <- <- <-; [left|left|right]; eauto.
  - repeat (match goal with |- context [if ?b then _ else _] => destruct b end);
      intros H; try discriminate; injection H as <- <- <- <-; destruct g; eauto.
Qed.

Lemma no_schedule : forall fresh o g c r m gs value, build_optimizer fresh o g = inl (New c r m, gs) ->
  ~ robbins_monro (rate_of r gs value).
Proof.
  intros fresh o g c r m gs value H [A S']. destruct (built_rate _ _ _ _ _ _ _ H) as [(v & -> & ->)| ->].
  - destruct (A 100) as [n Hn]. pose proof (decay_le v value n). lra.
  - destruct S' as [B HB].
    assert (E : forall n, partial_sum (fun k => rate_of (Constant 0.01) gs value k * rate_of (Constant 0.01) gs value k) n = INR n * (0.01 * 0.01)).
    { induction n as [|n IH]; [cbn; lra|]. cbn [partial_sum]. rewrite IH, rate_of_iter, S_INR. cbn [rate_at]. lra. }
    destruct (archimed (Rabs B / (0.01 * 0.01))) as [U _].
    pose proof (Rabs_pos B). assert (0 < 0.01 * 0.01) by lra.
    assert (0 <= Rabs B / (0.01 * 0.01)) by (apply Rmult_le_pos; [lra|left; apply Rinv_0_lt_compat; lra]).
    assert (Z : (0 <= up (Rabs B / (0.01 * 0.01)))%Z) by (apply le_IZR; lra).
    pose proof (HB (Z.to_nat (up (Rabs B / (0.01 * 0.01))))) as N. rewrite E, INR_IZR_INZ, Z2Nat.id in N by exact Z.
    pose proof (Rle_abs B). assert (Rabs B < IZR (up (Rabs B / (0.01 * 0.01))) * (0.01 * 0.01)).
    { apply (Rmult_lt_compat_r (0.01 * 0.01)) in U; [|lra]. unfold Rdiv in U at 1. rewrite Rmult_assoc, Rinv_l in U by lra. lra. }
    lra.
Qed.

(** ** SGLD *)
Lemma rpower_pos : forall x y, 0 < Rpower x y.
Proof. intros. apply exp_pos. Qed.

Lemma sgld_far : forall step, 0 < step -> goes_anywhere (learning_rate step).
Proof.
  intros step P b.
  assert (L : forall n m, (n <= m)%nat -> (0 < m)%nat -> INR n * (step / Rpower (INR m) 0.55) <= partial_sum (learning_rate step) n).
  { induction n as [|n IH]; intros m H Hm; [cbn; lra|]. cbn [partial_sum]. rewrite S_INR.
    pose proof (IH m ltac:(lia) Hm). assert (step / Rpower (INR m) 0.55 <= learning_rate step n).
    { unfold learning_rate. apply Rmult_le_compat_l; [lra|]. apply Rinv_le_contravar; [apply rpower_pos|].
      apply Rle_Rpower_l; [lra|]. split; [apply lt_0_INR; lia|apply le_INR; lia]. }
    lra. }
  set (X := (Rabs b + 1) / step). assert (PX : 0 < X) by (apply Rmult_lt_0_compat; [pose proof (Rabs_pos b); lra|apply Rinv_0_lt_compat; lra]).
  set (Y := Rpower X (/ 0.45)). destruct (archimed Y) as [U _]. pose proof (rpower_pos X (/ 0.45)) as PY. fold Y in PY.
  assert (Z : (0 < up Y)%Z) by (apply lt_IZR; lra).
  exists (Z.to_nat (up Y)). set (n := Z.to_nat (up Y)). assert (En : INR n = IZR (up Y)) by (unfold n; rewrite INR_IZR_INZ, Z2Nat.id by lia; reflexivity).
  assert (Hn : (0 < n)%nat) by (unfold n; lia).
  apply Rlt_le_trans with (INR n * (step / Rpower (INR n) 0.55)); [|apply L; lia].
  assert (Pn : 0 < INR n) by (apply lt_0_INR; exact Hn).
  replace (INR n * (step / Rpower (INR n) 0.55)) with (step * Rpower (INR n) 0.45).
  - apply Rle_lt_trans with (step * X - 1); [unfold X; replace (step * ((Rabs b + 1) / step)) with (Rabs b + 1) by (field; lra); pose proof (Rle_abs b); lra|].
    assert (X < Rpower (INR n) 0.45).
    { replace X with (Rpower Y 0.45); [apply Rlt_Rpower_l; lra|]. unfold Y. rewrite Rpower_mult. replace (/ 0.45 * 0.45) with 1 by lra. apply Rpower_1; exact PX. }
    assert (step * X < step * Rpower (INR n) 0.45) by (apply Rmult_lt_compat_l; lra). lra.
  - replace (INR n) with (Rpower (INR n) 1) at 2 by (apply Rpower_1; exact Pn).
    assert (Rpower (INR n) 1 = Rpower (INR n) 0.45 * Rpower (INR n) 0.55) by (rewrite <- Rpower_plus; f_equal; lra).
    rewrite H. field. apply Rgt_not_eq. apply rpower_pos.
Qed.

Lemma exp_ge : forall x, 1 + x <= exp x.
Proof. intros x. destruct (Req_dec x 0) as [->|N]; [rewrite exp_0; lra|]. left. apply exp_ineq1. exact N. Qed.

(** 1/k^1.1 telescopes. *)
Lemma telescope : forall k, (0 < k)%nat ->
  Rpower (INR (k + 1)) (- 0.1) + 0.1 * / Rpower (INR (k + 1)) 1.1 <= Rpower (INR k) (- 0.1).
Proof.
  intros k H. assert (Pk : 0 < INR k) by (apply lt_0_INR; exact H). rewrite plus_INR. cbn [INR].
  set (x := INR k) in *. assert (Px : 0 < x + 1) by lra.
  assert (L : / (x + 1) <= ln (x + 1) - ln x).
  { assert (Q : ln (x / (x + 1)) <= x / (x + 1) - 1).
    { pose proof (exp_ge (x / (x + 1) - 1)) as G. replace (1 + (x / (x + 1) - 1)) with (x / (x + 1)) in G by lra.
      rewrite <- (ln_exp (x / (x + 1) - 1)) at 1. assert (0 < x / (x + 1)) by (apply Rmult_lt_0_compat; [lra|apply Rinv_0_lt_compat; lra]).
      destruct G as [G|G]; [left; apply ln_increasing; assumption|rewrite <- G; lra]. }
    unfold Rdiv in Q at 1. rewrite ln_mult, ln_Rinv in Q by (try apply Rinv_0_lt_compat; lra).
    replace (x / (x + 1) - 1) with (- / (x + 1)) in Q by (field; lra). lra. }
  unfold Rpower.
  replace (exp (- 0.1 * ln x)) with (exp (- 0.1 * ln (x + 1)) * exp (0.1 * (ln (x + 1) - ln x))) by (rewrite <- exp_plus; f_equal; lra).
  replace (/ exp (1.1 * ln (x + 1))) with (exp (- 0.1 * ln (x + 1)) * / (x + 1)).
  - pose proof (exp_ge (0.1 * (ln (x + 1) - ln x))) as G. pose proof (exp_pos (- 0.1 * ln (x + 1))) as P'.
    assert (exp (- 0.1 * ln (x + 1)) * (1 + 0.1 * / (x + 1)) <= exp (- 0.1 * ln (x + 1)) * exp (0.1 * (ln (x + 1) - ln x))) by (apply Rmult_le_compat_l; lra).
    lra.
  - rewrite <- exp_Ropp. replace (- (1.1 * ln (x + 1))) with (- 0.1 * ln (x + 1) + - ln (x + 1)) by lra.
    rewrite exp_plus. f_equal. rewrite exp_Ropp, exp_ln by lra. reflexivity.
Qed.

Lemma sgld_settles : forall step, 0 < step -> settles (learning_rate step).
Proof.
  intros step P. exists (step * step * 11).
  assert (S' : forall n, partial_sum (fun k => learning_rate step k * learning_rate step k) (S n) <= step * step * (1 + 10 * (1 - Rpower (INR (n + 1)) (- 0.1)))).
  { assert (T : forall k, learning_rate step k * learning_rate step k = step * step * / Rpower (INR (k + 1)) 1.1).
    { intros k. unfold learning_rate. replace 1.1 with (0.55 + 0.55) by lra. rewrite Rpower_plus. field. apply Rgt_not_eq. apply rpower_pos. }
    assert (O : forall y, Rpower (INR (0 + 1)) y = 1) by (intros y; cbn; unfold Rpower; rewrite ln_1, Rmult_0_r; apply exp_0).
    induction n as [|n IH].
    - cbn [partial_sum]. rewrite T, !O. lra.
    - cbn [partial_sum] in IH |- *. rewrite (T (S n)). pose proof (telescope (n + 1) ltac:(lia)) as Q.
      replace (n + 1 + 1)%nat with (S n + 1)%nat in Q by lia. assert (0 <= step * step) by nra. nra. }
  intros [|n]; [cbn; nra|]. eapply Rle_trans; [apply S'|]. pose proof (rpower_pos (INR (n + 1)) (- 0.1)). nra.
Qed.

(** ** Adam *)
Lemma correction : forall k, 1 - 0.999 ^ S k <= (1 - 0.9 ^ S k) * (1 - 0.9 ^ S k).
Proof.
  assert (G : forall k, 0 < 0.9 ^ S k <= 0.9 /\ 2 * 0.9 ^ S k - 0.9 ^ S k * 0.9 ^ S k <= 0.999 ^ S k).
  { induction k as [|k [B IH]]; [cbn; lra|]. change (0.9 ^ S (S k)) with (0.9 * 0.9 ^ S k). change (0.999 ^ S (S k)) with (0.999 * 0.999 ^ S k).
    set (a := 0.9 ^ S k) in *. set (b := 0.999 ^ S k) in *. clearbody a b. split; [lra|]. nra. }
  intros k. destruct (G k) as [B H]. lra.
Qed.

Lemma correction_sqrt : forall k, 0 <= sqrt (1 - 0.999 ^ S k) / (1 - 0.9 ^ S k) <= 1.
Proof.
  intros k. assert (B : 0 < 1 - 0.9 ^ S k).
  { assert (0.9 ^ S k <= 0.9); [|lra]. change (0.9 ^ S k) with (0.9 * 0.9 ^ k). assert (0.9 ^ k <= 1) by (rewrite <- (pow1 k); apply pow_incr; lra). lra. }
  split.
  - apply Rmult_le_pos; [apply sqrt_pos|left; apply Rinv_0_lt_compat; exact B].
  - apply (Rmult_le_reg_r (1 - 0.9 ^ S k)); [exact B|]. unfold Rdiv. rewrite Rmult_assoc, Rinv_l by lra. rewrite Rmult_1_l, Rmult_1_r.
    rewrite <- (sqrt_square (1 - 0.9 ^ S k)) by lra. apply sqrt_le_1_alt. apply correction.
Qed.

Definition balanced (s : adam) : Prop := slot_m s * slot_m s <= 53 * slot_v s.

Lemma balanced_step : forall lr k g s, balanced s -> balanced (adam_step lr k g s).
Proof.
  intros lr k g s B. unfold balanced in *. cbn. set (m := slot_m s) in *. set (v := slot_v s) in *. clearbody m v.
  pose proof (Rle_0_sqr (m - 0.5 * g)) as Q. unfold Rsqr in Q. nra.
Qed.

Lemma step_bound : forall lr k g s, balanced s -> 0 <= lr -> Rabs (theta (adam_step lr k g s) - theta s) <= 7.3 * lr.
Proof.
  intros lr k g s B L. pose proof (balanced_step lr k g s B) as B'. unfold balanced in B'. revert B'. unfold adam_step. cbn [theta slot_m slot_v].
  set (m := slot_m s + (g - slot_m s) * (1 - 0.9)). set (v := slot_v s + (g * g - slot_v s) * (1 - 0.999)). clearbody m v. intros B'.
  pose proof (correction_sqrt k) as C. set (c := sqrt (1 - 0.999 ^ S k) / (1 - 0.9 ^ S k)) in *.
  replace (lr * sqrt (1 - 0.999 ^ S k) / (1 - 0.9 ^ S k)) with (lr * c) by (unfold c, Rdiv; ring). clearbody c.
  assert (E : 0 < / 10 ^ 8) by (apply Rinv_0_lt_compat; apply pow_lt; lra). set (e := / 10 ^ 8) in *. clearbody e.
  assert (V : 0 <= v) by nra. pose proof (sqrt_pos v) as S'. pose proof (sqrt_sqrt v V) as SS. set (w := sqrt v) in *. clearbody w.
  assert (M : Rabs m <= 7.3 * w).
  { rewrite <- (Rabs_pos_eq (7.3 * w)) by nra. apply Rsqr_le_abs_0. unfold Rsqr. nra. }
  replace (theta s - lr * c * m / (w + e) - theta s) with (- (lr * c * (m / (w + e)))) by (unfold Rdiv; ring).
  rewrite Rabs_Ropp, Rabs_mult, Rabs_pos_eq by nra.
  assert (Q : Rabs (m / (w + e)) <= 7.3).
  { unfold Rdiv. rewrite Rabs_mult, (Rabs_pos_eq (/ (w + e))) by (left; apply Rinv_0_lt_compat; lra).
    apply (Rmult_le_reg_r (w + e)); [lra|]. rewrite Rmult_assoc, Rinv_l by lra. nra. }
  pose proof (Rabs_pos (m / (w + e))). assert (lr * c <= lr) by nra. assert (0 <= lr * c) by nra. nra.
Qed.

Lemma run_bound : forall grad rs k s, balanced s -> (forall r, In r rs -> 0 <= r) ->
  Rabs (theta (adam_run k rs grad s) - theta s) <= 7.3 * sumR rs.
Proof.
  induction rs as [|r rs IH]; intros k s B N; [cbn; rewrite Rminus_diag_eq, Rabs_R0 by reflexivity; lra|].
  cbn [adam_run sumR]. set (s' := adam_step r k (grad k (theta s)) s).
  pose proof (IH (S k) s' (balanced_step _ _ _ _ B) (fun x H => N x (or_intror H))) as H1.
  pose proof (step_bound r k (grad k (theta s)) s B (N r (or_introl eq_refl))) as H2. fold s' in H2.
  replace (theta (adam_run (S k) rs grad s') - theta s) with ((theta (adam_run (S k) rs grad s') - theta s') + (theta s' - theta s)) by ring.
  eapply Rle_trans; [apply Rabs_triang|]. lra.
Qed.

Lemma default_travel : forall fresh g c r m gs value grad x0 n, g <> StepOther ->
  build_optimizer fresh OptNone g = inl (New c r m, gs) ->
  c = Adam /\ Rabs (theta (adam_run 0 (rates r gs value n) grad (mkadam x0 0 0)) - x0) <= 730.
Proof.
  intros fresh g c r m gs value grad x0 n G H.
  assert (D : exists v, gs = StepVar v /\ r = Decay 0.1 v 100 0.9 /\ c = Adam).
  { unfold build_optimizer in H. destruct g; [| |congruence]; injection H as <- <- <- <-; eauto. }
  destruct D as (v & -> & -> & ->). split; [reflexivity|].
  pose proof (run_bound grad (rates (Decay 0.1 v 100 0.9) (StepVar v) value n) 0 (mkadam x0 0 0)) as B. cbn [theta] in B.
  eapply Rle_trans; [apply B; [unfold balanced; cbn; lra|intros r Hr; apply decay_nonneg in Hr; lra]|].
  rewrite sumR_rates. pose proof (decay_le v value n). lra.
Qed.


Lemma short : exists (f df : R -> R) best x0,
  (forall x, derivable_pt_lim f x (df x)) /\ (forall x, x <> best -> f best < f x) /\
  (forall x y t, 0 <= t <= 1 -> f (t * x + (1 - t) * y) <= t * f x + (1 - t) * f y) /\
  forall fresh c r m gs value n, build_optimizer fresh OptNone StepNone = inl (New c r m, gs) ->
  270 <= Rabs (theta (adam_run 0 (rates r gs value n) (fun _ => df) (mkadam x0 0 0)) - best).
Proof.
  exists (fun x => (x - 1000) * (x - 1000)), (fun x => 1 * (x - 1000) + (x - 1000) * 1), 1000, 0.
  split; [|split; [|split]].
  - intros x. apply (derivable_pt_lim_mult (fun x => x - 1000) (fun x => x - 1000) x 1 1);
      (replace 1 with (1 - 0) by lra; apply (derivable_pt_lim_minus id (fun _ => 1000)); [apply derivable_pt_lim_id|apply derivable_pt_lim_const]).
  - intros x N. assert (x - 1000 <> 0) by lra. pose proof (Rsqr_pos_lt (x - 1000) H). unfold Rsqr in *. lra.
  - intros x y t H. assert (0 <= t * (1 - t) * ((x - y) * (x - y))) by (apply Rmult_le_pos; [apply Rmult_le_pos; lra|apply Rle_0_sqr]). nra.
  - intros fresh c r m gs value n H.
    destruct (default_travel fresh StepNone c r m gs value (fun _ x => 1 * (x - 1000) + (x - 1000) * 1) 0 n ltac:(discriminate) H) as [_ B].
    set (y := theta _) in B |- *. clearbody y. rewrite Rminus_0_r in B.
    unfold Rabs in B |- *; destruct (Rcase_abs y), (Rcase_abs (y - 1000)); lra.
Qed.

(** ** Gradient descent *)
Lemma descend_bound : forall grad G rs k x, 0 <= G -> (forall j y, Rabs (grad j y) <= G) -> (forall r, In r rs -> 0 <= r) ->
  Rabs (descend k rs grad x - x) <= G * sumR rs.
Proof.
  induction rs as [|r rs IH]; intros k x HG H N; [cbn; rewrite Rminus_diag_eq, Rabs_R0 by reflexivity; lra|].
  cbn [descend sumR]. set (x' := x - r * grad k x).
  pose proof (IH (S k) x' HG H (fun y Hy => N y (or_intror Hy))) as H1. pose proof (N r (or_introl eq_refl)) as Hr.
  assert (H2 : Rabs (x' - x) <= r * G).
  { unfold x'. replace (x - r * grad k x - x) with (- (r * grad k x)) by ring. rewrite Rabs_Ropp, Rabs_mult, Rabs_pos_eq by exact Hr.
    apply Rmult_le_compat_l; [exact Hr|apply H]. }
  replace (descend (S k) rs grad x' - x) with ((descend (S k) rs grad x' - x') + (x' - x)) by ring.
  eapply Rle_trans; [apply Rabs_triang|]. lra.
Qed.

Lemma descend_quadratic : forall a best rs k x, 0 <= a <= 1 -> (forall r, In r rs -> 0 <= r <= 1) ->
  (1 - a * sumR rs) * Rabs (x - best) <= Rabs (descend k rs (fun _ y => a * (y - best)) x - best).
Proof.
  induction rs as [|r rs IH]; intros k x Ha N; [cbn; lra|]. cbn [descend sumR].
  pose proof (IH (S k) (x - r * (a * (x - best))) Ha (fun y Hy => N y (or_intror Hy))) as H. pose proof (N r (or_introl eq_refl)) as Hr.
  replace (x - r * (a * (x - best)) - best) with ((1 - r * a) * (x - best)) in H by ring.
  rewrite Rabs_mult, (Rabs_pos_eq (1 - r * a)) in H by nra.
  assert (P : 0 <= sumR rs). { assert (N' : forall y, In y rs -> 0 <= y <= 1) by (intros; apply N; right; auto). clear - N'.
    induction rs as [|y rs L]; cbn; [lra|]. pose proof (N' y (or_introl eq_refl)). assert (0 <= sumR rs) by (apply L; intros; apply N'; right; auto). lra. }
  pose proof (Rabs_pos (x - best)). eapply Rle_trans; [|exact H].
  rewrite <- Rmult_assoc. apply Rmult_le_compat_r; [assumption|]. assert (0 <= a * a * r * sumR rs) by (repeat apply Rmult_le_pos; lra). nra.
Qed.

Lemma decay_built : forall fresh o v c r m gs, build_optimizer fresh o (StepVar v) = inl (New c r m, gs) ->
  gs = StepVar v /\ r = Decay 0.1 v 100 0.9.
Proof.
  intros fresh o v c r m gs. unfold build_optimizer. destruct o as [|s| |]; [| |discriminate|discriminate].
  - intros H; injection H as <- <- <- <-; auto.
  - repeat (match goal with |- context [if ?b then _ else _] => destruct b end);
      intros H; try discriminate; injection H as <- <- <- <-; auto.
Qed.

Lemma descend_travel : forall fresh v r m gs value grad G x0 n, 0 <= G -> (forall j y, Rabs (grad j y) <= G) ->
  build_optimizer fresh (OptStr "gradientdescent"%string) (StepVar v) = inl (New GradientDescent r m, gs) ->
  Rabs (descend 0 (rates r gs value n) grad x0 - x0) <= 100 * G.
Proof.
  intros fresh v r m gs value grad G x0 n HG H E. destruct (decay_built _ _ _ _ _ _ _ E) as [-> ->].
  eapply Rle_trans; [apply (descend_bound grad G); [exact HG|exact H|intros y Hy; apply decay_nonneg in Hy; lra]|].
  rewrite sumR_rates. pose proof (decay_le v value n). nra.
Qed.

Lemma descend_half : forall fresh v r m gs value a best x0 n, 0 <= a <= / 200 ->
  build_optimizer fresh (OptStr "gradientdescent"%string) (StepVar v) = inl (New GradientDescent r m, gs) ->
  Rabs (x0 - best) / 2 <= Rabs (descend 0 (rates r gs value n) (fun _ y => a * (y - best)) x0 - best).
Proof.
  intros fresh v r m gs value a best x0 n Ha E. destruct (decay_built _ _ _ _ _ _ _ E) as [-> ->].
  eapply Rle_trans; [|apply descend_quadratic; [lra|intros y Hy; apply decay_nonneg in Hy; lra]].
  rewrite sumR_rates. pose proof (decay_le v value n). pose proof (Rabs_pos (x0 - best)).
  assert (a * partial_sum (rate_of (Decay 0.1 v 100 0.9) (StepVar v) value) n <= / 2).
  { assert (0 <= partial_sum (rate_of (Decay 0.1 v 100 0.9) (StepVar v) value) n).
    { rewrite <- sumR_rates. assert (N : forall y, In y (rates (Decay 0.1 v 100 0.9) (StepVar v) value n) -> 0 <= y) by (intros y Hy; apply decay_nonneg in Hy; lra).
      revert N. generalize (rates (Decay 0.1 v 100 0.9) (StepVar v) value n). induction l as [|y l L]; intros N; cbn; [lra|].
      pose proof (N y (or_introl eq_refl)). assert (0 <= sumR l) by (apply L; intros; apply N; right; auto). lra. }
    nra. }
  nra.
Qed.

(** With the constant rate 0.01 Adam moves on for ever: a constant gradient of 1. *)
Lemma constant_far : forall gs value, goes_anywhere (rate_of (Constant 0.01) gs value).
Proof.
  intros gs value b.
  assert (E : forall n, partial_sum (rate_of (Constant 0.01) gs value) n = INR n * 0.01).
  { induction n as [|n IH]; [cbn; lra|]. cbn [partial_sum]. rewrite IH, rate_of_iter, S_INR. cbn [rate_at]. lra. }
  destruct (archimed (Rabs b * 100)) as [U _]. pose proof (Rabs_pos b). pose proof (Rle_abs b).
  assert (Z : (0 <= up (Rabs b * 100))%Z) by (apply le_IZR; lra).
  exists (Z.to_nat (up (Rabs b * 100))). rewrite E, INR_IZR_INZ, Z2Nat.id by exact Z. lra.
Qed.

Lemma first_step : forall lr g x0, theta (adam_step lr 0 g (mkadam x0 0 0)) = x0 - lr * (sqrt 0.001 * g / (sqrt 0.001 * Rabs g + / 10 ^ 8)).
Proof.
  intros lr g x0. unfold adam_step. cbn [theta slot_m slot_v].
  replace (0 + (g * g - 0) * (1 - 0.999)) with (0.001 * Rsqr g) by (unfold Rsqr; lra).
  rewrite sqrt_mult_alt by lra. rewrite sqrt_Rsqr_abs. replace (1 - 0.999 ^ 1) with 0.001 by lra. replace (1 - 0.9 ^ 1) with 0.1 by lra.
  replace (0 + (g - 0) * (1 - 0.9)) with (0.1 * g) by lra.
  assert (0 < / 10 ^ 8) by (apply Rinv_0_lt_compat; apply pow_lt; lra). pose proof (Rabs_pos g). pose proof (sqrt_pos 0.001).
  assert (0 <= sqrt 0.001 * Rabs g) by (apply Rmult_le_pos; assumption).
  set (s := sqrt 0.001) in *. set (e := / 10 ^ 8) in *. set (b := Rabs g) in *. clearbody s e b. field. lra.
Qed.
