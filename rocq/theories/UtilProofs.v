(** * Proofs for C49, C51 and C60. *)
From Coq Require Import Reals List Arith Bool Lia Lra Psatz.
From Verif Require Import Ext Transform TransformProofs VIProofs GAN GANProofs Util UtilSpec.
Import ListNotations.
Local Open Scope R_scope.

(** ** to_simplex as breaking a stick *)

Fixpoint stick (zs : list R) : list R :=
  match zs with [] => [1] | z :: zs' => z :: map (fun s => (1 - z) * s) (stick zs') end.

Lemma cumprod_scale : forall c l, cumprod_from c l = map (fun x => c * x) (cumprod_from 1 l).
Proof.
  intros c l. revert c. induction l as [|x l IH]; intros c; auto. cbn [cumprod_from map]. rewrite (IH (c * x)), (IH (1 * x)), map_map.
  f_equal; [lra|]. apply map_ext. intros; lra.
Qed.

Lemma scale_combine : forall c (a b : list R),
  map (fun p => fst p * snd p) (combine (map (fun x => c * x) a) b) = map (fun s => c * s) (map (fun p => fst p * snd p) (combine a b)).
Proof. intros c a. induction a as [|x a IHa]; intros [|y b]; auto. cbn [map combine fst snd]. apply f_equal2; [lra|]. apply IHa. Qed.

Lemma simplex_stick : forall zs, map (fun p => fst p * snd p) (combine (cumprod (1 :: map (fun v => 1 - v) zs)) (zs ++ [1])) = stick zs.
Proof.
  intros zs. unfold cumprod. cbn [cumprod_from]. rewrite Rmult_1_l.
  induction zs as [|z zs IH]; [simpl; f_equal; lra|].
  cbn [map cumprod_from app combine fst snd stick]. apply f_equal2; [lra|]. rewrite <- IH. rewrite Rmult_1_l. rewrite (cumprod_scale (1 - z)).
  rewrite <- scale_combine. cbn [map combine]. rewrite Rmult_1_r. reflexivity.
Qed.

Definition sticks_of (x : list R) : list R :=
  map (fun p => sigmoid (fst p + snd p)) (combine (map (fun i => - ln (INR (length x - i))) (seq 0 (length x))) x).

Lemma simplex_row : forall x, to_simplex_row x = stick (sticks_of x).
Proof. intros x. apply simplex_stick. Qed.

Lemma stick_length : forall zs, length (stick zs) = S (length zs).
Proof. induction zs as [|z zs IH]; auto. cbn [stick length]. rewrite map_length, IH. auto. Qed.

Lemma stick_simplex : forall zs, Forall (fun z => 0 < z < 1) zs -> Forall (fun a => 0 < a) (stick zs) /\ sumR (stick zs) = 1.
Proof.
  induction 1 as [|z zs Hz _ [IH1 IH2]]; cbn [stick sumR]; [split; [constructor; [lra|constructor]|lra]|]. split.
  - constructor; [lra|]. apply Forall_map. revert IH1. apply Forall_impl. intros a Ha. apply Rmult_lt_0_compat; lra.
  - rewrite (sumR_map_scal (stick zs) (1 - z) (fun s => s)), map_id, IH2. lra.
Qed.

Lemma stick_inj : forall zs zs', Forall (fun z => 0 < z < 1) zs -> length zs = length zs' -> stick zs = stick zs' -> zs = zs'.
Proof.
  induction zs as [|z zs IH]; intros [|z' zs'] F L E; try discriminate; auto. cbn [stick] in E. injection E as -> E.
  inversion F as [|? ? Fz Fzs]; subst. f_equal. apply IH; auto.
  assert (M : forall a b : list R, map (fun s => (1 - z') * s) a = map (fun s => (1 - z') * s) b -> a = b).
  { induction a as [|x a IHa]; intros [|y b] H; try discriminate; auto. cbn [map] in H. injection H as H1 H2. f_equal; [|auto].
    apply Rmult_eq_reg_l with (1 - z'); auto. lra. }
  auto.
Qed.

Lemma stick_surj : forall n p, length p = S n -> Forall (fun a => 0 < a) p -> sumR p = 1 ->
  exists zs, length zs = n /\ Forall (fun z => 0 < z < 1) zs /\ stick zs = p.
Proof.
  induction n as [|n IH]; intros p L F S1.
  - destruct p as [|a [|b p]]; try discriminate. exists []. split; auto. split; [constructor|]. simpl in S1. simpl. f_equal. lra.
  - destruct p as [|a p]; [discriminate|]. injection L as L. inversion F as [|? ? Fa Fp]; subst. cbn [sumR] in S1.
    assert (Q : 0 < sumR p).
    { destruct p as [|b p]; [discriminate|]. inversion Fp as [|? ? Fb Fp']; subst. cbn [sumR]. pose proof (sumR_pos _ Fp'). lra. }
    destruct (IH (map (fun s => s / (1 - a)) p)) as (zs & Lz & Fz & E).
    + rewrite map_length. auto.
    + apply Forall_map. revert Fp. apply Forall_impl. intros s Hs. apply Rdiv_lt_0_compat; lra.
    + rewrite sumR_scale. replace (1 - a) with (sumR p) by lra. field. lra.
    + exists (a :: zs). split; [simpl; auto|]. split; [constructor; [lra|auto]|]. cbn [stick]. rewrite E, map_map. f_equal.
      rewrite <- (map_id p) at 2. apply map_ext. intros s. field. lra.
Qed.

(** ** The offsets *)

Lemma sticks_nth : forall x, sticks_of x = map (fun i => sigmoid (nth i x 0 - ln (INR (length x - i)))) (seq 0 (length x)).
Proof.
  intros x. unfold sticks_of.
  assert (G : forall f (x : list R) start, map (fun p => sigmoid (fst p + snd p)) (combine (map (fun i => - f i) (seq start (length x))) x) =
    map (fun i => sigmoid (nth (i - start) x 0 - f i)) (seq start (length x))).
  { intros f. induction x0 as [|a x0 IH]; intros start; auto. cbn [length seq map combine fst snd]. rewrite Nat.sub_diag. cbn [nth].
    f_equal; [f_equal; lra|]. rewrite IH. apply map_ext_in. intros i Hi. apply in_seq in Hi.
    replace (i - start)%nat with (S (i - S start)) by lia. reflexivity. }
  rewrite (G (fun i => ln (INR (length x - i)))). apply map_ext. intros i. rewrite Nat.sub_0_r. auto.
Qed.

Lemma sticks_range : forall x, Forall (fun z => 0 < z < 1) (sticks_of x).
Proof. intros x. rewrite sticks_nth. apply Forall_map, Forall_forall. intros i _. apply sigmoid_bounds. Qed.

Lemma sticks_length : forall x, length (sticks_of x) = length x.
Proof. intros x. rewrite sticks_nth, map_length, seq_length. auto. Qed.

Lemma sticks_inj : forall x y, length x = length y -> sticks_of x = sticks_of y -> x = y.
Proof.
  intros x y L E. apply nth_ext with (d := 0) (d' := 0); auto. intros i Hi. rewrite !sticks_nth, <- L in E.
  assert (G : sigmoid (nth i x 0 - ln (INR (length x - i))) = sigmoid (nth i y 0 - ln (INR (length x - i)))).
  { apply (f_equal (fun l => nth_error l i)) in E. rewrite !nth_error_map in E.
    rewrite (nth_error_nth' (seq 0 (length x)) 0%nat), seq_nth in E by (rewrite ?seq_length; lia). cbn in E. injection E; auto. }
  apply (f_equal logit) in G. rewrite !logit_sigmoid in G. lra.
Qed.

Lemma sticks_surj : forall zs, Forall (fun z => 0 < z < 1) zs -> exists x, length x = length zs /\ sticks_of x = zs.
Proof.
  intros zs F. set (x := map (fun i => logit (nth i zs 0) + ln (INR (length zs - i))) (seq 0 (length zs))).
  assert (L : length x = length zs) by (unfold x; rewrite map_length, seq_length; auto). exists x. split; auto.
  rewrite sticks_nth, L. transitivity (map (fun i => nth i zs 0) (seq 0 (length zs))).
  - apply map_ext_in. intros i Hi. apply in_seq in Hi.
    assert (E : nth i x 0 = logit (nth i zs 0) + ln (INR (length zs - i))).
    { apply nth_error_nth. unfold x. rewrite nth_error_map, (nth_error_nth' (seq 0 (length zs)) 0%nat), seq_nth by (rewrite ?seq_length; lia). reflexivity. }
    rewrite E. replace (logit (nth i zs 0) + ln (INR (length zs - i)) - ln (INR (length zs - i))) with (logit (nth i zs 0)) by lra.
    apply sigmoid_logit. rewrite Forall_forall in F. apply F, nth_In. lia.
  - clear. induction zs as [|z zs IH]; auto. cbn [length seq map nth]. f_equal. rewrite <- seq_shift, map_map. auto.
Qed.

Lemma simplex_range : forall x, on_simplex (S (length x)) (to_simplex_row x).
Proof.
  intros x. rewrite simplex_row. destruct (stick_simplex _ (sticks_range x)) as [H1 H2]. split; [rewrite stick_length, sticks_length; auto|]. auto.
Qed.

Lemma simplex_inj : forall x y, length x = length y -> to_simplex_row x = to_simplex_row y -> x = y.
Proof.
  intros x y L E. rewrite !simplex_row in E. apply sticks_inj; auto. apply stick_inj; auto; [apply sticks_range|rewrite !sticks_length; auto].
Qed.

Lemma simplex_onto : forall K p, on_simplex (S K) p -> exists x, length x = K /\ to_simplex_row x = p.
Proof.
  intros K p (L & F & S1). destruct (stick_surj K p L F S1) as (zs & Lz & Fz & E). destruct (sticks_surj zs Fz) as (x & Lx & Ex).
  exists x. split; [congruence|]. rewrite simplex_row, Ex. auto.
Qed.

Lemma sigmoid_log : forall m, (0 < m)%nat -> sigmoid (0 - ln (INR m)) = / (1 + INR m).
Proof.
  intros m H. unfold sigmoid. replace (- (0 - ln (INR m))) with (ln (INR m)) by lra. rewrite exp_ln; auto. apply lt_0_INR. auto.
Qed.

Lemma repeat_scale : forall c a n, map (fun s => c * s) (repeat a n) = repeat (c * a) n.
Proof. intros c a n. induction n as [|n IH]; auto. cbn [repeat map]. rewrite IH. auto. Qed.

Lemma simplex_zero : forall K, to_simplex_row (repeat 0 K) = repeat (/ INR (S K)) (S K).
Proof.
  intros K. rewrite simplex_row, sticks_nth, repeat_length.
  transitivity (stick (map (fun i => / INR (S (K - i))) (seq 0 K))).
  - f_equal. apply map_ext_in. intros i Hi. apply in_seq in Hi.
    replace (nth i (repeat 0 K) 0) with 0 by (clear; revert i; induction K as [|K IH]; intros [|i]; simpl; auto).
    rewrite sigmoid_log by lia. f_equal. rewrite S_INR. lra.
  - assert (G : forall start, (start <= K)%nat -> stick (map (fun i => / INR (S (K - i))) (seq start (K - start))) = repeat (/ INR (S (K - start))) (S (K - start))).
    { intros start. remember (K - start)%nat as m eqn:Em. revert start Em. induction m as [|m IH]; intros start Em Hs; [cbn; f_equal; lra|].
      cbn [seq map stick]. rewrite (IH (S start)) by lia. rewrite <- Em.
      assert (P : 0 < INR (S m)) by (apply lt_0_INR; lia).
      assert (Q : (1 - / INR (S (S m))) * / INR (S m) = / INR (S (S m))) by (rewrite (S_INR (S m)); field; lra).
      rewrite repeat_scale, Q. reflexivity. }
    specialize (G 0%nat ltac:(lia)). rewrite Nat.sub_0_r in G. auto.
Qed.

Lemma all_finite_spec : forall x v, all_finite x = Some v <-> x = map Fin v.
Proof.
  induction x as [|e x IH]; intros v; cbn [all_finite].
  - split; [intros H; injection H as <-; auto|]. destruct v; [auto|discriminate].
  - split.
    + destruct e as [r| | |]; try discriminate. destruct (all_finite x) as [w|] eqn:E; [|discriminate]. intros H. injection H as <-. cbn [map]. f_equal. apply IH. auto.
    + destruct v as [|r v]; [discriminate|]. cbn [map]. intros H. injection H as -> ->. assert (E : all_finite (map Fin v) = Some v) by (apply IH; auto). rewrite E. auto.
Qed.

Lemma all_finite_rows_spec : forall x m, all_finite_rows x = Some m <-> x = map (map Fin) m.
Proof.
  induction x as [|e x IH]; intros m; cbn [all_finite_rows].
  - split; [intros H; injection H as <-; auto|]. destruct m; [auto|discriminate].
  - split.
    + destruct (all_finite e) as [v|] eqn:E1; [|discriminate]. destruct (all_finite_rows x) as [w|] eqn:E; [|discriminate]. intros H. injection H as <-. cbn [map].
      apply all_finite_spec in E1. subst. f_equal. apply IH. auto.
    + destruct m as [|r m]; [discriminate|]. cbn [map]. intros H. injection H as -> ->.
      assert (E1 : all_finite (map Fin r) = Some r) by (apply all_finite_spec; auto). assert (E : all_finite_rows (map (map Fin) m) = Some m) by (apply IH; auto). rewrite E1, E. auto.
Qed.

Lemma to_simplex_spec : forall x,
  (forall v, x = map Fin v -> to_simplex x = Some (to_simplex_row v)) /\ ((forall v, x <> map Fin v) -> to_simplex x = None).
Proof.
  intros x. unfold to_simplex. split.
  - intros v H. apply all_finite_spec in H. rewrite H. auto.
  - intros H. destruct (all_finite x) as [v|] eqn:E; auto. apply all_finite_spec in E. destruct (H v E).
Qed.

Lemma to_simplex_rows_spec : forall m, to_simplex_rows (map (map Fin) m) = Some (map to_simplex_row m).
Proof. intros m. unfold to_simplex_rows. assert (E : all_finite_rows (map (map Fin) m) = Some m) by (apply all_finite_rows_spec; auto). rewrite E. auto. Qed.

(** ** dot *)

Lemma dot_vec : forall vec mat width, length vec = length mat ->
  exists out, dot_vec_mat vec mat width = Some out /\ length out = width /\
  forall j, (j < width)%nat -> nth j out 0 = sumR (map (fun i => nth i vec 0 * entry mat i j) (seq 0 (length mat))).
Proof.
  intros vec mat width L. unfold dot_vec_mat. rewrite L, Nat.eqb_refl. eexists. split; [reflexivity|]. split; [rewrite map_length, seq_length; auto|].
  intros j Hj. apply nth_error_nth. rewrite nth_error_map, (nth_error_nth' (seq 0 width) 0%nat), seq_nth by (rewrite ?seq_length; lia). cbn [option_map]. f_equal.
  unfold inner, column, entry. cbn [plus]. clear Hj. revert mat L. induction vec as [|a vec IH]; intros [|r mat] L; try discriminate; auto. injection L as L.
  cbn [map combine length seq sumR nth fst snd]. rewrite IH by auto. f_equal. rewrite <- seq_shift, map_map. reflexivity.
Qed.

Lemma dot_mat : forall mat width vec, (forall r, In r mat -> length r = width) ->
  (length vec = width -> exists out, dot_mat_vec mat width vec = Some out /\ length out = length mat /\
    forall i, (i < length mat)%nat -> nth i out 0 = sumR (map (fun j => entry mat i j * nth j vec 0) (seq 0 width))) /\
  (length vec <> width -> dot_mat_vec mat width vec = None).
Proof.
  intros mat width vec W. unfold dot_mat_vec. split.
  - intros L. rewrite <- L, Nat.eqb_refl. eexists. split; [reflexivity|]. split; [apply map_length|].
    intros i Hi. apply nth_error_nth. rewrite nth_error_map, (nth_error_nth' mat []) by auto. cbn [option_map]. f_equal. unfold inner, entry.
    assert (W1 : length (nth i mat []) = length vec) by (rewrite L; apply W, nth_In; auto). revert W1. generalize (nth i mat []). clear. intros r.
    revert vec. induction r as [|a r IH]; intros [|b vec] L; try discriminate; auto. injection L as L.
    cbn [map combine length seq sumR nth fst snd]. rewrite IH by auto. f_equal. rewrite <- seq_shift, map_map. reflexivity.
  - intros N. destruct (Nat.eqb_spec width (length vec)); [congruence|auto].
Qed.

Lemma dot_documented : exists mat width vec, (forall r, In r mat -> length r = width) /\ length vec = length mat /\ dot_mat_vec mat width vec = None.
Proof. exists [[1; 2]], 2%nat, [3]. split; [intros r [<-|[]]; auto|]. split; reflexivity. Qed.

(** ** Control variates *)

Lemma sum_combine : forall (f h : list R) g, length f = length h ->
  sumR (map (fun p => g (fst p) (snd p)) (combine f h)) = sumR (map (fun i => g (nth i f 0) (nth i h 0)) (seq 0 (length f))).
Proof.
  induction f as [|a f IH]; intros [|b h] g L; try discriminate; auto. injection L as L. cbn [map combine length seq sumR nth fst snd]. rewrite IH by auto.
  f_equal. rewrite <- seq_shift, map_map. reflexivity.
Qed.

Lemma mean_combine : forall (f h : list R) a b, length f = length h -> f <> [] ->
  reduce_mean (map (fun p => fst p + a * (snd p - b)) (combine f h)) = reduce_mean f + a * (reduce_mean h - b).
Proof.
  intros f h a b L N. unfold reduce_mean. rewrite map_length, combine_length, <- L, Nat.min_id.
  assert (P : 0 < INR (length f)) by (apply lt_0_INR; destruct f; [congruence|simpl; lia]).
  assert (E : sumR (map (fun p => fst p + a * (snd p - b)) (combine f h)) = sumR f + a * (sumR h - INR (length f) * b)).
  { clear N P. revert h L. induction f as [|x f IH]; intros [|y h] L; try discriminate; [simpl; lra|]. injection L as L. cbn [combine map sumR fst snd length].
    rewrite IH by auto. rewrite S_INR. lra. }
  rewrite E. field. lra.
Qed.

Section Coef.
Variables f h : list R.
Hypothesis same : length f = length h.
Let n := INR (length f).
Let df := fun p : R * R => fst p - reduce_mean f.
Let dh := fun p : R * R => snd p - reduce_mean h.
Let Sff := sumR (map (fun p => df p * df p) (combine f h)).
Let Sfh := sumR (map (fun p => df p * dh p) (combine f h)).
Let Shh := sumR (map (fun p => dh p * dh p) (combine f h)).

Lemma h_sum : sumR (map (fun b => (b - reduce_mean h) * (b - reduce_mean h)) h) = Shh.
Proof.
  unfold Shh, dh. clear - same. generalize (reduce_mean h). intros m. revert f same. induction h as [|b h0 IH]; intros [|a f0] L; try discriminate; auto.
  injection L as L. cbn [combine map sumR fst snd]. rewrite <- (IH f0) by auto. auto.
Qed.

Lemma estimator_variance : forall a tau, f <> [] ->
  sample_variance (map (fun p => fst p + a * (snd p - tau)) (combine f h)) = (Sff + 2 * a * Sfh + a * a * Shh) / (n - 1).
Proof.
  intros a tau N. unfold sample_variance. rewrite mean_combine by auto. rewrite map_length, combine_length, <- same, Nat.min_id. fold n. f_equal.
  rewrite map_map.
  rewrite (sumR_map_ext (combine f h) _ (fun p => (df p * df p + (2 * a) * (df p * dh p)) + (a * a) * (dh p * dh p))).
  - rewrite (sumR_map_add (combine f h) (fun p => df p * df p + (2 * a) * (df p * dh p)) (fun p => (a * a) * (dh p * dh p))).
    rewrite (sumR_map_add (combine f h) (fun p => df p * df p) (fun p => (2 * a) * (df p * dh p))).
    rewrite (sumR_map_scal (combine f h) (2 * a) (fun p => df p * dh p)), (sumR_map_scal (combine f h) (a * a) (fun p => dh p * dh p)). fold Sff Sfh Shh. lra.
  - intros p _. unfold df, dh. ring.
Qed.

Lemma coef_value : (1 < length f)%nat -> control_variate_coef f h = Sfh / Shh.
Proof.
  intros H. unfold control_variate_coef. rewrite h_sum. fold n. change (sumR (map (fun p => (fst p - reduce_mean f) * (snd p - reduce_mean h)) (combine f h))) with Sfh.
  assert (n - 1 <> 0). { unfold n. assert (INR 1 < INR (length f)) by (apply lt_INR; auto). simpl in H0. lra. }
  unfold Rdiv. rewrite Rinv_mult, Rinv_inv. transitivity (Sfh * / Shh * (/ (n - 1) * (n - 1))); [ring|]. rewrite Rinv_l by auto. ring.
Qed.

Lemma Shh_pos : (exists a b, In a h /\ In b h /\ a <> b) -> 0 < Shh.
Proof.
  intros (a & b & Ha & Hb & N). rewrite <- h_sum.
  assert (G : forall m (l : list R), 0 <= sumR (map (fun b => (b - m) * (b - m)) l) /\ (sumR (map (fun b => (b - m) * (b - m)) l) = 0 -> forall c, In c l -> c = m)).
  { intros m l. induction l as [|c l [IH1 IH2]]; cbn [map sumR]; [split; [lra|intros _ c []]|].
    pose proof (Rle_0_sqr (c - m)) as Q. unfold Rsqr in Q. split; [lra|]. intros E d [<-|Hd].
    - assert (E2 : (c - m) * (c - m) = 0) by lra. apply Rmult_integral in E2. lra.
    - apply IH2; auto. lra. }
  destruct (G (reduce_mean h) h) as [G1 G2]. destruct (Rle_lt_or_eq_dec _ _ G1) as [|E]; auto. exfalso. apply N. rewrite (G2 (eq_sym E) a), (G2 (eq_sym E) b); auto.
Qed.

Lemma two_points : (exists a b, In a h /\ In b h /\ a <> b) -> (1 < length f)%nat /\ f <> [].
Proof.
  intros (a & b & Ha & Hb & N). rewrite same. assert (L : (1 < length h)%nat).
  { destruct h as [|x [|y l]]; simpl in *; [contradiction| |lia]. destruct Ha as [<-|[]]. destruct Hb as [<-|[]]. congruence. }
  split; auto. intros E. rewrite E in same. simpl in same. lia.
Qed.

Lemma coef_optimal : (exists a b, In a h /\ In b h /\ a <> b) -> forall tau c,
  sample_variance (map (fun p => fst p - control_variate_coef f h * (snd p - tau)) (combine f h)) <=
  sample_variance (map (fun p => fst p - c * (snd p - tau)) (combine f h)) /\
  (sample_variance (map (fun p => fst p - c * (snd p - tau)) (combine f h)) =
   sample_variance (map (fun p => fst p - control_variate_coef f h * (snd p - tau)) (combine f h)) -> c = control_variate_coef f h).
Proof.
  intros D tau c. destruct (two_points D) as [L2 N]. pose proof (Shh_pos D) as P.
  assert (Q : 0 < n - 1). { unfold n. assert (INR 1 < INR (length f)) by (apply lt_INR; auto). simpl in H. lra. }
  assert (E : forall a, sample_variance (map (fun p => fst p - a * (snd p - tau)) (combine f h)) = (Sff - 2 * a * Sfh + a * a * Shh) / (n - 1)).
  { intros a. transitivity (sample_variance (map (fun p => fst p + (- a) * (snd p - tau)) (combine f h))).
    - f_equal. apply map_ext. intros p. ring.
    - rewrite estimator_variance by auto. f_equal. ring. }
  rewrite !E, (coef_value L2).
  assert (K : (Sff - 2 * c * Sfh + c * c * Shh) / (n - 1) - (Sff - 2 * (Sfh / Shh) * Sfh + Sfh / Shh * (Sfh / Shh) * Shh) / (n - 1) =
    (c - Sfh / Shh) * (c - Sfh / Shh) * (Shh / (n - 1))) by (field; split; lra).
  assert (W : 0 < Shh / (n - 1)) by (apply Rdiv_lt_0_compat; auto).
  pose proof (Rle_0_sqr (c - Sfh / Shh)) as S. unfold Rsqr in S. split.
  - assert (0 <= (c - Sfh / Shh) * (c - Sfh / Shh) * (Shh / (n - 1))) by (apply Rmult_le_pos; lra). lra.
  - intros H. rewrite H in K. assert (Z : (c - Sfh / Shh) * (c - Sfh / Shh) * (Shh / (n - 1)) = 0) by lra.
    apply Rmult_integral in Z. destruct Z as [Z|Z]; [|lra]. apply Rmult_integral in Z. lra.
Qed.

(** With the documented sign it is the coefficient that is optimal for nothing but
    uncorrelated samples. *)
Lemma coef_documented : (exists a b, In a h /\ In b h /\ a <> b) -> control_variate_coef f h <> 0 -> forall tau,
  sample_variance (map fst (combine f h)) < sample_variance (map (fun p => fst p + control_variate_coef f h * (snd p - tau)) (combine f h)).
Proof.
  intros D C tau. destruct (two_points D) as [L2 N]. pose proof (Shh_pos D) as P.
  assert (Q : 0 < n - 1). { unfold n. assert (INR 1 < INR (length f)) by (apply lt_INR; auto). simpl in H. lra. }
  assert (E0 : sample_variance (map fst (combine f h)) = Sff / (n - 1)).
  { transitivity (sample_variance (map (fun p => fst p + 0 * (snd p - tau)) (combine f h))).
    - f_equal. apply map_ext. intros p. ring.
    - rewrite estimator_variance by auto. f_equal. ring. }
  rewrite E0, estimator_variance by auto. rewrite (coef_value L2) in *.
  assert (K : (Sff + 2 * (Sfh / Shh) * Sfh + Sfh / Shh * (Sfh / Shh) * Shh) / (n - 1) = Sff / (n - 1) + 3 * (Sfh / Shh * (Sfh / Shh)) * (Shh / (n - 1))) by (field; split; lra).
  rewrite K. assert (W : 0 < Shh / (n - 1)) by (apply Rdiv_lt_0_compat; auto).
  assert (S : 0 < Sfh / Shh * (Sfh / Shh)) by (apply (Rsqr_pos_lt _ C)).
  assert (0 < 3 * (Sfh / Shh * (Sfh / Shh)) * (Shh / (n - 1))) by (apply Rmult_lt_0_compat; lra). lra.
Qed.
End Coef.
