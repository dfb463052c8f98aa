(** * Proofs for C50. *)
From Coquelicot Require Import Coquelicot.
From Coq Require Import Reals List Arith Bool Lia Lra Psatz.
From Verif Require Import Ext Transform TransformProofs VIProofs GAN GANProofs Util UtilSpec.
Import ListNotations.
Local Open Scope R_scope.

Lemma scale_nth : forall l x, fits l (length x) -> scale_row l x = map (fun d => nth d x 0 / feature_scale l d) (seq 0 (length x)).
Proof.
  intros [c|v] x F; cbn [scale_row feature_scale fits] in *.
  - induction x as [|a x IH]; auto. cbn [map length seq nth]. f_equal. rewrite <- seq_shift, map_map. auto.
  - revert x F. induction v as [|b v IH]; intros [|a x] F; try discriminate; auto. injection F as F. cbn [combine map length seq nth fst snd]. f_equal.
    rewrite <- seq_shift, map_map. apply IH. auto.
Qed.

Lemma square_expand : forall (D : nat) (a b : nat -> R) start,
  sumR (map (fun x => x * x) (map a (seq start D))) + sumR (map (fun x => x * x) (map b (seq start D))) -
  2 * inner (map a (seq start D)) (map b (seq start D)) = sumR (map (fun d => (a d - b d) ^ 2) (seq start D)).
Proof.
  unfold inner. induction D as [|D IH]; intros a b start; [simpl; lra|]. cbn [seq map combine sumR fst snd]. rewrite <- IH. ring.
Qed.

Lemma kernel_entry : forall l variance x y, fits l (length x) -> length y = length x -> lengthscale_positive l = true ->
  variance * exp (- (square_norm (scale_row l x) + square_norm (scale_row l y) - 2 * inner (scale_row l x) (scale_row l y)) / 2) = kernel l variance x y.
Proof.
  intros l variance x y F L P. unfold kernel. f_equal. f_equal. rewrite !scale_nth by (rewrite ?L; auto). rewrite L. unfold square_norm. rewrite square_expand.
  rewrite (sumR_map_ext (seq 0 (length x)) (fun d => (nth d x 0 / feature_scale l d - nth d y 0 / feature_scale l d) ^ 2) (fun d => ((nth d x 0 - nth d y 0) / feature_scale l d) ^ 2)); [lra|].
  intros d _. f_equal. unfold Rdiv. ring.
Qed.

Lemma positive_spec : forall x, positive x = true <-> 0 < x.
Proof. intros x. unfold positive. destruct (Rlt_dec 0 x); split; auto; discriminate. Qed.

Lemma rbf_rows : forall X X2 l variance, lengthscale_positive l = true -> 0 < variance ->
  exists K, rbf X X2 l variance = Some K /\
    K = map (fun x => map (fun y => variance * exp (- (square_norm (scale_row l x) + square_norm (scale_row l y) - 2 * inner (scale_row l x) (scale_row l y)) / 2)) (match X2 with None => X | Some Y => Y end)) X.
Proof.
  intros X X2 l variance P V. unfold rbf. apply positive_spec in V. rewrite P, V. cbn [andb]. eexists. split; [reflexivity|].
  rewrite map_map. apply map_ext. intros x. destruct X2 as [Y|]; rewrite map_map; reflexivity.
Qed.

Lemma rbf_entries : forall D X X2 l variance, (forall x, In x X -> length x = D) ->
  let Y := match X2 with None => X | Some Y => Y end in
  (forall y, In y Y -> length y = D) -> fits l D -> lengthscale_positive l = true -> 0 < variance ->
  exists K, rbf X X2 l variance = Some K /\ length K = length X /\ (forall r, In r K -> length r = length Y) /\
  forall i j, (i < length X)%nat -> (j < length Y)%nat -> entry K i j = kernel l variance (nth i X []) (nth j Y []).
Proof.
  intros D X X2 l variance HX Y HY F P V. destruct (rbf_rows X X2 l variance P V) as (K & E & EK). fold Y in EK. exists K. split; auto. subst K.
  split; [apply map_length|]. split.
  - intros r Hr. apply in_map_iff in Hr. destruct Hr as (x & <- & _). apply map_length.
  - intros i j Hi Hj. unfold entry. erewrite (nth_error_nth (map _ X)).
    2: { rewrite nth_error_map, (nth_error_nth' X []) by auto. reflexivity. }
    apply nth_error_nth. rewrite nth_error_map, (nth_error_nth' Y []) by auto. cbn [option_map]. f_equal.
    apply kernel_entry; auto; rewrite (HX (nth i X [])) by (apply nth_In; auto); auto. apply HY, nth_In; auto.
Qed.

Lemma rbf_raises : forall X X2 l variance, lengthscale_positive l = false \/ variance <= 0 -> rbf X X2 l variance = None.
Proof.
  intros X X2 l variance H. unfold rbf. destruct H as [->|H]; auto. assert (E : positive variance = false) by (unfold positive; destruct (Rlt_dec 0 variance); auto; lra).
  rewrite E, andb_false_r. auto.
Qed.

Lemma kernel_facts : forall l variance x y, 0 < variance -> lengthscale_positive l = true -> length x = length y -> fits l (length x) ->
  kernel l variance x y = kernel l variance y x /\ kernel l variance x x = variance /\ 0 < kernel l variance x y <= variance /\
  (kernel l variance x y = variance <-> x = y).
Proof.
  intros l variance x y V P L F.
  assert (S0 : forall u v : list R, 0 <= sumR (map (fun d => ((nth d u 0 - nth d v 0) / feature_scale l d) ^ 2) (seq 0 (length u)))).
  { intros u v. generalize (seq 0 (length u)). induction l0 as [|d l0 IH]; cbn [map sumR]; [lra|]. pose proof (pow2_ge_0 ((nth d u 0 - nth d v 0) / feature_scale l d)) as Q. lra. }
  assert (D : kernel l variance x x = variance).
  { unfold kernel. rewrite (sumR_map_ext _ _ (fun _ => 0)) by (intros d _; unfold Rdiv; ring). rewrite sumR_const. rewrite Rmult_0_r, Rmult_0_r, exp_0. lra. }
  assert (FP : forall d, (d < length x)%nat -> 0 < feature_scale l d).
  { intros d Hd. destruct l as [c|v]; cbn in *; [apply positive_spec; auto|]. rewrite forallb_forall in P. apply positive_spec, P, nth_In. lia. }
  split; [|split; [auto|split]].
  - unfold kernel. rewrite <- L. do 3 f_equal. apply sumR_map_ext. intros d _. unfold Rdiv. ring.
  - unfold kernel. specialize (S0 x y). set (s := sumR _) in *. clearbody s. split; [apply Rmult_lt_0_compat; auto; apply exp_pos|].
    rewrite <- (Rmult_1_r variance) at 2. apply Rmult_le_compat_l; [lra|]. apply Rle_trans with (exp 0); [|rewrite exp_0; lra].
    destruct (Rle_lt_or_eq_dec 0 s S0) as [H|H]; [left; apply exp_increasing; lra|right; f_equal; lra].
  - split; [|intros <-; auto]. intros E. unfold kernel in E. pose proof (S0 x y) as S1. set (s := sumR _) in *.
    assert (Z : s = 0).
    { assert (E1 : exp (- (1 / 2) * s) = 1) by (apply Rmult_eq_reg_l with variance; lra). pose proof exp_0 as E0. rewrite <- E0 in E1 at 2. apply exp_inv in E1. lra. }
    apply nth_ext with (d := 0) (d' := 0); auto. intros d Hd. unfold s in Z.
    assert (G : forall ds, In d ds -> sumR (map (fun d => ((nth d x 0 - nth d y 0) / feature_scale l d) ^ 2) ds) = 0 -> ((nth d x 0 - nth d y 0) / feature_scale l d) ^ 2 = 0).
    { assert (N : forall k, 0 <= ((nth k x 0 - nth k y 0) / feature_scale l k) ^ 2) by (intros k; apply pow2_ge_0).
      assert (N2 : forall ds, 0 <= sumR (map (fun d => ((nth d x 0 - nth d y 0) / feature_scale l d) ^ 2) ds)).
      { induction ds as [|k ds IH]; cbn [map sumR]; [lra|]. specialize (N k). lra. }
      induction ds as [|k ds IH]; intros Hin H; [destruct Hin|]. cbn [map sumR] in H. pose proof (N k). pose proof (N2 ds). destruct Hin as [->|Hin]; [lra|]. apply IH; auto. lra. }
    specialize (G (seq 0 (length x)) ltac:(apply in_seq; lia) Z). specialize (FP d Hd).
    assert (G2 : (nth d x 0 - nth d y 0) / feature_scale l d = 0) by (apply Rsqr_0_uniq; unfold Rsqr; lra).
    unfold Rdiv in G2. apply Rmult_integral in G2. destruct G2 as [G2|G2]; [lra|]. pose proof (Rinv_0_lt_compat _ FP). lra.
Qed.

(** ** Positive semidefiniteness *)

(** A double sum of squares: sums over pairs of points of products of features. *)
Definition dsum {A} (pts : list A) (g : A -> A -> R) : R := sumR (map (fun a => sumR (map (fun b => g a b) pts)) pts).

Lemma dsum_ext : forall {A} (pts : list A) g g', (forall a b, In a pts -> In b pts -> g a b = g' a b) -> dsum pts g = dsum pts g'.
Proof. intros A pts g g' H. unfold dsum. apply sumR_map_ext. intros a Ha. apply sumR_map_ext. intros b Hb. auto. Qed.

Lemma dsum_add : forall {A} (pts : list A) g g', dsum pts (fun a b => g a b + g' a b) = dsum pts g + dsum pts g'.
Proof.
  intros A pts g g'. unfold dsum. rewrite <- (sumR_map_add pts (fun a => sumR (map (fun b => g a b) pts)) (fun a => sumR (map (fun b => g' a b) pts))).
  apply sumR_map_ext. intros a _. apply (sumR_map_add pts (fun b => g a b) (fun b => g' a b)).
Qed.

Lemma dsum_scal : forall {A} (pts : list A) c g, dsum pts (fun a b => c * g a b) = c * dsum pts g.
Proof.
  intros A pts c g. unfold dsum. rewrite <- (sumR_map_scal pts c (fun a => sumR (map (fun b => g a b) pts))).
  apply sumR_map_ext. intros a _. apply (sumR_map_scal pts c (fun b => g a b)).
Qed.

Lemma dsum_product : forall {A} (pts : list A) f, dsum pts (fun a b => f a * f b) = sumR (map f pts) * sumR (map f pts).
Proof.
  intros A pts f. unfold dsum. rewrite (sumR_map_ext pts _ (fun a => sumR (map f pts) * f a)).
  - apply (sumR_map_scal pts (sumR (map f pts)) f).
  - intros a _. rewrite (sumR_map_scal pts (f a) f). lra.
Qed.

Lemma dsum_zero : forall {A} (pts : list A), dsum pts (fun _ _ => 0) = 0.
Proof. intros A pts. rewrite (dsum_ext pts _ (fun a b => 0 * 0)) by (intros; lra). rewrite dsum_scal. lra. Qed.

(** Powers of inner products with weights: by distributing over features. *)
Lemma power_psd : forall {A} (pts : list A) (feat : A -> nat -> R) D n (w : A -> R),
  0 <= dsum pts (fun a b => w a * w b * (sumR (map (fun d => feat a d * feat b d) (seq 0 D))) ^ n).
Proof.
  intros A pts feat D n. induction n as [|n IH]; intros w.
  - rewrite (dsum_ext pts _ (fun a b => w a * w b)) by (intros; simpl; lra). rewrite dsum_product. apply (Rle_0_sqr (sumR (map w pts))).
  - assert (G : forall ds, dsum pts (fun a b => w a * w b * (sumR (map (fun d => feat a d * feat b d) ds) * (sumR (map (fun d => feat a d * feat b d) (seq 0 D))) ^ n)) =
      sumR (map (fun d => dsum pts (fun a b => (w a * feat a d) * (w b * feat b d) * (sumR (map (fun d => feat a d * feat b d) (seq 0 D))) ^ n)) ds)).
    { induction ds as [|d ds IHd]; cbn [map sumR].
      - rewrite (dsum_ext pts _ (fun _ _ => 0)) by (intros; lra). apply dsum_zero.
      - rewrite <- IHd, <- dsum_add. apply dsum_ext. intros; lra. }
    cbn [pow]. rewrite G. generalize (seq 0 D) at 2. intros ds. induction ds as [|d ds IHd]; cbn [map sumR]; [lra|]. specialize (IH (fun a => w a * feat a d)). cbn beta in IH. lra.
Qed.

Lemma partial_psd : forall {A} (pts : list A) (feat : A -> nat -> R) D N (w : A -> R),
  0 <= dsum pts (fun a b => w a * w b * sum_f_R0 (fun n => / INR (fact n) * (sumR (map (fun d => feat a d * feat b d) (seq 0 D))) ^ n) N).
Proof.
  intros A pts feat D N w. induction N as [|N IH].
  - rewrite (dsum_ext pts _ (fun a b => (/ INR (fact 0)) * (w a * w b * (sumR (map (fun d => feat a d * feat b d) (seq 0 D))) ^ 0))) by (intros; simpl; ring).
    rewrite dsum_scal. apply Rmult_le_pos; [left; apply Rinv_0_lt_compat, INR_fact_lt_0|apply power_psd].
  - rewrite (dsum_ext pts _ (fun a b => w a * w b * sum_f_R0 (fun n => / INR (fact n) * (sumR (map (fun d => feat a d * feat b d) (seq 0 D))) ^ n) N +
      (/ INR (fact (S N))) * (w a * w b * (sumR (map (fun d => feat a d * feat b d) (seq 0 D))) ^ (S N)))) by (intros; rewrite tech5; ring).
    rewrite dsum_add, dsum_scal. assert (0 <= / INR (fact (S N))) by (left; apply Rinv_0_lt_compat, INR_fact_lt_0).
    pose proof (power_psd pts feat D (S N) w) as Q. pose proof (Rmult_le_pos _ _ H Q). lra.
Qed.

Lemma sum_lim : forall {A} (l : list A) (u : nat -> A -> R) (v : A -> R), (forall a, In a l -> is_lim_seq (fun N => u N a) (v a)) ->
  is_lim_seq (fun N => sumR (map (u N) l)) (sumR (map v l)).
Proof.
  intros A l u v. induction l as [|a l IH]; intros H; cbn [map sumR]; [apply is_lim_seq_const|].
  apply (is_lim_seq_plus' (fun N => u N a) (fun N => sumR (map (u N) l))); [apply H; left; auto|apply IH; intros; apply H; right; auto].
Qed.

Lemma exp_lim : forall x, is_lim_seq (fun N => sum_f_R0 (fun n => / INR (fact n) * x ^ n) N) (exp x).
Proof.
  intros x. apply is_lim_seq_Reals. unfold exp. destruct (exist_exp x) as [e He]. cbn. exact He.
Qed.

Lemma exp_psd : forall {A} (pts : list A) (feat : A -> nat -> R) D (w : A -> R),
  0 <= dsum pts (fun a b => w a * w b * exp (sumR (map (fun d => feat a d * feat b d) (seq 0 D)))).
Proof.
  intros A pts feat D w.
  assert (L : is_lim_seq (fun N => dsum pts (fun a b => w a * w b * sum_f_R0 (fun n => / INR (fact n) * (sumR (map (fun d => feat a d * feat b d) (seq 0 D))) ^ n) N))
    (dsum pts (fun a b => w a * w b * exp (sumR (map (fun d => feat a d * feat b d) (seq 0 D)))))).
  { unfold dsum. apply (sum_lim pts (fun N a => sumR (map (fun b => w a * w b * sum_f_R0 (fun n => / INR (fact n) * (sumR (map (fun d => feat a d * feat b d) (seq 0 D))) ^ n) N) pts))
      (fun a => sumR (map (fun b => w a * w b * exp (sumR (map (fun d => feat a d * feat b d) (seq 0 D)))) pts))).
    intros a _. apply (sum_lim pts (fun N b => w a * w b * sum_f_R0 (fun n => / INR (fact n) * (sumR (map (fun d => feat a d * feat b d) (seq 0 D))) ^ n) N)
      (fun b => w a * w b * exp (sumR (map (fun d => feat a d * feat b d) (seq 0 D))))).
    intros b _. apply (is_lim_seq_scal_l (fun N => sum_f_R0 (fun n => / INR (fact n) * (sumR (map (fun d => feat a d * feat b d) (seq 0 D))) ^ n) N) (w a * w b) (exp _)). apply exp_lim. }
  pose proof (is_lim_seq_le (fun _ => 0) _ 0 _ (fun N => partial_psd pts feat D N w) (is_lim_seq_const 0) L) as Q. exact Q.
Qed.

Lemma kernel_psd : forall {A} (pts : list A) (feat : A -> nat -> R) D variance (c : A -> R), 0 < variance ->
  0 <= dsum pts (fun a b => c a * c b * (variance * exp (- (1 / 2) * sumR (map (fun d => (feat a d - feat b d) ^ 2) (seq 0 D))))).
Proof.
  intros A pts feat D variance c V.
  set (w := fun a => c a * exp (- (1 / 2) * sumR (map (fun d => feat a d ^ 2) (seq 0 D)))).
  rewrite (dsum_ext pts _ (fun a b => variance * (w a * w b * exp (sumR (map (fun d => feat a d * feat b d) (seq 0 D)))))).
  - rewrite dsum_scal. apply Rmult_le_pos; [lra|]. apply exp_psd.
  - intros a b _ _. unfold w.
    assert (E : - (1 / 2) * sumR (map (fun d => (feat a d - feat b d) ^ 2) (seq 0 D)) =
      (- (1 / 2) * sumR (map (fun d => feat a d ^ 2) (seq 0 D)) + - (1 / 2) * sumR (map (fun d => feat b d ^ 2) (seq 0 D))) + sumR (map (fun d => feat a d * feat b d) (seq 0 D))).
    { generalize (seq 0 D). induction l as [|d l IH]; cbn [map sumR]; [lra|]. rewrite Rmult_plus_distr_l, IH. field. }
    rewrite E, !exp_plus. ring.
Qed.

Lemma rbf_psd : forall D X l variance K c, (forall x, In x X -> length x = D) -> fits l D -> 0 < variance -> lengthscale_positive l = true ->
  rbf X None l variance = Some K -> 0 <= quadratic K c (length X).
Proof.
  intros D X l variance K c HX F V P E. destruct (rbf_entries D X None l variance HX HX F P V) as (K' & E' & _ & _ & N).
  rewrite E in E'. injection E' as <-.
  assert (Q : quadratic K c (length X) = dsum (seq 0 (length X)) (fun i j => c i * c j * (variance * exp (- (1 / 2) * sumR (map (fun d => (nth d (nth i X []) 0 / feature_scale l d - nth d (nth j X []) 0 / feature_scale l d) ^ 2) (seq 0 D)))))).
  { apply (dsum_ext (seq 0 (length X)) (fun i j => c i * c j * entry K i j)). intros i j Hi Hj. apply in_seq in Hi. apply in_seq in Hj. rewrite N by lia. unfold kernel.
    rewrite (HX (nth i X [])) by (apply nth_In; lia). f_equal. f_equal. f_equal. f_equal. apply sumR_map_ext. intros d _. unfold Rdiv. f_equal. ring. }
  rewrite Q. apply (kernel_psd (seq 0 (length X)) (fun i d => nth d (nth i X []) 0 / feature_scale l d)). auto.
Qed.
