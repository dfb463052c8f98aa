(** * Proofs for C87. *)
From Coquelicot Require Import Coquelicot.
From Coq Require Import Reals List Arith Lra Lia.
From Verif Require Import Transform GAN.
From Verif Require Import Penalty PenaltySpec.
Import ListNotations.
Local Open Scope R_scope.
Set Bullet Behavior "Strict Subproofs".

(** ** Interpolation *)
Lemma interpolate_length : forall eps a b, length eps = length a -> length a = length b -> length (interpolate eps a b) = length a.
Proof. intros. unfold interpolate. rewrite map_length, !combine_length. lia. Qed.

Lemma interpolate_nth : forall eps a b e, length eps = length a -> length a = length b -> (e < length a)%nat ->
  nth e (interpolate eps a b) 0 = nth e eps 0 * nth e a 0 + (1 - nth e eps 0) * nth e b 0.
Proof.
  unfold interpolate. induction eps as [|x eps IH]; intros [|y a] [|z b] e H1 H2 He; try discriminate; [cbn in He; lia|].
  destruct e as [|e]; [reflexivity|]. cbn [combine map nth fst snd] in *. apply IH; cbn in *; lia.
Qed.

Lemma on_line_iff : forall eps a b, length eps = length a -> length a = length b ->
  (on_segment a b (interpolate eps a b) <->
   exists t, 0 <= t <= 1 /\ forall e, (e < length a)%nat -> nth e eps 0 = t \/ nth e a 0 = nth e b 0).
Proof.
  intros eps a b H1 H2. split.
  - intros (_ & t & Ht & H). exists t. split; [exact Ht|]. intros e He. pose proof (H e He) as Q. rewrite interpolate_nth in Q by assumption.
    assert (Z : (nth e eps 0 - t) * (nth e a 0 - nth e b 0) = 0) by lra. apply Rmult_integral in Z. destruct Z; [left|right]; lra.
  - intros (t & Ht & H). split; [apply interpolate_length; assumption|]. exists t. split; [exact Ht|]. intros e He. rewrite interpolate_nth by assumption.
    destruct (H e He) as [E|E]; rewrite E; ring.
Qed.

Lemma box : forall eps a b e, length eps = length a -> length a = length b -> (e < length a)%nat -> 0 <= nth e eps 0 <= 1 ->
  Rmin (nth e a 0) (nth e b 0) <= nth e (interpolate eps a b) 0 <= Rmax (nth e a 0) (nth e b 0).
Proof.
  intros eps a b e H1 H2 He Hx. rewrite interpolate_nth by assumption. set (x := nth e eps 0) in *. set (y := nth e a 0). set (z := nth e b 0). clearbody x y z.
  unfold Rmin, Rmax. destruct (Rle_dec y z) as [L|L]; split.
  - assert (0 <= (1 - x) * (z - y)) by (apply Rmult_le_pos; lra). lra.
  - assert (0 <= x * (z - y)) by (apply Rmult_le_pos; lra). lra.
  - assert (0 <= x * (y - z)) by (apply Rmult_le_pos; lra). lra.
  - assert (0 <= (1 - x) * (y - z)) by (apply Rmult_le_pos; lra). lra.
Qed.

Lemma off_line : exists eps a b, length eps = length a /\ length a = length b /\ (forall x, In x eps -> 0 <= x < 1) /\
  ~ on_segment a b (interpolate eps a b).
Proof.
  exists [0; / 2], [1; 1], [0; 0]. split; [reflexivity|]. split; [reflexivity|]. split; [intros x [<-|[<-|[]]]; lra|].
  rewrite on_line_iff by reflexivity. intros (t & Ht & H). destruct (H 0%nat ltac:(cbn; lia)) as [E|E]; cbn in E; [|lra].
  destruct (H 1%nat ltac:(cbn; lia)) as [F|F]; cbn in F; lra.
Qed.

(** ** Slopes *)
Lemma put_with : forall (x : list R) e v, (e < length x)%nat -> put_at x e v = with_entry x e v.
Proof.
  induction x as [|y x IH]; intros e v H; [cbn in H; lia|]. destruct e as [|e]; [reflexivity|].
  cbn [put_at]. rewrite IH by (cbn in H; lia). reflexivity.
Qed.

Lemma Derive_shift : forall f c x, Derive (fun v => f v + c) x = Derive f x.
Proof. intros f c x. unfold Derive. f_equal. apply Lim_ext. intros h. f_equal. ring. Qed.

Lemma sum_put : forall (f : list R -> R) X i r, (i < length X)%nat ->
  sumR (map f (put_at X i r)) = f r + sumR (map f (firstn i X ++ skipn (S i) X)).
Proof.
  intros f. induction X as [|x X IH]; intros i r H; [cbn in H; lia|]. destruct i as [|i]; [reflexivity|].
  cbn [put_at map sumR firstn skipn app]. rewrite IH by (cbn in H; lia). cbn [skipn]. lra.
Qed.

Lemma row_slopes : forall f X, slopes (map f) X = map (fun x => norm (gradient_at f x)) X.
Proof.
  intros f X. unfold slopes, batch_gradients. rewrite map_map.
  transitivity (map (fun i => norm (gradient_at f (nth i X []))) (seq 0 (length X))).
  - apply map_ext_in. intros i Hi. apply in_seq in Hi. unfold norm. f_equal. f_equal. f_equal. unfold gradient_at. apply map_ext_in. intros e He. apply in_seq in He.
    transitivity (Derive (fun v => f (with_entry (nth i X []) e v) + sumR (map f (firstn i X ++ skipn (S i) X))) (nth e (nth i X []) 0)).
    + apply Derive_ext. intros v. rewrite sum_put by lia. rewrite put_with by lia. reflexivity.
    + apply Derive_shift.
  - clear. induction X as [|x X IH]; [reflexivity|]. cbn [length seq map nth]. f_equal. rewrite <- seq_shift, map_map. exact IH.
Qed.

(** ** The penalty *)
Lemma sum_squares_nonneg : forall l, 0 <= sumR (map (fun s => (s - 1) * (s - 1)) l).
Proof. induction l as [|x l IH]; cbn [map sumR]; [lra|]. pose proof (Rle_0_sqr (x - 1)) as Q. unfold Rsqr in Q. lra. Qed.

Lemma sum_squares_zero : forall l, sumR (map (fun s => (s - 1) * (s - 1)) l) = 0 <-> forall s, In s l -> s = 1.
Proof.
  induction l as [|x l IH]; cbn [map sumR]; [split; [intros _ s []|reflexivity]|]. pose proof (sum_squares_nonneg l) as P. pose proof (Rle_0_sqr (x - 1)) as Q. unfold Rsqr in Q. split.
  - intros H. assert (Z : (x - 1) * (x - 1) = 0) by lra. apply Rmult_integral in Z. intros s [<-|Hs]; [destruct Z; lra|]. apply IH; [lra|exact Hs].
  - intros H. rewrite (H x (or_introl eq_refl)). rewrite (proj2 IH); [lra|]. intros; apply H; right; auto.
Qed.

Lemma penalty_zero : forall p l, 0 < p -> l <> [] ->
  0 <= wgan_penalty (Some p) l /\ (wgan_penalty (Some p) l = 0 <-> forall s, In s l -> s = 1).
Proof.
  intros p l Hp Hl. unfold wgan_penalty, reduce_mean. destruct (Req_EM_T p 0); [lra|]. rewrite map_length.
  assert (L : 0 < INR (length l)) by (apply lt_0_INR; destruct l; [congruence|cbn; lia]). pose proof (Rinv_0_lt_compat _ L) as L'.
  pose proof (sum_squares_nonneg l) as P. split.
  - apply Rmult_le_pos; [lra|]. apply Rmult_le_pos; lra.
  - rewrite <- sum_squares_zero. split; [|intros ->; unfold Rdiv; ring]. intros H. apply Rmult_integral in H. destruct H as [H|H]; [lra|].
    unfold Rdiv in H. apply Rmult_integral in H. destruct H; lra.
Qed.

Lemma penalty_rows : forall p f X, 0 < p -> X <> [] ->
  0 <= wgan_penalty (Some p) (slopes (map f) X) /\
  (wgan_penalty (Some p) (slopes (map f) X) = 0 <-> forall x, In x X -> norm (gradient_at f x) = 1).
Proof.
  intros p f X Hp HX. rewrite row_slopes. destruct (penalty_zero p (map (fun x => norm (gradient_at f x)) X) Hp) as [A B].
  - destruct X; [congruence|discriminate].
  - split; [exact A|]. rewrite B. split; intros H.
    + intros x Hx. apply H. apply in_map_iff. exists x. auto.
    + intros s Hs. apply in_map_iff in Hs. destruct Hs as (x & <- & Hx). auto.
Qed.

(** A critic that centres its outputs on the batch: every output has derivative 1 - 1/2 in its own
    example, the sum of all has none. *)
Definition centred (X : list (list R)) : list R :=
  match X with [[a]; [b]] => [a - (a + b) / 2; b - (a + b) / 2] | _ => [] end.

Lemma centred_slopes : forall a b, slopes centred [[a]; [b]] = [0; 0].
Proof.
  intros a b. unfold slopes, batch_gradients. cbn [length seq map nth put_at].
  rewrite (Derive_ext (fun v => sumR (centred [[v]; [b]])) (fun _ => 0)) by (intros; cbn; lra).
  rewrite (Derive_ext (fun v => sumR (centred [[a]; [v]])) (fun _ => 0)) by (intros; cbn; lra).
  rewrite !Derive_const. cbn [sumR]. replace (0 * 0 + 0) with 0 by ring. rewrite sqrt_0. reflexivity.
Qed.

Lemma batch_wrong : exists D X, forall i, (i < length X)%nat ->
  Derive (fun v => nth i (D (put_at X i [v])) 0) (nth 0 (nth i X []) 0) <> 0 /\ nth i (slopes D X) 1 = 0.
Proof.
  exists centred, [[0]; [0]]. intros i Hi. rewrite centred_slopes. destruct i as [|[|i]]; [| |cbn in Hi; lia]; cbn [put_at nth]; (split; [|reflexivity]).
  - rewrite (Derive_ext (fun v => nth 0 (centred [[v]; [0]]) 0) (fun v => / 2 * v)) by (intros; cbn; lra). rewrite Derive_scal, Derive_id. lra.
  - rewrite (Derive_ext (fun v => nth 1 (centred [[0]; [v]]) 0) (fun v => / 2 * v)) by (intros; cbn; lra). rewrite Derive_scal, Derive_id. lra.
Qed.

(** A linear critic. *)
Lemma linear_gradient : forall a b x y, gradient_at (fun v => a * nth 0 v 0 + b * nth 1 v 0) [x; y] = [a; b].
Proof.
  intros. unfold gradient_at. cbn [length seq map nth].
  rewrite (Derive_ext (fun v => a * nth 0 (with_entry [x; y] 0 v) 0 + b * nth 1 (with_entry [x; y] 0 v) 0) (fun v => a * v + b * y)) by reflexivity.
  rewrite (Derive_ext (fun v => a * nth 0 (with_entry [x; y] 1 v) 0 + b * nth 1 (with_entry [x; y] 1 v) 0) (fun v => b * v + a * x)) by (intros; cbn; ring).
  rewrite (Derive_shift (fun v => a * v)), (Derive_shift (fun v => b * v)), !Derive_scal, !Derive_id. f_equal; [ring|f_equal; ring].
Qed.
