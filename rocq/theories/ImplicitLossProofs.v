(** * Proofs for C96. *)
From Coq Require Import Reals List Arith Lia Lra Permutation.
From Verif Require Import Transform GAN.
From Verif Require Import ImplicitLoss ImplicitLossSpec.
Import ListNotations.
Set Bullet Behavior "Strict Subproofs".
Local Open Scope R_scope.

Lemma sum_scaled : forall s l, sumR (map (Rmult s) l) = s * sumR l.
Proof. induction l as [|a l IH]; simpl; [ring|rewrite IH; ring]. Qed.

Lemma sum_appended : forall a b, sumR (a ++ b) = sumR a + sumR b.
Proof. induction a as [|x a IH]; intros b; simpl; [ring|rewrite IH; ring]. Qed.

Lemma sum_concat : forall l, sumR (concat l) = sumR (map sumR l).
Proof. induction l as [|a l IH]; simpl; auto. rewrite sum_appended, IH; auto. Qed.

Lemma sum_perm : forall a b, Permutation a b -> sumR a = sumR b.
Proof. induction 1; simpl; lra. Qed.

Lemma exp_sum : forall l, (forall p, In p l -> 0 < p) -> exp (sumR (map ln l)) = product l.
Proof.
  induction l as [|a l IH]; intros H; simpl; [apply exp_0|].
  rewrite exp_plus, exp_ln, IH; auto; [intros; apply H; right; auto|apply H; left; auto].
Qed.

Lemma exp_sums : forall l, (forall b p, In b l -> In p b -> 0 < p) ->
  exp (sumR (map (fun b => sumR (map ln b)) l)) = product (concat l).
Proof.
  induction l as [|a l IH]; intros H; simpl; [apply exp_0|].
  rewrite exp_plus, exp_sum, IH.
  - clear. induction a as [|x a IHa]; simpl; [ring|rewrite <- IHa; ring].
  - intros b p Hb. apply (H b p). right; auto.
  - intros p. apply (H a p). left; auto.
Qed.

Lemma product_pos : forall l, (forall p, In p l -> 0 < p) -> 0 < product l.
Proof.
  induction l as [|a l IH]; intros H; simpl; [lra|].
  apply Rmult_lt_0_compat; [apply H; left; auto|apply IH; intros; apply H; right; auto].
Qed.

Lemma loss_ratio : forall (globals : list (nat * (list R * list R))) (points : list (R * R)) regs,
  (forall b p, In b globals -> In p (fst (snd b)) \/ In p (snd (snd b)) -> 0 < p) ->
  (forall n, In n points -> 0 < fst n /\ 0 < snd n) ->
  exists l, implicit_loss [] (map (fun b => (fst b, (map ln (fst (snd b)), map ln (snd (snd b))))) globals)
      (RTensor (map (fun n => ln (fst n) - ln (snd n)) points)) regs = Some l /\
    exp (sumR regs - l) =
      product (concat (map (fun b => fst (snd b)) globals)) * product (map fst points) /
      (product (concat (map (fun b => snd (snd b)) globals)) * product (map snd points)).
Proof.
  intros globals points regs Hg Hp. eexists. split; [reflexivity|].
  rewrite sum_scaled. unfold pbeta_log_prob, qbeta_log_prob.
  rewrite (map_map _ (fun b => sumR (fst (snd b)))), (map_map _ (fun b => sumR (snd (snd b)))). cbn [fst snd].
  assert (Q : sumR (map (fun n : R * R => ln (fst n) - ln (snd n)) points) =
    sumR (map ln (map fst points)) - sumR (map ln (map snd points))).
  { clear. induction points as [|n l IH]; simpl; lra. }
  rewrite Q.
  set (A := sumR (map (fun b : nat * (list R * list R) => sumR (map ln (fst (snd b)))) globals)).
  set (B := sumR (map (fun b : nat * (list R * list R) => sumR (map ln (snd (snd b)))) globals)).
  set (C := sumR (map ln (map fst points))). set (D := sumR (map ln (map snd points))).
  replace (sumR regs - - (A - B + 1 * (C - D) - sumR regs)) with (A + C + - (B + D)) by ring.
  rewrite exp_plus, exp_Ropp, !exp_plus. unfold Rdiv.
  assert (EA : exp A = product (concat (map (fun b => fst (snd b)) globals))).
  { unfold A. rewrite <- exp_sums; [rewrite map_map; auto|]. intros b p Hb. apply in_map_iff in Hb.
    destruct Hb as (x & <- & Hx). intros; eapply Hg; eauto. }
  assert (EB : exp B = product (concat (map (fun b => snd (snd b)) globals))).
  { unfold B. rewrite <- exp_sums; [rewrite map_map; auto|]. intros b p Hb. apply in_map_iff in Hb.
    destruct Hb as (x & <- & Hx). intros; eapply Hg; eauto. }
  rewrite EA, EB. unfold C, D. rewrite !exp_sum; auto; intros p Hin; apply in_map_iff in Hin;
    destruct Hin as (x & <- & Hx); apply (Hp x Hx).
Qed.

Lemma sum_affine : forall (f : list R -> R) c s batches, (forall b, f b = c - s * sumR b) ->
  sumR (map f batches) = INR (length batches) * c - s * sumR (map sumR batches).
Proof.
  intros f c s batches H. induction batches as [|b l IH]; [simpl; ring|].
  change (length (b :: l)) with (S (length l)). rewrite S_INR. simpl. rewrite IH, H. ring.
Qed.

Lemma concat_length : forall (batches : list (list R)) m, (forall b, In b batches -> length b = m) ->
  length (concat batches) = (length batches * m)%nat.
Proof.
  induction batches as [|b l IH]; intros m H; simpl; auto.
  rewrite app_length, (IH m), (H b); simpl; auto. intros; apply H; right; auto.
Qed.

Lemma loss_batches : forall key g regs r batches m, (0 < m)%nat -> batches <> [] ->
  (forall b, In b batches -> length b = m) -> Permutation (concat batches) r ->
  exists ls l, map (fun b => implicit_loss [(key, INR (length r) / INR m)] g (RTensor b) regs) batches = map Some ls /\
    implicit_loss [] g (RTensor r) regs = Some l /\ reduce_mean ls = l.
Proof.
  intros key g regs r batches m Hm Hne Hb Hp.
  set (f := fun b => - (pbeta_log_prob g - qbeta_log_prob g + sumR (map (Rmult (INR (length r) / INR m)) b) - sumR regs)).
  exists (map f batches). eexists. split; [rewrite map_map; reflexivity|]. split; [reflexivity|].
  unfold reduce_mean. rewrite map_length.
  rewrite (sum_affine f (- (pbeta_log_prob g - qbeta_log_prob g - sumR regs)) (INR (length r) / INR m)).
  2:{ intros b. unfold f. rewrite sum_scaled. ring. }
  rewrite <- sum_concat, (sum_perm _ _ Hp), sum_scaled.
  rewrite <- (Permutation_length Hp), (concat_length batches m Hb), mult_INR.
  assert (H1 : INR (length batches) <> 0) by (apply not_0_INR; destruct batches; simpl; [congruence|lia]).
  assert (H2 : INR m <> 0) by (apply not_0_INR; lia).
  field; auto.
Qed.

Lemma unscaled_dropped : forall scale g d d' regs, (2 <= length scale)%nat ->
  (forall key, In key (map fst scale) -> ratio_get d key = ratio_get d' key) ->
  implicit_loss scale g (RDict d) regs = implicit_loss scale g (RDict d') regs.
Proof.
  intros scale g d d' regs H E.
  assert (G : scaled_ratios scale d = scaled_ratios scale d').
  { clear H. induction scale as [|[k s] l IH]; auto. simpl. rewrite (E k) by (left; auto).
    rewrite IH; auto. intros; apply E; right; auto. }
  unfold implicit_loss, scaled_ratio. destruct scale as [|[k s] [|[k2 s2] l]]; simpl in H; try lia. rewrite G; auto.
Qed.

Lemma loss_many : forall scale g d regs (r : nat -> list R), (2 <= length scale)%nat ->
  (forall key, In key (map fst scale) -> ratio_get d key = Some (r key)) ->
  implicit_loss scale g (RDict d) regs =
  Some (sumR regs - (pbeta_log_prob g - qbeta_log_prob g + sumR (map (fun ks => snd ks * sumR (r (fst ks))) scale))).
Proof.
  intros scale g d regs r H E.
  assert (G : scaled_ratios scale d = Some (sumR (map (fun ks => snd ks * sumR (r (fst ks))) scale))).
  { clear H. induction scale as [|[k s] l IH]; auto. simpl. rewrite (E k) by (left; auto).
    rewrite IH; [rewrite sum_scaled; auto|]. intros; apply E; right; auto. }
  unfold implicit_loss, scaled_ratio. destruct scale as [|[k s] [|[k2 s2] l]]; simpl in H; try lia. rewrite G.
  f_equal. ring.
Qed.

Lemma scale_wrong : exists beta c lp lq r l,
  implicit_loss [(beta, c)] [(beta, ([lp], [lq]))] (RTensor [r]) [] = Some l /\ l <> - (c * lp - c * lq + r).
Proof.
  exists 0%nat, 2, 0, 0, 1. eexists. split; [reflexivity|]. unfold pbeta_log_prob, qbeta_log_prob. simpl. lra.
Qed.

Lemma dropped : exists scale d d' l, ratio_get d 2 = Some [0] /\ ratio_get d' 2 = Some [1] /\
  implicit_loss scale [] (RDict d) [] = Some l /\ implicit_loss scale [] (RDict d') [] = Some l.
Proof.
  exists [(0%nat, 1); (1%nat, 1)], [(0%nat, [3]); (1%nat, [4]); (2%nat, [0])], [(0%nat, [3]); (1%nat, [4]); (2%nat, [1])].
  eexists. repeat split; reflexivity.
Qed.

Lemma get_in : forall d key r, NoDup (map fst d) -> In (key, r) d -> ratio_get d key = Some r.
Proof.
  induction d as [|[k v] d IH]; intros key r N H; [destruct H|]. inversion N as [|? ? N1 N2]; subst. simpl.
  destruct H as [H|H].
  - inversion H; subst. rewrite Nat.eqb_refl; auto.
  - destruct (Nat.eqb_spec k key); auto. subst. destruct N1. apply (in_map fst) in H. exact H.
Qed.

Lemma loss_each : forall scale g d regs (r : nat -> list R), (2 <= length scale)%nat -> NoDup (map fst d) ->
  (forall key, In key (map fst scale) -> In (key, r key) d) ->
  implicit_loss scale g (RDict d) regs =
  Some (sumR regs - (sumR (map (fun b => sumR (fst (snd b))) g) - sumR (map (fun b => sumR (snd (snd b))) g) +
    sumR (map (fun ks => snd ks * sumR (r (fst ks))) scale))).
Proof. intros scale g d regs r H N E. apply loss_many; auto. intros key K. apply get_in; auto. Qed.

Lemma dropped_in : forall scale g d d' regs, (2 <= length scale)%nat -> NoDup (map fst d) -> NoDup (map fst d') ->
  (forall key, In key (map fst scale) -> exists r, In (key, r) d /\ In (key, r) d') ->
  implicit_loss scale g (RDict d) regs = implicit_loss scale g (RDict d') regs.
Proof.
  intros scale g d d' regs H N N' E. apply unscaled_dropped; auto. intros key K.
  destruct (E key K) as (r & A & B). rewrite (get_in d key r N A), (get_in d' key r N' B); auto.
Qed.

Lemma losses_each : forall ratio_loss scale p q regs (a b : nat -> list R), (2 <= length scale)%nat ->
  NoDup (map fst p) -> NoDup (map fst q) ->
  (forall key, In key (map fst scale) -> In (key, a key) p /\ In (key, b key) q) ->
  implicit_loss_d ratio_loss scale (RDict p) (RDict q) regs =
  Some (sumR (map (fun key => sumR (map (fun ab => ratio_loss (fst ab) (snd ab)) (combine (a key) (b key))) /
    INR (length (combine (a key) (b key)))) (map fst scale)) + sumR regs).
Proof.
  intros ratio_loss scale p q regs a b H Np Nq E.
  assert (G : ratio_losses ratio_loss scale p q = Some (sumR (map (fun key =>
    sumR (map (fun ab => ratio_loss (fst ab) (snd ab)) (combine (a key) (b key))) /
    INR (length (combine (a key) (b key)))) (map fst scale)))).
  { clear H. induction scale as [|[k s] l IH]; auto. cbn [ratio_losses map fst sumR].
    destruct (E k) as [A B]; [left; auto|]. rewrite (get_in p k _ Np A), (get_in q k _ Nq B), IH.
    - unfold reduce_mean. rewrite map_length. auto.
    - intros; apply E; right; auto. }
  unfold implicit_loss_d. destruct scale as [|[k s] [|[k2 s2] l]]; simpl in H; try lia. rewrite G. auto.
Qed.

Lemma loss_d_log : forall scale a b regs, (length scale <= 1)%nat ->
  implicit_loss_d (fun x y => cross_entropy 1 x + cross_entropy 0 y) scale (RTensor a) (RTensor b) regs =
  Some (gan_loss_d a b regs).
Proof. intros [|k [|k2 l]] a b regs H; simpl in H; try lia; reflexivity. Qed.
