(** * The generator's loss, Wasserstein losses and the hinge loss (proofs for C58). *)
From Coq Require Import Reals List Arith Bool Lia Lra Permutation.
From Verif Require Import Transform VIProofs GAN GANSpec GANProofs.
Import ListNotations.
Local Open Scope R_scope.

Lemma length_pos : forall {A} (l : list A), l <> [] -> 0 < INR (length l).
Proof. intros A l H. apply lt_0_INR. destruct l; [congruence|simpl; lia]. Qed.

Lemma sum_lt : forall (f : R -> R) l l', l <> [] -> Forall2 (fun a b => f a < f b) l l' -> sumR (map f l) < sumR (map f l').
Proof.
  intros f l l' Hn H. destruct H as [|a b l l' Hab H]; [congruence|]. clear Hn. revert a b Hab.
  induction H as [|c d l l' Hcd H IH]; intros a b Hab; simpl; [lra|]. specialize (IH c d Hcd). simpl in IH. lra.
Qed.
Lemma same_length : forall (P : R -> R -> Prop) l l', Forall2 P l l' -> length l = length l'.
Proof. intros P l l' H. induction H; simpl; congruence. Qed.
Lemma mean_lt : forall (f : R -> R) l l', l <> [] -> Forall2 (fun a b => f a < f b) l l' -> reduce_mean (map f l) < reduce_mean (map f l').
Proof.
  intros f l l' Hn H. unfold reduce_mean. rewrite !map_length. rewrite <- (same_length _ _ _ H).
  apply Rmult_lt_compat_r; [apply Rinv_0_lt_compat, length_pos; auto|]. apply sum_lt; auto.
Qed.
Lemma mean_id : forall l, reduce_mean l = reduce_mean (map (fun x => x) l).
Proof. intros l. now rewrite map_id. Qed.

Lemma generator_term : forall x, cross_entropy 1 x = - ln (/ (1 + exp (- x))).
Proof. intros x. rewrite cross_entropy_eq. lra. Qed.

Lemma generator_loss : forall d_fake regs,
  gan_loss d_fake regs = sumR (map (fun x => - ln (/ (1 + exp (- x)))) d_fake) / INR (length d_fake) + sumR regs /\
  (d_fake <> [] -> forall better, Forall2 Rlt d_fake better -> gan_loss better regs < gan_loss d_fake regs).
Proof.
  intros d regs. unfold gan_loss, reduce_mean. split.
  - rewrite map_length. f_equal. f_equal. apply sumR_map_ext. intros x _. apply generator_term.
  - intros Hn better H. apply Rplus_lt_compat_r.
    assert (Hb : better <> []) by (destruct H; [congruence|discriminate]).
    apply (mean_lt (cross_entropy 1) better d Hb). clear Hn Hb.
    induction H as [|a b l l' Hab H IH]; constructor; auto. rewrite !generator_term.
    assert (P : forall y, 0 < 1 + exp y) by (intros y; pose proof (exp_pos y); lra).
    apply Ropp_lt_contravar. apply ln_increasing; [apply Rinv_0_lt_compat, P|].
    apply Rinv_lt_contravar; [apply Rmult_lt_0_compat; apply P|]. apply Rplus_lt_compat_l. apply exp_increasing. lra.
Qed.

(** ** Wasserstein *)
Lemma wgan_losses : forall d_true d_fake penalty regs_d regs, d_true <> [] -> d_fake <> [] ->
  (forall more, Forall2 Rlt d_true more -> wgan_loss_d more d_fake penalty regs_d < wgan_loss_d d_true d_fake penalty regs_d) /\
  (forall more, Forall2 Rlt d_fake more -> wgan_loss_d d_true d_fake penalty regs_d < wgan_loss_d d_true more penalty regs_d /\
     wgan_loss more regs < wgan_loss d_fake regs) /\
  (forall c, wgan_loss_d (map (Rplus c) d_true) (map (Rplus c) d_fake) penalty regs_d = wgan_loss_d d_true d_fake penalty regs_d) /\
  (forall r, wgan_loss_d d_true d_fake penalty (r :: regs_d) = wgan_loss_d d_true d_fake penalty regs_d + r /\
     wgan_loss_d d_true d_fake (penalty + r) regs_d = wgan_loss_d d_true d_fake penalty regs_d + r /\
     wgan_loss d_fake (r :: regs) = wgan_loss d_fake regs + r).
Proof.
  intros dt df pen rd r Ht Hf. unfold wgan_loss_d, wgan_loss. split; [|split; [|split]].
  - intros more H. rewrite (mean_id dt), (mean_id more). pose proof (mean_lt (fun x => x) dt more Ht H). lra.
  - intros more H. rewrite (mean_id df), (mean_id more). pose proof (mean_lt (fun x => x) df more Hf H). lra.
  - intros c. assert (Sh : forall l, l <> [] -> reduce_mean (map (Rplus c) l) = c + reduce_mean l).
    { intros l Hl. unfold reduce_mean. rewrite map_length. assert (E : sumR (map (Rplus c) l) = INR (length l) * c + sumR l).
      { clear. induction l as [|a l IH]; [simpl; lra|]. change (length (a :: l)) with (S (length l)). rewrite S_INR. simpl. rewrite IH. lra. }
      rewrite E. pose proof (length_pos l Hl). field. lra. }
    rewrite !Sh by auto. lra.
  - intros x. simpl. lra.
Qed.

Lemma sumR_perm' : forall a b, Permutation a b -> sumR a = sumR b.
Proof. intros a b H. induction H; simpl; lra. Qed.

Lemma wasserstein_bound : forall {A} (dist : A -> A -> R) (critic : A -> R) xs ys pairing, (forall x y, critic x - critic y <= dist x y) ->
  xs <> [] -> length xs = length ys -> Permutation ys pairing ->
  - (sumR (map (fun p => dist (fst p) (snd p)) (combine xs pairing)) / INR (length xs)) <= wgan_loss_d (map critic xs) (map critic ys) 0 [].
Proof.
  intros A dist critic xs ys pairing Hc Hn HL HP. unfold wgan_loss_d, reduce_mean. rewrite !map_length, <- HL.
  rewrite (sumR_perm' (map critic ys) (map critic pairing)) by (apply Permutation_map; auto).
  assert (Len : length xs = length pairing) by (rewrite HL; apply Permutation_length; auto).
  assert (S : sumR (map critic xs) - sumR (map critic pairing) <= sumR (map (fun p => dist (fst p) (snd p)) (combine xs pairing))).
  { clear HP HL Hn. revert pairing Len. induction xs as [|x xs IH]; intros [|y l] Len; simpl in *; try discriminate; [lra|].
    injection Len as Len. specialize (IH l Len). specialize (Hc x y). lra. }
  pose proof (length_pos xs Hn) as P. simpl. unfold Rdiv. assert (0 < / INR (length xs)) by (apply Rinv_0_lt_compat; auto). nra.
Qed.

Lemma square_sum : forall l, 0 <= sumR (map (fun s => (s - 1) * (s - 1)) l) /\
  (sumR (map (fun s => (s - 1) * (s - 1)) l) = 0 -> Forall (fun s => s = 1) l).
Proof.
  induction l as [|a l [IH1 IH2]]; simpl; [split; [lra|constructor]|].
  pose proof (Rle_0_sqr (a - 1)) as Q. unfold Rsqr in Q. split; [lra|]. intros E. constructor; [|apply IH2; lra].
  assert (Z : (a - 1) * (a - 1) = 0) by lra. apply Rmult_integral in Z. destruct Z; lra.
Qed.

Lemma penalty_spec : forall p slopes, 0 < p -> slopes <> [] ->
  wgan_penalty (Some p) slopes = p * (sumR (map (fun s => (s - 1) * (s - 1)) slopes) / INR (length slopes)) /\
  0 <= wgan_penalty (Some p) slopes /\
  (wgan_penalty (Some p) slopes = 0 <-> Forall (fun s => s = 1) slopes) /\
  wgan_penalty None slopes = 0 /\ wgan_penalty (Some 0) slopes = 0.
Proof.
  intros p slopes Hp Hn. unfold wgan_penalty, reduce_mean. rewrite map_length.
  destruct (Req_EM_T p 0); [lra|]. destruct (Req_EM_T 0 0); [|lra].
  pose proof (length_pos slopes Hn) as P. destruct (square_sum slopes) as [S1 S2].
  assert (I : 0 < / INR (length slopes)) by (apply Rinv_0_lt_compat; auto).
  set (q := sumR (map (fun s => (s - 1) * (s - 1)) slopes)) in *.
  split; auto. split; [unfold Rdiv; apply Rmult_le_pos; [lra|apply Rmult_le_pos; lra]|]. split; [|auto]. split.
  - intros E. apply S2. apply Rmult_integral in E. destruct E as [E|E]; [lra|]. unfold Rdiv in E. apply Rmult_integral in E. destruct E; lra.
  - intros F. assert (q = 0).
    { unfold q. clear -F. induction F as [|a l -> F IH]; simpl; lra. }
    rewrite H. unfold Rdiv. lra.
Qed.

Lemma hinge_spec : forall p q, 0 <= hinge_loss p q /\ (hinge_loss p q = 0 <-> 1 <= p /\ q <= -1) /\
  (p <= 1 -> -1 <= q -> hinge_loss p q = 2 - p + q).
Proof.
  intros p q. unfold hinge_loss, Rmax. destruct (Rle_dec (1 - p) 0), (Rle_dec (1 + q) 0); repeat split; intros; lra.
Qed.
