(** * C87: the gradient penalty of WGANInference. *)
From Coquelicot Require Import Coquelicot.
From Coq Require Import Reals List Arith Lra.
From Verif Require Import Transform GAN.
From Verif Require Import Penalty PenaltySpec PenaltyProofs.
Import ListNotations.
Local Open Scope R_scope.

(** The penalised point need not be on the line between the real and the generated
    example. *)
Theorem C87_line_refuted : exists eps a b, length eps = length a /\ length a = length b /\ (forall x, In x eps -> 0 <= x < 1) /\
  ~ on_segment a b (interpolate eps a b).
Proof. exact off_line. Qed.
Print Assumptions C87_line_refuted.

(** It is exactly if the random numbers agree wherever the examples differ.  Missing:
    the other draws. *)
Theorem C87_line_partial : forall eps a b, length eps = length a -> length a = length b ->
  (on_segment a b (interpolate eps a b) <->
   exists t, 0 <= t <= 1 /\ forall e, (e < length a)%nat -> nth e eps 0 = t \/ nth e a 0 = nth e b 0).
Proof. exact on_line_iff. Qed.
Print Assumptions C87_line_partial.

(** In any case it is in the box that the two examples span. *)
Theorem C87_box : forall eps a b e, length eps = length a -> length a = length b -> (e < length a)%nat -> 0 <= nth e eps 0 <= 1 ->
  Rmin (nth e a 0) (nth e b 0) <= nth e (interpolate eps a b) 0 <= Rmax (nth e a 0) (nth e b 0).
Proof. exact box. Qed.
Print Assumptions C87_box.

(** For a critic [f] that sees one example at a time, differentiable or not, the slopes
    are the lengths of its gradients at the penalised points. *)
Theorem C87_slopes : forall f X, slopes (map f) X = map (fun x => norm (gradient_at f x)) X.
Proof. exact row_slopes. Qed.
Print Assumptions C87_slopes.

(** The penalty is not negative, and zero exactly if all gradients have length 1. *)
Theorem C87_zero : forall penalty f X, 0 < penalty -> X <> [] ->
  0 <= wgan_penalty (Some penalty) (slopes (map f) X) /\
  (wgan_penalty (Some penalty) (slopes (map f) X) = 0 <-> forall x, In x X -> norm (gradient_at f x) = 1).
Proof. exact penalty_rows. Qed.
Print Assumptions C87_zero.

(** A critic that looks at the whole batch, as with batch normalisation: all slopes are
    zero although every output depends on its example. *)
Theorem C87_batch_refuted : exists D X, forall i, (i < length X)%nat ->
  Derive (fun v => nth i (D (put_at X i [v])) 0) (nth 0 (nth i X []) 0) <> 0 /\ nth i (slopes D X) 1 = 0.
Proof. exact batch_wrong. Qed.
Print Assumptions C87_batch_refuted.

(** A linear critic on two examples of two entries, and a draw that is on the line. *)
Example C87_met : slopes (map (fun v => 3 / 5 * nth 0 v 0 + 4 / 5 * nth 1 v 0)) (x_interpolated [[/ 2; / 2]; [0; / 4]] [[1; 2]; [3; 4]] [[0; 0]; [5; 6]]) = [1; 1] /\
  on_segment [1; 2] [0; 0] (interpolate [/ 2; / 2] [1; 2] [0; 0]).
Proof.
  split.
  - rewrite row_slopes. cbn [x_interpolated interpolate combine map fst snd]. rewrite !linear_gradient. unfold norm. cbn [map sumR].
    replace (3 / 5 * (3 / 5) + (4 / 5 * (4 / 5) + 0)) with 1 by field. rewrite sqrt_1. reflexivity.
  - apply on_line_iff; [reflexivity|reflexivity|]. exists (/ 2). split; [lra|]. intros [|[|e]] H; cbn; [left; reflexivity|left; reflexivity|].
    exfalso. apply Nat.lt_nge in H. apply H. cbn. apply le_n_S, le_n_S, Nat.le_0_l.
Qed.
