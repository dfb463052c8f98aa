(** * Property C96: the objective of ImplicitKLqp. *)
From Coq Require Import Reals List Arith Lra Lia Permutation.
From Verif Require Import Transform GAN.
From Verif Require Import ImplicitLoss ImplicitLossSpec ImplicitLossProofs.
Import ListNotations.
Local Open Scope R_scope.

(** If the discriminator has found the log ratio of the densities of every point,
    the loss without its regularisers is minus the log of the ratio of the joint
    densities of model and approximation, that is of the products over all entries
    of global variables and all points. *)
Theorem C96_densities : forall (globals : list (nat * (list R * list R))) (points : list (R * R)) regs,
  (forall b p, In b globals -> In p (fst (snd b)) \/ In p (snd (snd b)) -> 0 < p) ->
  (forall n, In n points -> 0 < fst n /\ 0 < snd n) ->
  exists l, implicit_loss [] (map (fun b => (fst b, (map ln (fst (snd b)), map ln (snd (snd b))))) globals)
      (RTensor (map (fun n => ln (fst n) - ln (snd n)) points)) regs = Some l /\
    exp (sumR regs - l) =
      product (concat (map (fun b => fst (snd b)) globals)) * product (map fst points) /
      (product (concat (map (fun b => snd (snd b)) globals)) * product (map snd points)).
Proof. exact loss_ratio. Qed.
Print Assumptions C96_densities.

(** With the scale number of points / batch size for the data, the mean of the losses
    over the batches of any partition into batches of one size is the loss of
    all points. *)
Theorem C96_batches : forall key g regs r batches m, (0 < m)%nat -> batches <> [] ->
  (forall b, In b batches -> length b = m) -> Permutation (concat batches) r ->
  exists ls l, map (fun b => implicit_loss [(key, INR (length r) / INR m)] g (RTensor b) regs) batches = map Some ls /\
    implicit_loss [] g (RTensor r) regs = Some l /\ sumR ls / INR (length ls) = l.
Proof. exact loss_batches. Qed.
Print Assumptions C96_batches.

(** With several scales the ratio of each variable is multiplied by its own. *)
Theorem C96_many : forall scale g d regs (r : nat -> list R), (2 <= length scale)%nat -> NoDup (map fst d) ->
  (forall key, In key (map fst scale) -> In (key, r key) d) ->
  implicit_loss scale g (RDict d) regs =
  Some (sumR regs - (sumR (map (fun b => sumR (fst (snd b))) g) - sumR (map (fun b => sumR (snd (snd b))) g) +
    sumR (map (fun ks => snd ks * sumR (r (fst ks))) scale))).
Proof. exact loss_each. Qed.
Print Assumptions C96_many.

(** A variable without a scale is then not scaled by 1 but left out. *)
Theorem C96_dropped : forall scale g d d' regs, (2 <= length scale)%nat -> NoDup (map fst d) -> NoDup (map fst d') ->
  (forall key, In key (map fst scale) -> exists r, In (key, r) d /\ In (key, r) d') ->
  implicit_loss scale g (RDict d) regs = implicit_loss scale g (RDict d') regs.
Proof. exact dropped_in. Qed.
Print Assumptions C96_dropped.

Theorem C96_dropped_refuted : exists scale d d' l, ratio_get d 2 = Some [0] /\ ratio_get d' 2 = Some [1] /\
  implicit_loss scale [] (RDict d) [] = Some l /\ implicit_loss scale [] (RDict d') [] = Some l.
Proof. exact dropped. Qed.
Print Assumptions C96_dropped_refuted.

(** The discriminator is trained on the sum, over the variables with a scale, of the
    mean ratio losses of their ratios; the values of the scales play no part. *)
Theorem C96_discriminator : forall ratio_loss scale p q regs (a b : nat -> list R), (2 <= length scale)%nat ->
  NoDup (map fst p) -> NoDup (map fst q) ->
  (forall key, In key (map fst scale) -> In (key, a key) p /\ In (key, b key) q) ->
  implicit_loss_d ratio_loss scale (RDict p) (RDict q) regs =
  Some (sumR (map (fun key => sumR (map (fun ab => ratio_loss (fst ab) (snd ab)) (combine (a key) (b key))) /
    INR (length (combine (a key) (b key)))) (map fst scale)) + sumR regs).
Proof. exact losses_each. Qed.
Print Assumptions C96_discriminator.

(** With at most one scale and the log loss it is that of C58_optimum. *)
Theorem C96_discriminator_log : forall scale a b regs, (length scale <= 1)%nat ->
  implicit_loss_d (fun x y => cross_entropy 1 x + cross_entropy 0 y) scale (RTensor a) (RTensor b) regs =
  Some (gan_loss_d a b regs).
Proof. exact loss_d_log. Qed.
Print Assumptions C96_discriminator_log.

(** Two variables with a scale, one without. *)
Example C96_discriminator_demo : implicit_loss_d (fun x y => y - x) [(0%nat, 9); (1%nat, 5)]
    (RDict [(0%nat, [1; 2]); (1%nat, [4]); (2%nat, [7])]) (RDict [(1%nat, [6]); (0%nat, [3; 6]); (2%nat, [0])]) [10] = Some 15.
Proof. unfold implicit_loss_d, reduce_mean. simpl. unfold reduce_mean. simpl. f_equal. field. Qed.

(** A single scale is applied to the ratio, whichever variable it is for: that of a
    global variable does not scale its densities. *)
Theorem C96_global_refuted : exists beta c lp lq r l,
  implicit_loss [(beta, c)] [(beta, ([lp], [lq]))] (RTensor [r]) [] = Some l /\ l <> - (c * lp - c * lq + r).
Proof. exact scale_wrong. Qed.
Print Assumptions C96_global_refuted.

(** One global variable with two entries, two points. *)
Example C96_met_densities : let globals := [(7%nat, ([1 / 2; 2], [1; 3]))] in let points := [(1 / 4, 1 / 2); (1, 2)] in
  (forall b p, In b globals -> In p (fst (snd b)) \/ In p (snd (snd b)) -> 0 < p) /\
  (forall n, In n points -> 0 < fst n /\ 0 < snd n).
Proof.
  split.
  - intros b p [<-|[]] H. simpl in H. intuition lra.
  - intros n [<-|[<-|[]]]; simpl; lra.
Qed.
(** Four points in two batches. *)
Example C96_met_batches : (0 < 2)%nat /\ (forall b, In b [[1; 3]; [2; 4]] -> length b = 2%nat) /\
  Permutation (concat [[1; 3]; [2; 4]]) [1; 2; 3; 4].
Proof.
  split; [lia|]. split; [intros b [<-|[<-|[]]]; reflexivity|].
  simpl. apply perm_skip. apply perm_swap.
Qed.
Example C96_met_global : implicit_loss [(0%nat, 2)] [(0%nat, ([0], [0]))] (RTensor [1]) [] = Some (-2).
Proof. unfold implicit_loss, pbeta_log_prob, qbeta_log_prob. simpl. f_equal. lra. Qed.
Example C96_met_many : let scale := [(0%nat, 3); (1%nat, 5)] in let d := [(0%nat, [3]); (1%nat, [4]); (2%nat, [0])] in
  (2 <= length scale)%nat /\ NoDup (map fst d) /\
  forall key, In key (map fst scale) -> In (key, if Nat.eqb key 0 then [3] else [4]) d.
Proof.
  split; [simpl; lia|]. split; [repeat constructor; simpl; intuition discriminate|].
  intros key [<-|[<-|[]]]; simpl; auto.
Qed.
