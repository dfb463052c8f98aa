(** * C74: copying loops and conditionals *)
From Coq Require Import String List Arith Bool Lia.
From Verif Require Import CopyLoop CopyLoopSpec CopyLoopProofs.
Import ListNotations.
Open Scope list_scope.

(** For every graph, cyclic or not, that TensorFlow builds with tf.while_loop and
    tf.cond, every dict_swap and every tensor: copy returns, the copies mirror the
    original operations and contexts, and exactly what the tensor needs is copied.
    Missing: contexts in no collection (the loops of gradients), refuted below. *)
Theorem C74_loops_partial : forall g swap scope n m, built g swap n m -> forall f t, fst t < n -> 2 + n * (m + 3) <= f ->
  exists s cp, copy_tensor g swap scope f t empty = Some (image g swap t, s) /\
    mirror g swap scope s cp /\ forall o, exists_copy s o <-> needed g swap t o.
Proof. exact copy_loops. Qed.
Print Assumptions C74_loops_partial.

(** A context in no collection, as that of the loop that computes the gradient of a
    loop, is copied once per operation: two operations of one loop end in two. *)
Theorem C74_gradient_refuted : exists g, forall scope, exists s r0 r1,
  copy_tensor g (fun _ => None) scope 10 (1, 0) empty = Some (New (1, 0), s) /\
  lookup (ops s) 0 = Some r0 /\ lookup (ops s) 1 = Some r1 /\
  context g 0 = context g 1 /\ c_context r0 <> c_context r1.
Proof. exact (ex_intro _ gradient_loop gradient_loop_copied). Qed.
Print Assumptions C74_gradient_refuted.

(** A loop with a conditional in it: Enter 0, Merge 1, LoopCond 2, Switch 3, the
    conditional's Switch 4, a product 5 with a variable and its Merge 6,
    NextIteration 7, Exit 8; 9 is the initial value, 11 the variable
    (random_variables.py:101-129). *)
Definition loop : graph :=
  mkgraph (fun _ => false) (fun _ => false)
    (fun o => nth o [[(9, 0)]; [(0, 0); (7, 0)]; [(1, 0)]; [(1, 0); (2, 0)]; [(3, 1); (2, 0)]; [(4, 1); (11, 0)]; [(5, 0); (4, 0)]; [(6, 0)]; [(3, 0)]] [])
    (fun o => nth o [[]; []; []; []; []; [4]] [])
    (fun o => nth o [Some 0; Some 0; Some 0; Some 0; Some 1; Some 1; Some 0; Some 0] None)
    (fun o => nth o [Some "while"%string] None)
    (fun t => fst t =? 11)
    (fun c => nth c [[(0, 0); (1, 0); (2, 0); (3, 0); (3, 1); (6, 0); (7, 0); (9, 0)]; [(4, 0); (4, 1); (5, 0); (3, 1)]] [])
    (fun c => match c with 1 => Some 0 | _ => None end)
    (fun _ => true).

Lemma loop_within : forall c d, within loop c d -> d = c \/ (d = 1 /\ c = 0).
Proof.
  intros c d H. induction H as [|d e E H IH]; [left; reflexivity|]. right.
  destruct d as [|[|d]]; try discriminate E. injection E as <-. destruct IH as [<-|[Q _]]; [split; reflexivity|discriminate Q].
Qed.

Example C74_loop_built : built loop (fun _ => None) 12 2.
Proof.
  constructor.
  - intros o t H. do 9 (destruct o as [|o]; [cbn in H; intuition subst; cbn; lia|]). destruct o; destruct H.
  - intros o t H. do 6 (destruct o as [|o]; [cbn in H; intuition subst; cbn; lia|]). destruct o; destruct H.
  - intros o t H. do 2 (destruct o as [|o]; [cbn in H; intuition subst; cbn; lia|]). destruct o; destruct H.
  - intros o c H. do 8 (destruct o as [|o]; [cbn in H; injection H as <-; lia|]). destruct o; discriminate H.
  - intros c d H. destruct c as [|[|c]]; try discriminate H. injection H as <-. lia.
  - reflexivity.
  - intros o c H. do 8 (destruct o as [|o]; [cbn in H; injection H as <-; exists 0; cbn; tauto|]). destruct o; discriminate H.
  - intros c o t Ho Ht (d & Hd & Hw). destruct (loop_within c d Hw) as [->|[-> ->]]; [exact Hd|]. exfalso. apply Ho.
    do 8 (destruct o as [|o]; [first [exists 0; split; [reflexivity|apply w_self] | exists 1; split; [reflexivity|eapply w_up; [reflexivity|apply w_self]]]|]).
    destruct o as [|o]; [cbn in Ht; intuition subst; discriminate Hd|]. destruct o; destruct Ht.
  - intros c o t Ho Ht (d & Hd & Hw). destruct (loop_within c d Hw) as [->|[-> ->]]; [exact Hd|]. exfalso. apply Ho.
    do 5 (destruct o as [|o]; [destruct Ht|]). destruct o as [|o]; [exists 1; split; [reflexivity|eapply w_up; [reflexivity|apply w_self]]|].
    destruct o; destruct Ht.
  - intros c d t Hd Ht (e & He & Hw). destruct (loop_within c e Hw) as [->|[-> ->]]; [exact He|]. exfalso.
    destruct d as [|[|d]]; [apply Hd, w_self|apply Hd; eapply w_up; [reflexivity|apply w_self]|]. destruct d; destruct Ht.
  - reflexivity.
Qed.

(** The copied loop: its Merge takes the copied Enter and NextIteration, the product
    the variable itself, the conditional's context is nested in the loop's. *)
Example C74_loop_copied : exists s,
  copy_tensor loop (fun _ => None) "copied/" 72 (8, 0) empty = Some (New (8, 0), s) /\
  lookup (ops s) 0 = Some (mkcopied [New (9, 0)] [] (Some 0) (Some "copied/while"%string)) /\
  lookup (ops s) 1 = Some (mkcopied [New (0, 0); New (7, 0)] [] (Some 0) None) /\
  lookup (ops s) 5 = Some (mkcopied [New (4, 1); Old (11, 0)] [New 4] (Some 1) None) /\
  lookup (ops s) 11 = None /\ contexts s = [(0, None); (1, Some 0)].
Proof. eexists. repeat split. Qed.
