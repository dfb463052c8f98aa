(** * Property C70: the log joint density from which complete_conditional starts. *)
From Coq Require Import Ascii String List Bool Arith Lia Permutation.
From Verif Require Import CondJoint CondJointSpec CondJointProofs.
Import ListNotations.
Local Open Scope string_scope.

(** ** C70: after any history of calls, the log joint of a set of random
    variables is the sum of the log densities of its members, each once; it is
    refused if and only if one of them has none.

    Missing from the full statement: names in which an underscore does not
    append a number ([numbered]); for these it is false, see below. *)

Theorem C70_log_joint_of_set_partial : forall hist l,
  numbered_rvs (concat (l :: hist)) -> named_apart (concat (l :: hist)) ->
  (Forall (fun b => conj b = true) l ->
     exists l', snd (get_log_joint (after hist) l) = Some (AddN (map LogProb l')) /\ Permutation l l') /\
  (~ Forall (fun b => conj b = true) l -> snd (get_log_joint (after hist) l) = None).
Proof. exact log_joint_of_set. Qed.
Print Assumptions C70_log_joint_of_set_partial.

(** The name under which a log joint is kept does not tell the set {a, b} from
    the set {a_b}: the second gets the density of the first. *)
Theorem C70_joined_names_refuted : exists hist l,
  named_apart (concat (l :: hist)) /\
  (forall b, In b (concat (l :: hist)) -> conj b = true /\ exists n, cname b = n ++ "/") /\
  exists l', snd (get_log_joint (after hist) l) = Some (AddN (map LogProb l')) /\ ~ Permutation l l'.
Proof. exact joint_collision. Qed.
Print Assumptions C70_joined_names_refuted.

(** Another call for the same set, in whatever order it is iterated over,
    returns the same tensor and adds nothing to the graph. *)
Theorem C70_built_once_partial : forall hist l l2,
  numbered_rvs (concat (l :: hist)) -> named_apart (concat (l :: hist)) ->
  Permutation l l2 -> Forall (fun b => conj b = true) l ->
  get_log_joint (fst (get_log_joint (after hist) l)) l2 = get_log_joint (fst (get_log_joint (after hist) l)) l /\
  fst (get_log_joint (fst (get_log_joint (after hist) l)) l2) = fst (get_log_joint (after hist) l) /\
  snd (get_log_joint (fst (get_log_joint (after hist) l)) l2) = snd (get_log_joint (after hist) l).
Proof. exact log_joint_shared. Qed.
Print Assumptions C70_built_once_partial.

(** Two variables of which one has a made up name, after a call for one of them. *)
Example C70_demo :
  let a := mkcrv "Normal/" true in let b := mkcrv "Normal_1/" true in
  numbered_rvs (concat [[a; b]; [b]]) /\ named_apart (concat [[a; b]; [b]]) /\
  get_log_joint (after [[b]]) [b; a] =
    ([("Normal_1/_conjugate_log_prob", LogProb b); ("log_joint_of_Normal_1", AddN [LogProb b]);
      ("Normal/_conjugate_log_prob", LogProb a); ("log_joint_of_Normal_Normal_1", AddN [LogProb b; LogProb a])],
     Some (AddN [LogProb b; LogProb a])).
Proof.
  cbv zeta. split; [|split; [|vm_compute; reflexivity]].
  - assert (N1 : numbered "Normal").
    { split; [exists "N"%char, "ormal"; split; [reflexivity|intros [_ C]; vm_compute in C; lia]|].
      split; intros p q E; repeat (destruct p as [|? p]; [discriminate|first [discriminate|injection E as <- E]]). }
    assert (N2 : numbered "Normal_1").
    { split; [exists "N"%char, "ormal_1"; split; [reflexivity|intros [_ C]; vm_compute in C; lia]|].
      split; intros p q E.
      - repeat (destruct p as [|? p]; [first [discriminate|injection E as <-; exists "1"%char, ""; split; [reflexivity|split; vm_compute; lia]]|
                                        first [discriminate|injection E as <- E]]).
      - repeat (destruct p as [|? p]; [discriminate|first [discriminate|injection E as <- E]]). }
    intros x H. simpl in H. destruct H as [<-|[<-|[<-|[]]]]; [exists "Normal"|exists "Normal_1"|exists "Normal_1"]; auto.
  - intros x y H H' E. simpl in H, H'. destruct H as [<-|[<-|[<-|[]]]]; destruct H' as [<-|[<-|[<-|[]]]]; auto; discriminate.
Qed.

(** The node made for a variable can be made: its name has no colon, which
    TensorFlow refuses, whatever the name of the variable. *)
Theorem C70_node_name : forall b x y, term_name b <> x ++ ":" ++ y.
Proof. exact term_valid. Qed.
Print Assumptions C70_node_name.
Example C70_node_name_demo : term_name (mkcrv "x:0" true) = "x_0_conjugate_log_prob".
Proof. reflexivity. Qed.

(** Without [cond_set], the whole Markov blanket is conditioned on, but for the
    random variables whose names hold both "complete_conditional" and
    "cond_dist"; those that complete_conditional returned are among them. *)
Theorem C70_default_set : forall blanket,
  (forall i, In i (default_cond blanket) <->
     In i blanket /\ ~ (occurs "complete_conditional" (cname i) /\ occurs "cond_dist" (cname i))) /\
  (forall rv k c, In c blanket -> cname c = result_name rv k -> ~ In c (default_cond blanket)).
Proof. exact default_set. Qed.
Print Assumptions C70_default_set.

(** A conditional that an earlier call built from x is left out, x is not. *)
Example C70_default_demo :
  let x := mkcrv "x/" true in let c := mkcrv (result_name x "_1") true in
  cname c = "complete_conditional_x/cond_dist_1/" /\ default_cond [c; x] = [x].
Proof. split; reflexivity. Qed.
