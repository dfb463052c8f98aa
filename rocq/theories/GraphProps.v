(** * Properties C01-C08: graph queries and conditional independence. *)
From Coq Require Import List Arith Bool Lia Relations.
From Verif Require Import Graph GraphSpec GraphProofs.
From Verif Require Import BayesBall BayesBallSpec BayesBallProofs.
Import ListNotations.

(** ** C01 *)

Theorem C01_get_parents_exact : forall g coll pick fuel x,
  single_producer g -> distinct_values g coll -> enough g <= fuel ->
  exists res, get_parents g coll pick fuel x = Some res /\ NoDup res /\
    forall r, In r res <->
      In r coll /\ NRV r <> x /\
      up g (clear g coll x) (tensor_of g x) (value g r).
Proof. exact get_parents_exact. Qed.
Print Assumptions C01_get_parents_exact.

Theorem C01_get_children_exact : forall g coll pick fuel x,
  distinct_values g coll -> enough g <= fuel ->
  exists res, get_children g coll pick fuel x = Some res /\ NoDup res /\
    forall r, In r res <->
      In r coll /\ NRV r <> x /\
      down g (clear g coll x) (tensor_of g x) (value g r).
Proof. exact get_children_exact. Qed.
Print Assumptions C01_get_children_exact.

(** ** C02 *)

Theorem C02_get_ancestors_exact : forall g coll pick fuel x,
  single_producer g -> distinct_values g coll -> enough g <= fuel ->
  exists res, get_ancestors g coll pick fuel x = Some res /\ NoDup res /\
    forall r, In r res <->
      In r coll /\ NRV r <> x /\ up g anything (tensor_of g x) (value g r).
Proof. exact get_ancestors_exact. Qed.
Print Assumptions C02_get_ancestors_exact.

Theorem C02_get_descendants_exact : forall g coll pick fuel x,
  distinct_values g coll -> enough g <= fuel ->
  exists res, get_descendants g coll pick fuel x = Some res /\ NoDup res /\
    forall r, In r res <->
      In r coll /\ NRV r <> x /\ down g anything (tensor_of g x) (value g r).
Proof. exact get_descendants_exact. Qed.
Print Assumptions C02_get_descendants_exact.

(** ** C03 *)

Theorem C03_parents_children_dual : forall g coll p1 f1 p2 f2 a b ps cs,
  single_producer g -> distinct_values g coll -> In a coll -> In b coll ->
  get_parents g coll p1 f1 (NRV b) = Some ps ->
  get_children g coll p2 f2 (NRV a) = Some cs ->
  (In a ps <-> In b cs).
Proof. exact parents_children_dual. Qed.
Print Assumptions C03_parents_children_dual.

Theorem C03_ancestors_descendants_dual : forall g coll p1 f1 p2 f2 a b ps cs,
  single_producer g -> distinct_values g coll -> In a coll -> In b coll ->
  get_ancestors g coll p1 f1 (NRV b) = Some ps ->
  get_descendants g coll p2 f2 (NRV a) = Some cs ->
  (In a ps <-> In b cs).
Proof. exact ancestors_descendants_dual. Qed.
Print Assumptions C03_ancestors_descendants_dual.

(** ** C04 *)

Theorem C04_ancestors_are_closure_of_parents :
  forall g coll pick pick' fuel x res,
  single_producer g -> distinct_values g coll -> In x coll ->
  get_ancestors g coll pick fuel (NRV x) = Some res ->
  forall r, In r res <->
    r <> x /\
    clos_trans nat
      (fun a b => exists ps,
         get_parents g coll pick' (enough g) (NRV b) = Some ps /\ In a ps) r x.
Proof. exact ancestors_closure_parents. Qed.
Print Assumptions C04_ancestors_are_closure_of_parents.

Theorem C04_descendants_are_closure_of_children :
  forall g coll pick pick' fuel x res,
  single_producer g -> distinct_values g coll -> In x coll ->
  get_descendants g coll pick fuel (NRV x) = Some res ->
  forall r, In r res <->
    r <> x /\
    clos_trans nat
      (fun a b => exists cs,
         get_children g coll pick' (enough g) (NRV b) = Some cs /\ In a cs) r x.
Proof. exact descendants_closure_children. Qed.
Print Assumptions C04_descendants_are_closure_of_children.

(** ** C05 *)

Theorem C05_get_blanket_exact : forall g coll pick fuel x,
  single_producer g -> distinct_values g coll -> In x coll ->
  enough g <= fuel ->
  exists res, get_blanket g coll pick fuel (NRV x) = Some res /\ NoDup res /\
    forall r, In r res <->
      r <> x /\
      (parent_rel g coll r x \/ child_rel g coll r x \/
       exists c, child_rel g coll c x /\ parent_rel g coll r c).
Proof. exact get_blanket_exact. Qed.
Print Assumptions C05_get_blanket_exact.

Theorem C05_get_siblings_exact : forall g coll pick fuel x,
  single_producer g -> distinct_values g coll -> In x coll ->
  enough g <= fuel ->
  exists res, get_siblings g coll pick fuel (NRV x) = Some res /\ NoDup res /\
    forall r, In r res <->
      r <> x /\ exists p, parent_rel g coll p x /\ child_rel g coll r p.
Proof. exact get_siblings_exact. Qed.
Print Assumptions C05_get_siblings_exact.

(** ** C06 *)

Theorem C06_get_variables_exact : forall g coll pick fuel x,
  single_producer g ->
  (forall v w, In v coll -> In w coll -> vref g v = vref g w -> v = w) ->
  enough g <= fuel ->
  exists res, get_variables g coll pick fuel x = Some res /\ NoDup res /\
    forall v, In v res <->
      In v coll /\ up g anything (tensor_of g x) (vref g v).
Proof. exact get_variables_exact. Qed.
Print Assumptions C06_get_variables_exact.

(** ** C07 *)

Theorem C07_is_independent_iff_d_separated :
  forall g coll pm pick fuel A B C,
  NoDup coll -> single_producer g -> distinct_values g coll ->
  incl B coll -> bb_enough coll B <= fuel ->
  exists res, is_independent g coll pm pick fuel A B C = Some res /\
    (res = false <->
     d_connected (parent_in g coll) (fun n => In n C)
       (fun n => pm n = true) A B).
Proof. exact is_independent_exact. Qed.
Print Assumptions C07_is_independent_iff_d_separated.

(** ** C08 *)

Theorem C08_blanket_shields : forall g coll pm pick pick' fuel x rest bl,
  single_producer g -> distinct_values g coll -> NoDup coll ->
  In x coll -> incl rest coll -> ~ In x rest ->
  get_blanket g coll pick' (enough g) (NRV x) = Some bl ->
  bb_enough coll rest <= fuel ->
  is_independent g coll pm pick fuel [x] rest bl = Some true.
Proof. exact blanket_shields. Qed.
Print Assumptions C08_blanket_shields.

Theorem C08_symmetric_without_point_masses :
  forall g coll p1 p2 f1 f2 A B C r1 r2,
  single_producer g -> distinct_values g coll -> incl A coll -> incl B coll ->
  is_independent g coll (fun _ => false) p1 f1 A B C = Some r1 ->
  is_independent g coll (fun _ => false) p2 f2 B A C = Some r2 ->
  r1 = r2.
Proof. exact is_independent_symmetric. Qed.
Print Assumptions C08_symmetric_without_point_masses.

(** ** Non-vacuity: a = Normal; b = Normal(a * v); c = Normal(a);
    d = Normal(b + c), with a while-loop cycle 20 <-> 21 feeding d and a
    variable v.  Random variables 0..3 have values 10..13. *)
Definition ex_graph : graph := mkgraph
  [ mkop [] [10]; mkop [] [30];
    mkop [10; 30] [14]; mkop [14] [11];
    mkop [10] [12];
    mkop [11; 12; 20] [15]; mkop [15] [13];
    mkop [21] [20]; mkop [20] [21] ]
  (fun r => 10 + r) (fun v => 30 + v).
Definition ex_coll : list nat := [0; 1; 2; 3].

Example ex_single_producer : single_producer ex_graph.
Proof.
  intros o1 o2 t H1 H2 H3 H4. simpl in *.
  repeat (destruct H1 as [H1|H1]; [subst o1|]); try destruct H1;
  repeat (destruct H2 as [H2|H2]; [subst o2|]); try destruct H2;
  simpl in *; try reflexivity; exfalso; intuition congruence.
Qed.

Example ex_distinct : distinct_values ex_graph ex_coll.
Proof. intros r s _ _ H. unfold ex_graph in H. cbn in H. lia. Qed.

Example ex_nodup : NoDup ex_coll.
Proof. repeat constructor; simpl; intuition discriminate. Qed.

Example ex_parents :
  get_parents ex_graph ex_coll (fun k => k) (enough ex_graph) (NRV 3)
  = Some [2; 1].
Proof. vm_compute. reflexivity. Qed.

Example ex_ancestors :
  get_ancestors ex_graph ex_coll (fun k => 7 * k) (enough ex_graph) (NRV 3)
  = Some [0; 2; 1].
Proof. vm_compute. reflexivity. Qed.

Example ex_variables :
  get_variables ex_graph [0] (fun k => 7 * k) (enough ex_graph) (NRV 3)
  = Some [0].
Proof. vm_compute. reflexivity. Qed.

Example ex_blanket :
  get_blanket ex_graph ex_coll (fun k => k) (enough ex_graph) (NRV 1)
  = Some [2; 3; 0].
Proof. vm_compute. reflexivity. Qed.

Example ex_siblings :
  get_siblings ex_graph ex_coll (fun k => k) (enough ex_graph) (NRV 1)
  = Some [2].
Proof. vm_compute. reflexivity. Qed.

(* b and c are independent given a, dependent given nothing or given d. *)
Example ex_indep :
  is_independent ex_graph ex_coll (fun _ => false) (fun k => k)
    (bb_enough ex_coll [2]) [1] [2] [0] = Some true /\
  is_independent ex_graph ex_coll (fun _ => false) (fun k => k)
    (bb_enough ex_coll [2]) [1] [2] [] = Some false /\
  is_independent ex_graph ex_coll (fun _ => false) (fun k => k)
    (bb_enough ex_coll [2]) [1] [2] [0; 3] = Some false.
Proof. vm_compute. auto. Qed.
