(** * C78: the conditional of a tensor-valued variable has its shape and its density. *)
From Coquelicot Require Import Coquelicot.
From Coq Require Import Reals List Permutation.
From Verif Require Import ConjLogProb ConjSpec.
From Verif Require Import TConj TConjSpec TConjProofs TConjExampleProofs.
Import ListNotations.
Local Open Scope R_scope.

(** The full statement, that whatever the order of the set of statistic nodes the result
    has the shape of the variable and its density, is false of the code: the placeholder
    of a statistic takes its shape from the first node found.  For one and the same
    model, one order gives the conditional and another order, the same nodes, gives a
    distribution of another shape none of whose entries is it. *)
Theorem C78_order_refuted : exists sup nsh en l l' g base x0 D D',
  one_definition base g /\ one_dependent base g /\ lists_nodes base g l /\ Permutation l l' /\
  possible sup (sh x0) x0 /\ found_right (possible sup (sh x0)) en base g nsh l /\
  (exists v, value en base g x0 = Some v /\ sh v = []) /\
  complete_conditional sup nsh en l g x0 = Some ([], D) /\ complete_conditional sup nsh en l' g x0 = Some ([2%nat], D') /\
  sh x0 = [] /\ all_proper [] D /\ all_proper [2%nat] D' /\
  forall G, gamma_function G ->
    is_conditional G sup [] D (value en base g) /\
    forall idx, In idx (indices [2%nat]) -> ~ exists c d, D' idx = Some d /\
      is_log_density G d (fun y => scalar (value en base g (constant [] y)) + c).
Proof. exact order_refuted. Qed.
Print Assumptions C78_order_refuted.

(** What holds: for every model in which the first node found for each statistic has the
    shape of the variable (for example, when all have), and in which what simplification
    found is right and products have one factor with the variable (C34), the result has
    the shape of the variable, and its entries are independent with densities whose
    product is the joint density up to a constant. *)
Theorem C78_conditional_partial : forall G sup nsh en l g base x0 s D,
  gamma_function G -> one_definition base g -> one_dependent base g -> lists_nodes base g l ->
  possible sup (sh x0) x0 -> found_right (possible sup (sh x0)) en base g nsh l -> first_have_shape (sh x0) nsh l ->
  (exists v, value en base g x0 = Some v /\ sh v = []) ->
  complete_conditional sup nsh en l g x0 = Some (s, D) ->
  s = sh x0 /\ (all_proper s D -> is_conditional G sup s D (value en base g)).
Proof. exact conditional_right. Qed.
Print Assumptions C78_conditional_partial.

(** And it does return whenever the statistics that were found are those of an entry of
    the table, in whatever order they were found. *)
Theorem C78_returns_partial : forall sup nsh en l g base x0 key eta d,
  one_definition base g -> one_dependent base g -> lists_nodes base g l ->
  possible sup (sh x0) x0 -> found_right (possible sup (sh x0)) en base g nsh l -> first_have_shape (sh x0) nsh l ->
  (exists v, value en base g x0 = Some v /\ sh v = []) ->
  (forall k, In k key <-> In k (map (fun e => fst (snd e)) l)) -> scalar_table sup key eta = Some d ->
  exists D, complete_conditional sup nsh en l g x0 = Some (sh x0, D).
Proof. exact conditional_returned. Qed.
Print Assumptions C78_returns_partial.

(** Broadcasting is that of TensorFlow: shapes are aligned at their last dimension, a
    missing dimension counts as 1, and 1 is stretched by using its entry everywhere;
    other shapes cannot be combined. *)
Theorem C78_broadcast : forall a b,
  (forall s, bshape a b = Some s <-> broadcast_to a b s) /\
  forall idx, length (proj a idx) = length a /\
    forall i, (i < length a)%nat -> nth i (proj a idx) 0%nat = if Nat.eqb (dim a i) 1 then 0%nat else nth i idx 0%nat.
Proof. exact broadcasting. Qed.
Print Assumptions C78_broadcast.

Example C78_demo_broadcast : bshape [2; 1]%nat [1; 3; 4]%nat = Some [2; 3; 4]%nat /\ bshape [2]%nat [3]%nat = None.
Proof. split; reflexivity. Qed.

(** A vector of two unknown means with three observed rows meets the hypotheses. *)
Example C78_demo_rows :
  one_definition 0 rows_graph /\ one_dependent 0 rows_graph /\ lists_nodes 0 rows_graph rows_found /\
  possible SupReal [2%nat] (constant [2%nat] 0) /\ found_right (possible SupReal [2%nat]) rows_en 0 rows_graph rows_nsh rows_found /\
  first_have_shape [2%nat] rows_nsh rows_found /\
  (exists v, value rows_en 0 rows_graph (constant [2%nat] 0) = Some v /\ sh v = []) /\
  exists D, complete_conditional SupReal rows_nsh rows_en rows_found rows_graph (constant [2%nat] 0) = Some ([2%nat], D) /\
  D [0%nat] = Some (normal_from_natural_params (-2) 3) /\ D [1%nat] = Some (normal_from_natural_params (-2) (-6)) /\
  all_proper [2%nat] D.
Proof. exact rows_ok. Qed.
