(** * Specification of graph queries: paths of the dataflow graph. *)
From Coq Require Import List Arith.
From Verif Require Import Graph.
Import ListNotations.

(** Tensor [a] is an input of the operation that outputs [b]. *)
Definition edge (g : graph) (a b : nat) : Prop :=
  exists o, In o (ops g) /\ In a (op_in o) /\ In b (op_out o).

(** Every tensor is produced by at most one operation (TensorFlow creates a
    tensor as an output of exactly one operation). *)
Definition single_producer (g : graph) : Prop :=
  forall o1 o2 t, In o1 (ops g) -> In o2 (ops g) ->
    In t (op_out o1) -> In t (op_out o2) -> o1 = o2.

(** [up T b a]: there is a dataflow path from [a] to [b] (possibly empty)
    all of whose tensors except [a] satisfy [T]. *)
Inductive up (g : graph) (T : nat -> Prop) : nat -> nat -> Prop :=
| up_refl : forall b, up g T b b
| up_step : forall b c a, T b -> edge g c b -> up g T c a -> up g T b a.

(** [down T a b]: there is a dataflow path from [a] to [b] (possibly empty)
    all of whose tensors except [b] satisfy [T]. *)
Inductive down (g : graph) (T : nat -> Prop) : nat -> nat -> Prop :=
| down_refl : forall a, down g T a a
| down_step : forall a c b, T a -> edge g a c -> down g T c b -> down g T a b.

(** The tensor [t] holds no random variable of the collection other than
    the query [x]. *)
Definition clear (g : graph) (coll : list nat) (x : node) (t : nat) : Prop :=
  forall r, In r coll -> value g r = t -> NRV r = x.

(** No restriction on the tensors of a path. *)
Definition anything (t : nat) : Prop := True.

(** Distinct random variables of the collection hold distinct tensors. *)
Definition distinct_values (g : graph) (coll : list nat) : Prop :=
  forall r s, In r coll -> In s coll -> value g r = value g s -> r = s.

(** [p] is a parent of [n]: a dataflow path leads from the value of [p] to
    the value of [n] and meets no third member of the collection. *)
Definition parent_rel (g : graph) (coll : list nat) (p n : nat) : Prop :=
  In p coll /\ p <> n /\ up g (clear g coll (NRV n)) (value g n) (value g p).

(** [c] is a child of [n], read along the path in the other direction. *)
Definition child_rel (g : graph) (coll : list nat) (c n : nat) : Prop :=
  In c coll /\ c <> n /\ down g (clear g coll (NRV n)) (value g n) (value g c).

(** The parent relation between members of the collection. *)
Definition parent_in (g : graph) (coll : list nat) (p n : nat) : Prop :=
  In n coll /\ parent_rel g coll p n.
