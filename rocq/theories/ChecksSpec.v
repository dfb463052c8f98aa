(** * Vocabulary for C13 and C14. *)
From Coq Require Import List Arith.
From Verif Require Import Checks.
Import ListNotations.

(** A concrete shape is an instance of a static one. *)
Definition instance (c : list nat) (s : tshape) : Prop :=
  match s with
  | None => True
  | Some ds => Forall2 (fun n d => forall m, d = Some m -> n = m) c ds
  end.

(** Compatible: some concrete shape is an instance of both. *)
Definition compatible (a b : tshape) : Prop := exists c, instance c a /\ instance c b.

Section S.
Context {V : Type}.
Variable pl : nat -> tshape * nat.

(** [x] is a random variable or tensor of that shape and dtype. *)
Inductive graph_obj : obj V -> tshape -> nat -> Prop :=
| go_place : forall i, graph_obj (OPlace i) (fst (pl i)) (snd (pl i))
| go_rv : forall i s dt, graph_obj (ORV i s dt) s dt
| go_tensor : forall i s dt, graph_obj (OTensor i s dt) s dt.

(** [x] is a random variable or tensor, but not a placeholder. *)
Inductive observable : obj V -> tshape -> nat -> Prop :=
| ob_rv : forall i s dt, observable (ORV i s dt) s dt
| ob_tensor : forall i s dt, observable (OTensor i s dt) s dt.

(** [x] is a Python or NumPy value of the allowed types, of shape [s] and
    content [v]. *)
Inductive py_data : obj V -> list nat -> V -> Prop :=
| pd_py : forall s v, py_data (OPy s v) s v
| pd_np : forall s k v, In k [NFloat; NInt; NStr] -> py_data (ONp s k v) s v.

(** The documented rules for an item of data. *)
Inductive item_ok : obj V -> obj V -> Prop :=
| io_feed : forall i v, (forall s dt, ~ graph_obj v s dt) -> item_ok (OPlace i) v
| io_graph : forall k s dt v s', observable k s dt -> graph_obj v s' dt -> compatible s s' -> item_ok k v
| io_value : forall k s dt v s' x, observable k s dt -> py_data v s' x -> instance s' s -> item_ok k v.

(** The documented rule for an item of latent_vars. *)
Definition latent_ok (k v : obj V) : Prop :=
  exists s s' dt, graph_obj k s dt /\ graph_obj v s' dt /\ compatible s s'.

(** What the object keeps for an item of data: values are converted to the
    key's dtype, everything else is kept as it is. *)
Inductive kept (conv : nat -> V -> option V) : obj V -> obj V -> @stored V -> Prop :=
| kp_feed : forall i v, kept conv (OPlace i) v (SObj v)
| kp_graph : forall k s dt v s' dt', observable k s dt -> graph_obj v s' dt' -> kept conv k v (SObj v)
| kp_value : forall k s dt v s' x y, observable k s dt -> py_data v s' x -> conv dt x = Some y ->
    kept conv k v (SVar dt s' y).

(** An argument that is a dictionary (or None) with these items. *)
Definition items (a : option (arg V)) (d : list (obj V * obj V)) : Prop :=
  match a with None => d = [] | Some ANotDict => False | Some (ADict d') => d = d' end.

(** All Python values can be converted. *)
Definition convertible (conv : nat -> V -> option V) (d : list (obj V * obj V)) : Prop :=
  forall k v s dt s' x, In (k, v) d -> observable k s dt -> py_data v s' x -> conv dt x <> None.
End S.
