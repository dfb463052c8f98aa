(** * Vocabulary for C72: the tags of summaries. *)
From Coq Require Import String List Ascii.
From Verif Require Import ResetOps.
From Verif Require Import LogVars.
Local Open Scope string_scope.

(** [b] is [a] with slashes for colons. *)
Inductive slashed : string -> string -> Prop :=
| slashed_nil : slashed "" ""
| slashed_colon : forall a b, slashed a b -> slashed (String ":" a) (String "/" b)
| slashed_other : forall x a b, x <> ":"%char -> slashed a b -> slashed (String x a) (String x b).

(** The tag of what an inference logs, before scopes and numbers. *)
Inductive titled (vname : nat -> string) : content -> string -> Prop :=
| titled_scalar : forall v n, slashed (vname v) n -> titled vname (Scalar v) ("parameter/" ++ n)
| titled_entry : forall v n, slashed (vname v) n -> titled vname (Entry v) ("parameter/" ++ n)
| titled_histogram : forall v n, slashed (vname v) n -> titled vname (Histogram v) ("parameter/" ++ n)
| titled_gradient : forall v n, slashed (vname v) n -> titled vname (Gradient v) ("gradient/" ++ n)
| titled_norm : forall v n, slashed (vname v) n -> titled vname (GradientNorm v) ("gradient_norm/" ++ n)
| titled_part : forall p, titled vname (Part p) p.

(** In a name scope, and numbered if the name is taken. *)
Definition tagged (stack n tag : string) : Prop :=
  exists pre post, tag = pre ++ n ++ post /\
    ((stack = "" /\ pre = "") \/ (stack <> "" /\ pre = stack ++ "/")) /\ (post = "" \/ exists i, post = "_" ++ str i).
