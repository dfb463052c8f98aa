(** * Vocabulary for C56. *)
From Coq Require Import String List ZArith.
From Verif Require Import Session.
Import ListNotations.
Local Open Scope string_scope.

(** The graph has no operation, or only the Keras learning phase. *)
Definition seedable (nodes : list string) : Prop := nodes = [] \/ nodes = ["keras_learning_phase"].

(** Histories that leave every session they enter. *)
Inductive balanced : list step -> Prop :=
| bal_nil : balanced []
| bal_node n h : balanced h -> balanced (AddNode n :: h)
| bal_get k h : balanced h -> balanced (GetSession k :: h)
| bal_seed x h : balanced h -> balanced (SetSeed x :: h)
| bal_enter s h g : balanced h -> balanced g -> balanced (Enter s :: h ++ Leave :: g)
| bal_new h g : balanced h -> balanced g -> balanced (NewSession :: h ++ Leave :: g).
