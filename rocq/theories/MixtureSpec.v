(** * Vocabulary for C48. *)
From Coq Require Import Reals List.
From Verif Require Import Ext Transform.
Import ListNotations.
Local Open Scope R_scope.

(** Expectation under weights. *)
Definition weighted (weights : list R) (f : nat -> R) : R := sumR (map (fun k => nth k weights 0 * f k) (seq 0 (length weights))).
