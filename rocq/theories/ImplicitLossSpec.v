(** * Vocabulary for C96. *)
From Coq Require Import Reals List.
Import ListNotations.
Local Open Scope R_scope.

(** The product of the entries of a list. *)
Definition product (l : list R) : R := fold_right Rmult 1 l.
