(** * Vocabulary for C86. *)
From Coq Require Import Reals List.
From Verif Require Import HMC.
Import ListNotations.
Local Open Scope R_scope.

(** Entry [e] of variable [j]. *)
Definition entry (z : list tensor) (j e : nat) : R := nth e (nth j z []) 0.
