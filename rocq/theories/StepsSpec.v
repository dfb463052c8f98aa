(** * Vocabulary for C85. *)
From Coq Require Import Reals List.
From Verif Require Import Transform Optim.
Import ListNotations.
Local Open Scope R_scope.

(** The sum of the first [n] terms. *)
Fixpoint partial_sum (a : nat -> R) (n : nat) : R := match n with O => 0 | S k => partial_sum a k + a k end.

(** The steps get as far as one likes, and their squares do not. *)
Definition goes_anywhere (a : nat -> R) : Prop := forall b, exists n, b < partial_sum a n.
Definition settles (a : nat -> R) : Prop := exists c, forall n, partial_sum (fun k => a k * a k) n <= c.
(** The conditions of Robbins and Monro for step sizes of stochastic approximation. *)
Definition robbins_monro (a : nat -> R) : Prop := goes_anywhere a /\ settles a.

(** The learning rate of update [k], [value] being the integer variables at the start. *)
Definition rate_of (r : rate) (gs : step_arg) (value : nat -> nat) (k : nat) : R := nth k (rates r gs value (S k)) 0.
