(** * Vocabulary for C46. *)
From Coq Require Import Reals List.
From Verif Require Import Transform Empirical.
Import ListNotations.
Local Open Scope R_scope.

(** Expectation of a function of the index under the distribution with
    probabilities [p]. *)
Definition expectation (p : list R) (f : nat -> R) : R := sumR (map (fun i => nth i p 0 * f i) (seq 0 (length p))).
