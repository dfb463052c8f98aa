(** * Vocabulary for C43. *)
From Coq Require Import Reals List.
From Verif Require Import Transform Laplace.
Local Open Scope R_scope.

Definition identity : matrix := fun i j => if Nat.eqb i j then 1 else 0.

(** Equality of n by n matrices. *)
Definition same (n : nat) (a b : matrix) : Prop := forall i j, (i < n)%nat -> (j < n)%nat -> a i j = b i j.

Definition inverse_of (n : nat) (a b : matrix) : Prop := same n (mmul n a b) identity /\ same n (mmul n b a) identity.

(** Cholesky factor: lower triangular with positive diagonal. *)
Definition cholesky_of (n : nat) (h l : matrix) : Prop :=
  (forall i j, (i < j)%nat -> (j < n)%nat -> l i j = 0) /\ (forall i, (i < n)%nat -> 0 < l i i) /\ same n (mmul n l (transpose l)) h.

Definition diagonal (n : nat) (h : matrix) : Prop := forall i j, (i < n)%nat -> (j < n)%nat -> i <> j -> h i j = 0.
