(** * Laplace: what finalize stores.

    Models edward/inferences/laplace.py:107-153.  MAP's optimisation is not
    modelled; the Hessian at the mode, tf.cholesky and tf.matrix_inverse are
    arguments constrained as in LaplaceSpec.  Matrices are functions on indices
    below a size. *)
From Coq Require Import Reals List.
From Verif Require Import Transform.
Import ListNotations.
Local Open Scope R_scope.

(** A square matrix (laplace.py:113-126). *)
Definition matrix : Type := nat -> nat -> R.

(** Matrix product, in the covariance of laplace.py:121-126. *)
Definition mmul (n : nat) (a b : matrix) : matrix := fun i j => sumR (map (fun k => a i k * b k j) (seq 0 n)).
(** Transpose, likewise (laplace.py:121-126). *)
Definition transpose (a : matrix) : matrix := fun i j => a j i.
(** Diagonal matrix, likewise (laplace.py:117-120). *)
Definition mdiag (d : nat -> R) : matrix := fun i j => if Nat.eqb i j then d i else 0.

(** The families of approximations (laplace.py:97-102). *)
Inductive family : Type := NormalFamily | DiagFamily | TriLFamily.

(** The variable of the scale: a vector for Normal and MultivariateNormalDiag, a
    matrix for MultivariateNormalTriL.  The first variable that the variance depends
    on is taken to be the scale itself, as in the class's example (laplace.py:109-112). *)
Inductive scale_value : Type := Vector (d : nat -> R) | Matrix (m : matrix).

(** finalize_ops: the value assigned to the scale (laplace.py:117-128), from the
    Hessian and the inverse of its Cholesky factor. *)
Definition laplace_scale (f : family) (hessian inverse_cholesky : matrix) : scale_value :=
  match f with
  | NormalFamily | DiagFamily => Vector (fun i => 1 / hessian i i)
  | TriLFamily => Matrix inverse_cholesky
  end.

(** Covariance of the approximation: Normal(loc, scale) and
    MultivariateNormalDiag(loc, scale_diag) have variances scale^2;
    MultivariateNormalTriL(loc, scale_tril) has scale_tril scale_tril^T, the part of
    scale_tril above the diagonal being ignored (of the approximations at laplace.py:97-102; TensorFlow). *)
Definition covariance (n : nat) (s : scale_value) : matrix :=
  match s with
  | Vector d => mdiag (fun i => d i * d i)
  | Matrix m => let l := fun i j => if Nat.leb j i then m i j else 0 in mmul n l (transpose l)
  end.
