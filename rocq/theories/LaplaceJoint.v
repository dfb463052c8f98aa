(** * Laplace with several latent variables.

    Models the loop of Laplace.initialize (edward/inferences/laplace.py:113-126):
    tf.hessians gives, for each latent variable, the second derivatives of the loss
    with respect to that variable alone.  The latent variables are vectors, laid out
    one after the other in the rows and columns of the Hessian of all. *)
From Coq Require Import Reals List Arith.
From Verif Require Import Transform Laplace.
Import ListNotations.
Local Open Scope R_scope.

(** tf.hessians(self.loss, latent variables) (laplace.py:113), from the Hessian [h]
    with respect to all of them, beginning with entry [o]; only the first [n] rows and columns of the entry of a
    variable of size [n] mean anything. *)
Fixpoint hessians (o : nat) (sizes : list nat) (h : matrix) : list matrix :=
  match sizes with
  | [] => []
  | n :: rest => (fun i j => h (o + i)%nat (o + j)%nat) :: hessians (o + n)%nat rest h
  end.

(** finalize_ops (laplace.py:114-126): the scale assigned for each latent variable,
    given the family and size of its approximation.  [inverse_cholesky n] is
    tf.matrix_inverse(tf.cholesky(.)) of n by n matrices. *)
Definition finalize_scales (inverse_cholesky : nat -> matrix -> matrix) (latent : list (family * nat)) (h : matrix) : list scale_value :=
  map (fun p => laplace_scale (fst (fst p)) (snd p) (inverse_cholesky (snd (fst p)) (snd p)))
    (combine latent (hessians 0 (map snd latent) h)).

(** Matrices of the given sizes along the diagonal, zero elsewhere: the covariance of
    independent variables (the approximations are separate random variables,
    laplace.py:90-92 and in the class's example 44-61). *)
Fixpoint blocks (l : list (nat * matrix)) : matrix :=
  match l with
  | [] => fun _ _ => 0
  | (n, a) :: rest => fun i j =>
      if Nat.ltb i n then (if Nat.ltb j n then a i j else 0)
      else if Nat.ltb j n then 0 else blocks rest (i - n)%nat (j - n)%nat
  end.

(** The covariance of all approximations together after finalize (laplace.py:128-153). *)
Definition joint_covariance (inverse_cholesky : nat -> matrix -> matrix) (latent : list (family * nat)) (h : matrix) : matrix :=
  blocks (map (fun p => (snd (fst p), covariance (snd (fst p)) (snd p))) (combine latent (finalize_scales inverse_cholesky latent h))).
