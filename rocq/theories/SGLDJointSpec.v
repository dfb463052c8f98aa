(** * Vocabulary for C86: entries that interact. *)
From Coq Require Import Reals List.
From Verif Require Import Transform HMC HMCSpec SGLD SGLDSpec.
Import ListNotations.
Local Open Scope R_scope.

(** The sum of the products of corresponding entries. *)
Definition inner (a b : list tensor) : R := sumR (map (fun p => fst p * snd p) (combine (concat a) (concat b))).

(** A symmetric positive definite matrix on tensors of the shapes of [s0]: linear,
    with quadratic form at least [lambda] and norm at most sqrt [L]. *)
Record precision (s0 : list tensor) (A : list tensor -> list tensor) (lambda L : R) : Prop := {
  prec_shape : forall a, same_shape s0 a -> same_shape s0 (A a);
  prec_linear : forall a c b, same_shape s0 a -> same_shape s0 b -> A (plus_multiple a c b) = plus_multiple (A a) c (A b);
  prec_symmetric : forall a b, same_shape s0 a -> same_shape s0 b -> inner (A a) b = inner a (A b);
  prec_low : forall a, same_shape s0 a -> lambda * inner a a <= inner a (A a);
  prec_high : forall a, same_shape s0 a -> inner (A a) (A a) <= L * inner a a }.
