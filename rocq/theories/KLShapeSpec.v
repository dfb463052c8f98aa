(** * Vocabulary for C84. *)
From Coq Require Import Reals List Arith.
From Verif Require Import Transform TConj VIIntegralSpec.
From Verif Require Import KLShape.
Import ListNotations.
Local Open Scope R_scope.

(** The number of entries of a shape. *)
Fixpoint entries (s : list nat) : nat := match s with [] => 1 | n :: s' => n * entries s' end.

(** How often the parameters of [q], or of [q] and [z] together, are repeated to fill the
    shape: the leading dimensions that are only in sample_shape. *)
Definition repeats {P} (q : rv P) : nat := entries (r_sample q).
Definition repeats2 {P} (q z : rv P) : nat := entries (skipn (max (length (r_batch q)) (length (r_batch z))) (r_shape q)).

(** The parameters of one entry: those at the last dimensions of its index. *)
Definition entry_param {P} (r : rv P) (idx : list nat) : P := r_param r (firstn (length (r_batch r)) idx).

(** An expectation: a linear operation that gives 1 for 1. *)
Definition expectation {A} (D : A -> Prop) (I : (A -> R) -> R -> Prop) : Prop := integral D I /\ I (fun _ => 1) 1.

(** [kl] is the divergence from [z] to [q], entry by entry, [draw] being a draw of [q]. *)
Definition kl_of_entries {A P V} (I : (A -> R) -> R -> Prop) (lq lp : P -> V -> R) (kl : P -> P -> R) (q z : rv P) (draw : A -> list nat -> V) : Prop :=
  forall idx, In idx (indices (r_shape q)) ->
  I (fun a => lq (entry_param q idx) (draw a idx) - lp (entry_param z idx) (draw a idx)) (kl (entry_param q idx) (entry_param z idx)).
(** Likewise the entropy. *)
Definition entropy_of_entries {A P V} (I : (A -> R) -> R -> Prop) (lq : P -> V -> R) (entropy : P -> R) (q : rv P) (draw : A -> list nat -> V) : Prop :=
  forall idx, In idx (indices (r_shape q)) ->
  I (fun a => - lq (entry_param q idx) (draw a idx)) (entropy (entry_param q idx)).
