(** * Vocabulary for C43 with several latent variables. *)
From Coq Require Import Reals List Arith.
From Verif Require Import Transform Laplace LaplaceSpec.
Import ListNotations.
Local Open Scope R_scope.

(** The number of entries of all latent variables. *)
Fixpoint total (sizes : list nat) : nat := match sizes with [] => 0 | n :: rest => n + total rest end.

(** The variable, counted from 0, that entry [i] belongs to. *)
Fixpoint owner (sizes : list nat) (i : nat) : nat :=
  match sizes with
  | [] => 0
  | n :: rest => if Nat.ltb i n then 0 else S (owner rest (i - n))
  end.

(** No two variables interact: second derivatives across variables vanish. *)
Definition uncoupled (sizes : list nat) (h : matrix) : Prop :=
  forall i j, (i < total sizes)%nat -> (j < total sizes)%nat -> owner sizes i <> owner sizes j -> h i j = 0.

(** The part of [h] that belongs to a variable of size [n] after [o] entries. *)
Definition part (h : matrix) (o : nat) : matrix := fun i j => h (o + i)%nat (o + j)%nat.
