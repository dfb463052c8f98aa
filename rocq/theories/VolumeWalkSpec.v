(** * States of Metropolis-Hastings as points of R^n (vocabulary for C24). *)
From Coquelicot Require Import Coquelicot.
From Coq Require Import Reals List Arith Bool.
From Verif Require Import Transform HMC VolumeSpec VolumeHMCSpec.
Import ListNotations.
Local Open Scope R_scope.

(** The volume integral over tensors of the shapes of [s0]. *)
Definition by_tensors (s0 : list tensor) (f : list tensor -> R) (a : R) : Prop :=
  by_volume (size s0) (fun l => f (cut s0 l)) a.
(** Continuity of a function of two states, in both at once. *)
Definition continuous_pairs (s0 : list tensor) (F : list tensor -> list tensor -> R) : Prop :=
  continuous_n (size s0 + size s0) (fun l => F (cut s0 (firstn (size s0) l)) (cut s0 (skipn (size s0) l))).
