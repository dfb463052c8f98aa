(** * Derivatives below the integral sign on R^n (vocabulary for C37, C66 and C67). *)
From Coquelicot Require Import Coquelicot.
From Coq Require Import Reals List.
From Verif Require Import Transform VI VISpec VIIntegralSpec VolumeSpec.
Import ListNotations.
Local Open Scope R_scope.

(** [h] is continuous in both arguments at once, for first arguments within [del]
    of [x0] and second arguments in R^n. *)
Definition continuous_near (n : nat) (x0 del : R) (h : R -> list R -> R) : Prop :=
  forall M eps, 0 < eps -> exists d, 0 < d /\
    forall x y z w, Rabs (x - x0) <= del -> Rabs (y - x0) <= del -> length z = n -> length w = n -> cube M z -> cube M w ->
      Rabs (x - y) < d -> close d z w -> Rabs (h x z - h y w) < eps.

(** Near [th] the derivative of [F] with respect to variable [v] exists, is
    continuous and stays below an integrable function. *)
Definition dominated_derivative (n : nat) (F : params -> list R -> R) (th : params) (v : nat) : Prop :=
  exists del h G total, 0 < del /\
    (forall x z, Rabs (x - th v) <= del -> length z = n -> is_derive (fun t => F (set_param th v t) z) x (h x z)) /\
    continuous_near n (th v) del h /\
    continuous_n n G /\ mass n G total /\ (forall x z, Rabs (x - th v) <= del -> length z = n -> Rabs (h x z) <= G z).
