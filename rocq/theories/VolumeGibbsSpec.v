(** * Gibbs sampling of tensors (vocabulary for C77). *)
From Coquelicot Require Import Coquelicot.
From Coq Require Import Reals List Arith.
From Verif Require Import Transform Gibbs GibbsSpec HMC HMCSpec VolumeSpec VolumeHMCSpec VolumeWalkSpec.
Import ListNotations.
Local Open Scope R_scope.

(** Variable number [i] takes tensors of the shape of entry [i] of [s0] as
    values; its integrals are volume integrals. *)
Definition tensor_values (s0 : list tensor) (i : nat) (v : tensor) : Prop := length v = length (nth i s0 []).
Definition over_tensor (s0 : list tensor) (i : nat) : (tensor -> R) -> R -> Prop := by_volume (length (nth i s0 [])).

(** A posterior density [p] of the latent variables, and what it integrates to
    over each variable given the others. *)
Record regular_posterior (s0 : list tensor) (p : list tensor -> R) (c : nat -> list tensor -> R) : Prop := {
  density_positive : forall s, same_shape s0 s -> 0 < p s;
  density_continuous : continuous_tensors s0 p;
  density_total : exists total, by_tensors s0 p total;
  conditionals : forall i s, (i < length s0)%nat -> same_shape s0 s -> over_tensor s0 i (fun v => p (replaced i v s)) (c i s);
  conditionals_continuous : forall i, (i < length s0)%nat -> continuous_tensors s0 (c i) }.
(** Bounded continuous functions of the state. *)
Definition bounded_by (s0 : list tensor) (B : R) (f : list tensor -> R) : Prop :=
  continuous_tensors s0 f /\ forall s, same_shape s0 s -> Rabs (f s) <= B.

(** ** Two real variables: the first is standard normal, the second normal around it *)
Definition ladder (s : list tensor) : R := match s with [[x]; [y]] => exp (- (x * x / 2)) * exp (- ((y - x) * (y - x) / 2)) | _ => 0 end.
(** Its integrals over the first and over the second, [k1] and [k2] being those of
    exp (- t^2) and exp (- t^2 / 2). *)
Definition ladder_c (k1 k2 : R) (i : nat) (s : list tensor) : R :=
  match s with [[x]; [y]] => match i with O => k1 * exp (- (y * y / 4)) | _ => k2 * exp (- (x * x / 2)) end | _ => 0 end.
(** Two independent standard normal variables. *)
Definition apart (s : list tensor) : R := match s with [[x]; [y]] => exp (- (x * x / 2)) * exp (- (y * y / 2)) | _ => 0 end.
Definition apart_c (k : R) (i : nat) (s : list tensor) : R :=
  match s with [[x]; [y]] => k * exp (- (match i with O => y * y | _ => x * x end / 2)) | _ => 0 end.
