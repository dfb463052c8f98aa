(** * Vocabulary for C93: normal posteriors and the energy of a state. *)
From Coq Require Import Reals List.
From Verif Require Import Transform Ext HMC HMCSpec SGLD SGLDSpec SGLDJointSpec.
Import ListNotations.
Local Open Scope R_scope.

(** The distance from the mean. *)
Definition off (mu z : list tensor) : list tensor := plus_multiple z (-1) mu.

(** The posterior of the unconstrained state is normal with mean [mu] and
    precision matrix [A], and the gradient is its gradient. *)
Definition normal_posterior (log_prob : nat -> list (nat * tensor) -> tensor -> ext) (latent : list (nat * option bij))
    (data : list (nat * tensor)) (grad : list (nat * tensor) -> list tensor -> list tensor)
    (s0 : list tensor) (A : list tensor -> list tensor) (mu : list tensor) : Prop :=
  hmc_posed log_prob latent data /\ length s0 = length latent /\ same_shape s0 mu /\
  (exists c, forall z, same_shape s0 z -> target log_prob latent data z = exp (c - inner (off mu z) (A (off mu z)) / 2)) /\
  forall z, same_shape s0 z -> grad data z = map (map (Rmult (-1))) (A (off mu z)).

(** The potential energy plus the kinetic energy. *)
Definition energy (A : list tensor -> list tensor) (mu z r : list tensor) : R :=
  inner (off mu z) (A (off mu z)) / 2 + inner r r / 2.
