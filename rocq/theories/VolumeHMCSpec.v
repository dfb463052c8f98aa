(** * Positions and momenta as points of R^n (vocabulary for C25). *)
From Coquelicot Require Import Coquelicot.
From Coq Require Import Reals List Arith Bool.
From Verif Require Import Ext Feed MonteCarlo Transform MHSpec HMC HMCSpec VI VISpec VIIntegralSpec InvariantSpec.
From Verif Require Import VolumeSpec.
Import ListNotations.
Local Open Scope R_scope.

(** How many numbers tensors of these shapes hold. *)
Definition size (s0 : list tensor) : nat := length (concat s0).
(** Tensors of the shapes of [s0] whose entries are the numbers [l]. *)
Fixpoint cut (s0 : list tensor) (l : list R) : list tensor :=
  match s0 with
  | [] => []
  | v :: s0' => firstn (length v) l :: cut s0' (skipn (length v) l)
  end.
(** [k] times tensors of the shapes of [s0]. *)
Fixpoint blocks (s0 : list tensor) (k : nat) (l : list R) : list (list tensor) :=
  match k with
  | O => []
  | S k' => cut s0 (firstn (size s0) l) :: blocks s0 k' (skipn (size s0) l)
  end.
(** The volume integral over [k] times tensors of the shapes of [s0]. *)
Definition by_blocks (s0 : list tensor) (k : nat) (F : list (list tensor) -> R) (a : R) : Prop :=
  by_volume (k * size s0) (fun l => F (blocks s0 k l)) a.
(** Continuity of a function of tensors of the shapes of [s0]. *)
Definition continuous_tensors (s0 : list tensor) (f : list tensor -> R) : Prop :=
  continuous_n (size s0) (fun l => f (cut s0 l)).

(** The density of standard normal momenta (up to the constant). *)
Definition momentum_density (r : list tensor) : R :=
  exp (- sumR (map (fun v => sumR (map (fun x => x * x / 2) v)) r)).

Section Updates.
Variable log_prob : nat -> list (nat * tensor) -> tensor -> ext.
Variable latent : list (nat * option bij).
Variable data : list (nat * tensor).
Variable grad : list (nat * tensor) -> list tensor -> list tensor.
Variable step_size : R.
Variable n_steps : nat.
Variable s0 : list tensor.

(** The density of a state [z] and of the momenta of as many updates. *)
Definition run_density (b : list (list tensor)) : R :=
  match b with
  | [] => 1
  | z :: rs => target log_prob latent data z * product (map momentum_density rs)
  end.

(** [e] is the mean, over independent uniform numbers, of [phi] at the state
    after one update from [z] for each of the momenta [rs]. *)
Inductive mean_updates (phi : list tensor -> R) : list (list tensor) -> list tensor -> R -> Prop :=
| no_update : forall z, mean_updates phi [] z (phi z)
| one_update : forall r rs z psi e, (forall w, same_shape s0 w -> mean_updates phi rs w (psi w)) ->
    mean_update log_prob latent data grad step_size n_steps z r psi e -> mean_updates phi (r :: rs) z e.
End Updates.
