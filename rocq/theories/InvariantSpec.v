(** * Invariance of expectations on any space (vocabulary for C24, C25 and C28). *)
From Coquelicot Require Import Coquelicot.
From Coq Require Import Reals List Arith Bool.
From Verif Require Import Ext Feed MonteCarlo Transform MH MHSpec HMC HMCSpec Replica ReplicaSpec VI VISpec VIIntegralSpec.
Import ListNotations.
Local Open Scope R_scope.

(** The iterated integral of [F] is [a]. *)
Definition twice {A : Type} (D : A -> Prop) (I : (A -> R) -> R -> Prop) (F : A -> A -> R) (a : R) : Prop :=
  exists h, (forall x, D x -> I (F x) (h x)) /\ I h a.
(** Fubini's theorem for [F]: the order of integration does not matter. *)
Definition exchangeable {A : Type} (D : A -> Prop) (I : (A -> R) -> R -> Prop) (F : A -> A -> R) : Prop :=
  forall a, twice D I F a -> twice D I (fun x y => F y x) a.
(** Integrals do not change under the map [T]. *)
Definition invariant {A : Type} (I : (A -> R) -> R -> Prop) (T : A -> A) : Prop :=
  forall f a, I f a -> I (fun x => f (T x)) a.

Section Walk.
Context {V : Type} (veq : forall a b : V, {a = b} + {a <> b}).
Notation dict := (list (nat * V)).
Variable log_prob proposal_log_prob : nat -> dict -> V -> ext.
Variable latent proposals : list nat.
Variable data : dict.
(** The states and the integral over them. *)
Variable D : list V -> Prop.
Variable I : (list V -> R) -> R -> Prop.

(** [e] is the mean, over u uniform in [0,1], of [phi] at where the step from [z]
    with proposal [z'] leads. *)
Definition mean_step (z z' : list V) (phi : list V -> R) (e : R) : Prop :=
  exists f : R -> R, is_RInt f 0 1 e /\
    forall u, 0 < u < 1 -> exists r, steps_to log_prob proposal_log_prob latent proposals data z z' u r /\ f u = phi r.

(** [psi z] is the mean of [phi] after one step from [z], over proposal and
    uniform. *)
Definition one_step (phi psi : list V -> R) : Prop :=
  let g := propose_density veq proposal_log_prob latent proposals data in
  exists e, (forall z z', D z -> D z' -> g z z' <> 0 -> mean_step z z' phi (e z z')) /\
    (forall z, D z -> I (fun z' => g z z' * e z z') (psi z)) /\
    exchangeable D I (fun z z' => joint log_prob latent data z * (g z z' * (e z z' - phi z))).

(** [psi z] is the mean of [phi] after [n] steps from [z]. *)
Inductive steps_mean : nat -> (list V -> R) -> (list V -> R) -> Prop :=
| steps_none : forall phi, steps_mean O phi phi
| steps_more : forall n phi psi chi b, steps_mean n phi psi -> one_step psi chi ->
    I (fun z => joint log_prob latent data z * chi z) b -> steps_mean (S n) phi chi.
End Walk.

Section Phase.
Variable log_prob : nat -> list (nat * tensor) -> tensor -> ext.
Variable latent : list (nat * option bij).
Variable data : list (nat * tensor).
Variable grad : list (nat * tensor) -> list tensor -> list tensor.
Variable step_size : R.
Variable n_steps : nat.

(** Pairs of positions and momenta of this shape. *)
Definition phase_space (s0 : list tensor) (p : list tensor * list tensor) : Prop :=
  same_shape s0 (fst p) /\ same_shape s0 (snd p).
(** Opposite momenta. *)
Definition mirror_momenta (p : list tensor * list tensor) : list tensor * list tensor := (fst p, flip (snd p)).
(** The end of the trajectory from [p], with opposite momenta. *)
Definition trajectory (p : list tensor * list tensor) : list tensor * list tensor :=
  mirror_momenta (leapfrog (grad data) step_size n_steps (fst p) (snd p)).
(** [e] is the mean, over u uniform in [0,1], of [phi] at where the update from
    [z] with momenta [r] leads. *)
Definition mean_update (z r : list tensor) (phi : list tensor -> R) (e : R) : Prop :=
  exists f : R -> R, is_RInt f 0 1 e /\
    forall u, 0 < u < 1 -> exists w acc,
      hmc_sample log_prob latent grad step_size n_steps z (mkhmc data r u) = Some (w, acc) /\ f u = phi w.
End Phase.

(** All ways to decide on [m] pairs. *)
Fixpoint decisions (m : nat) : list (list bool) :=
  match m with O => [[]] | S m' => map (cons true) (decisions m') ++ map (cons false) (decisions m') end.
(** The mean of [phi] after the exchanges from replica [first] on, when pair j is
    exchanged with probability [q j]. *)
Definition mean_exchange {S : Type} (first m : nat) (q : nat -> R) (phi : list S -> R) (zs : list S) : R :=
  sumR (map (fun E => decision_probability q E * phi (exchanged first E zs)) (decisions m)).
(** One state of the latent variables per inverse temperature. *)
Definition ladder_states {V : Type} (latent : list nat) (bs : list R) (zs : list (list V)) : Prop :=
  length zs = length bs /\ Forall (fun z => length z = length latent) zs.
