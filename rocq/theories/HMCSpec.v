(** * Vocabulary for C25 and C26. *)
From Coquelicot Require Import Coquelicot.
From Coq Require Import Reals List Arith Bool.
From Verif Require Import Ext Feed MonteCarlo Transform MHSpec HMC.
Import ListNotations.
Local Open Scope R_scope.

(** Tensors and lists of tensors of the same shape. *)
Definition same_shape (a b : list tensor) : Prop := Forall2 (fun v w : tensor => length v = length w) a b.

(** Opposite momenta. *)
Definition flip (r : list tensor) : list tensor := map (map Ropp) r.

(** Entrywise sum. *)
Definition translate (a b : list tensor) : list tensor :=
  map (fun p => map (fun q => fst q + snd q) (combine (fst p) (snd p))) (combine a b).

(** A map of phase space that translates momenta by a vector that depends on the
    positions only, or the other way round.  By Cavalieri's principle it
    preserves volume. *)
Inductive shear (shape : list tensor -> Prop) : (list tensor * list tensor -> list tensor * list tensor) -> Prop :=
| shear_r : forall h, (forall z, shape z -> shape (h z)) -> shear shape (fun p => (fst p, translate (snd p) (h (fst p))))
| shear_z : forall h, (forall r, shape r -> shape (h r)) -> shear shape (fun p => (translate (fst p) (h (snd p)), snd p)).

(** [f] is a composition of shears on states of this shape. *)
Inductive volume_preserving (shape : list tensor -> Prop) : (list tensor * list tensor -> list tensor * list tensor) -> Prop :=
| vp_id : forall f, (forall z r, shape z -> shape r -> f (z, r) = (z, r)) -> volume_preserving shape f
| vp_comp : forall f g h, shear shape g -> volume_preserving shape h ->
    (forall z r, shape z -> shape r -> f (z, r) = h (g (z, r))) -> volume_preserving shape f.

Section Target.
Variable log_prob : nat -> list (nat * tensor) -> tensor -> ext.
Variable latent : list (nat * option bij).
Variable data : list (nat * tensor).

(** What dictionaries satisfy, and that log_prob is finite or minus infinity. *)
Definition hmc_posed : Prop :=
  NoDup (map fst latent) /\ NoDup (map fst data) /\ (forall k, In k (map fst latent) -> ~ In k (map fst data)) /\
  forall k d v, is_log_density (log_prob k d v).

(** The joint density of data and latent variables. *)
Definition density_at (zs : list tensor) : R :=
  let env := combine (map fst latent) zs ++ data in
  product (map (fun kv => density (log_prob (fst kv) env (snd kv))) (combine (map fst latent) zs)) *
  product (map (fun kv => density (log_prob (fst kv) env (snd kv))) data).

(** The latent variables at the unconstrained state [u]. *)
Definition constrain (u : list tensor) : list tensor :=
  map (fun p => match snd (fst p) with Some b => inv b (snd p) | None => snd p end) (combine latent u).

(** The factor by which the transformations change volume at [u]. *)
Definition volume_factor (u : list tensor) : R :=
  product (map (fun p => match snd (fst p) with Some b => exp (sumR (ildj b (snd p))) | None => 1 end) (combine latent u)).

(** The density of the unconstrained state: change of variables. *)
Definition target (u : list tensor) : R := density_at (constrain u) * volume_factor u.

(** The density of state and momenta: momenta are standard normal (up to the
    constant). *)
Definition phase_density (u r : list tensor) : R :=
  target u * exp (- sumR (map (fun v => sumR (map (fun x => x * x / 2) v)) r)).

Variable grad : list (nat * tensor) -> list tensor -> list tensor.
Variable step_size : R.
Variable n_steps : nat.

(** [q] is the probability, over u uniform in [0,1], that the update from [z]
    with momenta [r] moves to the end of the trajectory (and otherwise stays). *)
Definition move_probability (z r : list tensor) (q : R) : Prop :=
  exists f : R -> R, is_RInt f 0 1 q /\
    forall u, 0 < u < 1 ->
      let d := mkhmc data r u in
      let z' := fst (leapfrog (grad data) step_size n_steps z r) in
      (f u = 1 /\ hmc_sample log_prob latent grad step_size n_steps z d = Some (z', true)) \/
      (f u = 0 /\ hmc_sample log_prob latent grad step_size n_steps z d = Some (z, false)).
End Target.
