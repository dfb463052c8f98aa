(** * Hamiltonian Monte Carlo.

    Models edward/inferences/hmc.py:61-130 ([build_update]), 132-159
    ([_log_joint_unconstrained]), 161-192 ([_log_joint]) and 195-210
    ([leapfrog]).

    A tensor is the list of its elements; a dictionary over the latent variables
    is the list of its values.  tf.gradients is an arbitrary function of the
    state. *)
From Coq Require Import List Arith Bool Reals.
From Verif Require Import Ext Feed MonteCarlo Transform.
Import ListNotations.
Local Open Scope R_scope.

(** hmc.py:81-91: samples and momenta. *)
Definition tensor : Type := list R.
(** Elementwise sum and multiples (hmc.py:202-208). *)
Definition vadd (a b : tensor) : tensor := map (fun p => fst p + snd p) (combine a b).
(** Multiples (hmc.py:202-208). *)
Definition vscal (c : R) (a : tensor) : tensor := map (Rmult c) a.

Section Leapfrog.
(** tf.gradients(log_joint(z), z) (lines 199 and 206). *)
Variable grad : list tensor -> list tensor.
Variable step_size : R.

(** Lines 201-204: momenta by half a step, then positions by a step. *)
Fixpoint kick_drift (z r g : list tensor) : list tensor * list tensor :=
  match z, r, g with
  | zi :: z', ri :: r', gi :: g' =>
      let r_new := vadd ri (vscal (/ 2 * step_size) gi) in
      let z_new := vadd zi (vscal step_size r_new) in
      match kick_drift z' r' g' with (zs, rs) => (z_new :: zs, r_new :: rs) end
  | _, _, _ => ([], [])
  end.

(** Lines 207-208. *)
Fixpoint kick (r g : list tensor) : list tensor :=
  match r, g with
  | ri :: r', gi :: g' => vadd ri (vscal (/ 2 * step_size) gi) :: kick r' g'
  | _, _ => []
  end.

(** The loop at lines 200-208; [g] is the gradient at [z]. *)
Fixpoint leap (n : nat) (z r g : list tensor) : list tensor * list tensor :=
  match n with
  | O => (z, r)
  | S n' =>
      match kick_drift z r g with
      | (z1, r1) => let g1 := grad z1 in leap n' z1 (kick r1 g1) g1
      end
  end.

(** leapfrog (lines 195-210). *)
Definition leapfrog (n_steps : nat) (z r : list tensor) : list tensor * list tensor := leap n_steps z r (grad z).
End Leapfrog.

(** ** The log joint density *)
Section LogJoint.
(** tf.reduce_sum(copy(z, d).log_prob(v)) (lines 184-185 and 189-190). *)
Variable log_prob : nat -> list (nat * tensor) -> tensor -> ext.
(** Keys of latent_vars with the bijector of self.transformations[z], if any
    (lines 146-157). *)
Variable latent : list (nat * option bij).

(** _log_joint (lines 161-192): the values of the observed variables overwrite
    z_sample. *)
Definition log_joint (data : list (nat * tensor)) (z_sample : list tensor) : option ext :=
  let dict_swap := dict_update (combine (map fst latent) z_sample) data in
  match fold_left (fun acc z => match acc with None => None | Some s =>
      match dict_get dict_swap z with Some v => Some (eadd s (log_prob z dict_swap v)) | None => None end end)
    (map fst latent) (Some (Fin 0)) with
  | None => None
  | Some s => Some (fold_left (fun acc xv => match dict_get dict_swap (fst xv) with
      | Some v => eadd acc (log_prob (fst xv) dict_swap v) | None => acc end) data s)
  end.

(** Lines 145-157: the sample in the original space and the log-Jacobian. *)
Fixpoint back_transform (l : list (nat * option bij)) (z : list tensor) : list tensor * R :=
  match l, z with
  | (_, b) :: l', zi :: z' =>
      match back_transform l' z' with
      | (zs, j) => match b with
                   | Some b => (inv b zi :: zs, sumR (ildj b zi) + j)
                   | None => (zi :: zs, j)
                   end
      end
  | _, _ => ([], 0)
  end.

(** _log_joint_unconstrained (lines 132-159). *)
Definition log_joint_unconstrained (data : list (nat * tensor)) (z_sample : list tensor) : option ext :=
  match back_transform latent z_sample with
  | (zs, j) => match log_joint data zs with Some s => Some (eadd s (Fin j)) | None => None end
  end.

(** ** The update *)

(** tf.reduce_sum([0.5 * tf.reduce_sum(tf.square(r)) ...]) (lines 100-103). *)
Definition kinetic (r : list tensor) : R := sumR (map (fun v => / 2 * sumR (map (fun x => x * x) v)) r).

(** The draws of one session run: observed values, momenta (lines 88-91), the
    uniform (line 108). *)
Record hmc_draws : Type := mkhmc { h_data : list (nat * tensor); h_momenta : list tensor; h_u : R }.

Variable grad : list (nat * tensor) -> list tensor -> list tensor.
Variable step_size : R.
Variable n_steps : nat.

(** Lines 81-118: the sample and whether it was accepted. *)
Definition hmc_sample (old_sample : list tensor) (d : hmc_draws) : option (list tensor * bool) :=
  match leapfrog (grad (h_data d)) step_size n_steps old_sample (h_momenta d) with
  | (new_sample, new_r_sample) =>
      match log_joint_unconstrained (h_data d) new_sample, log_joint_unconstrained (h_data d) old_sample with
      | Some lnew, Some lold =>
          let ratio := esub (eadd (Fin (kinetic (h_momenta d) - kinetic new_r_sample)) lnew) lold in
          let accept := eltb (elog (Fin (h_u d))) ratio in
          Some (if accept then new_sample else old_sample, accept)
      | _, _ => None
      end
  end.

(** build_update (lines 61-130) as a move. *)
Definition hmc_kernel : kernel tensor unit hmc_draws := fun _ x old d =>
  match hmc_sample old d with None => None | Some (vs, accept) => Some (x, vs, accept) end.
End LogJoint.
