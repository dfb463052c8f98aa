(** * Stochastic gradient Langevin dynamics and Hamiltonian Monte Carlo.

    Models edward/inferences/sgld.py:52-121 and sghmc.py:43-130.  Conventions are
    those of HMC.v.  The reads of self.v precede the assignments (in the code
    the order within the session run is not fixed). *)
From Coq Require Import List Arith Bool Reals.
From Verif Require Import Ext Feed MonteCarlo Transform HMC.
Import ListNotations.
Local Open Scope R_scope.

Section SG.
(** tf.reduce_sum(copy(z, d).log_prob(v)). *)
Variable log_prob : nat -> list (nat * tensor) -> tensor -> ext.
(** self.scale.get(z, 1.0), a scalar (sgld.py:113 and 119). *)
Variable scale : nat -> R.
(** Keys of latent_vars; with auto_transform params is the inverse of the
    bijector applied to the variable (inference.py:248-254). *)
Variable latent : list (nat * option bij).
(** tf.gradients(f(z), z) (sgld.py:67-68, sghmc.py:71-72). *)
Variable gradients : (list tensor -> option ext) -> list tensor -> list tensor.
Variable step_size : R.

(** qz.params at the row that holds [rows] (sgld.py:61-62, sghmc.py:65-66). *)
Definition params_row (l : list (nat * option bij)) (rows : list tensor) : list tensor :=
  map (fun p => match snd (fst p) with Some b => inv b (snd p) | None => snd p end) (combine l rows).

(** _log_joint (sgld.py:89-121, sghmc.py:98-130). *)
Definition scaled_log_joint (data : list (nat * tensor)) (z_sample : list tensor) : option ext :=
  let dict_swap := dict_update (combine (map fst latent) z_sample) data in
  match fold_left (fun acc z => match acc with None => None | Some s =>
      match dict_get dict_swap z with
      | Some v => Some (eadd s (emul (Fin (scale z)) (log_prob z dict_swap v))) | None => None end end)
    (map fst latent) (Some (Fin 0)) with
  | None => None
  | Some s => Some (fold_left (fun acc xv => match dict_get dict_swap (fst xv) with
      | Some v => eadd acc (emul (Fin (scale (fst xv))) (log_prob (fst xv) dict_swap v)) | None => acc end) data s)
  end.

(** The draws of one session run: observed values and normals (sgld.py:74,
    sghmc.py:81). *)
Record sg_draws : Type := mksg { g_data : list (nat * tensor); g_normal : list tensor }.

(** sgld.py:65-66. *)
Definition learning_rate (t : nat) : R := step_size / Rpower (INR (t + 1)) 0.55.

(** One variable (sgld.py:75-77). *)
Fixpoint langevin (lr : R) (z g e : list tensor) : list tensor :=
  match z, g, e with
  | zi :: z', gi :: g', ei :: e' => vadd (vadd zi (vscal (0.5 * lr) gi)) (vscal (sqrt lr) ei) :: langevin lr z' g' e'
  | _, _, _ => []
  end.

(** SGLD.build_update (sgld.py:52-87) as a move; n_accept always grows. *)
Definition sgld_kernel : kernel tensor unit sg_draws := fun t x rows d =>
  let old_sample := params_row latent rows in
  let g := gradients (scaled_log_joint (g_data d)) old_sample in
  Some (x, langevin (learning_rate t) old_sample g (g_normal d), true).

Variable friction : R.

(** One variable's velocity (sghmc.py:83-85). *)
Fixpoint velocity (lr : R) (v g e : list tensor) : list tensor :=
  match v, g, e with
  | vi :: v', gi :: g', ei :: e' =>
      vadd (vadd (vscal (1 - 0.5 * friction) vi) (vscal lr gi)) (vscal (sqrt (lr * friction)) ei) :: velocity lr v' g' e'
  | _, _, _ => []
  end.

(** SGHMC.build_update (sghmc.py:58-96) as a move; the further state is self.v,
    initially zero (sghmc.py:54-55). *)
Definition sghmc_kernel : kernel tensor (list tensor) sg_draws := fun t v rows d =>
  let old_sample := params_row latent rows in
  let lr := step_size * 0.01 in
  let g := gradients (scaled_log_joint (g_data d)) old_sample in
  let sample := map (fun p => vadd (fst p) (snd p)) (combine old_sample v) in
  Some (velocity lr v g (g_normal d), sample, true).
End SG.
