(** * C25 on R^n: Hamiltonian Monte Carlo keeps the posterior, nothing assumed of volume *)
From Coquelicot Require Import Coquelicot.
From Coq Require Import Reals List Arith Bool Lia Lra.
From Verif Require Import Ext Feed MonteCarlo Transform MHSpec HMC HMCSpec VI VISpec VIIntegralSpec InvariantSpec.
From Verif Require Import VolumeSpec VolumeHMCSpec VolumeHMCProofs VolumeExampleProofs.
Import ListNotations.
Local Open Scope R_scope.

(** Positions and momenta are points of R^n and integrals are volume integrals.
    The state [z] has density proportional to the target, and the momenta of [k]
    updates are drawn independently.  Then every expectation of a continuous
    function that exists for the state before the updates exists for the state
    after them and is the same.  The step size, the number of leapfrog steps and
    the shapes are arbitrary; the gradient need not be the gradient of anything;
    the target may vanish. *)
Theorem C25_real_stationary : forall log_prob latent data, hmc_posed log_prob latent data ->
  forall grad step_size n s0, length s0 = length latent -> (forall z, same_shape s0 z -> same_shape s0 (grad data z)) ->
  (forall i, (i < size s0)%nat -> continuous_tensors s0 (fun z => nth i (concat (grad data z)) 0)) ->
  continuous_tensors s0 (target log_prob latent data) ->
  forall phi, continuous_tensors s0 phi ->
  forall k E, (forall z rs, same_shape s0 z -> Forall (same_shape s0) rs -> length rs = k ->
    mean_updates log_prob latent data grad step_size n s0 phi rs z (E z rs)) ->
  forall c, by_blocks s0 (S k) (fun b => run_density log_prob latent data b * phi (hd [] b)) c ->
  by_blocks s0 (S k) (fun b => run_density log_prob latent data b * E (hd [] b) (tl b)) c.
Proof. exact run_stationary. Qed.
Print Assumptions C25_real_stationary.

(** The trajectory, with the momenta turned round at its end, preserves volume. *)
Theorem C25_real_volume : forall data grad step_size n s0, (forall z, same_shape s0 z -> same_shape s0 (grad data z)) ->
  (forall i, (i < size s0)%nat -> continuous_tensors s0 (fun z => nth i (concat (grad data z)) 0)) ->
  forall f a, by_blocks s0 2 (fun b => f (hd [] b, hd [] (tl b))) a ->
  by_blocks s0 2 (fun b => f (trajectory data grad step_size n (hd [] b, hd [] (tl b)))) a.
Proof. exact trajectory_volume. Qed.
Print Assumptions C25_real_volume.

(** The volume integral is an integral: a function has one value, and sums and
    multiples have the sums and multiples. *)
Theorem C25_real_integral : forall n, integral (fun x => length x = n) (by_volume n).
Proof. exact VolumeMassProofs.by_volume_integral. Qed.
Print Assumptions C25_real_integral.

(** It is the iterated Riemann integral where that is proper. *)
Theorem C25_real_riemann : forall n M f, 0 <= M -> continuous_n n f ->
  (forall x, length x = n -> ~ cube M x -> f x = 0) -> by_volume n f (cube_integral M n f).
Proof. exact by_volume_compact. Qed.
Print Assumptions C25_real_riemann.

(** The means after any number of updates exist. *)
Example C25_updates_exist : forall log_prob latent data, hmc_posed log_prob latent data ->
  forall grad step_size n s0, length s0 = length latent -> (forall z, same_shape s0 z -> same_shape s0 (grad data z)) ->
  forall phi, exists E, forall z rs, same_shape s0 z -> Forall (same_shape s0) rs ->
    mean_updates log_prob latent data grad step_size n s0 phi rs z (E z rs).
Proof. intros lp lat d HP g e n s0 Hs Hg phi. exists (fun z rs => upds lp lat d g e n phi rs z). intros. apply upds_mean; auto. Qed.

(** A normal mean with one normal observation [y]: the hypotheses hold and the
    expectations of bounded continuous functions exist. *)
Example C25_real_demo : forall y,
  hmc_posed normal_model [(O, None)] [(1%nat, [y])] /\
  (forall m, target normal_model [(O, None)] [(1%nat, [y])] [[m]] = exp (- (m * m / 2)) * exp (- ((y - m) * (y - m) / 2))) /\
  (forall z, same_shape [[0]] z -> same_shape [[0]] (normal_grad [(1%nat, [y])] z)) /\
  (forall i, (i < size [[0%R]])%nat -> continuous_tensors [[0]] (fun z => nth i (concat (normal_grad [(1%nat, [y])] z)) 0)) /\
  continuous_tensors [[0]] (target normal_model [(O, None)] [(1%nat, [y])]) /\
  forall k phi B, continuous_tensors [[0]] phi -> (forall z, same_shape [[0]] z -> Rabs (phi z) <= B) ->
    exists c, by_blocks [[0]] (S k) (fun b => run_density normal_model [(O, None)] [(1%nat, [y])] b * phi (hd [] b)) c.
Proof.
  intros y. split; [apply normal_posed|]. split; [apply normal_target|]. split; [intros; apply normal_grad_shape; auto|].
  split; [apply normal_grad_cn|]. split; [apply normal_target_cn|]. intros. eapply normal_integrable; eauto.
Qed.
(** A bounded continuous function of the mean. *)
Example C25_real_function : continuous_tensors [[0]] (fun z => Rmin 1 (Rmax (-1) (hd 0 (hd [] z)))) /\
  forall z, Rabs (Rmin 1 (Rmax (-1) (hd 0 (hd [] z)))) <= 1.
Proof. exact clip_example. Qed.
