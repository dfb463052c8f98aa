(** * C77 on R^n: Gibbs scans keep the posterior, nothing assumed of volume *)
From Coquelicot Require Import Coquelicot.
From Coq Require Import Reals List Arith Bool Lia Lra.
From Verif Require Import Transform Feed Gibbs GibbsSpec VIIntegralSpec GibbsBlockSpec HMC HMCSpec.
From Verif Require Import VolumeSpec VolumeHMCSpec VolumeWalkSpec.
From Verif Require Import VolumeGibbsSpec VolumeGibbsProofs VolumeGibbsExampleProofs.
Import ListNotations.
Local Open Scope R_scope.

(** Latent variables are tensors of any shapes.  The posterior density is
    continuous, positive and integrable, and so are its integrals over each
    variable.  Scanning the variables one by one, in any order and with
    repetitions: the mean of every bounded continuous [f] after the scan exists
    from every state, is a bounded continuous function of it, and its expectation
    under the posterior is that of [f].  (Missing, and false by
    C77_block_refuted: any blocks.) *)
Theorem C77_real_single_partial : forall latent s0 p c, NoDup latent -> length s0 = length latent -> regular_posterior s0 p c ->
  forall order f B, (forall i, In i order -> (i < length latent)%nat) -> bounded_by s0 B f ->
  exists g a, after_scan latent (tensor_values s0) (over_tensor s0) p c (map (fun i => [i]) order) f g /\ bounded_by s0 B g /\
    by_tensors s0 (fun s => p s * f s) a /\ by_tensors s0 (fun s => p s * g s) a /\
    forall g', after_scan latent (tensor_values s0) (over_tensor s0) p c (map (fun i => [i]) order) f g' -> by_tensors s0 (fun s => p s * g' s) a.
Proof. exact real_single. Qed.
Print Assumptions C77_real_single_partial.

(** The same of blocks of conditionally independent variables. *)
Theorem C77_real_free_partial : forall latent s0 p c, NoDup latent -> length s0 = length latent -> regular_posterior s0 p c ->
  forall order f B, scan_order latent order ->
  (forall block, In block order -> free_block latent (tensor_values s0) p c block) -> bounded_by s0 B f ->
  exists g a, after_scan latent (tensor_values s0) (over_tensor s0) p c order f g /\ bounded_by s0 B g /\
    by_tensors s0 (fun s => p s * f s) a /\ by_tensors s0 (fun s => p s * g s) a /\
    forall g', after_scan latent (tensor_values s0) (over_tensor s0) p c order f g' -> by_tensors s0 (fun s => p s * g' s) a.
Proof. exact real_free. Qed.
Print Assumptions C77_real_free_partial.

(** A standard normal variable and one that is normal around it; a bounded
    function of the second. *)
Example C77_real_demo :
  NoDup [4%nat; 7%nat] /\ length [[0]; [0]] = length [4%nat; 7%nat] /\
  (exists k1 k2, regular_posterior [[0]; [0]] ladder (ladder_c k1 k2)) /\
  bounded_by [[0]; [0]] 1 (fun s => exp (- (hd 0 (nth 1 s []) * hd 0 (nth 1 s []) / 2))).
Proof.
  split; [repeat constructor; cbn; intuition lia|]. split; [reflexivity|]. split; [exact ladder_regular|exact squash_bounded].
Qed.

(** Two independent standard normal variables, scanned as one block. *)
Example C77_real_block_demo : exists k, regular_posterior [[0]; [0]] apart (apart_c k) /\
  scan_order [4%nat; 7%nat] [[0%nat; 1%nat]] /\ free_block [4%nat; 7%nat] (tensor_values [[0]; [0]]) apart (apart_c k) [0%nat; 1%nat].
Proof. exact apart_regular. Qed.
