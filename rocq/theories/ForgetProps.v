(** * Property C89: the samples of Metropolis-Hastings, HMC and Gibbs forget where they started. *)
From Coquelicot Require Import Coquelicot.
From Coq Require Import Reals List Arith Bool Lia Lra.
From Verif Require Import Ext Feed MonteCarlo Transform MH MHSpec HMC HMCSpec VI VISpec VIIntegralSpec InvariantSpec.
From Verif Require Import VolumeSpec VolumeHMCSpec VolumeWalkSpec VolumeWalkExampleProofs MonteCarloProps GibbsBlockSpec GibbsBlockExampleProofs RBIntegralExampleProofs.
From Verif Require Import ForgetSpec ForgetProofs ForgetWalkProofs ForgetGibbsProofs MonteCarloSpec ForgetHMCProofs.
Import ListNotations.
Local Open Scope R_scope.

(** Not for every proposal that meets what MetropolisHastings asks for: on two
    states of equal probability, with the proposal that always flips, every
    proposal is accepted and the mean of the n-th sample stays at distance 1/2
    from the posterior's for ever. *)
Theorem C89_periodic_refuted : exists (log_prob proposal_log_prob : nat -> list (nat * bool) -> bool -> ext) latent proposals data space phi,
  well_posed latent proposals data /\ log_densities log_prob proposal_log_prob /\ latent <> [] /\
  (forall z, In z space -> length z = length latent) /\
  (forall z, In z space -> 0 < joint log_prob latent data z) /\
  (forall z, In z space -> by_sum space (propose_density Bool.bool_dec proposal_log_prob latent proposals data z) 1) /\
  (forall n, exists psi, steps_mean Bool.bool_dec log_prob proposal_log_prob latent proposals data (fun z => In z space) (by_sum space) n phi psi) /\
  forall n psi, steps_mean Bool.bool_dec log_prob proposal_log_prob latent proposals data (fun z => In z space) (by_sum space) n phi psi ->
  forall z, In z space -> Rabs (psi z - sumR (map (fun z => joint log_prob latent data z * phi z) space) / sumR (map (joint log_prob latent data) space)) = / 2.
Proof. exact flip_refuted. Qed.
Print Assumptions C89_periodic_refuted.

(** Nor HMC for every step_size: with a normal prior and a normal observation [y]
    (posterior standard deviation 1 / sqrt 2), step_size 1 and the default n_steps
    of 2, whatever the momenta, every proposal is accepted and the samples from [x]
    are y - x, x, y - x, x, ... *)
Theorem C89_hmc_refuted : exists log_prob latent grad step_size, forall y, let data := [(1%nat, [y])] in hmc_posed log_prob latent data /\
  (forall z, exists f, (forall v, log_joint_unconstrained log_prob latent data [[v]] = Some (Fin (f v))) /\ is_derive f z (hd 0 (hd [] (grad data [[z]])))) /\
  forall us, (forall i, h_data (fst (us i)) = data /\ (exists r, h_momenta (fst (us i)) = [[r]]) /\ 0 < h_u (fst (us i)) < 1) ->
  forall x j, chain (hmc_kernel log_prob latent grad step_size 2) tt [[x]] us j tt [[if Nat.even j then y - x else x]] (repeat true (S j)).
Proof. exact hmc_never_forgets. Qed.
Print Assumptions C89_hmc_refuted.

(** Any space and any integral: if the proposal density is from every state at
    least [eps] times the posterior's, the mean of every bounded [phi] after [n]
    updates is within (1 - eps)^n of its posterior mean, from every start.
    (Missing, and false by the above: other proposals.) *)
Theorem C89_general_partial : forall {V} (veq : forall a b : V, {a = b} + {a <> b})
  (log_prob proposal_log_prob : nat -> list (nat * V) -> V -> ext) latent proposals data,
  well_posed latent proposals data -> log_densities log_prob proposal_log_prob -> latent <> [] ->
  forall D I, integral D I -> positive_integral D I -> (forall z, D z -> length z = length latent) ->
  (forall z, D z -> I (propose_density veq proposal_log_prob latent proposals data z) 1) ->
  (forall z, D z -> 0 < joint log_prob latent data z) ->
  forall total eps, I (joint log_prob latent data) total -> 0 < total -> 0 < eps ->
  (forall z z', D z -> D z' -> eps * joint log_prob latent data z' / total <= propose_density veq proposal_log_prob latent proposals data z z') ->
  forall n phi psi lo hi c, steps_mean veq log_prob proposal_log_prob latent proposals data D I n phi psi ->
  (forall z, D z -> lo <= phi z <= hi) -> I (fun z => joint log_prob latent data z * phi z) c ->
  forall z, D z -> Rabs (psi z - c / total) <= (1 - eps) ^ n * (hi - lo) /\ 0 <= 1 - eps < 1.
Proof. exact @forgets. Qed.
Print Assumptions C89_general_partial.

(** Finitely many states: a positive proposal density is enough. *)
Theorem C89_finite_partial : forall {V} (veq : forall a b : V, {a = b} + {a <> b})
  (log_prob proposal_log_prob : nat -> list (nat * V) -> V -> ext) latent proposals data,
  well_posed latent proposals data -> log_densities log_prob proposal_log_prob -> latent <> [] ->
  forall space, space <> [] -> (forall z, In z space -> length z = length latent) ->
  let p := joint log_prob latent data in
  let g := propose_density veq proposal_log_prob latent proposals data in
  (forall z, In z space -> 0 < p z) -> (forall z z', In z space -> In z' space -> 0 < g z z') ->
  (forall z, In z space -> by_sum space (g z) 1) ->
  exists rho, 0 <= rho < 1 /\ forall n phi lo hi, (forall z, In z space -> lo <= phi z <= hi) ->
    exists psi, steps_mean veq log_prob proposal_log_prob latent proposals data (fun z => In z space) (by_sum space) n phi psi /\
    forall psi', steps_mean veq log_prob proposal_log_prob latent proposals data (fun z => In z space) (by_sum space) n phi psi' ->
    forall z, In z space -> Rabs (psi' z - sumR (map (fun z => p z * phi z) space) / sumR (map p space)) <= rho ^ n * (hi - lo).
Proof. exact @finite_forgets. Qed.
Print Assumptions C89_finite_partial.

(** The model of [C24_demo]. *)
Example C89_finite_demo : well_posed [0%nat] [0%nat] [(1%nat, false)] /\ log_densities C24_model C24_proposal /\
  (forall z, In z [[true]; [false]] -> 0 < joint C24_model [0%nat] [(1%nat, false)] z) /\
  (forall z z', In z [[true]; [false]] -> In z' [[true]; [false]] -> 0 < propose_density Bool.bool_dec C24_proposal [0%nat] [0%nat] [(1%nat, false)] z z') /\
  (forall z, In z [[true]; [false]] -> by_sum [[true]; [false]] (propose_density Bool.bool_dec C24_proposal [0%nat] [0%nat] [(1%nat, false)] z) 1).
Proof.
  destruct C24_demo as (A & B & C & _). split; [exact A|]. split; [exact B|]. split; [|split; [|exact C]].
  - intros z [<-|[<-|[]]]; unfold joint, C24_model; cbn; repeat apply Rmult_lt_0_compat; try apply exp_pos; lra.
  - intros z z' [<-|[<-|[]]] [<-|[<-|[]]]; unfold propose_density, C24_proposal; cbn; rewrite !exp_ln by lra; lra.
Qed.

(** Latent variables that are real tensors of any shapes. *)
Theorem C89_real_partial : forall (veq : forall a b : tensor, {a = b} + {a <> b})
  (log_prob proposal_log_prob : nat -> list (nat * tensor) -> tensor -> ext) latent proposals data,
  well_posed latent proposals data -> log_densities log_prob proposal_log_prob -> latent <> [] ->
  forall s0, length s0 = length latent ->
  let p := joint log_prob latent data in
  let g := propose_density veq proposal_log_prob latent proposals data in
  (forall z, same_shape s0 z -> 0 < p z) -> continuous_tensors s0 p -> continuous_pairs s0 g ->
  (forall z, same_shape s0 z -> by_tensors s0 (g z) 1) ->
  forall total, by_tensors s0 p total ->
  forall eps, 0 < eps -> (forall z z', same_shape s0 z -> same_shape s0 z' -> eps * p z' / total <= g z z') ->
  forall phi B, continuous_tensors s0 phi -> (forall z, same_shape s0 z -> Rabs (phi z) <= B) ->
  forall n, exists psi c,
    steps_mean veq log_prob proposal_log_prob latent proposals data (same_shape s0) (by_tensors s0) n phi psi /\
    by_tensors s0 (fun z => p z * phi z) c /\
    forall psi', steps_mean veq log_prob proposal_log_prob latent proposals data (same_shape s0) (by_tensors s0) n phi psi' ->
    forall z, same_shape s0 z -> Rabs (psi' z - c / total) <= (1 - eps) ^ n * (2 * B) /\ 0 <= 1 - eps < 1.
Proof. exact real_forgets. Qed.
Print Assumptions C89_real_partial.

(** A normal mean with a normal prior and one observation [y], when the proposal
    is the prior. *)
Example C89_real_demo : exists c, 0 < c /\ forall y,
  well_posed [O] [O] [(1%nat, [y])] /\ log_densities walk_model (prior_proposal c) /\
  (forall z, same_shape [[0]] z -> 0 < joint walk_model [O] [(1%nat, [y])] z) /\
  continuous_tensors [[0]] (joint walk_model [O] [(1%nat, [y])]) /\
  continuous_pairs [[0]] (propose_density tensor_eq (prior_proposal c) [O] [O] [(1%nat, [y])]) /\
  (forall z, same_shape [[0]] z -> by_tensors [[0]] (propose_density tensor_eq (prior_proposal c) [O] [O] [(1%nat, [y])] z) 1) /\
  exists total, by_tensors [[0]] (joint walk_model [O] [(1%nat, [y])]) total /\ 0 < total / c /\
  forall z z', same_shape [[0]] z -> same_shape [[0]] z' ->
    total / c * joint walk_model [O] [(1%nat, [y])] z' / total <= propose_density tensor_eq (prior_proposal c) [O] [O] [(1%nat, [y])] z z'.
Proof. exact prior_demo. Qed.

(** Gibbs: finitely many values, all combinations possible, blocks of variables
    that are independent given the others (single variables always are), every
    variable in some block. *)
Theorem C89_gibbs_partial : forall {V} latent (D : nat -> V -> Prop) values p c space rest, NoDup latent ->
  integration latent D (fun i => by_sum (values i)) p c (by_sum space) rest (fun _ => True) ->
  (forall i v, (i < length latent)%nat -> (D i v <-> In v (values i))) ->
  (forall s, In s space <-> inside latent D s) -> (exists s, inside latent D s) -> (forall s, inside latent D s -> 0 < p s) ->
  forall order, scan_order latent order -> (forall i, (i < length latent)%nat -> exists block, In block order /\ In i block) ->
  (forall block, In block order -> free_block latent D p c block) ->
  exists rho, 0 <= rho < 1 /\ forall n f g lo hi, (forall s, inside latent D s -> lo <= f s <= hi) ->
    scans latent D (fun i => by_sum (values i)) p c order n f g -> forall s, inside latent D s ->
    Rabs (g s - sumR (map (fun s => p s * f s) space) / sumR (map p space)) <= rho ^ n * (hi - lo).
Proof. exact @gibbs_forgets. Qed.
Print Assumptions C89_gibbs_partial.

(** The model of [C77_demo_block]. *)
Example C89_gibbs_demo :
  integration [4%nat; 7%nat; 9%nat] any_D bits_I triple_p (bits_c triple_p) (by_sum triples) (bits_rest triples) (fun _ => True) /\
  (forall i v, any_D i v <-> In v bits) /\ (forall s, In s triples <-> inside [4%nat; 7%nat; 9%nat] any_D s) /\
  (forall s, inside [4%nat; 7%nat; 9%nat] any_D s -> 0 < triple_p s) /\
  scan_order [4%nat; 7%nat; 9%nat] [[0%nat]; [1%nat; 2%nat]] /\
  (forall i, (i < 3)%nat -> exists block, In block [[0%nat]; [1%nat; 2%nat]] /\ In i block) /\
  (forall block, In block [[0%nat]; [1%nat; 2%nat]] -> free_block [4%nat; 7%nat; 9%nat] any_D triple_p (bits_c triple_p) block) /\
  forall n f, exists g, scans [4%nat; 7%nat; 9%nat] any_D bits_I triple_p (bits_c triple_p) [[0%nat]; [1%nat; 2%nat]] n f g.
Proof. exact gibbs_demo. Qed.
