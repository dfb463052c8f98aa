(** * C92: averages over the samples of a run, and posterior expectations. *)
From Coquelicot Require Import Coquelicot.
From Coq Require Import Reals List Arith Bool Lra.
From Verif Require Import Ext Feed MonteCarlo MonteCarloSpec Transform Gibbs GibbsSpec MH MHSpec HMC HMCSpec VI VISpec VIIntegralSpec InvariantSpec.
From Verif Require Import VolumeSpec VolumeHMCSpec VolumeWalkSpec VolumeWalkExampleProofs ForgetWalkProofs GibbsBlockSpec ForgetSpec MonteCarloProps ForgetProps.
From Verif Require Import AverageSpec AverageWalkProofs AverageRealProofs AverageHMCProofs VISpec.
Import ListNotations.
Local Open Scope R_scope.

(** Metropolis-Hastings on finitely many states with a positive proposal density:
    from any start, the expected square of the distance between the average of
    [phi] over the first n states and its posterior expectation is at most
    K (hi - lo)^2 / n, and the probability of being [delta] or more apart is at
    most that divided by delta^2. *)
Theorem C92_finite_partial : forall {V} (veq : forall a b : V, {a = b} + {a <> b})
  (log_prob proposal_log_prob : nat -> list (nat * V) -> V -> ext) latent proposals data,
  well_posed latent proposals data -> log_densities log_prob proposal_log_prob -> latent <> [] ->
  forall space, space <> [] -> (forall z, In z space -> length z = length latent) ->
  let p := joint log_prob latent data in
  let g := propose_density veq proposal_log_prob latent proposals data in
  (forall z, In z space -> 0 < p z) -> (forall z z', In z space -> In z' space -> 0 < g z z') ->
  (forall z, In z space -> by_sum space (g z) 1) ->
  let step := one_step veq log_prob proposal_log_prob latent proposals data (fun z => In z space) (by_sum space) in
  exists K, 0 <= K /\ forall phi lo hi, (forall z, In z space -> lo <= phi z <= hi) ->
    let m := sumR (map (fun z => p z * phi z) space) / sumR (map p space) in
    forall n, (0 < n)%nat ->
    ((exists G, path_mean (fun z => In z space) step n (fun l => Rsqr (average (map phi l) - m)) G) /\
     forall G, path_mean (fun z => In z space) step n (fun l => Rsqr (average (map phi l) - m)) G ->
       forall z, In z space -> 0 <= G z <= K * Rsqr (hi - lo) / INR n) /\
    forall delta, 0 < delta ->
    ((exists G, path_mean (fun z => In z space) step n (fun l => apart delta (average (map phi l)) m) G) /\
     forall G, path_mean (fun z => In z space) step n (fun l => apart delta (average (map phi l)) m) G ->
       forall z, In z space -> 0 <= G z <= K * Rsqr (hi - lo) / INR n / (delta * delta)).
Proof. exact @walk_averages. Qed.
Print Assumptions C92_finite_partial.

(** The model of [C24_demo]. *)
Example C92_finite_demo : well_posed [0%nat] [0%nat] [(1%nat, false)] /\ log_densities C24_model C24_proposal /\
  (forall z, In z [[true]; [false]] -> 0 < joint C24_model [0%nat] [(1%nat, false)] z) /\
  (forall z z', In z [[true]; [false]] -> In z' [[true]; [false]] -> 0 < propose_density Bool.bool_dec C24_proposal [0%nat] [0%nat] [(1%nat, false)] z z') /\
  (forall z, In z [[true]; [false]] -> by_sum [[true]; [false]] (propose_density Bool.bool_dec C24_proposal [0%nat] [0%nat] [(1%nat, false)] z) 1).
Proof. exact C89_finite_demo. Qed.

(** Real tensors of any shapes: if the proposal density is at least [eps] times the
    posterior density everywhere, averages of bounded continuous functions
    converge, with an explicit bound. *)
Theorem C92_real_partial : forall (veq : forall a b : tensor, {a = b} + {a <> b})
  (log_prob proposal_log_prob : nat -> list (nat * tensor) -> tensor -> ext) latent proposals data,
  well_posed latent proposals data -> log_densities log_prob proposal_log_prob -> latent <> [] ->
  forall s0, length s0 = length latent ->
  let p := joint log_prob latent data in
  let g := propose_density veq proposal_log_prob latent proposals data in
  (forall z, same_shape s0 z -> 0 < p z) -> continuous_tensors s0 p -> continuous_pairs s0 g ->
  (forall z, same_shape s0 z -> by_tensors s0 (g z) 1) ->
  forall total, by_tensors s0 p total ->
  forall eps, 0 < eps -> (forall z z', same_shape s0 z -> same_shape s0 z' -> eps * p z' / total <= g z z') ->
  let step := one_step veq log_prob proposal_log_prob latent proposals data (same_shape s0) (by_tensors s0) in
  forall phi B, continuous_tensors s0 phi -> (forall z, same_shape s0 z -> Rabs (phi z) <= B) ->
  exists c, by_tensors s0 (fun z => p z * phi z) c /\
  forall n, (0 < n)%nat ->
    (exists G, path_mean (same_shape s0) step n (fun l => Rsqr (average (map phi l) - c / total)) G) /\
    forall G, path_mean (same_shape s0) step n (fun l => Rsqr (average (map phi l) - c / total)) G ->
      forall z, same_shape s0 z -> 0 <= G z <= 48 * Rsqr (B / eps) / INR n.
Proof. exact real_averages. Qed.
Print Assumptions C92_real_partial.

(** A normal mean with a normal prior and one observation [y], when the proposal
    is the prior. *)
Example C92_real_demo : exists c, 0 < c /\ forall y,
  well_posed [O] [O] [(1%nat, [y])] /\ log_densities walk_model (prior_proposal c) /\
  (forall z, same_shape [[0]] z -> 0 < joint walk_model [O] [(1%nat, [y])] z) /\
  continuous_tensors [[0]] (joint walk_model [O] [(1%nat, [y])]) /\
  continuous_pairs [[0]] (propose_density tensor_eq (prior_proposal c) [O] [O] [(1%nat, [y])]) /\
  (forall z, same_shape [[0]] z -> by_tensors [[0]] (propose_density tensor_eq (prior_proposal c) [O] [O] [(1%nat, [y])] z) 1) /\
  exists total, by_tensors [[0]] (joint walk_model [O] [(1%nat, [y])]) total /\ 0 < total / c /\
  forall z z', same_shape [[0]] z -> same_shape [[0]] z' ->
    total / c * joint walk_model [O] [(1%nat, [y])] z' / total <= propose_density tensor_eq (prior_proposal c) [O] [O] [(1%nat, [y])] z z'.
Proof. exact C89_real_demo. Qed.

(** Gibbs: finitely many values, all combinations possible, blocks of variables
    that are independent given the others, every variable in some block; the
    states are those after whole scans. *)
Theorem C92_gibbs_partial : forall {V} latent (D : nat -> V -> Prop) values p c space rest, NoDup latent -> latent <> [] ->
  integration latent D (fun i => by_sum (values i)) p c (by_sum space) rest (fun _ => True) ->
  (forall i v, (i < length latent)%nat -> (D i v <-> In v (values i))) ->
  (forall s, In s space <-> inside latent D s) -> (exists s, inside latent D s) -> (forall s, inside latent D s -> 0 < p s) ->
  forall order, scan_order latent order -> (forall i, (i < length latent)%nat -> exists block, In block order /\ In i block) ->
  (forall block, In block order -> free_block latent D p c block) ->
  let step := after_scan latent D (fun i => by_sum (values i)) p c order in
  exists K, 0 <= K /\ forall f lo hi, (forall s, inside latent D s -> lo <= f s <= hi) ->
    let m := sumR (map (fun s => p s * f s) space) / sumR (map p space) in
    forall n, (0 < n)%nat ->
    ((exists G, path_mean (inside latent D) step n (fun l => Rsqr (average (map f l) - m)) G) /\
     forall G, path_mean (inside latent D) step n (fun l => Rsqr (average (map f l) - m)) G ->
       forall s, inside latent D s -> 0 <= G s <= K * Rsqr (hi - lo) / INR n) /\
    forall delta, 0 < delta ->
    ((exists G, path_mean (inside latent D) step n (fun l => apart delta (average (map f l)) m) G) /\
     forall G, path_mean (inside latent D) step n (fun l => apart delta (average (map f l)) m) G ->
       forall s, inside latent D s -> 0 <= G s <= K * Rsqr (hi - lo) / INR n / (delta * delta)).
Proof. exact @gibbs_averages. Qed.
Print Assumptions C92_gibbs_partial.

(** The model of [C77_demo_block]. *)
Example C92_gibbs_demo :
  integration [4%nat; 7%nat; 9%nat] any_D bits_I triple_p (bits_c triple_p) (by_sum triples) (bits_rest triples) (fun _ => True) /\
  (forall i v, any_D i v <-> In v bits) /\ (forall s, In s triples <-> inside [4%nat; 7%nat; 9%nat] any_D s) /\
  (forall s, inside [4%nat; 7%nat; 9%nat] any_D s -> 0 < triple_p s) /\
  scan_order [4%nat; 7%nat; 9%nat] [[0%nat]; [1%nat; 2%nat]] /\
  (forall i, (i < 3)%nat -> exists block, In block [[0%nat]; [1%nat; 2%nat]] /\ In i block) /\
  (forall block, In block [[0%nat]; [1%nat; 2%nat]] -> free_block [4%nat; 7%nat; 9%nat] any_D triple_p (bits_c triple_p) block) /\
  forall n f, exists g, scans [4%nat; 7%nat; 9%nat] any_D bits_I triple_p (bits_c triple_p) [[0%nat]; [1%nat; 2%nat]] n f g.
Proof. exact C89_gibbs_demo. Qed.

(** Not so for HMC with every step size and number of steps: here the average of
    the squares of the samples is the square of the starting point, for every
    number of samples and whatever is drawn. *)
Theorem C92_hmc_refuted : exists log_prob latent data grad step_size phi, hmc_posed log_prob latent data /\
  (forall z, exists f, (forall v, log_joint_unconstrained log_prob latent data [[v]] = Some (Fin (f v))) /\ is_derive f z (hd 0 (hd [] (grad data [[z]])))) /\
  forall us, (forall i, h_data (fst (us i)) = data /\ (exists r, h_momenta (fst (us i)) = [[r]]) /\ 0 < h_u (fst (us i)) < 1) ->
  forall x, exists zs, (forall j, chain (hmc_kernel log_prob latent grad step_size 2) tt [[x]] us j tt (zs j) (repeat true (S j))) /\
    forall n, (0 < n)%nat -> average (map (fun j => phi (zs j)) (seq 0 n)) = x * x.
Proof. exact hmc_averages. Qed.
Print Assumptions C92_hmc_refuted.
