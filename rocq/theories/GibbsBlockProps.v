(** * Property C77: a Gibbs scan, of variables or of blocks, keeps the posterior. *)
From Coquelicot Require Import Coquelicot.
From Coq Require Import Reals List Arith Bool Lia.
From Verif Require Import VIIntegralSpec.
From Verif Require Import GibbsBlockSpec GibbsBlockProofs GibbsBlockExampleProofs.
Import ListNotations.
Local Open Scope R_scope.

(** The blocked Gibbs sampler that the documentation of scan_order offers does
    not: the variables of a block are drawn in one session run, each given the
    values of the others before the block.  With two binary variables in one
    block the expectation of some [f] changes. *)
Theorem C77_block_refuted : exists (latent : list nat) (p : list bool -> R) f g a,
  (forall s, In s pairs -> 0 < p s) /\ by_sum pairs p 1 /\
  scan_order latent [[0%nat; 1%nat]] /\ after_scan latent any_D bits_I p (bits_c p) [[0%nat; 1%nat]] f g /\
  by_sum pairs (fun s => p s * f s) a /\ ~ by_sum pairs (fun s => p s * g s) a.
Proof. exact block_refuted. Qed.
Print Assumptions C77_block_refuted.

(** Scanning the variables one by one, in any order and with repetitions, keeps
    every expectation: any spaces, any density. *)
Theorem C77_single_partial : forall {V} latent D I (p : list V -> R) c J rest G, NoDup latent ->
  integration latent D I p c J rest G -> (exists s, inside latent D s) ->
  forall order f g a, (forall i, In i order -> (i < length latent)%nat) -> G f ->
  after_scan latent D I p c (map (fun i => [i]) order) f g ->
  J (fun s => p s * f s) a -> J (fun s => p s * g s) a.
Proof. exact @single_invariant. Qed.
Print Assumptions C77_single_partial.

(** So does scanning blocks, if the variables of each are conditionally
    independent given the others.  (Missing, and false by the above: any block.) *)
Theorem C77_free_partial : forall {V} latent D I (p : list V -> R) c J rest G, NoDup latent ->
  integration latent D I p c J rest G -> (exists s, inside latent D s) ->
  forall order f g a, scan_order latent order ->
  (forall block, In block order -> free_block latent D p c block) -> G f ->
  after_scan latent D I p c order f g ->
  J (fun s => p s * f s) a -> J (fun s => p s * g s) a.
Proof. exact @scan_invariant'. Qed.
Print Assumptions C77_free_partial.

(** A variable that is 1 with the probability that the other, uniform one gives:
    a sum and an integral.  After a scan the second one has, from [a; x], the
    expected value (1 + x) / 3; under the posterior it is 1/2 before and after. *)
Example C77_demo_mixed :
  integration [4%nat; 7%nat] mixed_D mixed_I mixed_p mixed_c mixed_J mixed_rest (fun _ => True) /\
  inside [4%nat; 7%nat] mixed_D [1; 1 / 3] /\
  after_scan [4%nat; 7%nat] mixed_D mixed_I mixed_p mixed_c (map (fun i => [i]) [0%nat; 1%nat])
    (fun s => nth 1 s 0) (fun s => (1 + nth 1 s 0) / 3) /\
  mixed_J (fun s => mixed_p s * nth 1 s 0) (1 / 2).
Proof. split; [exact mixed_integration|split; [exact mixed_state|split; [exact mixed_scan|exact mixed_mean]]]. Qed.

(** Two variables that are independent given a third, scanned as a block. *)
Example C77_demo_block :
  integration [4%nat; 7%nat; 9%nat] any_D bits_I triple_p (bits_c triple_p) (by_sum triples) (bits_rest triples) (fun _ => True) /\
  scan_order [4%nat; 7%nat; 9%nat] [[0%nat]; [1%nat; 2%nat]] /\
  (forall block, In block [[0%nat]; [1%nat; 2%nat]] -> free_block [4%nat; 7%nat; 9%nat] any_D triple_p (bits_c triple_p) block) /\
  forall f, exists g, after_scan [4%nat; 7%nat; 9%nat] any_D bits_I triple_p (bits_c triple_p) [[0%nat]; [1%nat; 2%nat]] f g.
Proof. exact triple_demo. Qed.
