(** * C24, C25, C28: the samplers leave their target invariant, on any space *)
From Coquelicot Require Import Coquelicot.
From Coq Require Import Reals List Arith Bool Lia Lra.
From Verif Require Import Ext Feed MonteCarlo Transform MH MHSpec HMC HMCSpec Replica ReplicaSpec VI VISpec VIIntegralSpec MonteCarloProps ReplicaProps.
From Verif Require Import InvariantSpec InvariantProofs.
Import ListNotations.
Local Open Scope R_scope.

(** Metropolis-Hastings.  [I] is any integral over states (a sum, a series, an
    integral over R^n); [g] is a probability density for it.  When the state has
    density proportional to the joint density, then so has the state [n] steps
    later: every expectation, and with it the total [phi = 1], is the same. *)
Theorem C24_stationary_general : forall {V} (veq : forall a b : V, {a = b} + {a <> b})
  (log_prob proposal_log_prob : nat -> list (nat * V) -> V -> ext) latent proposals data,
  well_posed latent proposals data -> log_densities log_prob proposal_log_prob -> latent <> [] ->
  forall D I, integral D I -> (forall z, D z -> length z = length latent) ->
  (forall z, D z -> I (propose_density veq proposal_log_prob latent proposals data z) 1) ->
  forall n phi psi c, steps_mean veq log_prob proposal_log_prob latent proposals data D I n phi psi ->
  I (fun z => joint log_prob latent data z * phi z) c ->
  I (fun z => joint log_prob latent data z * psi z) c.
Proof. exact @stationary_steps. Qed.
Print Assumptions C24_stationary_general.

(** Any finite space of states has such means after any number of steps. *)
Example C24_general_finite : forall {V} (veq : forall a b : V, {a = b} + {a <> b}) log_prob proposal_log_prob latent proposals data space,
  well_posed latent proposals data -> log_densities log_prob proposal_log_prob -> (forall z, In z space -> length z = length latent) ->
  integral (fun z => In z space) (by_sum space) /\
  forall n phi, exists psi, steps_mean veq log_prob proposal_log_prob latent proposals data (fun z => In z space) (by_sum space) n phi psi.
Proof. intros. split; [apply by_sum_integral|]. apply finite_steps; auto. Qed.
(** The model of [C24_demo] with states true and false. *)
Example C24_general_demo : (forall z, In z [[true]; [false]] ->
    by_sum [[true]; [false]] (propose_density Bool.bool_dec C24_proposal [0%nat] [0%nat] [(1%nat, false)] z) 1) /\
  by_sum [[true]; [false]] (fun z => joint C24_model [0%nat] [(1%nat, false)] z * (if hd false z then 1 else 0)) (exp 1).
Proof.
  split.
  - intros z [<-|[<-|[]]]; unfold by_sum, propose_density, C24_proposal; simpl; rewrite !exp_ln by lra; lra.
  - unfold by_sum, joint, C24_model. simpl. rewrite exp_0. ring.
Qed.

(** HMC.  [I] is any integral over positions and momenta that is invariant under
    the trajectory with the momenta turned round at its end. *)
Theorem C25_stationary : forall log_prob latent data, hmc_posed log_prob latent data ->
  forall grad step_size n s0, length s0 = length latent -> (forall z, same_shape s0 z -> same_shape s0 (grad data z)) ->
  forall I, integral (phase_space s0) I -> invariant I (trajectory data grad step_size n) ->
  forall phi e c b,
  (forall z r, same_shape s0 z -> same_shape s0 r -> mean_update log_prob latent data grad step_size n z r phi (e (z, r))) ->
  I (fun p => phase_density log_prob latent data (fst p) (snd p) * phi (fst p)) c ->
  I (fun p => phase_density log_prob latent data (fst p) (snd p) * e p) b -> b = c.
Proof. exact hmc_stationary. Qed.
Print Assumptions C25_stationary.

(** It is enough that the integral is invariant under shears and under turning
    the momenta round, as the Lebesgue integral on R^n is. *)
Theorem C25_lebesgue : forall data grad step_size n s0, (forall z, same_shape s0 z -> same_shape s0 (grad data z)) ->
  forall I, integral (phase_space s0) I ->
  (forall S, shear (same_shape s0) S -> invariant I S) -> invariant I mirror_momenta ->
  invariant I (trajectory data grad step_size n).
Proof. exact trajectory_invariant. Qed.
Print Assumptions C25_lebesgue.

(** The means exist, and two points with the trajectory that joins them already
    make a space. *)
Example C25_mean_exists : forall log_prob latent data, hmc_posed log_prob latent data ->
  forall grad step_size n s0, length s0 = length latent -> (forall z, same_shape s0 z -> same_shape s0 (grad data z)) ->
  forall phi, exists e, forall z r, same_shape s0 z -> same_shape s0 r -> mean_update log_prob latent data grad step_size n z r phi (e (z, r)).
Proof. exact mean_update_exists. Qed.
Example C25_two_points : forall data grad step_size n s0, (forall z, same_shape s0 z -> same_shape s0 (grad data z)) ->
  forall p, phase_space s0 p -> integral (phase_space s0) (by_sum [p; trajectory data grad step_size n p]) /\
    invariant (by_sum [p; trajectory data grad step_size n p]) (trajectory data grad step_size n).
Proof. exact two_points. Qed.

(** Replica exchange.  The exchanges leave the product of the tempered densities
    invariant, whatever the ladder.  (The moves between them do not: C28_move_refuted.) *)
Theorem C28_exchange_stationary_partial : forall {V} (log_prob plp : nat -> list (nat * V) -> V -> ext) latent proposals data,
  well_posed latent proposals data -> log_densities log_prob plp ->
  forall bs first m, (first <= 1)%nat -> (first + 2 * m <= length bs)%nat ->
  forall I, integral (ladder_states latent bs) I -> (forall E, length E = m -> invariant I (exchanged first E)) ->
  forall q, (forall zs j, ladder_states latent bs zs ->
    exists rs, replica_ratios log_prob latent data zs = Some rs /\ exchange_probability bs rs (first + 2 * j) (q zs j)) ->
  forall phi c,
  (forall E, length E = m ->
    exists b, I (fun zs => ladder_density (joint log_prob latent data) bs zs * decision_probability (q zs) E * phi zs) b) ->
  I (fun zs => ladder_density (joint log_prob latent data) bs zs * phi zs) c ->
  I (fun zs => ladder_density (joint log_prob latent data) bs zs * mean_exchange first m (q zs) phi zs) c.
Proof. exact @exchange_stationary. Qed.
Print Assumptions C28_exchange_stationary_partial.

(** Two replicas of a binary variable. *)
Example C28_ladder_space : let space := [[[true]; [true]]; [[true]; [false]]; [[false]; [true]]; [[false]; [false]]] in
  integral (ladder_states [0%nat] [1; 1 / 2]) (by_sum space) /\
  (forall E, length E = 1%nat -> invariant (by_sum space) (exchanged 0 E)) /\
  (forall phi, exists b, by_sum space phi b).
Proof.
  split; [|split].
  - pose proof (by_sum_integral [[[true]; [true]]; [[true]; [false]]; [[false]; [true]]; [[false]; [false]]]) as H. constructor.
    + apply (int_unique _ _ H).
    + intros f g a E. apply (int_ext _ _ H). intros x Hx. apply E.
      destruct Hx as [<-|[<-|[<-|[<-|[]]]]]; split; auto; repeat constructor.
    + apply (int_add _ _ H). + apply (int_scal _ _ H).
  - intros [|[|] [|b E]] HE; try discriminate HE; intros f a <-; unfold by_sum, exchanged; simpl; ring.
  - intros phi. eexists. reflexivity.
Qed.
