(** * C83: minibatches with scale estimate the full data objective without bias. *)
From Coquelicot Require Import Coquelicot.
From Coq Require Import Reals List Arith Bool Permutation.
From Verif Require Import Ext Feed Transform HMC SGLD VI VISpec.
From Verif Require Import SubsampleSpec SubsampleProofs SubsampleExampleProofs.
Import ListNotations.
Local Open Scope R_scope.

(** The batches of a pass over the data, in any order, are fair. *)
Theorem C83_epoch : forall N M bs, Permutation (concat bs) (whole N) -> (forall b, In b bs -> length b = M) -> bs <> [] ->
  fair N M (epoch bs).
Proof. exact epoch_fair. Qed.
Print Assumptions C83_epoch.

(** So are independent draws. *)
Theorem C83_replacement : forall N M, (0 < N)%nat -> fair N M (with_replacement N M).
Proof. exact replacement_fair. Qed.
Print Assumptions C83_replacement.

(** KLqp with reparameterized draws: over fair batches, the scaled loss of a
    minibatch has the loss of the whole data set as expected value, for every draw
    of the noise. *)
Theorem C83_reparam : forall {V} (log_prob : params -> nat -> list (nat * V) -> V -> list R) q_log_prob latent reg local N M scale,
  plate_scale local N M scale ->
  forall law (ds : list (list nat -> params -> sample V)) th,
  fair N M law -> (0 < N)%nat -> (0 < M)%nat ->
  (forall d, In d ds -> exists each once each' once',
     subgraph log_prob latent local N th (fun b => d b th) each once /\
     q_subgraph q_log_prob latent local N th (fun b => d b th) each' once') ->
  mean_batch law (fun b => reparam_loss log_prob q_log_prob latent scale reg (map (fun d => d b) ds) th) =
    reparam_loss log_prob q_log_prob latent [] reg (map (fun d => d (whole N)) ds) th.
Proof. exact @reparam_unbiased. Qed.
Print Assumptions C83_reparam.

(** And so have its gradients. *)
Theorem C83_reparam_gradient : forall {V} (log_prob : params -> nat -> list (nat * V) -> V -> list R) q_log_prob latent reg local N M scale,
  plate_scale local N M scale ->
  forall law (ds : list (list nat -> params -> sample V)) th v,
  fair N M law -> (0 < N)%nat -> (0 < M)%nat ->
  nearby (fun th' => forall d, In d ds -> exists each once each' once',
     subgraph log_prob latent local N th' (fun b => d b th') each once /\
     q_subgraph q_log_prob latent local N th' (fun b => d b th') each' once') th v ->
  (forall w b, In (w, b) law -> differentiable (reparam_loss log_prob q_log_prob latent scale reg (map (fun d => d b) ds)) th v) ->
  mean_batch law (fun b => gradient (reparam_loss log_prob q_log_prob latent scale reg (map (fun d => d b) ds)) th v) =
    gradient (reparam_loss log_prob q_log_prob latent [] reg (map (fun d => d (whole N)) ds)) th v.
Proof. exact @reparam_gradient_unbiased. Qed.
Print Assumptions C83_reparam_gradient.

(** MAP. *)
Theorem C83_map : forall {V} (log_prob : params -> nat -> list (nat * V) -> V -> list R) latent reg local N M scale,
  plate_scale local N M scale ->
  forall law (d : list nat -> params -> sample V) th each once,
  fair N M law -> (0 < N)%nat -> (0 < M)%nat -> by_lookup (log_prob th) ->
  subgraph log_prob latent local N th (fun b => d b th) each once ->
  mean_batch law (fun b => map_loss log_prob latent scale reg (d b) th) = map_loss log_prob latent [] reg (d (whole N)) th.
Proof. exact @map_unbiased. Qed.
Print Assumptions C83_map.

Theorem C83_map_gradient : forall {V} (log_prob : params -> nat -> list (nat * V) -> V -> list R) latent reg local N M scale,
  plate_scale local N M scale ->
  forall law (d : list nat -> params -> sample V) th v,
  fair N M law -> (0 < N)%nat -> (0 < M)%nat -> (forall th', by_lookup (log_prob th')) ->
  nearby (fun th' => exists each once, subgraph log_prob latent local N th' (fun b => d b th') each once) th v ->
  (forall w b, In (w, b) law -> differentiable (map_loss log_prob latent scale reg (d b)) th v) ->
  mean_batch law (fun b => gradient (map_loss log_prob latent scale reg (d b)) th v) =
    gradient (map_loss log_prob latent [] reg (d (whole N))) th v.
Proof. exact @map_gradient_unbiased. Qed.
Print Assumptions C83_map_gradient.

(** SGLD and SGHMC: the log joint density whose gradient they follow. *)
Theorem C83_sgld : forall (log_prob : nat -> list (nat * tensor) -> tensor -> R) local N M scale keys law
    (data : list nat -> list (nat * tensor)) (z : list nat -> list tensor) each once,
  fair N M law -> (0 < N)%nat -> (0 < M)%nat -> plate_scale local N M scale ->
  data_subgraph log_prob keys local N data z each once ->
  exists L,
    (forall w b, In (w, b) law -> scaled_log_joint (fun k d v => Fin (log_prob k d v)) (factor scale) (map (fun k => (k, None)) keys) (data b) (z b) = Some (Fin (L b))) /\
    scaled_log_joint (fun k d v => Fin (log_prob k d v)) (fun _ => 1) (map (fun k => (k, None)) keys) (data (whole N)) (z (whole N)) = Some (Fin (mean_batch law L)).
Proof. exact sgld_unbiased. Qed.
Print Assumptions C83_sgld.

(** Score function gradients, if no latent variable has a plate.  Missing: latent
    variables with plates, see [C83_score_refuted]. *)
Theorem C83_score_partial : forall {V} (log_prob : params -> nat -> list (nat * V) -> V -> list R) q_log_prob latent reg local N M scale,
  plate_scale local N M scale ->
  forall law (ds : list (list nat -> params -> sample V)) th v,
  fair N M law -> (0 < N)%nat -> (0 < M)%nat ->
  (forall zq, In zq latent -> local (fst zq) = false) ->
  (forall d, In d ds -> forall b t, within N b -> s_q (d b t) = s_q (d (whole N) t)) ->
  (forall d, In d ds -> exists each once, subgraph log_prob latent local N th (fun b => d b th) each once) ->
  (forall w b, In (w, b) law -> differentiable (score_objective log_prob q_log_prob latent scale reg (map (fun d => d b) ds) th) th v) ->
  mean_batch law (fun b => gradient (score_objective log_prob q_log_prob latent scale reg (map (fun d => d b) ds) th) th v) =
    gradient (score_objective log_prob q_log_prob latent [] reg (map (fun d => d (whole N)) ds) th) th v.
Proof. exact @score_gradient_unbiased. Qed.
Print Assumptions C83_score_partial.

(** With a latent variable for each datum the score function gradient, averaged
    over batches and over draws, is N / M times what it should be: scale multiplies
    both factors of its terms. *)
Theorem C83_score_refuted : exists (log_prob : params -> nat -> list (nat * list bool) -> list bool -> list R) q_log_prob latent local N M law scale th v
    (space : list (list bool)) (d : list bool -> list nat -> sample (list bool)) each once each' once',
  fair N M law /\ (0 < M < N)%nat /\ plate_scale local N M scale /\
  (forall u t, subgraph log_prob latent local N t (d u) (each u t) (once u t) /\ q_subgraph q_log_prob latent local N t (d u) (each' u t) (once' u t)) /\
  nearby (fun t => sumR (map (fun u => draw_density q_log_prob latent (fun _ => 1) t (d u (whole N))) space) = 1) th v /\
  mean_batch law (fun b => mean_of space (fun u => draw_density q_log_prob latent (fun _ => 1) th (d u (whole N)))
    (fun u => gradient (score_objective log_prob q_log_prob latent scale (fun _ => []) (fixed_draws [d u b]) th) th v)) =
  INR N / INR M * partial (fun t => mean_of space (fun u => draw_density q_log_prob latent (fun _ => 1) t (d u (whole N)))
    (fun u => score_loss log_prob q_log_prob latent [] (fun _ => []) (fixed_draws [d u (whole N)]) t)) th v /\
  partial (fun t => mean_of space (fun u => draw_density q_log_prob latent (fun _ => 1) t (d u (whole N)))
    (fun u => score_loss log_prob q_log_prob latent [] (fun _ => []) (fixed_draws [d u (whole N)]) t)) th v <> 0.
Proof. exact score_biased. Qed.
Print Assumptions C83_score_refuted.

(** KLqp with analytic divergences (all pairs normal): scale does not reach the
    divergences, so those of the plates count M / N of what they should; whenever
    they are positive the expected loss is too small. *)
Theorem C83_kl_small : forall {V} (log_prob : params -> nat -> list (nat * V) -> V -> list R) latent reg local N M scale,
  plate_scale local N M scale ->
  forall kl law own (ds : list (list nat -> params -> sample V)) th each' once',
  fair N M law -> (0 < M)%nat -> (M < N)%nat ->
  (forall d, In d ds -> exists each once, subgraph log_prob latent local N th (fun b => d b th) each once) ->
  kl_subgraph kl latent local N th own each' once' -> 0 < local_kl latent local N each' ->
  mean_batch law (fun b => reparam_kl_loss log_prob latent scale reg kl [] (own b) (map (fun d => d b) ds) th) <
    reparam_kl_loss log_prob latent [] reg kl [] (own (whole N)) (map (fun d => d (whole N)) ds) th.
Proof. exact @kl_too_small. Qed.
Print Assumptions C83_kl_small.

Theorem C83_kl_refuted : exists (log_prob : params -> nat -> list (nat * list R) -> list R -> list R) latent local N M scale kl law own
    (d : list nat -> params -> sample (list R)) th each once each' once',
  plate_scale local N M scale /\ fair N M law /\ (0 < M < N)%nat /\
  subgraph log_prob latent local N th (fun b => d b th) each once /\ kl_subgraph kl latent local N th own each' once' /\
  mean_batch law (fun b => reparam_kl_loss log_prob latent scale (fun _ => []) kl [] (own b) [d b] th) <>
    reparam_kl_loss log_prob latent [] (fun _ => []) kl [] (own (whole N)) [d (whole N)] th.
Proof. exact kl_refuted. Qed.
Print Assumptions C83_kl_refuted.

(** By exactly this much.  Missing: that it is zero. *)
Theorem C83_kl_partial : forall {V} (log_prob : params -> nat -> list (nat * V) -> V -> list R) latent reg local N M scale,
  plate_scale local N M scale ->
  forall kl law own (ds : list (list nat -> params -> sample V)) th each' once',
  fair N M law -> (0 < N)%nat -> (0 < M)%nat ->
  (forall d, In d ds -> exists each once, subgraph log_prob latent local N th (fun b => d b th) each once) ->
  kl_subgraph kl latent local N th own each' once' ->
  mean_batch law (fun b => reparam_kl_loss log_prob latent scale reg kl [] (own b) (map (fun d => d b) ds) th) =
    reparam_kl_loss log_prob latent [] reg kl [] (own (whole N)) (map (fun d => d (whole N)) ds) th
    - (1 - INR M / INR N) * local_kl latent local N each'.
Proof. exact @kl_biased. Qed.
Print Assumptions C83_kl_partial.

(** Giving the same factors in kl_scaling makes up for it. *)
Theorem C83_kl_scaling : forall {V} (log_prob : params -> nat -> list (nat * V) -> V -> list R) latent reg local N M scale,
  plate_scale local N M scale ->
  forall kl law ks own (ds : list (list nat -> params -> sample V)) th each' once',
  fair N M law -> (0 < N)%nat -> (0 < M)%nat -> plate_scale local N M ks ->
  (forall d, In d ds -> exists each once, subgraph log_prob latent local N th (fun b => d b th) each once) ->
  kl_subgraph kl latent local N th own each' once' ->
  mean_batch law (fun b => reparam_kl_loss log_prob latent scale reg kl ks (own b) (map (fun d => d b) ds) th) =
    reparam_kl_loss log_prob latent [] reg kl [] (own (whole N)) (map (fun d => d (whole N)) ds) th.
Proof. exact @kl_scaling_unbiased. Qed.
Print Assumptions C83_kl_scaling.

(** A shared normal variable, a normal for each of four data, in batches of two. *)
Example C83_demo : fair 4 2 (epoch h_batches) /\ plate_scale h_local 4 2 h_scale /\
  (forall th, exists each once each' once',
    subgraph h_log_prob h_latent h_local 4 th (fun b => h_draw b th) each once /\
    q_subgraph h_q_log_prob h_latent h_local 4 th (fun b => h_draw b th) each' once') /\
  (forall w b, In (w, b) (epoch h_batches) ->
    differentiable (reparam_loss h_log_prob h_q_log_prob h_latent h_scale (fun _ => []) (map (fun d => d b) [h_draw])) h_zero 0).
Proof.
  split; [exact h_fair|]. split; [exact h_scaled|]. split; [|exact h_smooth].
  intros th. do 4 eexists. split; [exact (h_subgraph th)|exact (h_q_subgraph th)].
Qed.

Example C83_lookup_demo : forall th, by_lookup (h_log_prob th).
Proof.
  intros th k a b v H. unfold h_log_prob, h_get. now rewrite !H.
Qed.

Example C83_map_demo : forall w b, In (w, b) (epoch h_batches) -> differentiable (map_loss h_log_prob h_latent h_scale (fun _ => []) (h_draw b)) h_zero 0.
Proof. exact h_map_smooth. Qed.

Example C83_kl_demo :
  kl_subgraph h_kl h_latent h_local 4 h_zero (fun b => s_q (h_draw b h_zero)) (fun _ _ => 0 * 0 / 2 + 1) (fun _ => 0 * 0 / 2 + 1) /\
  0 < local_kl h_latent h_local 4 (fun _ _ => 0 * 0 / 2 + 1).
Proof. split; [exact (h_kl_subgraph h_zero)|exact h_local_kl]. Qed.

(** A shared mean, sampled by SGLD. *)
Example C83_sgld_demo : data_subgraph n_log_prob [0%nat] (fun k => Nat.eqb k 2) 4 (fun b => [(2%nat, map h_data b)]) (fun _ => [[1]])
  (fun _ i => - ((h_data i - 1) * (h_data i - 1)) / 2) (fun _ => - (1 * 1) / 2).
Proof. exact n_subgraph. Qed.

(** A shared mean, with a score function gradient. *)
Example C83_score_demo :
  (forall zq, In zq [(0%nat, 1%nat)] -> Nat.eqb (fst zq) 2 = false) /\
  (forall b t, s_q (g_draw b t) = s_q (g_draw (whole 4) t)) /\
  subgraph g_log_prob [(0%nat, 1%nat)] (fun k => Nat.eqb k 2) 4 h_zero (fun b => g_draw b h_zero)
    (fun _ i => - ((h_data i - 1) * (h_data i - 1)) / 2) (fun _ => - (1 * 1) / 2) /\
  (forall w b, In (w, b) (epoch h_batches) ->
    differentiable (score_objective g_log_prob h_q_log_prob [(0%nat, 1%nat)] [(2%nat, 2)] (fun _ => []) [g_draw b] h_zero) h_zero 1).
Proof. exact (conj g_global (conj g_same (conj g_subgraph g_smooth))). Qed.
