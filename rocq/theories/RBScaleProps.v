(** * C66 with scales: Rao-Blackwellized gradients leave out terms without changing
    the expected gradient. *)
From Coquelicot Require Import Coquelicot.
From Coq Require Import Reals List Arith Bool Lia Lra Permutation.
From Verif Require Import Graph GraphSpec Feed Transform VI VISpec VIRefuteProofs RBSpec RBExampleProofs.
From Verif Require Import RBScaleProofs RBScaleExampleProofs.
Import ListNotations.
Local Open Scope R_scope.

(** With any scales, and whether or not the model's density depends on the variable
    too, the expected gradient is that of the score function estimator that keeps all
    terms.  For both estimators the n samples are drawn alike, though the
    Rao-Blackwellized one uses the last alone, see [C36_rb_refuted]. *)
Theorem C66_as_score : forall {V} (log_prob : params -> nat -> list (nat * V) -> V -> list R) q_log_prob latent scale reg g tensor_of_var pick fuel
  obs prior vals order e0 th v n,
  (0 < n)%nat -> NoDup (map fst latent ++ map fst obs) -> NoDup (map snd latent) ->
  single_producer g -> distinct_values g (map fst latent ++ map fst obs) -> distinct_values g (map snd latent) -> (enough g <= fuel)%nat ->
  Permutation order (map snd latent) -> parents_first g (map snd latent) order ->
  model_follows g (map fst latent ++ map fst obs) log_prob -> approximation_follows g (map snd latent) q_log_prob ->
  acts_along_graph g tensor_of_var (map snd latent) q_log_prob th v ->
  (forall q e, In q (map snd latent) -> nearby (fun t => sumR (map (fun u => exp (sumR (q_log_prob t q e u))) (vals q)) = 1) th v) ->
  (forall q e u, In q (map snd latent) -> differentiable (fun t => sumR (q_log_prob t q e u)) th v) ->
  differentiable (penalty reg) th v ->
  let space := all_draws vals order e0 obs prior in
  let density := draw_density q_log_prob latent (fun _ => 1) in
  expected space (density th) n (fun l =>
    rb_gradient log_prob q_log_prob latent scale reg g tensor_of_var pick fuel (map fst obs) (fixed_draws l) th v) =
  expected space (density th) n (fun l =>
    gradient (score_objective log_prob q_log_prob latent scale reg (fixed_draws l) th) th v).
Proof. exact @rb_as_score_gradient. Qed.
Print Assumptions C66_as_score.

(** On the graph of [RBExampleProofs], where the terms of 0 and 2 are left out, with
    scale 3 for the latent variable 1, 5 for 0 and 7 for the data. *)
Example C66_as_score_demo : forall e0 prior,
  let scale := [(1%nat, 3); (0%nat, 5); (2%nat, 7); (3%nat, 7)] in
  let space := all_draws (fun _ => [true; false]) [10; 11]%nat e0 rb_obs prior in
  let density := draw_density agree_q rb_latent (fun _ => 1) in
  rb_sets rb_latent rb_graph rb_tensor rb_first (enough rb_graph) (map fst rb_obs) 51 = Some ([1; 3], [11; 10])%nat /\
  expected space (density half) 4 (fun l =>
    rb_gradient agree_p agree_q rb_latent scale (fun _ => []) rb_graph rb_tensor rb_first (enough rb_graph) (map fst rb_obs) (fixed_draws l) half 51) =
  expected space (density half) 4 (fun l =>
    gradient (score_objective agree_p agree_q rb_latent scale (fun _ => []) (fixed_draws l) half) half 51).
Proof.
  intros e0 prior scale space density. split; [vm_compute; reflexivity|].
  apply C66_as_score; [lia|repeat constructor; simpl; lia|repeat constructor; simpl; lia|exact rb_producer|exact rb_distinct_p|exact rb_distinct_q|lia|
    apply Permutation_refl|exact rb_first_order|exact rb_model|exact rb_approx|exact rb_acts|exact rb_normal|exact rb_smooth|].
  unfold differentiable, penalty. simpl. apply (ex_derive_const (K := R_AbsRing) (V := R_NormedModule)).
Qed.

(** So with a scaled latent variable the expected gradient is not that of the
    objective, as for the score function estimator, see [C37_scale_refuted]. *)
Theorem C66_scale_refuted : exists (log_prob : params -> nat -> list (nat * bool) -> bool -> list R) q_log_prob latent scale g tensor_of_var pick obs prior vals order e0 th v,
  NoDup (map fst latent ++ map fst obs) /\ NoDup (map snd latent) /\ single_producer g /\
  distinct_values g (map fst latent ++ map fst obs) /\ distinct_values g (map snd latent) /\
  Permutation order (map snd latent) /\ parents_first g (map snd latent) order /\
  model_follows g (map fst latent ++ map fst obs) log_prob /\ approximation_follows g (map snd latent) q_log_prob /\
  acts_along_graph g tensor_of_var (map snd latent) q_log_prob th v /\
  (forall q e, In q (map snd latent) -> nearby (fun t => sumR (map (fun u => exp (sumR (q_log_prob t q e u))) (vals q)) = 1) th v) /\
  (forall q e u, In q (map snd latent) -> differentiable (fun t => sumR (q_log_prob t q e u)) th v) /\
  let space := all_draws vals order e0 obs prior in
  let density := draw_density q_log_prob latent (fun _ => 1) in
  (forall d, In d space -> independent (fun t => log_joint log_prob latent scale t d) th v) /\
  expected space (density th) 1 (fun l =>
    rb_gradient log_prob q_log_prob latent scale (fun _ => []) g tensor_of_var pick (enough g) (map fst obs) (fixed_draws l) th v) <>
  partial (fun t => - mean_of space (density t)
    (fun d => log_joint log_prob latent scale t d - log_q q_log_prob latent scale t d) + penalty (fun _ => []) t) th v.
Proof. exact rb_scale_refuted. Qed.
Print Assumptions C66_scale_refuted.
