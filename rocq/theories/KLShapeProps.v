(** * C84: analytic divergences and entropies count every entry of a variable. *)
From Coq Require Import Reals List Arith.
From Verif Require Import Transform VI VISpec TConj VIIntegralSpec.
From Verif Require Import KLShape KLShapeSpec KLShapeProofs.
Import ListNotations.
Local Open Scope R_scope.

(** The divergence of the whole variables, the expected difference of their log
    densities, is not what the penalty has if both were built with sample_shape: here a
    coin thrown twice. *)
Theorem C84_kl_refuted : exists (A P V : Type) (D : A -> Prop) I lq lp kl (q z : rv P) (draw : A -> list nat -> V),
  expectation D I /\ r_shape q = r_shape z /\ kl_of_entries I lq lp kl q z draw /\
  ~ I (fun a => sumR (log_probs lq q (r_shape q) (draw a)) - sumR (log_probs lp z (r_shape q) (draw a))) (sumR (kl_entries kl q z)).
Proof. exact kl_wrong. Qed.
Print Assumptions C84_kl_refuted.

(** In general it is the penalty's times the number of entries that share parameters. *)
Theorem C84_kl : forall {P V A : Type} (D : A -> Prop) I, expectation D I ->
  forall lq lp kl (q z : rv P) (draw : A -> list nat -> V), r_shape q = r_shape z ->
  kl_of_entries I lq lp kl q z draw ->
  I (fun a => sumR (log_probs lq q (r_shape q) (draw a)) - sumR (log_probs lp z (r_shape q) (draw a)))
    (INR (repeats2 q z) * sumR (kl_entries kl q z)).
Proof. exact @kl_expected. Qed.
Print Assumptions C84_kl.

(** So it is right exactly if the parameters of the two, broadcast, fill the shape, or
    there is no divergence. *)
Theorem C84_kl_exact : forall {P V A : Type} (D : A -> Prop) I, expectation D I ->
  forall lq lp kl (q z : rv P) (draw : A -> list nat -> V), r_shape q = r_shape z ->
  kl_of_entries I lq lp kl q z draw -> (forall a b, 0 <= kl a b) ->
  (I (fun a => sumR (log_probs lq q (r_shape q) (draw a)) - sumR (log_probs lp z (r_shape q) (draw a))) (sumR (kl_entries kl q z)) <->
   repeats2 q z = 1%nat \/ forall d, In d (kl_entries kl q z) -> d = 0).
Proof. exact @kl_exact_iff. Qed.
Print Assumptions C84_kl_exact.

(** All latent variables together: what the penalty leaves out. *)
Theorem C84_penalty : forall {P V A : Type} (D : A -> Prop) I, expectation D I ->
  forall lq lp kl (latent : list (nat * nat)) (kl_scaling : list (nat * R)) (rvs : nat -> rv P) (draw : A -> nat -> list nat -> V) (own : nat -> unit) th,
  (forall z q, In (z, q) latent -> r_shape (rvs q) = r_shape (rvs z) /\
    kl_of_entries I lq lp kl (rvs q) (rvs z) (fun a => draw a q)) ->
  I (fun a => sumR (map (fun zq => factor kl_scaling (fst zq) *
      (sumR (log_probs lq (rvs (snd zq)) (r_shape (rvs (snd zq))) (draw a (snd zq))) -
       sumR (log_probs lp (rvs (fst zq)) (r_shape (rvs (snd zq))) (draw a (snd zq))))) latent))
    (kl_penalty latent (fun _ z q _ => kl_entries kl (rvs q) (rvs z)) kl_scaling own th +
     sumR (map (fun zq => factor kl_scaling (fst zq) * ((INR (repeats2 (rvs (snd zq)) (rvs (fst zq))) - 1) * sumR (kl_entries kl (rvs (snd zq)) (rvs (fst zq))))) latent)).
Proof. exact @penalty_expected. Qed.
Print Assumptions C84_penalty.

(** Entropies: here only the approximation's own parameters count. *)
Theorem C84_entropy_refuted : exists (A P V : Type) (D : A -> Prop) I lq entropy (q : rv P) (draw : A -> list nat -> V),
  expectation D I /\ entropy_of_entries I lq entropy q draw /\
  ~ I (fun a => - sumR (log_probs lq q (r_shape q) (draw a))) (sumR (entropies entropy q)).
Proof. exact entropy_wrong. Qed.
Print Assumptions C84_entropy_refuted.

Theorem C84_entropy : forall {P V A : Type} (D : A -> Prop) I, expectation D I ->
  forall lq entropy (q : rv P) (draw : A -> list nat -> V), entropy_of_entries I lq entropy q draw ->
  I (fun a => - sumR (log_probs lq q (r_shape q) (draw a))) (INR (repeats q) * sumR (entropies entropy q)).
Proof. exact @entropy_expected. Qed.
Print Assumptions C84_entropy.

Theorem C84_entropy_exact : forall {P V A : Type} (D : A -> Prop) I, expectation D I ->
  forall lq entropy (q : rv P) (draw : A -> list nat -> V), entropy_of_entries I lq entropy q draw ->
  (I (fun a => - sumR (log_probs lq q (r_shape q) (draw a))) (sumR (entropies entropy q)) <->
   repeats q = 1%nat \/ sumR (entropies entropy q) = 0).
Proof. exact @entropy_exact_iff. Qed.
Print Assumptions C84_entropy_exact.

(** Two coins: with sample_shape in both nothing but one divergence is counted, with
    listed parameters in one of them all are. *)
Example C84_coin_met : expectation (fun _ => True) fair /\
  kl_of_entries fair coin_log coin_log coin_kl (twice (/ 2)) (listed (/ 4)) of_pair /\
  entropy_of_entries fair coin_log coin_entropy (listed (/ 2)) of_pair /\
  repeats2 (twice (/ 2)) (twice (/ 4)) = 2%nat /\ repeats2 (twice (/ 2)) (listed (/ 4)) = 1%nat /\
  repeats2 (listed (/ 2)) (twice (/ 4)) = 1%nat /\ repeats (listed (/ 2)) = 1%nat /\
  length (kl_entries coin_kl (twice (/ 2)) (twice (/ 4))) = 1%nat /\
  length (kl_entries coin_kl (twice (/ 2)) (listed (/ 4))) = 2%nat.
Proof.
  split; [exact fair_expectation|]. split; [exact (proj1 (coin_right _ _ (/ 4) (or_introl eq_refl) (or_intror eq_refl)))|].
  split; [exact (proj2 (coin_right (listed (/ 2)) (listed (/ 4)) (/ 4) (or_intror eq_refl) (or_intror eq_refl)))|]. repeat split; reflexivity.
Qed.
