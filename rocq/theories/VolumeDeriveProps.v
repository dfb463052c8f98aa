(** * C37 on R^n: the derivative passes below the integral sign *)
From Coquelicot Require Import Coquelicot.
From Coq Require Import Reals List Arith Bool Lia Lra.
From Verif Require Import Transform VI VISpec VIIntegralSpec VolumeSpec VolumeExampleProofs.
From Verif Require Import VolumeDeriveSpec VolumeDeriveProofs VolumeDeriveExampleProofs.
Import ListNotations.
Local Open Scope R_scope.

(** Volume integrals satisfy the condition of the theorems on unbiased gradients
    (C37, C66 and C67) whenever the derivative of the integrand is continuous and
    stays below an integrable function near the point. *)
Theorem C37_interchange_volume : forall n (F : params -> list R -> R) th v L0,
  dominated_derivative n F th v -> by_volume n (F th) L0 -> interchange (by_volume n) F th v.
Proof. exact interchange_volume. Qed.
Print Assumptions C37_interchange_volume.

(** Score-function gradients for draws made from points of R^m: the expected
    gradient over [n] independent draws is the gradient of the expected objective.
    (Missing: scaled latent variables, see VIProps.v.) *)
Theorem C37_score_real_partial : forall {V} (log_prob : params -> nat -> list (nat * V) -> V -> list R) q_log_prob latent scale reg
  m (draw : list R -> sample V) base th v n L0,
  let D := fun x : list R => length x = m in
  let dens := fun t x => draw_density q_log_prob latent base t (draw x) in
  let F := fun t x => dens t x * (log_joint log_prob latent scale t (draw x) - log_q q_log_prob latent scale t (draw x)) in
  (0 < n)%nat -> (forall zq, In zq latent -> factor scale (fst zq) = 1) -> (forall x, D x -> posed latent (draw x)) ->
  (forall x, D x -> differentiable (fun t => log_q q_log_prob latent [] t (draw x)) th v) -> differentiable (penalty reg) th v ->
  nearby (fun t => by_volume m (dens t) 1) th v -> dominated_derivative m dens th v ->
  (forall x, D x -> independent (fun t => log_joint log_prob latent scale t (draw x)) th v) ->
  by_volume m (F th) L0 -> dominated_derivative m F th v ->
  exists L, nearby (fun t => by_volume m (F t) (L t)) th v /\ differentiable L th v /\
  expected_by D (by_volume m) (dens th) n
    (fun l => gradient (score_objective log_prob q_log_prob latent scale reg (fixed_draws (map draw l)) th) th v)
    (partial (fun t => - L t + penalty reg t) th v).
Proof. exact @score_unbiased_volume. Qed.
Print Assumptions C37_score_real_partial.

(** A latent variable Normal(0, 1) approximated by Normal(theta, 1), without the
    constant of the prior. *)
Example C37_normal_demo : exists c L, 0 < c /\
  let latent := [(0%nat, 1%nat)] in
  let dens := fun t z => draw_density (bell_q c) latent bell_base t (bell_draw z) in
  let F := fun t z => dens t z * (log_joint bell_p latent [] t (bell_draw z) - log_q (bell_q c) latent [] t (bell_draw z)) in
  let th := fun _ : nat => 0 in
  (forall t z, dens t z = / c * exp (- ((hd 0 z - t 0%nat) * (hd 0 z - t 0%nat) / 2))) /\
  (forall z, length z = 1%nat -> posed latent (bell_draw z)) /\
  (forall z, length z = 1%nat -> differentiable (fun t => log_q (bell_q c) latent [] t (bell_draw z)) th 0) /\
  nearby (fun t => by_volume 1 (dens t) 1) th 0 /\
  (forall z, length z = 1%nat -> independent (fun t => log_joint bell_p latent [] t (bell_draw z)) th 0) /\
  dominated_derivative 1 dens th 0 /\ dominated_derivative 1 F th 0 /\
  by_volume 1 (dens th) 1 /\ by_volume 1 (F th) (ln c) /\ nearby (fun t => by_volume 1 (F t) (L t)) th 0.
Proof.
  destruct (bells_mass 1) as [c Hc]. destruct (bell_hypotheses c Hc) as (L & _ & H). exists c, L. split; [exact (c0 c Hc)|].
  split; [exact (bell_dens c Hc)|exact H].
Qed.
