(** * Properties C36 to C41: variational objectives and gradients. *)
From Coquelicot Require Import Coquelicot.
From Coq Require Import Reals List Arith Bool Lia Lra Permutation.
From Verif Require HMC SGLD SGLDSpec SamplerProofs.
From Verif Require Import Ext MH MHSpec Graph GraphSpec Feed Transform VI VISpec VIProofs VIGradProofs VIRefuteProofs KLpqProofs VIIntegralSpec VIIntegralProofs.
Import ListNotations.
Local Open Scope R_scope.

(** ** C36: variational losses average the objective over n_samples *)

Theorem C36_reparam : forall {V} (log_prob : params -> nat -> list (nat * V) -> V -> list R) q_log_prob latent scale reg (ds : list (params -> sample V)) th,
  (forall d, In d ds -> posed latent (d th)) ->
  reparam_loss log_prob q_log_prob latent scale reg ds th =
    - average (map (fun d => log_joint log_prob latent scale th (d th) - log_q q_log_prob latent scale th (d th)) ds) + penalty reg th.
Proof. exact @reparam_spec. Qed.
Print Assumptions C36_reparam.

Theorem C36_score : forall {V} (log_prob : params -> nat -> list (nat * V) -> V -> list R) q_log_prob latent scale reg (ds : list (params -> sample V)) th,
  (forall d, In d ds -> posed latent (d th)) ->
  score_loss log_prob q_log_prob latent scale reg ds th =
    - average (map (fun d => log_joint log_prob latent scale th (d th) - log_q q_log_prob latent scale th (d th)) ds) + penalty reg th.
Proof. exact @score_spec. Qed.
Print Assumptions C36_score.

(** With an analytic divergence.  [own] are the values, in the session run, of the
    random variables themselves.  Missing: that the divergence is from the prior
    given the drawn values, see [C36_kl_hierarchy_refuted]; that scale multiplies
    it, see [C39_kl_refuted]. *)
Theorem C36_reparam_kl_partial : forall {V} (log_prob : params -> nat -> list (nat * V) -> V -> list R) latent scale reg kl kl_scaling own (ds : list (params -> sample V)) th,
  (forall d, In d ds -> posed latent (d th)) ->
  reparam_kl_loss log_prob latent scale reg kl kl_scaling own ds th =
    - average (map (fun d => log_lik log_prob latent scale th (d th)) ds) +
    sumR (map (fun zq => factor kl_scaling (fst zq) * sumR (kl th (fst zq) (snd zq) own)) latent) + penalty reg th.
Proof. exact @reparam_kl_spec. Qed.
Print Assumptions C36_reparam_kl_partial.

Theorem C36_score_kl_partial : forall {V} (log_prob : params -> nat -> list (nat * V) -> V -> list R) latent scale reg kl kl_scaling own (ds : list (params -> sample V)) th,
  (forall d, In d ds -> posed latent (d th)) ->
  score_kl_loss log_prob latent scale reg kl kl_scaling own ds th =
    - average (map (fun d => log_lik log_prob latent scale th (d th)) ds) +
    sumR (map (fun zq => factor kl_scaling (fst zq) * sumR (kl th (fst zq) (snd zq) own)) latent) + penalty reg th.
Proof. exact @reparam_kl_spec. Qed.
Print Assumptions C36_score_kl_partial.

(** With an analytic entropy, which scale does not multiply. *)
Theorem C36_reparam_entropy : forall {V} (log_prob : params -> nat -> list (nat * V) -> V -> list R) latent scale reg entropy own (ds : list (params -> sample V)) th,
  (forall d, In d ds -> posed latent (d th)) ->
  reparam_entropy_loss log_prob latent scale reg entropy own ds th =
    - average (map (fun d => log_joint log_prob latent scale th (d th)) ds) -
    sumR (map (fun zq => sumR (entropy th (snd zq) own)) latent) + penalty reg th.
Proof. exact @entropy_spec. Qed.
Print Assumptions C36_reparam_entropy.

Theorem C36_score_entropy : forall {V} (log_prob : params -> nat -> list (nat * V) -> V -> list R) latent scale reg entropy own (ds : list (params -> sample V)) th,
  (forall d, In d ds -> posed latent (d th)) ->
  score_entropy_loss log_prob latent scale reg entropy own ds th =
    - average (map (fun d => log_joint log_prob latent scale th (d th)) ds) -
    sumR (map (fun zq => sumR (entropy th (snd zq) own)) latent) + penalty reg th.
Proof. exact @entropy_spec. Qed.
Print Assumptions C36_score_entropy.

(** ScoreRBKLqp: the last of the samples only, because [{}] * n_samples is one
    dictionary. *)
Theorem C36_rb_partial : forall {V} (log_prob : params -> nat -> list (nat * V) -> V -> list R) q_log_prob latent scale reg data (ds : list (params -> sample V)) d th,
  NoDup (map fst latent ++ data) /\ NoDup (map snd latent) -> posed latent (d th) -> map fst (s_data (d th)) = data ->
  rb_loss log_prob q_log_prob latent scale reg data (ds ++ [d]) th =
    - (log_joint log_prob latent scale th (d th) - log_q q_log_prob latent scale th (d th)) + penalty reg th.
Proof. exact @rb_spec. Qed.
Print Assumptions C36_rb_partial.

Theorem C36_rb_refuted : exists (log_prob : params -> nat -> list (nat * R) -> R -> list R) q_log_prob latent (ds : list (params -> sample R)) th,
  (forall d, In d ds -> posed latent (d th)) /\ length ds = 2%nat /\
  rb_loss log_prob q_log_prob latent [] (fun _ => []) [] ds th <>
    - average (map (fun d => log_joint log_prob latent [] th (d th) - log_q q_log_prob latent [] th (d th)) ds) + penalty (fun _ => []) th.
Proof. exact rb_refuted. Qed.
Print Assumptions C36_rb_refuted.

(** Variable 1 has variable 0 as its prior mean, and [normal_kl] is the divergence
    of normals: the loss does not use the value drawn for variable 0. *)
Theorem C36_kl_hierarchy_refuted : exists (kl : params -> nat -> nat -> (nat -> R) -> list R) latent own (d : params -> sample R) th,
  posed latent (d th) /\
  reparam_kl_loss flat_log_prob latent [] (fun _ => []) kl [] own [d] th <>
    - log_lik flat_log_prob latent [] th (d th) +
    sumR (map (fun zq => sumR (kl th (fst zq) (snd zq)
      (fun k => match Feed.dict_get (bindings latent (d th)) k with Some v => v | None => own k end))) latent).
Proof. exact kl_own_refuted. Qed.
Print Assumptions C36_kl_hierarchy_refuted.

(** Two latent variables and an observed one; two samples; a scale of 3 on the
    observed variable. *)
Definition C36_lp (th : params) (k : nat) (d : list (nat * R)) (v : R) : list R :=
  match k with 2%nat => [v; match Feed.dict_get d 0 with Some u => u | None => 0 end] | _ => [v] end.
Definition C36_q (th : params) (q : nat) (e : nat -> R) (v : R) : list R := [th q - v].
Definition C36_d (x y : R) : params -> sample R := fun th => mksample (fun q => if Nat.eqb q 10 then x + th 10%nat else y) [(2%nat, 5)] (fun _ => 0).
Definition C36_latent : list (nat * nat) := [(0%nat, 10%nat); (1%nat, 11%nat)].
Example C36_demo_hypotheses : forall x y th, posed C36_latent (C36_d x y th) /\
  NoDup (map fst C36_latent ++ [2%nat]) /\ NoDup (map snd C36_latent) /\ map fst (s_data (C36_d x y th)) = [2%nat].
Proof.
  intros x y th. assert (N : NoDup [0%nat; 1%nat; 2%nat]) by (repeat constructor; simpl; lia).
  split; [split; [|split]|split; [exact N|split; auto]].
  - repeat constructor; simpl; lia.
  - constructor; [simpl; tauto|constructor].
  - simpl. intros k [<-|[<-|[]]] [E|[]]; discriminate.
  - repeat constructor; simpl; lia.
Qed.
(** log p = z0 + z1 + 3 (5 + z0), log q = - z0 - z1; draws (1, 2) and (3, 2). *)
Example C36_demo : reparam_loss C36_lp C36_q C36_latent [(2%nat, 3)] (fun _ => [1; 1]) [C36_d 1 2; C36_d 3 2] (fun _ => 0) = - (((2 * 3 + 18) + (2 * 5 + 24)) / 2) + 2.
Proof.
  rewrite C36_reparam by (intros d [<-|[<-|[]]]; apply C36_demo_hypotheses).
  unfold average, log_joint, log_q, scaled_sum, latent_values, penalty, factor, C36_q. simpl. lra.
Qed.

(** ** C37: score-function gradients are unbiased

    On a finite space of draws, [draw_density] being the probability of each for
    variables near their current values; the latent variables have scale 1 and
    the model's density does not depend on the variable.  Missing: other scales,
    see [C37_scale_refuted]; variables shared by the model and the approximation,
    see [C37_shared_refuted].  Infinite spaces: the theorems named [general]. *)
Theorem C37_score_partial : forall {V} (log_prob : params -> nat -> list (nat * V) -> V -> list R) q_log_prob latent scale reg space base th v n,
  (0 < n)%nat -> (forall zq, In zq latent -> factor scale (fst zq) = 1) -> (forall d, In d space -> posed latent d) ->
  (forall d, In d space -> differentiable (fun t => log_q q_log_prob latent [] t d) th v) -> differentiable (penalty reg) th v ->
  nearby (fun t => sumR (map (draw_density q_log_prob latent base t) space) = 1) th v ->
  (forall d, In d space -> independent (fun t => log_joint log_prob latent scale t d) th v) ->
  expected space (draw_density q_log_prob latent base th) n
    (fun l => gradient (score_objective log_prob q_log_prob latent scale reg (fixed_draws l) th) th v) =
  partial (fun t => - mean_of space (draw_density q_log_prob latent base t)
    (fun d => log_joint log_prob latent scale t d - log_q q_log_prob latent scale t d) + penalty reg t) th v.
Proof. exact @score_unbiased. Qed.
Print Assumptions C37_score_partial.

Theorem C37_score_kl_partial : forall {V} (log_prob : params -> nat -> list (nat * V) -> V -> list R) q_log_prob latent scale reg kl kl_scaling space base th v n,
  (0 < n)%nat -> (forall zq, In zq latent -> factor scale (fst zq) = 1) -> (forall d, In d space -> posed latent d) ->
  (forall d, In d space -> differentiable (fun t => log_q q_log_prob latent [] t d) th v) -> differentiable (penalty reg) th v ->
  nearby (fun t => sumR (map (draw_density q_log_prob latent base t) space) = 1) th v ->
  forall own, differentiable (fun t => kl_penalty latent kl kl_scaling own t) th v ->
  (forall d, In d space -> independent (fun t => log_lik log_prob latent scale t d) th v) ->
  expected space (draw_density q_log_prob latent base th) n
    (fun l => gradient (score_kl_objective log_prob q_log_prob latent scale reg kl kl_scaling own (fixed_draws l) th) th v) =
  partial (fun t => - mean_of space (draw_density q_log_prob latent base t) (log_lik log_prob latent scale t) +
    sumR (map (fun zq => factor kl_scaling (fst zq) * sumR (kl t (fst zq) (snd zq) own)) latent) + penalty reg t) th v.
Proof. exact @score_kl_unbiased. Qed.
Print Assumptions C37_score_kl_partial.

Theorem C37_score_entropy_partial : forall {V} (log_prob : params -> nat -> list (nat * V) -> V -> list R) q_log_prob latent scale reg entropy space base th v n,
  (0 < n)%nat -> (forall zq, In zq latent -> factor scale (fst zq) = 1) -> (forall d, In d space -> posed latent d) ->
  (forall d, In d space -> differentiable (fun t => log_q q_log_prob latent [] t d) th v) -> differentiable (penalty reg) th v ->
  nearby (fun t => sumR (map (draw_density q_log_prob latent base t) space) = 1) th v ->
  forall own, differentiable (fun t => q_entropy latent entropy own t) th v ->
  (forall d, In d space -> independent (fun t => log_joint log_prob latent scale t d) th v) ->
  expected space (draw_density q_log_prob latent base th) n
    (fun l => gradient (score_entropy_objective log_prob q_log_prob latent scale reg entropy own (fixed_draws l) th) th v) =
  partial (fun t => - mean_of space (draw_density q_log_prob latent base t) (log_joint log_prob latent scale t) -
    sumR (map (fun zq => sumR (entropy t (snd zq) own)) latent) + penalty reg t) th v.
Proof. exact @score_entropy_unbiased. Qed.
Print Assumptions C37_score_entropy_partial.

(** The same on any space of draws: [I] is an integral over [D], [draw x] the
    draw at the point [x], and differentiation below the integral sign is
    allowed for the density and for the integrand of the objective. *)
Theorem C37_score_general_partial : forall {V A} (log_prob : params -> nat -> list (nat * V) -> V -> list R) q_log_prob latent scale reg
  (D : A -> Prop) I (draw : A -> sample V) base th v n L,
  let dens := fun t x => draw_density q_log_prob latent base t (draw x) in
  let F := fun t x => dens t x * (log_joint log_prob latent scale t (draw x) - log_q q_log_prob latent scale t (draw x)) in
  integral D I -> (0 < n)%nat -> (forall zq, In zq latent -> factor scale (fst zq) = 1) -> (forall x, D x -> posed latent (draw x)) ->
  (forall x, D x -> differentiable (fun t => log_q q_log_prob latent [] t (draw x)) th v) -> differentiable (penalty reg) th v ->
  nearby (fun t => I (dens t) 1) th v -> interchange I dens th v ->
  (forall x, D x -> independent (fun t => log_joint log_prob latent scale t (draw x)) th v) ->
  interchange I F th v -> nearby (fun t => I (F t) (L t)) th v ->
  differentiable L th v /\
  expected_by D I (dens th) n (fun l => gradient (score_objective log_prob q_log_prob latent scale reg (fixed_draws (map draw l)) th) th v)
    (partial (fun t => - L t + penalty reg t) th v).
Proof.
  intros V A log_prob q_log_prob latent scale reg D I draw base th v n L dens F HI Hn Hu Hp Hq Hr H1 H2 Hi.
  exact (score_unbiased_by log_prob q_log_prob latent scale reg D I HI draw base th v n Hn Hu Hp Hq Hr H1 H2 L Hi).
Qed.
Print Assumptions C37_score_general_partial.

Theorem C37_score_kl_general_partial : forall {V A} (log_prob : params -> nat -> list (nat * V) -> V -> list R) q_log_prob latent scale reg kl kl_scaling
  (D : A -> Prop) I (draw : A -> sample V) base th v n own L,
  let dens := fun t x => draw_density q_log_prob latent base t (draw x) in
  let F := fun t x => dens t x * log_lik log_prob latent scale t (draw x) in
  integral D I -> (0 < n)%nat -> (forall zq, In zq latent -> factor scale (fst zq) = 1) -> (forall x, D x -> posed latent (draw x)) ->
  (forall x, D x -> differentiable (fun t => log_q q_log_prob latent [] t (draw x)) th v) -> differentiable (penalty reg) th v ->
  nearby (fun t => I (dens t) 1) th v -> interchange I dens th v ->
  differentiable (fun t => kl_penalty latent kl kl_scaling own t) th v ->
  (forall x, D x -> independent (fun t => log_lik log_prob latent scale t (draw x)) th v) ->
  interchange I F th v -> nearby (fun t => I (F t) (L t)) th v ->
  differentiable L th v /\
  expected_by D I (dens th) n
    (fun l => gradient (score_kl_objective log_prob q_log_prob latent scale reg kl kl_scaling own (fixed_draws (map draw l)) th) th v)
    (partial (fun t => - L t + sumR (map (fun zq => factor kl_scaling (fst zq) * sumR (kl t (fst zq) (snd zq) own)) latent) + penalty reg t) th v).
Proof.
  intros V A log_prob q_log_prob latent scale reg kl kl_scaling D I draw base th v n own L dens F HI Hn Hu Hp Hq Hr H1 H2.
  exact (score_kl_unbiased_by log_prob q_log_prob latent scale reg kl kl_scaling D I HI draw base th v n Hn Hu Hp Hq Hr H1 H2 own L).
Qed.
Print Assumptions C37_score_kl_general_partial.

Theorem C37_score_entropy_general_partial : forall {V A} (log_prob : params -> nat -> list (nat * V) -> V -> list R) q_log_prob latent scale reg entropy
  (D : A -> Prop) I (draw : A -> sample V) base th v n own L,
  let dens := fun t x => draw_density q_log_prob latent base t (draw x) in
  let F := fun t x => dens t x * log_joint log_prob latent scale t (draw x) in
  integral D I -> (0 < n)%nat -> (forall zq, In zq latent -> factor scale (fst zq) = 1) -> (forall x, D x -> posed latent (draw x)) ->
  (forall x, D x -> differentiable (fun t => log_q q_log_prob latent [] t (draw x)) th v) -> differentiable (penalty reg) th v ->
  nearby (fun t => I (dens t) 1) th v -> interchange I dens th v ->
  differentiable (fun t => q_entropy latent entropy own t) th v ->
  (forall x, D x -> independent (fun t => log_joint log_prob latent scale t (draw x)) th v) ->
  interchange I F th v -> nearby (fun t => I (F t) (L t)) th v ->
  differentiable L th v /\
  expected_by D I (dens th) n
    (fun l => gradient (score_entropy_objective log_prob q_log_prob latent scale reg entropy own (fixed_draws (map draw l)) th) th v)
    (partial (fun t => - L t - sumR (map (fun zq => sumR (entropy t (snd zq) own)) latent) + penalty reg t) th v).
Proof.
  intros V A log_prob q_log_prob latent scale reg entropy D I draw base th v n own L dens F HI Hn Hu Hp Hq Hr H1 H2.
  exact (score_entropy_unbiased_by log_prob q_log_prob latent scale reg entropy D I HI draw base th v n Hn Hu Hp Hq Hr H1 H2 own L).
Qed.
Print Assumptions C37_score_entropy_general_partial.

(** Finite sums, series, integrals over an interval and over the real line are
    such integrals; and the interchange holds for finite sums, and for integrals
    over an interval if the derivative is jointly continuous. *)
Theorem C37_integrals :
  (forall A (space : list A), integral (fun a => In a space) (by_sum space)) /\ integral (fun _ => True) by_series /\
  (forall lo hi, lo <= hi -> integral (fun x => lo < x < hi) (by_RInt lo hi)) /\ integral (fun _ => True) by_line.
Proof. exact (conj (@sum_integral) (conj series_integral (conj RInt_integral line_integral))). Qed.
Print Assumptions C37_integrals.

Theorem C37_interchange_sum : forall A (space : list A) (F : params -> A -> R) th v,
  (forall a, In a space -> differentiable (fun t => F t a) th v) -> interchange (by_sum space) F th v.
Proof. exact @interchange_sum. Qed.
Print Assumptions C37_interchange_sum.

Theorem C37_interchange_interval : forall lo hi (F : params -> R -> R) th v, lo <= hi ->
  nearby (fun t => ex_RInt (F t) lo hi) th v ->
  locally (th v) (fun y => forall x, lo <= x <= hi -> ex_derive (fun u => F (set_param th v u) x) y) ->
  (forall x, lo <= x <= hi -> continuity_2d_pt (fun u z => Derive (fun y => F (set_param th v y) z) u) (th v) x) ->
  interchange (by_RInt lo hi) F th v.
Proof. exact interchange_RInt. Qed.
Print Assumptions C37_interchange_interval.

(** A draw on the unit interval with density 1 + theta (2 z - 1). *)
Example C37_general_demo :
  let dens := fun t z => draw_density slope_q [(0%nat, 1%nat)] slope_base t (slope_draw z) in
  let F := fun t z => dens t z * (log_joint slope_p [(0%nat, 1%nat)] [] t (slope_draw z) - log_q slope_q [(0%nat, 1%nat)] [] t (slope_draw z)) in
  let th := fun _ => 0 in
  integral (fun z => 0 < z < 1) (by_RInt 0 1) /\
  (forall z, 0 < z < 1 -> posed [(0%nat, 1%nat)] (slope_draw z)) /\
  (forall z, 0 < z < 1 -> differentiable (fun t => log_q slope_q [(0%nat, 1%nat)] [] t (slope_draw z)) th 0) /\
  nearby (fun t => by_RInt 0 1 (dens t) 1) th 0 /\ interchange (by_RInt 0 1) dens th 0 /\
  (forall z, 0 < z < 1 -> independent (fun t => log_joint slope_p [(0%nat, 1%nat)] [] t (slope_draw z)) th 0) /\
  interchange (by_RInt 0 1) F th 0 /\ nearby (fun t => by_RInt 0 1 (F t) (RInt (F t) 0 1)) th 0.
Proof. exact slope_hypotheses. Qed.

(** Variables of the model, any scale. *)
Theorem C37_model_variables : forall {V} (log_prob : params -> nat -> list (nat * V) -> V -> list R) q_log_prob latent scale reg
  (space : list (sample V)) (base : sample V -> R) n th v, (0 < n)%nat ->
  (forall d, In d space -> posed latent d) ->
  (forall d, In d space -> independent (fun t => log_q q_log_prob latent scale t d) th v /\ independent (fun t => log_q q_log_prob latent [] t d) th v) ->
  (forall d, In d space -> differentiable (fun t => log_joint log_prob latent scale t d) th v) ->
  differentiable (penalty reg) th v ->
  sumR (map (draw_density q_log_prob latent base th) space) = 1 ->
  expected space (draw_density q_log_prob latent base th) n (fun l => gradient (score_loss log_prob q_log_prob latent scale reg (fixed_draws l)) th v) =
  partial (fun t => - mean_of space (draw_density q_log_prob latent base t)
    (fun d => log_joint log_prob latent scale t d - log_q q_log_prob latent scale t d) + penalty reg t) th v.
Proof. exact @model_unbiased. Qed.
Print Assumptions C37_model_variables.

(** Reparameterization: draws are functions of noise and of the variables. *)
Theorem C37_reparam : forall {V} (log_prob : params -> nat -> list (nat * V) -> V -> list R) q_log_prob latent scale reg
  {A} (noise : list A) (w : A -> R) (draw : A -> params -> sample V) n th v, (0 < n)%nat ->
  sumR (map w noise) = 1 -> (forall e t, In e noise -> posed latent (draw e t)) ->
  (forall e, In e noise -> differentiable (fun t => log_joint log_prob latent scale t (draw e t) - log_q q_log_prob latent scale t (draw e t)) th v) ->
  differentiable (penalty reg) th v ->
  expected noise w n (fun l => gradient (reparam_loss log_prob q_log_prob latent scale reg (map draw l)) th v) =
  partial (fun t => - mean_of noise w (fun e => log_joint log_prob latent scale t (draw e t) - log_q q_log_prob latent scale t (draw e t)) + penalty reg t) th v.
Proof. exact @reparam_unbiased. Qed.
Print Assumptions C37_reparam.

(** On any space. *)
Theorem C37_model_variables_general : forall {V A} (log_prob : params -> nat -> list (nat * V) -> V -> list R) q_log_prob latent scale reg
  (D : A -> Prop) I (draw : A -> sample V) base n th v L, integral D I -> (0 < n)%nat ->
  (forall x, D x -> posed latent (draw x)) ->
  (forall x, D x -> independent (fun t => log_q q_log_prob latent scale t (draw x)) th v /\ independent (fun t => log_q q_log_prob latent [] t (draw x)) th v) ->
  (forall x, D x -> differentiable (fun t => log_joint log_prob latent scale t (draw x)) th v) ->
  differentiable (penalty reg) th v ->
  let dens := fun t x => draw_density q_log_prob latent base t (draw x) in
  I (dens th) 1 ->
  let F := fun t x => dens t x * (log_joint log_prob latent scale t (draw x) - log_q q_log_prob latent scale t (draw x)) in
  interchange I F th v -> nearby (fun t => I (F t) (L t)) th v ->
  differentiable L th v /\
  expected_by D I (dens th) n (fun l => gradient (score_loss log_prob q_log_prob latent scale reg (fixed_draws (map draw l))) th v)
    (partial (fun t => - L t + penalty reg t) th v).
Proof.
  intros V A log_prob q_log_prob latent scale reg D I draw base n th v L HI.
  exact (model_unbiased_by log_prob q_log_prob latent scale reg D I HI draw base n th v L).
Qed.
Print Assumptions C37_model_variables_general.

Theorem C37_reparam_general : forall {V A} (log_prob : params -> nat -> list (nat * V) -> V -> list R) q_log_prob latent scale reg
  (D : A -> Prop) I (w : A -> R) (draw : A -> params -> sample V) n th v L, integral D I -> (0 < n)%nat -> I w 1 ->
  (forall e t, D e -> posed latent (draw e t)) ->
  (forall e, D e -> differentiable (fun t => log_joint log_prob latent scale t (draw e t) - log_q q_log_prob latent scale t (draw e t)) th v) ->
  differentiable (penalty reg) th v ->
  let F := fun t e => w e * (log_joint log_prob latent scale t (draw e t) - log_q q_log_prob latent scale t (draw e t)) in
  interchange I F th v -> nearby (fun t => I (F t) (L t)) th v ->
  differentiable L th v /\
  expected_by D I w n (fun l => gradient (reparam_loss log_prob q_log_prob latent scale reg (map draw l)) th v)
    (partial (fun t => - L t + penalty reg t) th v).
Proof.
  intros V A log_prob q_log_prob latent scale reg D I w draw n th v L HI.
  exact (reparam_unbiased_by log_prob q_log_prob latent scale reg D I HI w draw n th v L).
Qed.
Print Assumptions C37_reparam_general.

(** A latent variable with scale 2: the expected gradient is twice the gradient. *)
Theorem C37_scale_refuted : exists (log_prob : params -> nat -> list (nat * bool) -> bool -> list R) q_log_prob latent scale space base th v,
  (forall d, In d space -> posed latent d) /\
  nearby (fun t => sumR (map (draw_density q_log_prob latent base t) space) = 1) th v /\
  (forall d, In d space -> independent (fun t => log_joint log_prob latent scale t d) th v) /\
  expected space (draw_density q_log_prob latent base th) 1
    (fun l => gradient (score_objective log_prob q_log_prob latent scale (fun _ => []) (fixed_draws l) th) th v) <>
  partial (fun t => - mean_of space (draw_density q_log_prob latent base t)
    (fun d => log_joint log_prob latent scale t d - log_q q_log_prob latent scale t d) + penalty (fun _ => []) t) th v.
Proof. exact score_scale_refuted. Qed.
Print Assumptions C37_scale_refuted.

(** A variable of both the model and the approximation: the derivative of the
    model's density is dropped. *)
Theorem C37_shared_refuted : exists (log_prob : params -> nat -> list (nat * bool) -> bool -> list R) q_log_prob latent space base th v,
  (forall d, In d space -> posed latent d) /\
  nearby (fun t => sumR (map (draw_density q_log_prob latent base t) space) = 1) th v /\
  (forall d, In d space -> differentiable (fun t => log_joint log_prob latent [] t d) th v) /\
  expected space (draw_density q_log_prob latent base th) 1
    (fun l => gradient (score_objective log_prob q_log_prob latent [] (fun _ => []) (fixed_draws l) th) th v) <>
  partial (fun t => - mean_of space (draw_density q_log_prob latent base t)
    (fun d => log_joint log_prob latent [] t d - log_q q_log_prob latent [] t d) + penalty (fun _ => []) t) th v.
Proof. exact score_shared_refuted. Qed.
Print Assumptions C37_shared_refuted.

(** A coin with probability given by a variable, at 1/2. *)
Example C37_demo : (forall zq, In zq [(0%nat, 1%nat)] -> factor [] (fst zq) = 1) /\ (forall d, In d coins -> posed [(0%nat, 1%nat)] d) /\
  (forall d, In d coins -> differentiable (fun t => log_q coin_q [(0%nat, 1%nat)] [] t d) half 0) /\
  nearby (fun t => sumR (map (draw_density coin_q [(0%nat, 1%nat)] one_base t) coins) = 1) half 0 /\
  (forall d, In d coins -> independent (fun t => log_joint coin_prior [(0%nat, 1%nat)] [] t d) half 0).
Proof.
  split; [intros zq [<-|[]]; reflexivity|]. split; [apply coin_posed|]. split; [|split; [apply coin_nearby|intros d _ x; reflexivity]].
  intros d [<-|[<-|[]]]; unfold differentiable;
    (eapply ex_derive_ext; [intros x; symmetry; apply coin_log_q|]); unfold factor, coin, half, set_param; simpl; auto_derive; lra.
Qed.

(** ** C38: KLpq weights are a probability vector and the objective is the documented one *)

Theorem C38_weights : forall l, l <> [] -> length (w_norm l) = length l /\ Forall (fun w => 0 < w) (w_norm l) /\ sumR (w_norm l) = 1 /\
  forall c, w_norm (map (fun w => w + c) l) = w_norm l.
Proof. exact w_norm_spec. Qed.
Print Assumptions C38_weights.

(** The loss.  Missing: the sign of the penalty, see [C38_penalty_refuted]. *)
Theorem C38_loss_partial : forall {V} (log_prob : params -> nat -> list (nat * V) -> V -> list R) q_log_prob latent reg (ds : list (params -> sample V)) th,
  ds <> [] -> (forall d, In d ds -> posed latent (d th)) ->
  let lw := fun d => log_joint log_prob latent [] th (d th) - log_q q_log_prob latent [] th (d th) in
  pq_loss log_prob q_log_prob latent reg ds th =
    sumR (map (fun d => exp (lw d) / sumR (map (fun e => exp (lw e)) ds) * lw d) ds) - penalty reg th.
Proof. exact @pq_loss_spec. Qed.
Print Assumptions C38_loss_partial.

(** The gradient for variables of the approximation. *)
Theorem C38_gradient : forall {V} (log_prob : params -> nat -> list (nat * V) -> V -> list R) q_log_prob latent reg l th v,
  l <> [] -> (forall d, In d l -> posed latent d) ->
  (forall d, In d l -> differentiable (fun t => log_q q_log_prob latent [] t d) th v) -> differentiable (penalty reg) th v ->
  let lw := fun d => log_joint log_prob latent [] th d - log_q q_log_prob latent [] th d in
  gradient (pq_objective log_prob q_log_prob latent reg (fixed_draws l) th) th v =
  - sumR (map (fun d => exp (lw d) / sumR (map (fun e => exp (lw e)) l) * partial (fun t => log_q q_log_prob latent [] t d) th v) l) + partial (penalty reg) th v.
Proof. exact @pq_gradient. Qed.
Print Assumptions C38_gradient.

Theorem C38_penalty_refuted : exists (log_prob : params -> nat -> list (nat * R) -> R -> list R) q_log_prob latent reg ds th,
  ds <> [] /\ (forall d, In d ds -> posed latent (d th)) /\ Forall (fun r => 0 < r) (reg th) /\
  (let lw := fun d : params -> sample R => log_joint log_prob latent [] th (d th) - log_q q_log_prob latent [] th (d th) in
   pq_loss log_prob q_log_prob latent reg ds th <>
    sumR (map (fun d => exp (lw d) / sumR (map (fun e => exp (lw e)) ds) * lw d) ds) + penalty reg th).
Proof. exact pq_penalty_refuted. Qed.
Print Assumptions C38_penalty_refuted.

(** Variables of the model: the documentation promises the gradient of the
    expectation of log p(x, z) under the posterior, which the weights estimate.
    What is differentiated is the loss with its weights, so a factor depending on
    the log weight comes in. *)
Theorem C38_model_gradient : forall {V} (log_prob : params -> nat -> list (nat * V) -> V -> list R) q_log_prob latent reg l th v,
  l <> [] -> (forall d, In d l -> posed latent d) ->
  (forall d, In d l -> independent (fun t => log_q q_log_prob latent [] t d) th v) ->
  (forall d, In d l -> differentiable (fun t => log_joint log_prob latent [] t d) th v) -> differentiable (penalty reg) th v ->
  let lw := fun d => log_joint log_prob latent [] th d - log_q q_log_prob latent [] th d in
  let w := fun d => exp (lw d) / sumR (map (fun e => exp (lw e)) l) in
  gradient (pq_model_objective log_prob q_log_prob latent reg (fixed_draws l)) th v =
  - sumR (map (fun d => w d * (partial (fun t => log_joint log_prob latent [] t d) th v *
      (1 + lw d - sumR (map (fun e => w e * lw e) l)))) l) + partial (penalty reg) th v.
Proof. exact @pq_model_gradient. Qed.
Print Assumptions C38_model_gradient.

Theorem C38_model_refuted : exists (log_prob : params -> nat -> list (nat * R) -> R -> list R) q_log_prob latent l th v,
  l <> [] /\ (forall d, In d l -> posed latent d) /\
  (forall d, In d l -> independent (fun t => log_q q_log_prob latent [] t d) th v) /\
  (forall d, In d l -> differentiable (fun t => log_joint log_prob latent [] t d) th v) /\
  (let lw := fun d => log_joint log_prob latent [] th d - log_q q_log_prob latent [] th d in
   gradient (pq_model_objective log_prob q_log_prob latent (fun _ => []) (fixed_draws l)) th v <>
   - sumR (map (fun d => exp (lw d) / sumR (map (fun e => exp (lw e)) l) * partial (fun t => log_joint log_prob latent [] t d) th v) l)).
Proof. exact pq_model_refuted. Qed.
Print Assumptions C38_model_refuted.

(** It is the documented gradient if all weights are equal, as with one sample. *)
Theorem C38_model_partial : forall {V} (log_prob : params -> nat -> list (nat * V) -> V -> list R) q_log_prob latent reg l th v,
  l <> [] -> (forall d, In d l -> posed latent d) ->
  (forall d, In d l -> independent (fun t => log_q q_log_prob latent [] t d) th v) ->
  (forall d, In d l -> differentiable (fun t => log_joint log_prob latent [] t d) th v) -> differentiable (penalty reg) th v ->
  let lw := fun d => log_joint log_prob latent [] th d - log_q q_log_prob latent [] th d in
  (forall d e, In d l -> In e l -> lw d = lw e) ->
  gradient (pq_model_objective log_prob q_log_prob latent reg (fixed_draws l)) th v =
  - sumR (map (fun d => exp (lw d) / sumR (map (fun e => exp (lw e)) l) * partial (fun t => log_joint log_prob latent [] t d) th v) l) + partial (penalty reg) th v.
Proof. exact @pq_model_equal. Qed.
Print Assumptions C38_model_partial.

(** Log weights ln 1 and ln 3. *)
Example C38_demo : w_norm [ln 1; ln 3] = [1 / 4; 3 / 4].
Proof. rewrite w_norm_ratio by discriminate. simpl. rewrite !exp_ln by lra. f_equal; [lra|f_equal; lra]. Qed.

(** ** C39: scale multiplies the log probability of the variable it is given for

    [C36_reparam], [C36_score] and the next theorem have each term multiplied by
    its scale.  Missing: the other algorithms, see the refutations. *)
Theorem C39_map_partial : forall {V} (log_prob : params -> nat -> list (nat * V) -> V -> list R) latent scale reg d th,
  posed latent (d th) -> by_lookup (log_prob th) ->
  map_loss log_prob latent scale reg d th = - log_joint log_prob latent scale th (d th) + penalty reg th.
Proof. exact @map_spec. Qed.
Print Assumptions C39_map_partial.

(** SGLD and SGHMC differentiate the scaled log joint density. *)
Theorem C39_sgld_partial : forall log_prob scale keys data (z : list HMC.tensor), NoDup keys -> NoDup (map fst data) ->
  (forall k, In k keys -> ~ In k (map fst data)) -> length z = length keys ->
  SGLD.scaled_log_joint (fun k d v => Fin (log_prob k d v)) scale (map (fun k => (k, None)) keys) data z =
    Some (Fin (SGLDSpec.scaled_log_density log_prob scale keys data z)).
Proof. exact SamplerProofs.scaled_log_joint_spec. Qed.
Print Assumptions C39_sgld_partial.

Theorem C39_klpq_refuted : exists (log_prob : params -> nat -> list (nat * R) -> R -> list R) q_log_prob latent scale ds th,
  ds <> [] /\ (forall d, In d ds -> posed latent (d th)) /\
  (let lw := fun d : params -> sample R => log_joint log_prob latent scale th (d th) - log_q q_log_prob latent scale th (d th) in
   pq_loss log_prob q_log_prob latent (fun _ => []) ds th <>
    sumR (map (fun d => exp (lw d) / sumR (map (fun e => exp (lw e)) ds) * lw d) ds)).
Proof. exact pq_scale_refuted. Qed.
Print Assumptions C39_klpq_refuted.

(** With an analytic divergence the scales of latent variables have no effect. *)
Theorem C39_kl_refuted : forall {V} (log_prob : params -> nat -> list (nat * V) -> V -> list R) latent reg kl kl_scaling own ds th scale scale',
  (forall d : params -> sample V, In d ds -> posed latent (d th)) ->
  (forall d x, In d ds -> In x (map fst (s_data (d th))) -> factor scale x = factor scale' x) ->
  reparam_kl_loss log_prob latent scale reg kl kl_scaling own ds th = reparam_kl_loss log_prob latent scale' reg kl kl_scaling own ds th.
Proof. exact @kl_scale. Qed.
Print Assumptions C39_kl_refuted.

(** WakeSleep: the sleep phase multiplies every term by the scale of one variable. *)
Theorem C39_sleep_refuted : exists (q_log_prob : params -> nat -> (nat -> R) -> R -> list R) latent scale d th,
  posed latent (d th) /\
  wake_loss_q q_log_prob latent scale (fun _ => []) true [d] th th <>
    - sumR (map (fun zq => factor scale (fst zq) * sumR (q_log_prob th (snd zq)
        (fun k => match find (fun zq => Nat.eqb (snd zq) k) latent with Some zq => s_prior (d th) (fst zq) | None => s_q (d th) k end)
        (s_prior (d th) (fst zq)))) latent).
Proof. exact sleep_refuted. Qed.
Print Assumptions C39_sleep_refuted.

(** Metropolis-Hastings: no detailed balance with the scaled density. *)
Theorem C39_mh_refuted : exists (lp plp : nat -> list (nat * bool) -> bool -> ext) latent proposals z z',
  well_posed (V := bool) latent proposals [] /\ log_densities lp plp /\ length z = length latent /\ reachable latent proposals z z' /\ z <> z' /\
  (let target := fun w => joint (fun k d v => emul (Fin 2) (lp k d v)) latent [] w in
   let g := propose_density Bool.bool_dec plp latent proposals [] in
   forall a a', step_probability lp plp latent proposals [] z z' z' a -> step_probability lp plp latent proposals [] z' z z a' ->
     target z * g z z' * a <> target z' * g z' z * a').
Proof. exact mh_scale_refuted. Qed.
Print Assumptions C39_mh_refuted.

Example C39_demo : forall th, posed C36_latent (C36_d 1 2 th) /\ by_lookup (C36_lp th).
Proof.
  intros th. split; [apply C36_demo_hypotheses|]. intros k a b v H. unfold C36_lp.
  destruct k as [|[|[|k]]]; auto. rewrite H. auto.
Qed.
Example C39_demo_map : map_loss C36_lp C36_latent [(2%nat, 3)] (fun _ => [1; 1]) (C36_d 1 2) (fun _ => 0) = - (3 + 18) + 2.
Proof. unfold map_loss, p_data, p_latents, p_term, weighted, get_or_1, reg_penalty. simpl. lra. Qed.

(** ** C40: every optimised variable receives exactly one gradient *)

(** ScoreKLqp; its variants, KLpq and WakeSleep pair in the same way other
    functions of the variable, which are [q_grad] and [p_grad]. *)
Theorem C40_split : forall latent g tensor_of_var pick fuel, distinct_values g (map snd latent) -> (enough g <= fuel)%nat ->
  forall q_grad p_grad var_list,
  paired (reaches g tensor_of_var (map snd latent)) q_grad p_grad var_list
    (split_pairs (is_q_var latent g tensor_of_var pick fuel) q_grad p_grad var_list).
Proof. exact split_reaches. Qed.
Print Assumptions C40_split.

Theorem C40_plain : forall grad var_list, paired (fun _ => True) grad grad var_list (plain_pairs grad var_list).
Proof. exact plain_paired. Qed.
Print Assumptions C40_plain.

Theorem C40_rb : forall {V} (log_prob : params -> nat -> list (nat * V) -> V -> list R) q_log_prob latent scale reg g tensor_of_var pick fuel,
  distinct_values g (map snd latent) -> (enough g <= fuel)%nat -> forall data ds th var_list,
  paired (reaches g tensor_of_var (map snd latent)) (rb_gradient log_prob q_log_prob latent scale reg g tensor_of_var pick fuel data ds th)
    (gradient (rb_loss log_prob q_log_prob latent scale reg data ds) th) var_list
    (rb_pairs log_prob q_log_prob latent scale reg g tensor_of_var pick fuel data ds th var_list).
Proof. exact @rb_paired. Qed.
Print Assumptions C40_rb.

(** Tensor 5 is variable 50, which variable 7's approximation is computed from;
    variable 51 (tensor 6) leads nowhere. *)
Definition C40_graph : graph := {| ops := [{| op_in := []; op_out := [5] |}; {| op_in := []; op_out := [6] |}; {| op_in := [5]; op_out := [1] |}];
  value := fun q => 1; vref := fun v => v |}%nat.
Definition C40_tensor (v : nat) : nat := (v - 45)%nat.
Example C40_demo : distinct_values C40_graph (map snd [(0, 7)]%nat) /\
  split_pairs (is_q_var [(0, 7)]%nat C40_graph C40_tensor (fun _ => 0%nat) (enough C40_graph)) (fun _ => 1) (fun _ => 2) [51; 50]%nat =
  [(1, 50%nat); (2, 51%nat)].
Proof. split; [|reflexivity]. intros r s [<-|[]] [<-|[]] _. auto. Qed.

(** ** C41: the default var_list *)

Theorem C41_default_var_list : forall latent g pick fuel trainables data, single_producer g ->
  (forall v w, In v trainables -> In w trainables -> vref g v = vref g w -> v = w) -> (enough g <= fuel)%nat ->
  exists vars, default_var_list latent g pick fuel trainables data = Some vars /\ NoDup vars /\
    forall v, In v vars <-> In v trainables /\ exists x, up g anything (value g x) (vref g v) /\
      ((exists q, In (x, q) latent) \/ (exists z, In (z, x) latent) \/ In (x, (true, false)) data).
Proof. exact default_var_list_spec. Qed.
Print Assumptions C41_default_var_list.

(** Variables 5 and 6; random variable 7 has value 1, computed from 5. *)
Definition C41_graph : graph := {| ops := [{| op_in := []; op_out := [5] |}; {| op_in := []; op_out := [6] |}; {| op_in := [5]; op_out := [1] |}; {| op_in := [6]; op_out := [2] |}];
  value := fun q => (q - 6)%nat; vref := fun v => v |}%nat.
Example C41_demo : single_producer C41_graph /\
  default_var_list [(0, 7)]%nat C41_graph (fun _ => 0%nat) (enough C41_graph) [6; 5]%nat [(8, (true, true))]%nat = Some [5%nat] /\
  default_var_list [(0, 7)]%nat C41_graph (fun _ => 0%nat) (enough C41_graph) [6; 5]%nat [(8, (true, false))]%nat = Some [6; 5]%nat.
Proof.
  split; [|split; reflexivity]. intros o1 o2 t H1 H2. simpl in H1, H2.
  destruct H1 as [<-|[<-|[<-|[<-|[]]]]]; destruct H2 as [<-|[<-|[<-|[<-|[]]]]]; auto; simpl; intros [<-|[]] [E|[]]; discriminate.
Qed.
