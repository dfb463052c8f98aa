(** * Properties C66 to C68, and C37 and C38 for draws that depend on the variables. *)
From Coquelicot Require Import Coquelicot.
From Coq Require Import Reals List Arith Bool Lia Lra ZArith Permutation.
From Verif Require Import Graph GraphSpec Feed Transform VI VISpec VIProofs VIGradProofs VIRefuteProofs VIMoreSpec VIMoreProofs
  RBSpec RBProofs RBExampleProofs VIIntegralSpec VIIntegralProofs RBIntegralSpec RBIntegralProofs RBIntegralExampleProofs WakeIntegralProofs.
Import ListNotations.
Local Open Scope R_scope.

(** ** C37, C38: the draws may depend on the variable that is differentiated

    The gradient is the score-function formula at the values drawn.  Missing:
    approximations that are conditional on draws of others that depend on the
    variable, see [C37_stopped_refuted]. *)
Theorem C37_stopped_partial : forall {V} (log_prob : params -> nat -> list (nat * V) -> V -> list R) q_log_prob latent scale reg
  (ds : list (params -> sample V)) th v,
  (forall d, In d ds -> posed latent (d th)) -> conditions_held q_log_prob latent ds th v ->
  (forall d, In d ds -> differentiable (fun t => log_q q_log_prob latent scale t (d th)) th v) -> differentiable (penalty reg) th v ->
  gradient (score_objective log_prob q_log_prob latent scale reg ds th) th v =
  - average (map (fun d => partial (fun t => log_q q_log_prob latent scale t (d th)) th v *
      (log_joint log_prob latent scale th (d th) - log_q q_log_prob latent scale th (d th))) ds) + partial (penalty reg) th v.
Proof. exact @score_stopped. Qed.
Print Assumptions C37_stopped_partial.

Theorem C37_stopped_kl_partial : forall {V} (log_prob : params -> nat -> list (nat * V) -> V -> list R) q_log_prob latent scale reg
  (ds : list (params -> sample V)) th v,
  (forall d, In d ds -> posed latent (d th)) -> conditions_held q_log_prob latent ds th v ->
  (forall d, In d ds -> differentiable (fun t => log_q q_log_prob latent scale t (d th)) th v) -> differentiable (penalty reg) th v ->
  forall kl kl_scaling own,
  differentiable (fun t => sumR (map (fun zq => factor kl_scaling (fst zq) * sumR (kl t (fst zq) (snd zq) own)) latent)) th v ->
  gradient (score_kl_objective log_prob q_log_prob latent scale reg kl kl_scaling own ds th) th v =
  - average (map (fun d => partial (fun t => log_q q_log_prob latent scale t (d th)) th v * log_lik log_prob latent scale th (d th)) ds) +
  partial (fun t => sumR (map (fun zq => factor kl_scaling (fst zq) * sumR (kl t (fst zq) (snd zq) own)) latent) + penalty reg t) th v.
Proof. exact @score_kl_stopped. Qed.
Print Assumptions C37_stopped_kl_partial.

Theorem C37_stopped_entropy_partial : forall {V} (log_prob : params -> nat -> list (nat * V) -> V -> list R) q_log_prob latent scale reg
  (ds : list (params -> sample V)) th v,
  (forall d, In d ds -> posed latent (d th)) -> conditions_held q_log_prob latent ds th v ->
  (forall d, In d ds -> differentiable (fun t => log_q q_log_prob latent scale t (d th)) th v) -> differentiable (penalty reg) th v ->
  forall entropy own,
  differentiable (fun t => sumR (map (fun zq => sumR (entropy t (snd zq) own)) latent)) th v ->
  gradient (score_entropy_objective log_prob q_log_prob latent scale reg entropy own ds th) th v =
  - average (map (fun d => partial (fun t => log_q q_log_prob latent scale t (d th)) th v * log_joint log_prob latent scale th (d th)) ds) +
  partial (fun t => penalty reg t - sumR (map (fun zq => sumR (entropy t (snd zq) own)) latent)) th v.
Proof. exact @score_entropy_stopped. Qed.
Print Assumptions C37_stopped_entropy_partial.

(** The approximation of variable 1 is normal around the draw of variable 0's:
    the gradient passes through that draw. *)
Theorem C37_stopped_refuted : exists (log_prob : params -> nat -> list (nat * R) -> R -> list R) q_log_prob latent d th v,
  posed latent (d th) /\ differentiable (fun t => log_q q_log_prob latent [] t (d th)) th v /\
  gradient (score_objective log_prob q_log_prob latent [] (fun _ => []) [d] th) th v <>
  - (partial (fun t => log_q q_log_prob latent [] t (d th)) th v *
      (log_joint log_prob latent [] th (d th) - log_q q_log_prob latent [] th (d th))) + partial (penalty (fun _ => [])) th v.
Proof. exact stopped_refuted. Qed.
Print Assumptions C37_stopped_refuted.

Theorem C38_stopped_partial : forall {V} (log_prob : params -> nat -> list (nat * V) -> V -> list R) q_log_prob latent reg (ds : list (params -> sample V)) th v,
  ds <> [] -> (forall d, In d ds -> posed latent (d th)) -> conditions_held q_log_prob latent ds th v ->
  (forall d, In d ds -> differentiable (fun t => log_q q_log_prob latent [] t (d th)) th v) -> differentiable (penalty reg) th v ->
  let lw := fun d : params -> sample V => log_joint log_prob latent [] th (d th) - log_q q_log_prob latent [] th (d th) in
  gradient (pq_objective log_prob q_log_prob latent reg ds th) th v =
  - sumR (map (fun d => exp (lw d) / sumR (map (fun e => exp (lw e)) ds) * partial (fun t => log_q q_log_prob latent [] t (d th)) th v) ds) +
  partial (penalty reg) th v.
Proof. exact @pq_stopped. Qed.
Print Assumptions C38_stopped_partial.

(** A normal approximation, its draw 2 above its mean, which is variable 0. *)
Definition C37_q (th : params) (q : nat) (e : nat -> R) (u : R) : list R := [- ((u - th 0%nat) * (u - th 0%nat)) / 2].
Definition C37_draw (th : params) : sample R := mksample (fun _ => th 0%nat + 2) [] (fun _ => 0).
Definition C37_prior (th : params) (k : nat) (d : list (nat * R)) (u : R) : list R := [- (u * u) / 2].
Example C37_stopped_demo : posed [(0%nat, 1%nat)] (C37_draw (fun _ => 0)) /\
  conditions_held C37_q [(0%nat, 1%nat)] [C37_draw] (fun _ => 0) 0 /\
  differentiable (fun t => log_q C37_q [(0%nat, 1%nat)] [] t (C37_draw (fun _ => 0))) (fun _ => 0) 0 /\
  partial (fun t => log_q C37_q [(0%nat, 1%nat)] [] t (C37_draw (fun _ => 0))) (fun _ => 0) 0 = 2.
Proof.
  assert (L : forall x, log_q C37_q [(0%nat, 1%nat)] [] (set_param (fun _ => 0) 0 x) (C37_draw (fun _ => 0)) = - ((2 - x) * (2 - x)) / 2).
  { intros x. unfold log_q, C37_q, C37_draw, set_param, factor. simpl. lra. }
  split; [split; [constructor; [simpl; tauto|constructor]|]; split; [constructor|]; simpl; tauto|].
  split; [intros d q x u _ _; reflexivity|]. split.
  - unfold differentiable. eapply ex_derive_ext; [intros x; symmetry; apply L|]. auto_derive. auto.
  - unfold partial. rewrite (Derive_ext _ (fun x => - ((2 - x) * (2 - x)) / 2)) by apply L. apply is_derive_unique. auto_derive; auto. lra.
Qed.

(** ** C66: Rao-Blackwellized gradients leave out terms without changing the expected gradient *)

(** The terms that are kept: the Markov blankets, in the model and among the
    approximations, of what the variable leads to. *)
Theorem C66_sets : forall {V} latent g tensor_of_var pick fuel (obs : list (nat * V)) v,
  NoDup (map snd latent) -> single_producer g ->
  distinct_values g (map fst latent ++ map fst obs) -> distinct_values g (map snd latent) -> (enough g <= fuel)%nat ->
  exists p_set q_set, rb_sets latent g tensor_of_var pick fuel (map fst obs) v = Some (p_set, q_set) /\ NoDup p_set /\ NoDup q_set /\
    (forall k, In k p_set <-> exists z q, In (z, q) latent /\ down g anything (tensor_of_var v) (value g q) /\
       in_blanket g (map fst latent ++ map fst obs) z k) /\
    (forall k, In k q_set <-> exists z q, In (z, q) latent /\ down g anything (tensor_of_var v) (value g q) /\ in_blanket g (map snd latent) q k).
Proof. exact @rb_sets_exact. Qed.
Print Assumptions C66_sets.

(** Each approximation takes finitely many values, with probabilities that are
    conditional on its parents among the approximations; the draws are all
    combinations.  Missing here: infinite spaces, see [C66_unbiased_general_partial];
    scales of latent variables, see [C66_scale_refuted] and [C66_as_score]; variables of the model too,
    see [C37_shared_refuted].
    That the n samples are averaged is false, see [C36_rb_refuted]. *)
Theorem C66_unbiased_partial : forall {V} (log_prob : params -> nat -> list (nat * V) -> V -> list R) q_log_prob latent scale reg g tensor_of_var pick fuel
  obs prior vals order e0 th v n,
  (0 < n)%nat -> NoDup (map fst latent ++ map fst obs) -> NoDup (map snd latent) ->
  single_producer g -> distinct_values g (map fst latent ++ map fst obs) -> distinct_values g (map snd latent) -> (enough g <= fuel)%nat ->
  Permutation order (map snd latent) -> parents_first g (map snd latent) order ->
  model_follows g (map fst latent ++ map fst obs) log_prob -> approximation_follows g (map snd latent) q_log_prob ->
  acts_along_graph g tensor_of_var (map snd latent) q_log_prob th v ->
  (forall q e, In q (map snd latent) -> nearby (fun t => sumR (map (fun u => exp (sumR (q_log_prob t q e u))) (vals q)) = 1) th v) ->
  (forall q e u, In q (map snd latent) -> differentiable (fun t => sumR (q_log_prob t q e u)) th v) ->
  (forall zq, In zq latent -> factor scale (fst zq) = 1) -> differentiable (penalty reg) th v ->
  let space := all_draws vals order e0 obs prior in
  let density := draw_density q_log_prob latent (fun _ => 1) in
  (forall d, In d space -> independent (fun t => log_joint log_prob latent scale t d) th v) ->
  expected space (density th) n (fun l =>
    rb_gradient log_prob q_log_prob latent scale reg g tensor_of_var pick fuel (map fst obs) (fixed_draws l) th v) =
  partial (fun t => - mean_of space (density t)
    (fun d => log_joint log_prob latent scale t d - log_q q_log_prob latent scale t d) + penalty reg t) th v.
Proof. exact @rb_unbiased. Qed.
Print Assumptions C66_unbiased_partial.

(** The graph of [RBExampleProofs]: for variable 51 the terms of 0 and 2 are left
    out, and all hypotheses hold. *)
Example C66_demo_sets : rb_sets rb_latent rb_graph rb_tensor rb_first (enough rb_graph) (map fst rb_obs) 51 = Some ([1; 3], [11; 10])%nat.
Proof. vm_compute. reflexivity. Qed.
Example C66_demo : forall e0 prior,
  NoDup (map fst rb_latent ++ map fst rb_obs) /\ NoDup (map snd rb_latent) /\ single_producer rb_graph /\
  distinct_values rb_graph (map fst rb_latent ++ map fst rb_obs) /\ distinct_values rb_graph (map snd rb_latent) /\
  Permutation [10; 11]%nat (map snd rb_latent) /\ parents_first rb_graph (map snd rb_latent) [10; 11]%nat /\
  model_follows rb_graph (map fst rb_latent ++ map fst rb_obs) agree_p /\ approximation_follows rb_graph (map snd rb_latent) agree_q /\
  acts_along_graph rb_graph rb_tensor (map snd rb_latent) agree_q half 51 /\
  (forall q e, In q (map snd rb_latent) -> nearby (fun t => sumR (map (fun u => exp (sumR (agree_q t q e u))) [true; false]) = 1) half 51) /\
  (forall q e u, In q (map snd rb_latent) -> differentiable (fun t => sumR (agree_q t q e u)) half 51) /\
  (forall d, In d (all_draws (fun _ => [true; false]) [10; 11]%nat e0 rb_obs prior) -> independent (fun t => log_joint agree_p rb_latent [] t d) half 51) /\
  length (all_draws (fun _ => [true; false]) [10; 11]%nat e0 rb_obs prior) = 4%nat.
Proof.
  intros e0 prior. split; [repeat constructor; simpl; lia|]. split; [repeat constructor; simpl; lia|].
  split; [exact rb_producer|]. split; [exact rb_distinct_p|]. split; [exact rb_distinct_q|]. split; [apply Permutation_refl|].
  split; [exact rb_first_order|]. split; [exact rb_model|]. split; [exact rb_approx|]. split; [exact rb_acts|].
  split; [exact rb_normal|]. split; [exact rb_smooth|]. split; [|reflexivity]. intros d _ x. reflexivity.
Qed.

(** The same on any spaces: each approximation [q] has values in [D q] that are
    summed or integrated by [I q], see [C37_integrals], the draws being integrated in
    turn.  The derivative may be taken below the integral sign, for the density times
    each term of the log densities and for the evidence lower bound, see
    [C37_interchange_sum] and [C37_interchange_interval].  Missing: scales of latent
    variables, and variables of the model too, as above. *)
Theorem C66_unbiased_general_partial : forall {V} (log_prob : params -> nat -> list (nat * V) -> V -> list R) q_log_prob latent scale reg g tensor_of_var
  pick fuel obs prior D I order e0 th v n L,
  (0 < n)%nat -> NoDup (map fst latent ++ map fst obs) -> NoDup (map snd latent) ->
  single_producer g -> distinct_values g (map fst latent ++ map fst obs) -> distinct_values g (map snd latent) -> (enough g <= fuel)%nat ->
  Permutation order (map snd latent) -> parents_first g (map snd latent) order ->
  model_follows g (map fst latent ++ map fst obs) log_prob -> approximation_follows g (map snd latent) q_log_prob ->
  acts_along_graph g tensor_of_var (map snd latent) q_log_prob th v ->
  (forall q, In q (map snd latent) -> integral (D q) (I q)) ->
  nearby (fun t => forall q e, In q (map snd latent) -> I q (fun u => exp (sumR (q_log_prob t q e u))) 1) th v ->
  (forall q e u, In q (map snd latent) -> D q u -> differentiable (fun t => sumR (q_log_prob t q e u)) th v) ->
  (forall zq, In zq latent -> factor scale (fst zq) = 1) -> differentiable (penalty reg) th v ->
  let draw := fun e => mksample e obs prior in
  let J := fun f => iterated D I order f e0 in
  let density := fun t e => draw_density q_log_prob latent (fun _ => 1) t (draw e) in
  let F := fun t e => density t e * (log_joint log_prob latent scale t (draw e) - log_q q_log_prob latent scale t (draw e)) in
  (forall c, rb_term log_prob q_log_prob latent scale obs prior th c -> interchange J (fun t e => density t e * c e) th v) ->
  (forall e, on_space D order e0 e -> independent (fun t => log_joint log_prob latent scale t (draw e)) th v) ->
  interchange J F th v -> nearby (fun t => J (F t) (L t)) th v ->
  differentiable L th v /\
  expected_by (on_space D order e0) J (density th) n (fun l =>
    rb_gradient log_prob q_log_prob latent scale reg g tensor_of_var pick fuel (map fst obs) (fixed_draws (map draw l)) th v)
    (partial (fun t => - L t + penalty reg t) th v).
Proof. exact @rb_unbiased_by. Qed.
Print Assumptions C66_unbiased_general_partial.

(** The iterated integral is linear and unique, so the expected gradient is. *)
Theorem C66_iterated : forall {V} (D : nat -> V -> Prop) I order e0,
  (forall q, In q order -> integral (D q) (I q)) -> integral (on_space D order e0) (fun f => iterated D I order f e0).
Proof. intros V D I order e0. exact (iterated_integral D I order e0). Qed.
Print Assumptions C66_iterated.

(** On the same graph, with approximations on the unit interval. *)
Example C66_general_demo : forall e0 prior,
  let th := fun _ : nat => 0 in
  let J := fun f => iterated real_D real_I [10; 11]%nat f e0 in
  let draw := fun e => mksample e real_obs prior in
  let density := fun t e => draw_density real_q rb_latent (fun _ => 1) t (draw e) in
  let F := fun t e => density t e * (log_joint real_p rb_latent [] t (draw e) - log_q real_q rb_latent [] t (draw e)) in
  NoDup (map fst rb_latent ++ map fst real_obs) /\ distinct_values rb_graph (map fst rb_latent ++ map fst real_obs) /\
  model_follows rb_graph (map fst rb_latent ++ map fst real_obs) real_p /\ approximation_follows rb_graph (map snd rb_latent) real_q /\
  acts_along_graph rb_graph rb_tensor (map snd rb_latent) real_q th 51 /\
  (forall q, In q (map snd rb_latent) -> integral (real_D q) (real_I q)) /\
  nearby (fun t => forall q e, In q (map snd rb_latent) -> real_I q (fun u => exp (sumR (real_q t q e u))) 1) th 51 /\
  (forall q e u, In q (map snd rb_latent) -> real_D q u -> differentiable (fun t => sumR (real_q t q e u)) th 51) /\
  (forall c, rb_term real_p real_q rb_latent [] real_obs prior th c -> interchange J (fun t e => density t e * c e) th 51) /\
  (forall e, on_space real_D [10; 11]%nat e0 e -> independent (fun t => log_joint real_p rb_latent [] t (draw e)) th 51) /\
  interchange J F th 51 /\ (exists L, nearby (fun t => J (F t) (L t)) th 51) /\
  log_joint real_p rb_latent [] th (draw (fun _ => 1 / 2)) = 3 / 2.
Proof. exact real_hypotheses. Qed.

(** ** C67: the two phases of WakeSleep *)

(** The loss that is reported, and the expected gradient of the wake phase. *)
Theorem C67_wake_loss : forall {V} (log_prob : params -> nat -> list (nat * V) -> V -> list R) latent scale reg (ds : list (params -> sample V)) th,
  (forall d, In d ds -> posed latent (d th)) ->
  wake_loss_p log_prob latent scale reg ds th = - average (map (fun d => log_joint log_prob latent scale th (d th)) ds) + penalty reg th.
Proof. exact @wake_loss. Qed.
Print Assumptions C67_wake_loss.

(** Missing here: infinite spaces, see [C67_wake_general]. *)
Theorem C67_wake_partial : forall {V} (log_prob : params -> nat -> list (nat * V) -> V -> list R) latent scale reg (space : list (sample V)) w n th v,
  (0 < n)%nat -> sumR (map w space) = 1 ->
  (forall d, In d space -> posed latent d) ->
  (forall d, In d space -> differentiable (fun t => log_joint log_prob latent scale t d) th v) -> differentiable (penalty reg) th v ->
  expected space w n (fun l => gradient (wake_loss_p log_prob latent scale reg (fixed_draws l)) th v) =
  partial (fun t => - mean_of space w (log_joint log_prob latent scale t) + penalty reg t) th v.
Proof. exact @wake_model. Qed.
Print Assumptions C67_wake_partial.

Theorem C67_wake_general : forall {V A} (log_prob : params -> nat -> list (nat * V) -> V -> list R) latent scale reg
  (D : A -> Prop) I (draw : A -> sample V) w, integral D I ->
  forall n th v L, (0 < n)%nat -> I w 1 -> (forall x, D x -> posed latent (draw x)) ->
  (forall x, D x -> differentiable (fun t => log_joint log_prob latent scale t (draw x)) th v) -> differentiable (penalty reg) th v ->
  let F := fun t x => w x * log_joint log_prob latent scale t (draw x) in
  interchange I F th v -> nearby (fun t => I (F t) (L t)) th v ->
  differentiable L th v /\
  expected_by D I w n (fun l => gradient (wake_loss_p log_prob latent scale reg (fixed_draws (map draw l))) th v) (partial (fun t => - L t + penalty reg t) th v).
Proof. exact @wake_model_by. Qed.
Print Assumptions C67_wake_general.

(** The sleep phase: log q is maximised at draws from the prior, conditional on
    the data.  Missing: fantasies of the observed variables, see
    [C67_fantasy_refuted]; scales that differ between latent variables, see
    [C39_sleep_refuted]; and in the first theorem infinite spaces. *)
Theorem C67_sleep_partial : forall {V} (q_log_prob : params -> nat -> (nat -> V) -> V -> list R) latent scale reg c (space : list (sample V)) w n th v,
  (0 < n)%nat -> sumR (map w space) = 1 -> NoDup (map snd latent) -> (forall zq, In zq latent -> factor scale (fst zq) = c) ->
  (forall d, In d space -> differentiable (fun t => fantasy_log_q q_log_prob latent c t d) th v) -> differentiable (penalty reg) th v ->
  expected space w n (fun l => gradient (wake_loss_q q_log_prob latent scale reg true (fixed_draws l) th) th v) =
  partial (fun t => - mean_of space w (fantasy_log_q q_log_prob latent c t) + penalty reg t) th v.
Proof. exact @sleep_unbiased. Qed.
Print Assumptions C67_sleep_partial.

Theorem C67_sleep_general_partial : forall {V A} (q_log_prob : params -> nat -> (nat -> V) -> V -> list R) latent scale reg
  (D : A -> Prop) I (draw : A -> sample V) w, integral D I ->
  forall c n th v L, (0 < n)%nat -> I w 1 -> NoDup (map snd latent) -> (forall zq, In zq latent -> factor scale (fst zq) = c) ->
  (forall x, D x -> differentiable (fun t => fantasy_log_q q_log_prob latent c t (draw x)) th v) -> differentiable (penalty reg) th v ->
  let F := fun t x => w x * fantasy_log_q q_log_prob latent c t (draw x) in
  interchange I F th v -> nearby (fun t => I (F t) (L t)) th v ->
  differentiable L th v /\
  expected_by D I w n (fun l => gradient (wake_loss_q q_log_prob latent scale reg true (fixed_draws (map draw l)) th) th v) (partial (fun t => - L t + penalty reg t) th v).
Proof. exact @sleep_by. Qed.
Print Assumptions C67_sleep_general_partial.

(** Uniform draws, densities with logarithm theta z. *)
Example C67_general_demo : forall z, integral (fun z => 0 < z < 1) (by_RInt 0 1) /\ posed [(0%nat, 1%nat)] (tilt_draw z) /\
  differentiable (fun t => log_joint tilt_p [(0%nat, 1%nat)] [] t (tilt_draw z)) (fun _ => 0) 0 /\
  differentiable (fun t => fantasy_log_q tilt_q [(0%nat, 1%nat)] 1 t (tilt_draw z)) (fun _ => 0) 0 /\
  interchange (by_RInt 0 1) (fun t z => 1 * log_joint tilt_p [(0%nat, 1%nat)] [] t (tilt_draw z)) (fun _ => 0) 0 /\
  interchange (by_RInt 0 1) (fun t z => 1 * fantasy_log_q tilt_q [(0%nat, 1%nat)] 1 t (tilt_draw z)) (fun _ => 0) 0 /\
  nearby (fun t => by_RInt 0 1 (fun z => 1 * fantasy_log_q tilt_q [(0%nat, 1%nat)] 1 t (tilt_draw z)) (t 0%nat * (1 / 2))) (fun _ => 0) 0.
Proof.
  intros z. split; [apply RInt_integral; lra|]. split.
  { split; [constructor; [simpl; tauto|constructor]|]. split; [constructor|]. simpl. tauto. }
  split. { unfold differentiable. apply (ex_derive_ext (fun y => y * z)); [intros y; rewrite tilt_joint; reflexivity|]. auto_derive. exact I. }
  split. { unfold differentiable. apply (ex_derive_ext (fun y => y * z)); [intros y; rewrite tilt_fantasy; reflexivity|]. auto_derive. exact I. }
  split; [apply (tilt_swap _ tilt_joint)|]. exact (tilt_swap _ tilt_fantasy).
Qed.

(** The same for draws that depend on the variable: they are held fixed. *)
Theorem C67_sleep_held_partial : forall {V} (q_log_prob : params -> nat -> (nat -> V) -> V -> list R) latent scale reg (ds : list (params -> sample V)) th v c,
  NoDup (map snd latent) -> (forall zq, In zq latent -> factor scale (fst zq) = c) ->
  fantasies_held q_log_prob latent ds th v ->
  (forall d, In d ds -> differentiable (fun t => fantasy_log_q q_log_prob latent c t (d th)) th v) -> differentiable (penalty reg) th v ->
  gradient (wake_loss_q q_log_prob latent scale reg true ds th) th v =
  - average (map (fun d => partial (fun t => fantasy_log_q q_log_prob latent c t (d th)) th v) ds) + partial (penalty reg) th v.
Proof. exact @sleep_gradient. Qed.
Print Assumptions C67_sleep_held_partial.

(** With another phase_q, log q at draws from q itself. *)
Theorem C67_other_phase_partial : forall {V} (q_log_prob : params -> nat -> (nat -> V) -> V -> list R) latent scale reg (ds : list (params -> sample V)) th v,
  conditions_held q_log_prob latent ds th v ->
  (forall d, In d ds -> differentiable (fun t => log_q q_log_prob latent scale t (d th)) th v) -> differentiable (penalty reg) th v ->
  gradient (wake_loss_q q_log_prob latent scale reg false ds th) th v =
  - average (map (fun d => partial (fun t => log_q q_log_prob latent scale t (d th)) th v) ds) + partial (penalty reg) th v.
Proof. exact @wake_stopped. Qed.
Print Assumptions C67_other_phase_partial.

Theorem C67_fantasy_refuted : exists (q_log_prob : params -> nat -> (nat -> R) -> R -> list R) latent d th,
  posed latent (d th) /\ NoDup (map snd latent) /\
  wake_loss_q q_log_prob latent [] (fun _ => []) true [d] th th <>
    - sumR (map (fun zq => sumR (q_log_prob th (snd zq)
        (fun k => match find (fun zq => Nat.eqb (snd zq) k) latent with Some zq => s_prior (d th) (fst zq) | None => s_prior (d th) k end)
        (s_prior (d th) (fst zq)))) latent).
Proof. exact fantasy_refuted. Qed.
Print Assumptions C67_fantasy_refuted.

(** The approximation of 0 is normal around variable 0, that of 1 around the value
    of 0; the draws from the prior do not depend on the variable. *)
Definition C67_draw (x y : R) (th : params) : sample R :=
  mksample (fun q => th 0%nat) [(2%nat, 5)] (fun z => match z with 0%nat => x | _ => y end).
Example C67_demo : NoDup (map snd chain_latent) /\ fantasies_held chain_q chain_latent [C67_draw 1 2; C67_draw 3 4] (fun _ => 0) 0 /\
  (forall d, In d [C67_draw 1 2; C67_draw 3 4] -> differentiable (fun t => fantasy_log_q chain_q chain_latent 1 t (d (fun _ => 0))) (fun _ => 0) 0) /\
  fantasy_log_q chain_q chain_latent 1 (fun _ => 0) (C67_draw 1 2 (fun _ => 0)) = - (1 / 2) - 1 / 2.
Proof.
  split; [repeat constructor; simpl; lia|]. split; [|split].
  - intros d q x u [<-|[<-|[]]] Hq; unfold chain_q; simpl in Hq; destruct Hq as [<-|[<-|[]]]; reflexivity.
  - intros d [<-|[<-|[]]]; unfold differentiable, fantasy_log_q, chain_latent, chain_q, fantasy, C67_draw, set_param; simpl; auto_derive; auto.
  - unfold fantasy_log_q, chain_latent, chain_q, fantasy, C67_draw; simpl. lra.
Qed.

(** ** C68: which estimator KLqp takes *)

Theorem C68_choice : forall latent kl_scaling (is_normal fully_reparameterized : nat -> bool),
  let analytic := forall z q, In (z, q) latent -> is_normal z = true /\ is_normal q = true in
  let free := forall z q, In (z, q) latent -> fully_reparameterized q = true in
  let built := klqp_build latent kl_scaling is_normal fully_reparameterized in
  (built = None <-> kl_scaling <> [] /\ ~ analytic) /\
  (built = Some ReparamKL <-> free /\ analytic) /\
  (built = Some Reparam <-> free /\ ~ analytic /\ kl_scaling = []) /\
  (built = Some ScoreRB <-> ~ free /\ (kl_scaling = [] \/ analytic)).
Proof. exact klqp_choice_spec. Qed.
Print Assumptions C68_choice.

(** So kl_scaling is never silently ignored, normals being reparameterizable. *)
Theorem C68_kl_scaling : forall latent kl_scaling (is_normal fully_reparameterized : nat -> bool) c,
  (forall q, is_normal q = true -> fully_reparameterized q = true) ->
  klqp_build latent kl_scaling is_normal fully_reparameterized = Some c -> c <> ReparamKL -> kl_scaling = [].
Proof. exact klqp_scaling_used. Qed.
Print Assumptions C68_kl_scaling.

Theorem C68_n_samples : forall n m, check_n_samples n = Some m <-> (0 < n)%Z /\ Z.of_nat m = n.
Proof. exact n_samples_spec. Qed.
Print Assumptions C68_n_samples.

(** 10 and 11 are normal, 12 is reparameterizable but not normal, 13 neither. *)
Example C68_demo :
  let is_normal := fun q => (q <? 12)%nat in let free := fun q => (q <? 13)%nat in
  klqp_build [(0, 10); (1, 11)]%nat [(0%nat, 2)] is_normal free = Some ReparamKL /\
  klqp_build [(0, 10); (1, 12)]%nat [] is_normal free = Some Reparam /\
  klqp_build [(0, 10); (1, 12)]%nat [(0%nat, 2)] is_normal free = None /\
  klqp_build [(0, 10); (1, 13)]%nat [] is_normal free = Some ScoreRB /\
  (forall q, is_normal q = true -> free q = true) /\
  check_n_samples 0 = None /\ check_n_samples (-1) = None /\ check_n_samples 3 = Some 3%nat.
Proof.
  cbv zeta. repeat split; try reflexivity. intros q H. apply Nat.ltb_lt in H. apply Nat.ltb_lt. lia.
Qed.
