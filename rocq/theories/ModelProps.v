(** * C45-C48: random variables and the distributions Edward defines. *)
From Coq Require Import Reals List Arith Bool Lia Lra.
From Verif Require Import Ext Transform RandomVar RandomVarSpec RandomVarProofs Empirical EmpiricalSpec EmpiricalProofs DP DPSpec DPProofs Mixture MixtureSpec MixtureProofs.
Import ListNotations.

(** ** C45: registration *)

(** False of the code: a collection that cannot take the random variable raises
    after the ones before it have been appended to. *)
Theorem C45_half_registered_refuted : exists a cs w w' e, construct 0 (Construct 7 [] a cs) w = (w', Some e) /\
  In 7 (random_variables w' 0) /\ ~ In 7 (random_variables w 0).
Proof. exact half_registered. Qed.
Print Assumptions C45_half_registered_refuted.

(** False of the code: the documented argument, a list of lists such as
    [ed.random_variables()], always raises TypeError. *)
Theorem C45_documented_refuted : forall g x a w, value_step a = None -> construct g (Construct x [] a [NotADict]) w = (w, Some TypeError).
Proof. exact documented_collections. Qed.
Print Assumptions C45_documented_refuted.

(** False of the code: a mixture that raises leaves the variables it made registered. *)
Theorem C45_inner_refuted : exists x cat a b w w' e, construct 0 (Construct x [Construct cat [] a [RandomVariables]] b [RandomVariables]) w = (w', Some e) /\
  In cat (random_variables w' 0) /\ ~ In cat (random_variables w 0).
Proof. exact inner_stays. Qed.
Print Assumptions C45_inner_refuted.

(** The rest: a distribution that makes no other variables, with usable collections,
    is appended once for each time a collection is named, under the default graph
    only, or raises and changes nothing.  Missing: unusable collections. *)
Theorem C45_once_partial : forall g x a cs w, Forall (usable w g) cs ->
  match value_step a with
  | Some e => construct g (Construct x [] a cs) w = (w, Some e)
  | None => exists w', construct g (Construct x [] a cs) w = (w', None) /\
      forall d g', listed w' d g' = listed w d g' ++ (if Nat.eqb g' g then repeat x (times_named d cs) else [])
  end.
Proof. exact leaf_construct. Qed.
Print Assumptions C45_once_partial.

(** Compound distributions: on success every variable made on the way comes first. *)
Theorem C45_compound : forall g c w w', construct g c w = (w', None) -> forall d g',
  listed w' d g' = listed w d g' ++ (if Nat.eqb g' g then appends d c else []).
Proof. exact construct_listed. Qed.
Print Assumptions C45_compound.

(** Other graphs are never touched, also not by constructions that raise. *)
Theorem C45_graphs : forall g c w d g', g' <> g -> fst (construct g c w) d g' = w d g'.
Proof. exact construct_other. Qed.
Print Assumptions C45_graphs.

(** random_variables lists those that did not raise, in creation order per graph. *)
Theorem C45_order : forall (p : list (nat * (nat * rv_args))) w g,
  random_variables (run_program (map (fun u => (fst u, Construct (fst (snd u)) [] (snd (snd u)) [RandomVariables])) p) w) g =
  random_variables w g ++ map (fun u => fst (snd u)) (filter (fun u => andb (Nat.eqb (fst u) g) (match value_step (snd (snd u)) with None => true | _ => false end)) p).
Proof. exact creation_order. Qed.
Print Assumptions C45_order.

(** The argument value: with known shapes, accepted exactly if its shape is sample
    shape, batch shape, event shape; with an unknown one, always. *)
Theorem C45_value : forall sample batch event value can,
  (value_step (mkargs false (known sample) (known batch) (known event) (Some (known value)) can) = None <-> value = sample ++ batch ++ event) /\
  (value <> sample ++ batch ++ event -> value_step (mkargs false (known sample) (known batch) (known event) (Some (known value)) can) = Some ValueError).
Proof. exact value_checked. Qed.
Print Assumptions C45_value.
Theorem C45_value_unknown : forall a s, a_init_raises a = false -> a_value a = Some s ->
  s = None \/ a_sample_shape a = None \/ a_batch_shape a = None \/ a_event_shape a = None -> value_step a = None.
Proof. exact value_unknown. Qed.
Print Assumptions C45_value_unknown.

(** When each outcome occurs, for all static shapes: the value is accepted exactly
    if some value without unknowns has its shape and those of the distribution. *)
Theorem C45_outcome : forall a,
  let fit s := fits (a_sample_shape a) (a_batch_shape a) (a_event_shape a) s in
  (value_step a = Some ConstructorError <-> a_init_raises a = true) /\
  (value_step a = Some NotImplementedError <-> a_init_raises a = false /\ a_value a = None /\ a_can_sample a = false) /\
  (value_step a = Some ValueError <-> a_init_raises a = false /\ exists s, a_value a = Some s /\ ~ fit s) /\
  (value_step a = None <-> a_init_raises a = false /\
     ((a_value a = None /\ a_can_sample a = true) \/ exists s, a_value a = Some s /\ fit s)).
Proof. exact construct_outcome. Qed.
Print Assumptions C45_outcome.

(** As keys of dictionaries, random variables are told apart by identity. *)
Theorem C45_identity : forall x y, (rv_eq x y = true <-> x = y) /\ (rv_eq x y = true -> rv_hash x = rv_hash y).
Proof. exact identity. Qed.
Print Assumptions C45_identity.

Example C45_met_partly_known : fits (known [3]) (Some [None]) (known [2]) (Some [None; Some 7; Some 2]) /\
  ~ fits (known [3]) (Some [None]) (known [2]) (Some [None; Some 7; Some 4]).
Proof.
  rewrite <- !fits_compatible. split; [reflexivity|]. vm_compute. discriminate.
Qed.

Example C45_met : let ok := mkargs false (known [3]) (known []) (known [2]) (Some (known [3; 2])) false in
  let bad := mkargs false (known [3]) (known []) (known [2]) (Some (known [3])) false in
  let w := run_program [(0, Construct 1 [] ok [RandomVariables]); (1, Construct 2 [] ok [RandomVariables]);
                        (0, Construct 3 [] bad [RandomVariables]); (0, Construct 4 [] ok [RandomVariables; Dict 1 true])] (fun _ _ => None) in
  random_variables w 0 = [1; 4] /\ random_variables w 1 = [2] /\ listed w 1 0 = [4].
Proof. vm_compute. auto. Qed.

(** ** C46: Empirical and PointMass *)

(** False of the code for scalar params: sampling works and the mean raises. *)
Theorem C46_scalar_refuted : forall x n indices, empirical_sample (ScalarParams x) n indices = repeat (fun _ => x) n /\
  empirical_mean (ScalarParams x) = None /\ empirical_n (ScalarParams x) = 1%nat.
Proof. exact scalar_params. Qed.
Print Assumptions C46_scalar_refuted.

(** Params with rows: the moments are those of the uniform distribution on the rows
    and the variance vanishes exactly where all rows are equal.  Missing: scalar
    params. *)
Theorem C46_moments_partial : forall rows, rows <> [] ->
  exists mean var, empirical_mean (RowParams rows) = Some mean /\ empirical_variance (RowParams rows) = Some var /\
  forall e,
    mean e = expectation (empirical_probs (RowParams rows)) (fun i => nth i rows (fun _ => 0%R) e) /\
    var e = expectation (empirical_probs (RowParams rows)) (fun i => ((nth i rows (fun _ => 0) e - mean e) * (nth i rows (fun _ => 0) e - mean e))%R) /\
    (0 <= var e)%R /\ (var e = 0%R <-> forall r r', In r rows -> In r' rows -> r e = r' e).
Proof. exact empirical_moments. Qed.
Print Assumptions C46_moments_partial.

Theorem C46_probs : forall rows, rows <> [] -> sumR (empirical_probs (RowParams rows)) = 1%R.
Proof. exact probs_sum. Qed.
Print Assumptions C46_probs.

Theorem C46_samples : forall rows n indices, rows <> [] -> (forall i, In i indices -> (i < length rows)%nat) ->
  length (empirical_sample (RowParams rows) n indices) = length indices /\
  forall k i, nth_error indices k = Some i -> exists r, nth_error rows i = Some r /\ nth_error (empirical_sample (RowParams rows) n indices) k = Some r.
Proof. exact samples_stored. Qed.
Print Assumptions C46_samples.

Theorem C46_point_mass : forall params n, (forall e, point_mean params e = params e /\ point_variance params e = 0%R) /\
  length (point_sample params n) = n /\ forall r, In r (point_sample params n) -> r = params.
Proof. exact point_moments. Qed.
Print Assumptions C46_point_mass.

Example C46_met : let rows := [(fun _ => 1%R); (fun _ => 3%R)] in rows <> [] /\ (forall i, In i [1; 0; 1] -> (i < length rows)%nat) /\
  exists mean var, empirical_mean (RowParams rows) = Some mean /\ empirical_variance (RowParams rows) = Some var /\ mean 0%nat = 2%R /\ var 0%nat = 1%R.
Proof.
  cbv zeta. split; [discriminate|]. split; [intros i [<-|[<-|[<-|[]]]]; simpl; lia|].
  destruct (C46_moments_partial [(fun _ => 1%R); (fun _ => 3%R)] ltac:(discriminate)) as (m & v & Em & Ev & H). exists m, v. split; auto. split; auto.
  destruct (H 0%nat) as (Hm & Hv & _). unfold expectation, empirical_probs in *. simpl in Hm, Hv. split; [lra|]. rewrite Hv.
  assert (m 0%nat = 2%R) by lra. rewrite H0. lra.
Qed.

(** ** C47: DirichletProcess *)

(** False of the code: with validate_args a RandomVariable as base, the documented
    type, raises TypeError. *)
Theorem C47_base_refuted : base_accepted true true = false.
Proof. reflexivity. Qed.
Print Assumptions C47_base_refuted.

(** Any other check passes.  Missing: validate_args with a RandomVariable. *)
Theorem C47_base_partial : forall v b, base_accepted v b = true <-> v = false \/ b = false.
Proof. intros [|] [|]; split; auto; intros [H|H]; discriminate. Qed.
Print Assumptions C47_base_partial.

(** One call: atoms and proportions already there stay, new ones are the draws of the
    iterations that found none, sample j is the atom at the first heads of its coins,
    and the last atom visited is the one some sample got. *)
Theorem C47_sample : forall {V} (zero : V) n which base beta flips (s0 : sticks) fuel s x,
  dp_sample zero n which base beta flips fuel s0 = Some (s, x) ->
  exists m, m <= fuel /\
    s_locs s = s_locs s0 ++ map base (seq (length (s_locs s0)) (m - length (s_locs s0))) /\
    s_probs s = s_probs s0 ++ map beta (seq (length (s_locs s0)) (m - length (s_locs s0))) /\
    (forall j, j < n -> exists k, k < m /\ first_heads (fun i => flips i j) k /\ x j = nth k (s_locs s) (fun _ => zero) (which j)) /\
    (m = 0 \/ exists j, j < n /\ first_heads (fun i => flips i j) (m - 1)).
Proof. exact @sample_spec. Qed.
Print Assumptions C47_sample.

(** It ends exactly if every sample's coin comes up heads. *)
Theorem C47_ends : forall {V} (zero : V) n which base beta flips (s0 : sticks) fuel,
  (exists s x, dp_sample zero n which base beta flips fuel s0 = Some (s, x)) <->
  forall j, j < n -> exists k, k < fuel /\ flips k j = true.
Proof. exact @sample_ends. Qed.
Print Assumptions C47_ends.

(** Any number of calls: the atoms of all calls are in one list that only grows. *)
Theorem C47_memoized : forall {V} (zero : V) cs s s' xs, dp_calls zero cs s = Some (s', xs) ->
  (exists l p, s_locs s' = s_locs s ++ l /\ s_probs s' = s_probs s ++ p /\ length l = length p) /\ length xs = length cs /\
  forall i c x, nth_error cs i = Some c -> nth_error xs i = Some x -> forall j, j < c_n V c ->
    exists k, k < length (s_locs s') /\ first_heads (fun t => c_flips V c t j) k /\ x j = nth k (s_locs s') (fun _ => zero) (c_which V c j).
Proof. exact @calls_memoized. Qed.
Print Assumptions C47_memoized.

(** Independent coins with the proportions as heads probabilities: atom k is drawn
    with the stick-breaking weight p_k (1 - p_0) ... (1 - p_(k-1)). *)
Theorem C47_stick_breaking : forall m p k, k < m ->
  sumR (map (fun c => if match first_in c with Some i => Nat.eqb i k | None => false end then outcome_prob p c else 0%R) (outcomes m)) = stick_weight p k.
Proof. exact stick_law. Qed.
Print Assumptions C47_stick_breaking.

Example C47_met : let flips := fun k j => Nat.eqb k (2 * j) in
  match dp_calls 0 [mkcall nat 2 (fun _ => 0) (fun k _ => 10 + k) (fun _ _ => 1%R) flips 9; mkcall nat 3 (fun _ => 0) (fun k _ => 20 + k) (fun _ _ => 1%R) flips 9] (mksticks [] []) with
  | Some (s, xs) => Some (map (fun l => l 0) (s_locs s), map (fun x => [x 0; x 1]) xs)
  | None => None
  end = Some ([10; 11; 12; 23; 24], [[10; 12]; [10; 12]]).
Proof. vm_compute. reflexivity. Qed.

(** ** C48: ParamMixture *)

(** Samples: the selected component's, for any finite component draws. *)
Theorem C48_sample : forall vals c, c < length vals -> mixture_sample (map Fin vals) c = Fin (nth c vals 0%R).
Proof. exact select_fin. Qed.
Print Assumptions C48_sample.

(** False of the code: when the point has density zero under a component that is not
    selected, the conditional log density is NaN. *)
Theorem C48_log_prob_refuted : exists vals c, c < length vals /\ nth c vals NaN = Fin (-1) /\ select vals c = NaN.
Proof. exact select_nan. Qed.
Print Assumptions C48_log_prob_refuted.
Theorem C48_log_prob_nan : forall vals c k, k < length vals -> k <> c -> nth k vals (Fin 0) = NInf \/ nth k vals (Fin 0) = PInf -> select vals c = NaN.
Proof. exact select_other. Qed.
Print Assumptions C48_log_prob_nan.

(** False of the code: log_prob and marginal_log_prob sum out the components exactly
    when events are scalars; one vector raises, and n of them give num_components
    numbers, each summed over the points of one component. *)
Theorem C48_axis : forall s b e, reduced_axis s b e = Some (component_axis s) <-> e = 0.
Proof. exact axis_right. Qed.
Print Assumptions C48_axis.
Theorem C48_vector_refuted : exists width log_probs cats l, length log_probs = length cats /\ (forall r, In r log_probs -> length r = width) /\ (forall c, In c cats -> c < width) /\
  mixture_log_prob 1 width (map (map Fin) log_probs) cats = Some l /\ length l <> length cats /\
  (log_probs = [[-1; -2]; [-3; -4]; [-5; -6]])%R /\ cats = [0; 1; 0]%nat /\ l = [Fin (-6); Fin (-4)].
Proof. exact log_prob_vector_wrong. Qed.
Print Assumptions C48_vector_refuted.
Theorem C48_one_vector_refuted : forall b e, 0 < e -> reduced_axis 0 b e = None.
Proof. exact log_prob_single_raises. Qed.
Print Assumptions C48_one_vector_refuted.

(** Scalar events with finite log densities: each point's log density is that of its
    component.  Missing: vectors and infinite log densities. *)
Theorem C48_log_prob_partial : forall width log_probs cats, length log_probs = length cats ->
  (forall r, In r log_probs -> length r = width) -> (forall c, In c cats -> c < width) ->
  mixture_log_prob 0 width (map (map Fin) log_probs) cats =
    Some (map (fun rc => Fin (nth (snd rc) (fst rc) 0%R)) (combine log_probs cats)).
Proof. exact log_prob_scalar. Qed.
Print Assumptions C48_log_prob_partial.

Theorem C48_marginal_partial : forall log_probs weights, length log_probs = length weights -> (forall w, In w weights -> 0 < w)%R ->
  marginal_log_prob log_probs weights = ln (weighted weights (fun k => exp (nth k log_probs 0%R))).
Proof. exact marginal_density. Qed.
Print Assumptions C48_marginal_partial.

(** Total expectation and variance. *)
Theorem C48_mean : forall means weights, length means = length weights -> mixture_mean means weights = weighted weights (fun k => nth k means 0%R).
Proof. exact mean_total. Qed.
Print Assumptions C48_mean.
Theorem C48_variance : forall means variances weights, length means = length weights -> length variances = length weights -> sumR weights = 1%R ->
  let mean := weighted weights (fun k => nth k means 0%R) in
  mixture_variance means variances weights =
    (weighted weights (fun k => nth k variances 0) + weighted weights (fun k => (nth k means 0 - mean) * (nth k means 0 - mean)))%R.
Proof. exact variance_total. Qed.
Print Assumptions C48_variance.
Theorem C48_variance_nonneg : forall means variances weights, length means = length weights -> length variances = length weights -> sumR weights = 1%R ->
  (forall w, In w weights -> 0 <= w)%R -> (forall v, In v variances -> 0 <= v)%R -> (0 <= mixture_variance means variances weights)%R.
Proof. exact variance_nonneg. Qed.
Print Assumptions C48_variance_nonneg.

(** The value made at construction has the shape RandomVariable expects exactly for
    an empty sample_shape or a vector that is not of length one. *)
Theorem C48_shape_partial : forall S K B E, constructed_shape S K B E = product_of S :: B ++ E <-> S = [] \/ exists m, S = [m] /\ m <> 1.
Proof. exact shape_contract. Qed.
Print Assumptions C48_shape_partial.

Example C48_met : mixture_mean [0; 4]%R [/ 2; / 2]%R = 2%R /\ mixture_variance [0; 4]%R [1; 3]%R [/ 2; / 2]%R = 6%R /\
  constructed_shape [2; 3] 5 [] [4] = [2; 3; 4] /\ product_of [2; 3] :: [] ++ [4] = [6; 4].
Proof. unfold mixture_variance, mixture_mean. simpl. split; [lra|]. split; [lra|]. split; reflexivity. Qed.
