{
 "claims": [
  {
   "property": "C01",
   "status": "proved",
   "theorems": [
    "C01_get_parents_exact",
    "C01_get_children_exact"
   ],
   "note": "Total correctness for every finite graph (cyclic included), every visiting order and both node kinds."
  },
  {
   "property": "C02",
   "status": "proved",
   "theorems": [
    "C02_get_ancestors_exact",
    "C02_get_descendants_exact"
   ],
   "note": "Total correctness for every finite graph and visiting order."
  },
  {
   "property": "C03",
   "status": "proved",
   "theorems": [
    "C03_parents_children_dual",
    "C03_ancestors_descendants_dual"
   ],
   "note": "Both dualities, for every finite graph."
  },
  {
   "property": "C04",
   "status": "proved",
   "theorems": [
    "C04_ancestors_are_closure_of_parents",
    "C04_descendants_are_closure_of_children"
   ],
   "note": "Transitive closure of the parent (child) query itself."
  },
  {
   "property": "C05",
   "status": "proved",
   "theorems": [
    "C05_get_blanket_exact",
    "C05_get_siblings_exact"
   ],
   "note": "Blanket and siblings as sets, duplicate free, total."
  },
  {
   "property": "C06",
   "status": "proved",
   "theorems": [
    "C06_get_variables_exact"
   ],
   "note": "Total correctness; x is a random variable or tensor."
  },
  {
   "property": "C07",
   "status": "proved",
   "theorems": [
    "C07_is_independent_iff_d_separated"
   ],
   "note": "Equivalence with walk-based d-separation including deterministic nodes; termination bound."
  },
  {
   "property": "C08",
   "status": "proved",
   "theorems": [
    "C08_blanket_shields",
    "C08_symmetric_without_point_masses"
   ],
   "note": "Blanket shields; symmetry without PointMass nodes."
  },
  {
   "property": "C09",
   "status": "proved",
   "theorems": [
    "C09_copy_only_adds",
    "C09_copy_keeps_values",
    "C09_names",
    "C09_scope_required"
   ],
   "note": "Every history of calls with any arguments, including calls that raise or do not return; also how the copies are named, and that an empty scope raises."
  },
  {
   "property": "C10",
   "status": "partial",
   "theorems": [
    "C10_copy_substitutes_partial",
    "C10_tensor_key_refuted",
    "C10_replace_itself_partial",
    "C10_without_parents_partial",
    "C10_without_parents_refuted",
    "C10_copy_q_endless_refuted",
    "C10_copy_q_cycle_refuted",
    "C10_copy_q_partial",
    "C10_copy_q_variables_partial"
   ],
   "note": "REFUTED of the code: a dict_swap key that is the sample tensor of a random variable is not applied where the random variable itself is an argument; with copy_parent_rvs=False a random variable's parent is sampled twice; with copy_q=True a value computed from its key is copied for ever or becomes its own input. Proved: total correctness, with fresh noise, for every acyclic graph and every dict_swap whose tensor keys hold no random variable or variable, copy_q=False, copy_parent_rvs=True (the defaults), either replace_itself; for copy_parent_rvs=False when the instance is no random variable; for copy_q=True and copy_parent_rvs=False when the instance is no random variable, with the replacements made in the replacements too; and that copy_q makes no difference when all values are variables. Missing: copy_q=True together with copied random variables."
  },
  {
   "property": "C11",
   "status": "partial",
   "theorems": [
    "C11_copy_after_history_partial",
    "C11_same_scope_refuted"
   ],
   "note": "REFUTED of the code: a second call in the same scope (as by default) with another dict_swap returns the copy made by the first. Proved: for every history of calls with scopes not used before."
  },
  {
   "property": "C12",
   "status": "partial",
   "theorems": [
    "C12_copy_shares_state_partial",
    "C12_placeholder_op_refuted",
    "C12_no_state_added_partial"
   ],
   "note": "REFUTED of the code: copying the tf.Operation of a placeholder (or variable) duplicates it. Proved: for tensors, random variables, variables and other operations the copy depends on exactly the stateful elements of the substituted expression; and no history of calls, with any flags and any outcome, adds a stateful element."
  },
  {
   "property": "C13",
   "status": "proved",
   "theorems": [
    "C13_data_never_dropped"
   ],
   "note": "Every dictionary, shape (unknown dimensions and ranks included) and kind; TensorFlow's conversion of values is an oracle."
  },
  {
   "property": "C14",
   "status": "proved",
   "theorems": [
    "C14_latent_vars_consistent"
   ],
   "note": "Every dictionary; compatibility of shapes is stated as having a common instance."
  },
  {
   "property": "C15",
   "status": "proved",
   "theorems": [
    "C15_transform",
    "C15_transform_total",
    "C15_log_det_jacobian"
   ],
   "note": "All supports and all reals of the open supports; the simplex Jacobian by its determinant in the free coordinates. TensorFlow's bijector formulas are modelled as documented."
  },
  {
   "property": "C16",
   "status": "partial",
   "theorems": [
    "C16_auto_transform_partial",
    "C16_raises_partial",
    "C16_initialize_again_partial",
    "C16_initialize_again_refuted",
    "C16_discrete_refuted"
   ],
   "note": "REFUTED of the code: a pair with different supports of which one is discrete raises ValueError and leaves this and later variables unbound; initialising again forgets the transformations. Proved: the full behaviour when mismatched pairs are continuous (or Empirical), the cause of every exception, stability of the bindings."
  },
  {
   "property": "C17",
   "status": "partial",
   "theorems": [
    "C17_run_partial",
    "C17_crash_partial",
    "C17_no_variables_refuted"
   ],
   "note": "REFUTED of the code: run(variables=[]) raises in the first update, as the iteration counter of the run is not initialised. Proved: the exact trace for every n_iter and every crash point otherwise."
  },
  {
   "property": "C18",
   "status": "proved",
   "theorems": [
    "C18_run_reports",
    "C18_history_reports",
    "C18_default"
   ],
   "note": "Every n_iter, n_print, and every history of updates, failures and resets."
  },
  {
   "property": "C19",
   "status": "proved",
   "theorems": [
    "C19_no_stale_characters"
   ],
   "note": "Every history of calls, values and clock readings, for a terminal that does not wrap lines."
  },
  {
   "property": "C20",
   "status": "partial",
   "theorems": [
    "C20_bound_data_partial",
    "C20_main_run_partial",
    "C20_gibbs_partial",
    "C20_gibbs_passed",
    "C20_gibbs_refuted"
   ],
   "note": "REFUTED of the code: in Gibbs the caller's feed wins over bound data and persists. Proved: all other updates; Gibbs for every history in which the caller passes no bound key, for placeholders and observed values, and that every passed value reaches its update."
  },
  {
   "property": "C21",
   "status": "proved",
   "theorems": [
    "C21_updates",
    "C21_run",
    "C21_past_end"
   ],
   "note": "Every algorithm seen as a kernel (further state and random draws arbitrary), any sizes, any number of updates."
  },
  {
   "property": "C22",
   "status": "proved",
   "theorems": [
    "C22_mh",
    "C22_hmc"
   ],
   "note": "Every chain length, model, proposal and draw; MetropolisHastings and HMC."
  },
  {
   "property": "C23",
   "status": "partial",
   "theorems": [
    "C23_first_rate_refuted",
    "C23_rate_partial",
    "C23_above_one_refuted"
   ],
   "note": "REFUTED of the code: n_accept is divided by t before t is incremented, so the first rate is never a number, and a late read gives rates above 1. Proved: what the rate is in every iteration and schedule."
  },
  {
   "property": "C24",
   "status": "proved",
   "theorems": [
    "C24_stationary_general",
    "C24_detailed_balance",
    "C24_probability_unique",
    "C24_stationary",
    "C24_real_stationary",
    "C24_real_fubini"
   ],
   "note": "Every density (zeros included), proposal and pair of states; stationarity on every finite space, and for any number of steps on any space with a linear integral for which the order of integration of the flow can be exchanged (InvariantProps.v). On R^n (tensors of any shapes, volume integrals) the exchange is proved, not assumed, for continuous positive joint densities, continuous proposal densities and bounded continuous test functions (VolumeWalkProps.v). Probabilities are Riemann integrals over the uniform draw."
  },
  {
   "property": "C25",
   "status": "proved",
   "theorems": [
    "C25_stationary",
    "C25_lebesgue",
    "C25_reversible",
    "C25_volume",
    "C25_balance",
    "C25_probability_unique",
    "C25_real_stationary",
    "C25_real_volume",
    "C25_real_integral",
    "C25_real_riemann"
   ],
   "note": "Every gradient field, shape, step size, number of steps and state; volume preservation as a composition of shears; invariance of the target for every linear integral on phase space that is invariant under shears and flips of momenta (InvariantProps.v); and on R^n with volume built from iterated Riemann integrals, for any number of updates with fresh momenta, any continuous target and gradient (VolumeProps.v)."
  },
  {
   "property": "C26",
   "status": "partial",
   "theorems": [
    "C26_hmc_partial",
    "C26_volume_partial",
    "C26_sgld_refuted",
    "C26_sghmc_refuted",
    "C26_simplex_refuted",
    "C26_sgld_partial",
    "C26_sghmc_partial",
    "C26_scaled_target_partial"
   ],
   "note": "REFUTED of the code: SGLD and SGHMC read row t-1 through qz.params, to which auto_transform applied the inverse bijector, and write the result back untransformed, so every update pushes the state through the bijector again (C26_sgld_refuted, C26_sghmc_refuted: a flat posterior without noise drifts for ever; C26_simplex_refuted: shapes differ). Proved: HMC targets density times Jacobian; untransformed SGLD/SGHMC continue from the stored row. tf.gradients is an oracle."
  },
  {
   "property": "C27",
   "status": "partial",
   "theorems": [
    "C27_law_refuted",
    "C27_scan_partial",
    "C27_start_partial",
    "C27_invariant_partial"
   ],
   "note": "REFUTED of the code: the row stored is drawn anew in a separate session run, it is not the state conditioned on, and its law is not the posterior (C27_law_refuted). Proved: the scan itself, over all histories, and invariance of any finite posterior under a scan in any order."
  },
  {
   "property": "C28",
   "status": "partial",
   "theorems": [
    "C28_exchange_stationary_partial",
    "C28_ladder_partial",
    "C28_order_partial",
    "C28_permutation_partial",
    "C28_exchange_partial",
    "C28_move_refuted",
    "C28_move_partial",
    "C28_run_partial"
   ],
   "note": "REFUTED of the code: the inverse temperature also multiplies the proposal correction, so a replica's own move satisfies detailed balance for p^beta only when beta=1 or the proposal is symmetric between the two states (C28_move_refuted, C28_move_partial). Proved in full: permutation and order of exchanges, detailed balance of the exchange step for the product of tempered joints for every ladder and its invariance under the exchanges on any space, structure of whole runs (the chain starts from zeros, not from the caller's Empirical)."
  },
  {
   "property": "C29",
   "status": "partial",
   "theorems": [
    "C29_isolated_partial",
    "C29_captured_refuted",
    "C29_sampler_partial",
    "C29_velocity_refuted",
    "C29_variational_partial",
    "C29_global_step_refuted",
    "C29_adversarial_refuted",
    "C29_gibbs_refuted"
   ],
   "note": "REFUTED of the code: SGHMC velocities and replica tables, the default global step of variational inference, everything but the counter for GAN-type inferences and the Gibbs state are not reset; variables of an inference built in a variable scope whose name starts with 'optimizer' are reset by another. Proved: isolation for all programs that build inferences outside scopes with plain names; full restoration for MH, HMC, SGLD; restoration of counter and optimizer slots for variational inference."
  },
  {
   "property": "C30",
   "status": "partial",
   "theorems": [
    "C30_full_simplify_refuted",
    "C30_root_of_square_refuted",
    "C30_powers_rounded_refuted",
    "C30_rounding",
    "C30_rounding_error",
    "C30_full_simplify_partial",
    "C30_rules_exact_partial",
    "C30_extraction_exact",
    "C30_statistic_of_tensor_partial"
   ],
   "note": "REFUTED of the code: constants are pruned inside nonlinear operations (log(x+1) becomes log x), sqrt(square x) becomes x, and powers are rounded to five digits. Proved: preserved up to a constant on sums of multiples of monomials, logs of monomials and squares of sums, with powers within 2^-7..2^7, on the positive domain; each rule but constant pruning is exact; extraction from the graph is exact; for every power at all, the rounded one is the nearest decimal with five significant digits, off by at most one part in 20000."
  },
  {
   "property": "C31",
   "status": "proved",
   "theorems": [
    "C31_full_simplify_terminates"
   ],
   "note": "Termination for every expression, with a normal form for all rules (or an exception)."
  },
  {
   "property": "C32",
   "status": "partial",
   "theorems": [
    "C32_chi2_refuted",
    "C32_bernoulli_degenerate_refuted",
    "C32_categorical_degenerate_refuted",
    "C32_log_probs_partial"
   ],
   "note": "REFUTED of the code: Chi2 adds exp(-x/2) instead of subtracting x/2 (wrong everywhere); Bernoulli and Categorical give NaN when a probability is zero. Proved: the other families with positive probabilities (MultivariateNormalDiag: the sum of the entries it returns)."
  },
  {
   "property": "C33",
   "status": "partial",
   "theorems": [
    "C33_chi2_entry_refuted",
    "C33_poisson_entry_refuted",
    "C33_scalar_entries_partial",
    "C33_vector_entries_partial"
   ],
   "note": "REFUTED of the code: the entries that build Chi2 and Poisson are wrong for all parameters. Proved: all other scalar and vector entries."
  },
  {
   "property": "C34",
   "status": "partial",
   "theorems": [
    "C34_inner_constant_refuted",
    "C34_product_of_statistics_refuted",
    "C34_complete_conditional_partial"
   ],
   "note": "REFUTED of the code: the constant inside log(x+1) is dropped, a product of two statistics is taken as linear. Proved: for every log joint whose statistics simplify exactly (C30), with one dependent factor per product, and every entry but Chi2 and Poisson; scalar variables."
  },
  {
   "property": "C35",
   "status": "proved",
   "theorems": [
    "C35_multipliers_exact"
   ],
   "note": "Exact for every expression and every statistic that is a single tuple, which all table keys are."
  },
  {
   "property": "C36",
   "status": "partial",
   "theorems": [
    "C36_reparam",
    "C36_score",
    "C36_reparam_kl_partial",
    "C36_score_kl_partial",
    "C36_reparam_entropy",
    "C36_score_entropy",
    "C36_rb_partial",
    "C36_rb_refuted",
    "C36_kl_hierarchy_refuted"
   ],
   "note": "REFUTED of the code: ScoreRBKLqp allocates [{}] * n_samples, one dictionary, so loss and gradient use the last sample only; the analytic divergence is taken with the model variables' own values, not the drawn ones, so it is wrong for hierarchical priors. Proved: every other variant is the documented average for all samples, variables, densities and scales."
  },
  {
   "property": "C37",
   "status": "partial",
   "theorems": [
    "C37_stopped_partial",
    "C37_stopped_kl_partial",
    "C37_stopped_entropy_partial",
    "C37_stopped_refuted",
    "C37_score_partial",
    "C37_score_kl_partial",
    "C37_score_entropy_partial",
    "C37_score_general_partial",
    "C37_score_kl_general_partial",
    "C37_score_entropy_general_partial",
    "C37_integrals",
    "C37_interchange_sum",
    "C37_interchange_interval",
    "C37_model_variables",
    "C37_reparam",
    "C37_model_variables_general",
    "C37_reparam_general",
    "C37_scale_refuted",
    "C37_shared_refuted",
    "C37_interchange_volume",
    "C37_score_real_partial"
   ],
   "note": "REFUTED of the code: with a scale c on a latent variable the expected gradient is multiplied by c once too often; for a variable of both model and approximation the derivative of log p is dropped; in an approximation conditional on another's reparameterized draw the gradient passes through that draw (klqp.py:863-869 stop only the value). Proved: unbiasedness of the three score estimators, for any number of samples and unscaled latent variables, on any space with a linear integral for which differentiation below the integral sign is allowed; that is so without condition on finite spaces, on intervals where the derivative is jointly continuous, and on R^n where it is continuous and below an integrable function (VolumeDeriveProps.v); the formula at draws that depend on the variable; model variables and reparameterization gradients with any scales."
  },
  {
   "property": "C38",
   "status": "partial",
   "theorems": [
    "C38_stopped_partial",
    "C38_weights",
    "C38_loss_partial",
    "C38_gradient",
    "C38_penalty_refuted",
    "C38_model_gradient",
    "C38_model_refuted",
    "C38_model_partial"
   ],
   "note": "REFUTED of the code: the reported loss subtracts the penalty that the documentation adds; for variables of the model the weights are differentiated too, so the gradient is not that of the documented expectation of log p (C38_model_refuted). Proved: weights positive, sum to one, shift invariant, the loss otherwise, the documented gradient for variables of the approximation with the penalty added, also at draws that depend on the variable; the exact gradient for variables of the model, and that it is the documented one when the weights are equal, as with one sample."
  },
  {
   "property": "C39",
   "status": "partial",
   "theorems": [
    "C39_map_partial",
    "C39_sgld_partial",
    "C39_klpq_refuted",
    "C39_kl_refuted",
    "C39_sleep_refuted",
    "C39_mh_refuted"
   ],
   "note": "REFUTED of the code: KLpq, the analytic divergence and entropy, Metropolis-Hastings (also HMC and replica exchange, which have no scale) ignore scale; the sleep phase uses the scale of the last latent variable for all. Proved: KLqp with reparameterization or score gradients (C36), MAP, SGLD, SGHMC."
  },
  {
   "property": "C40",
   "status": "proved",
   "theorems": [
    "C40_split",
    "C40_plain",
    "C40_rb"
   ],
   "note": "Every graph and variable list, duplicates included; all variational algorithms."
  },
  {
   "property": "C41",
   "status": "proved",
   "theorems": [
    "C41_default_var_list"
   ],
   "note": "Every graph, binding and list of trainable variables."
  },
  {
   "property": "C42",
   "status": "proved",
   "theorems": [
    "C42_selection",
    "C42_default_rate",
    "C42_rate_decays"
   ],
   "note": "Every argument and every number of updates; for VariationalInference and the GAN family. With a global step that is neither None nor a tf.Variable the default's rate is a constant 0.01."
  },
  {
   "property": "C43",
   "status": "partial",
   "theorems": [
    "C43_joint_refuted",
    "C43_joint_partial",
    "C43_marginal",
    "C43_tril_refuted",
    "C43_normal_refuted",
    "C43_tril_partial",
    "C43_tril_stored_partial",
    "C43_normal_partial"
   ],
   "note": "REFUTED of the code: the scale of Normal and MultivariateNormalDiag is set to the reciprocal of the second derivative, not of its square root; MultivariateNormalTriL gets the inverse of the Cholesky factor without the transpose. Proved: exactly for which Hessians the result is right (identity, respectively diagonal). With several latent variables each is fitted from its own block of the Hessian (C43_joint_refuted): where the blocks come out right the joint covariance is the inverse Hessian exactly if no second derivative across variables is nonzero (C43_joint_partial), and fitting one by one can only underestimate a variance (C43_marginal)."
  },
  {
   "property": "C44",
   "status": "partial",
   "theorems": [
    "C44_sides_partial",
    "C44_regularisers",
    "C44_prefix_refuted",
    "C44_outer_scope_refuted",
    "C44_bigan_refuted",
    "C44_bigan_partial",
    "C44_bigan_regularisers_partial",
    "C44_update",
    "C44_history",
    "C44_var_list_refuted",
    "C44_clip_partial",
    "C44_clip_refuted"
   ],
   "note": "REFUTED of the code: the scope is matched as a prefix of the name, initialize inside an outer variable scope gives the discriminator to the generator and raises, BiGAN drops variables in neither scope, a caller's var_list may share variables, a failing check in debug mode skips clipping. Proved: the partition, one update, every history, and clipping when no check fails."
  },
  {
   "property": "C45",
   "status": "partial",
   "theorems": [
    "C45_half_registered_refuted",
    "C45_documented_refuted",
    "C45_inner_refuted",
    "C45_once_partial",
    "C45_compound",
    "C45_graphs",
    "C45_order",
    "C45_value",
    "C45_value_unknown",
    "C45_outcome",
    "C45_identity"
   ],
   "note": "REFUTED of the code: a collection that cannot take the variable raises after earlier ones were appended to, the documented form of collections always raises, and a compound distribution that raises leaves its parts registered. Proved: exactly-once registration for usable collections, creation order, per-graph isolation, the outcome of the constructor for every value and every partly known shape, identity as equality."
  },
  {
   "property": "C46",
   "status": "partial",
   "theorems": [
    "C46_scalar_refuted",
    "C46_moments_partial",
    "C46_probs",
    "C46_samples",
    "C46_point_mass"
   ],
   "note": "REFUTED of the code for scalar params (the mean raises). Proved for params with rows: moments under the uniform law, samples are stored rows, PointMass."
  },
  {
   "property": "C47",
   "status": "partial",
   "theorems": [
    "C47_base_refuted",
    "C47_base_partial",
    "C47_sample",
    "C47_ends",
    "C47_memoized",
    "C47_stick_breaking"
   ],
   "note": "REFUTED of the code: validate_args=True rejects exactly the documented base type. Proved: growth of the atoms over any calls, draws at the first heads, termination, the stick-breaking law."
  },
  {
   "property": "C48",
   "status": "partial",
   "theorems": [
    "C48_sample",
    "C48_log_prob_refuted",
    "C48_log_prob_nan",
    "C48_axis",
    "C48_vector_refuted",
    "C48_one_vector_refuted",
    "C48_log_prob_partial",
    "C48_marginal_partial",
    "C48_mean",
    "C48_variance",
    "C48_variance_nonneg",
    "C48_shape_partial"
   ],
   "note": "REFUTED of the code: NaN when a component that is not selected has density zero, wrong axis for non-scalar events, wrong shape for sample_shape (1,) or of rank two. Proved: sampling, log_prob and marginal for scalar events, total expectation and variance."
  },
  {
   "property": "C49",
   "status": "proved",
   "theorems": [
    "C49_accepts",
    "C49_rows",
    "C49_simplex",
    "C49_uniform",
    "C49_injective",
    "C49_onto"
   ],
   "note": "Also: onto the open simplex, non-finite input raises, rows of a matrix."
  },
  {
   "property": "C50",
   "status": "proved",
   "theorems": [
    "C50_entries",
    "C50_raises",
    "C50_kernel",
    "C50_semidefinite"
   ],
   "note": "Also: the kernel matrix is positive semidefinite; non-positive lengthscale or variance raises."
  },
  {
   "property": "C51",
   "status": "partial",
   "theorems": [
    "C51_documented_refuted",
    "C51_optimal_partial"
   ],
   "note": "REFUTED of the code for the documented estimator m + c(t - tau): the returned coefficient increases the variance. Proved: unique minimiser for m - c(t - tau)."
  },
  {
   "property": "C52",
   "status": "partial",
   "theorems": [
    "C52_mode_refuted",
    "C52_terminates_refuted",
    "C52_unchanged_refuted",
    "C52_total_partial",
    "C52_one_partial",
    "C52_whole_partial"
   ],
   "note": "REFUTED of the code: not a mode for (0.7, 0.3) and two trials, no termination for equal probabilities of more classes than trials, the caller's array is overwritten. Proved: totals, one trial, whole expected counts."
  },
  {
   "property": "C53",
   "status": "partial",
   "theorems": [
    "C53_accuracy",
    "C53_categorical_accuracy",
    "C53_one_hot",
    "C53_averages",
    "C53_class_wise",
    "C53_errors",
    "C53_mean_errors",
    "C53_kl",
    "C53_binary_crossentropy",
    "C53_sparse_crossentropy",
    "C53_hinge",
    "C53_hinge_labels_refuted",
    "C53_cosine",
    "C53_cosine_self",
    "C53_poisson",
    "C53_unknown_average_refuted"
   ],
   "note": "REFUTED of the code in one clause: an unknown average option raises NameError (the message reads the undefined average_options), not ValueError; and hinge with the documented 0/1 labels costs 1 for label 0 whatever is predicted. Everything else is proved for all shapes: ranges and equality cases of accuracies, errors, KL (with +infinity), cross-entropies, hinge, cosine (sum over rows), Poisson; macro = micro = mean over all entries; average=None is column-wise."
  },
  {
   "property": "C54",
   "status": "partial",
   "theorems": [
    "C54_documented_partial",
    "C54_log_lik",
    "C54_rejects",
    "C54_unknown_metric",
    "C54_no_output",
    "C54_tuple_refuted",
    "C54_tensor_output_refuted",
    "C54_default_tensor_output",
    "C54_python_value_refuted",
    "C54_stray_param_refuted",
    "C54_bad_average",
    "C54_undocumented"
   ],
   "note": "REFUTED of the code: a bare (str, params) tuple raises TypeError; an explicit tf.Tensor output_key raises TypeError though it is accepted as the default; Python numbers/lists as realizations raise AttributeError; a misspelt params key is silently ignored. Proved: every other documented form gives exactly the documented evaluations in order; whatever returns values is recognised, also the undocumented names the code takes; unknown names raise NotImplementedError; ambiguous output raises KeyError. n_samples < 1 is not modelled."
  },
  {
   "property": "C55",
   "status": "partial",
   "theorems": [
    "C55_entries_partial",
    "C55_no_latent_vars",
    "C55_raises",
    "C55_same_draw_partial",
    "C55_same_draw_refuted"
   ],
   "note": "REFUTED of the code: the two discrepancies of entry i come from separate session runs, so z differs. Proved: lengths, which run each entry comes from, exactly which calls raise, and the full pairing when latent variables are not resampled."
  },
  {
   "property": "C56",
   "status": "partial",
   "theorems": [
    "C56_set_seed",
    "C56_float_seed_refuted",
    "C56_seeds_fixed",
    "C56_seeds_agree",
    "C56_get_session",
    "C56_same_session",
    "C56_keras"
   ],
   "note": "REFUTED of the code in one clause: the documented float seed is refused by NumPy (TypeError). Proved for all histories: RuntimeError exactly on non-empty graphs, nothing changes on failure, seeds agree and never change after the first operation; get_session is stable over balanced histories."
  },
  {
   "property": "C57",
   "status": "partial",
   "theorems": [
    "C57_rebuild_refuted",
    "C57_rebuild_exact_partial"
   ],
   "note": "REFUTED of the code: rebuilding raises when a sum or product is nested in the multiplier (tf.add_n and _mul_n are called with unpacked arguments). Proved: if it returns, the value is right."
  },
  {
   "property": "C58",
   "status": "proved",
   "theorems": [
    "C58_cross_entropy",
    "C58_optimum",
    "C58_bigan",
    "C58_generator",
    "C58_wgan",
    "C58_wasserstein",
    "C58_penalty",
    "C58_hinge"
   ],
   "note": "Every pair of batches with common support; broadcasting between outputs of different length is not modelled. The slopes that the penalty is applied to are arguments."
  },
  {
   "property": "C59",
   "status": "partial",
   "theorems": [
    "C59_joint_refuted",
    "C59_samples_partial"
   ],
   "note": "REFUTED of the code: implicit_klqp.py:172-173 swap the approximation's draws into the copy of x that stands for the model's draw."
  },
  {
   "property": "C60",
   "status": "partial",
   "theorems": [
    "C60_vector_matrix",
    "C60_documented_refuted",
    "C60_matrix_vector_partial"
   ],
   "note": "REFUTED of the code for the documented shapes of a matrix and a vector. Proved: vector times matrix, and matrix times vector with an entry per column."
  },
  {
   "property": "C61",
   "status": "partial",
   "theorems": [
    "C61_average",
    "C61_bernoulli",
    "C61_bernoulli_best",
    "C61_categorical",
    "C61_binomial_refuted",
    "C61_log_loss_refuted",
    "C61_log_loss_value_refuted",
    "C61_kl_negative_refuted",
    "C61_kl_overwritten_refuted"
   ],
   "note": "REFUTED of the code: Binomial predictions are 0/1 whatever total_count; cross-entropies score the predicted label as a logit; KL of a Binomial output can be negative; KL of a Multinomial output is taken against an array overwritten by the mode computation. Proved: Bernoulli predictions are the more probable label and maximise expected accuracy, categorical predictions a most probable class, averages of probabilities are probabilities."
  },
  {
   "property": "C62",
   "status": "partial",
   "theorems": [
    "C62_log_joint_partial",
    "C62_log_joint_refuted",
    "C62_map_loss",
    "C62_replica_partial"
   ],
   "note": "REFUTED of the code for HMC, SGLD and SGHMC when data bound to a random variable is computed from a latent or observed random variable of the model: the copy made while drawing it stays in the scope and is taken for the variable given the sample. Proved: for all other programs, data and samples, that the build succeeds, leaves the graph unchanged and evaluates to the log joint density; for MAP and Laplace without exception; for replica exchange in every program if no datum is a random variable, otherwise in those in which nothing has a name in the scope 'conditional' yet (false otherwise, as C64_scope_refuted shows of the same copies)."
  },
  {
   "property": "C63",
   "status": "partial",
   "theorems": [
    "C63_samples_partial",
    "C63_samples_refuted"
   ],
   "note": "REFUTED of the code when an approximation is computed from a latent or observed random variable of the model (an inference network applied to the observed random variable): log p is evaluated at a prior draw instead of the sample. Proved for all other programs, any number of samples."
  },
  {
   "property": "C64",
   "status": "partial",
   "theorems": [
    "C64_ratio_partial",
    "C64_scope_refuted"
   ],
   "note": "REFUTED of the code for data that are random variables when the program has a random variable of its own in the scope 'conditional' with the same name (C64_scope_refuted): it is taken for the copy of the datum. Proved (C64_ratio_partial) for every program in which nothing has a name in that scope, and for every program at all if no datum is a random variable."
  },
  {
   "property": "C65",
   "status": "partial",
   "theorems": [
    "C65_one_function_partial",
    "C65_one_function_refuted"
   ],
   "note": "REFUTED of the code for data bound to a random variable: each evaluation draws it anew, so HMC's acceptance ratio compares the new and the old state under different data. Proved for data that is no random variable, for every later graph."
  },
  {
   "property": "C66",
   "status": "partial",
   "theorems": [
    "C66_as_score",
    "C66_scale_refuted",
    "C66_sets",
    "C66_unbiased_partial",
    "C66_unbiased_general_partial",
    "C66_iterated"
   ],
   "note": "REFUTED of the code when a latent variable is scaled: the expected gradient is that of the score estimator, which is not that of the objective (C66_scale_refuted). Proved: which terms are kept, for every graph (C66_sets); for any scales and any variable, also one of the model, leaving the other terms out does not change the expected gradient (C66_as_score, finite spaces of values as quantified); with unscaled latent variables and variables of the approximation alone it is the gradient of the objective, also on any spaces with linear integrals for which differentiation below the integral sign is allowed. The theorems named partial leave out what is refuted here and in C37."
  },
  {
   "property": "C67",
   "status": "partial",
   "theorems": [
    "C67_wake_loss",
    "C67_wake_partial",
    "C67_wake_general",
    "C67_sleep_partial",
    "C67_sleep_general_partial",
    "C67_sleep_held_partial",
    "C67_other_phase_partial",
    "C67_fantasy_refuted"
   ],
   "note": "REFUTED of the code: the documented fantasy of the observed variables is not drawn, the approximation stays conditional on the data (wake_sleep.py:18-30 against 121-131). Proved: both phases otherwise, on any space as in C37. Missing: scales that differ between latent variables, see C39."
  },
  {
   "property": "C68",
   "status": "proved",
   "theorems": [
    "C68_choice",
    "C68_kl_scaling",
    "C68_n_samples"
   ],
   "note": "Every set of latent variables, types and arguments; bad latent bindings are C14's."
  },
  {
   "property": "C69",
   "status": "partial",
   "theorems": [
    "C69_klqp_outcome",
    "C69_klqp_partial",
    "C69_scale",
    "C69_map_partial",
    "C69_map_returns",
    "C69_map_discrete",
    "C69_laplace_partial",
    "C69_laplace_returns",
    "C69_monte_carlo_partial",
    "C69_dict",
    "C69_dict_raises",
    "C69_sample_shape_refuted",
    "C69_map_simplex_refuted",
    "C69_laplace_simplex_refuted",
    "C69_laplace_scalar_refuted",
    "C69_map_transformed_refuted"
   ],
   "note": "REFUTED of the code: a variable with sample_shape is refused by all (TypeError about a dictionary that was not passed); MAP and Laplace refuse every variable on a simplex and Laplace every scalar; MAP's point mass for a variable that transform returned is confined to the wrong set. Proved: exactly which lists and dictionaries are accepted, and for those the whole claim (untransformed variables for MAP and Laplace). Missing: what auto_transform later does to the shapes of simplex variables; partly known shapes."
  },
  {
   "property": "C70",
   "status": "partial",
   "theorems": [
    "C70_log_joint_of_set_partial",
    "C70_joined_names_refuted",
    "C70_built_once_partial",
    "C70_node_name",
    "C70_default_set"
   ],
   "note": "REFUTED of the code: log joints are kept under the names of their members joined with underscores, so the set {a_b} gets the log joint of {a, b} if that was built before. Proved for every history in which underscores in names only append numbers, as in the names TensorFlow makes up; the default conditioning set for all names (C70_default_set); and that the node of a variable always has a name without colon, as TensorFlow requires (C70_node_name)."
  },
  {
   "property": "C71",
   "status": "proved",
   "theorems": [
    "C71_program",
    "C71_numbers",
    "C71_negation",
    "C71_absolute",
    "C71_branches",
    "C71_constants",
    "C71_parameters"
   ],
   "note": "Building the graph and running it is proved to agree, exceptions included, with a direct interpreter of the program, by mutual induction over expressions; seven binary and three unary operators stand for all overloaded ones, shapes are left out. Arithmetic on plain numbers, the branch taken, which numbers turn into which type and which parameter types are accepted are stated by further theorems in their own vocabulary, because graph and interpreter share those functions."
  },
  {
   "property": "C72",
   "status": "partial",
   "theorems": [
    "C72_log_partial",
    "C72_names_apart",
    "C72_tags",
    "C72_shared_refuted",
    "C72_gradient_refuted"
   ],
   "note": "REFUTED of the code: the first inference of a graph takes the key 'summaries', which is TensorFlow's default collection, so it also writes every summary the program created; and with a log directory initialize raises if some variable has no gradient. Proved: for every program, exactly which summaries are merged and when initialize raises, nothing of other inferences, keys and tags distinct."
  },
  {
   "property": "C73",
   "status": "partial",
   "theorems": [
    "C73_reproducible_partial",
    "C73_gibbs_refuted",
    "C73_fresh_noise_partial",
    "C73_own_seed_refuted"
   ],
   "note": "REFUTED of the code: Gibbs with the default scan_order='random' shuffles with Python's own generator, which set_seed does not seed; the copy of a random operation with a seed of its own keeps it when the graph has no seed, and gets the number of operations as seed otherwise, so it can repeat the original's numbers. Proved: reproducibility of every program without such scans; distinct numbers for every program without own seeds."
  },
  {
   "property": "C74",
   "status": "partial",
   "theorems": [
    "C74_loops_partial",
    "C74_gradient_refuted"
   ],
   "note": "REFUTED of the code for contexts in no collection (the loops TensorFlow builds for gradients): such a context is copied once per operation, so the operations of one loop end in different contexts. Proved for every graph in which all contexts are in a collection (as tf.while_loop and tf.cond keep them) and dict_swap replaces nothing inside a context: termination with an explicit bound, the mirror image, each context once, nothing else copied. Random variables inside are C10's."
  },
  {
   "property": "C75",
   "status": "partial",
   "theorems": [
    "C75_given_refuted",
    "C75_initialize_partial",
    "C75_run_partial",
    "C75_used_exist",
    "C75_value_error",
    "C75_positional"
   ],
   "note": "REFUTED of the code: samplers accept n_iter and use the number of rows of the Empirical instead; Metropolis-Hastings, replica exchange and Gibbs accept auto_transform=True and use False (C75_given_refuted). Proved with these options taken as chosen by the algorithm: exact acceptance and values for all 22 classes, for initialize and run, by position and keyword; which error; samplers take no inherited option by position. Options are opaque values here; what each does is other properties'."
  },
  {
   "property": "C76",
   "status": "partial",
   "theorems": [
    "C76_determined",
    "C76_sampler",
    "C76_sampler_same",
    "C76_rate_refuted",
    "C76_sghmc_refuted",
    "C76_sghmc_partial",
    "C76_increment_apart",
    "C76_replica_ratio",
    "C76_variational_refuted",
    "C76_variational_partial"
   ],
   "note": "REFUTED of the code: the acceptance rate reads n_accept before or after it grows (C76_rate_refuted); SGHMC's sample reads the velocity before or after its assignment (C76_sghmc_refuted); in variational inference gradients and loss may read variables already updated (C76_variational_refuted). Proved for every order: a graph without races has one outcome; the samples and n_accept of Metropolis-Hastings, HMC, SGLD and Gibbs; SGHMC's velocities; the log joints of replica exchange; variational steps if uses come before updates; that increment_t must be run apart, as update() does. Reference variables: reads alias, updates are in place. tf.cond and tf.while_loop are single operations here."
  },
  {
   "property": "C77",
   "status": "partial",
   "theorems": [
    "C77_block_refuted",
    "C77_single_partial",
    "C77_free_partial",
    "C77_real_single_partial",
    "C77_real_free_partial"
   ],
   "note": "REFUTED of the code: the variables of a block are drawn in one session run, each given the others' values before the block, so two dependent variables in one block lose the posterior (C77_block_refuted). Proved on any spaces: scanning variables one by one in any order with repetitions, and blocks whose variables are conditionally independent given the rest. Integration is an abstract linear operation with Fubini's theorem as hypothesis for a class of functions; shown to hold for finite sums and for a sum with an integral. On R^n nothing is assumed of integration: for a positive continuous integrable posterior of tensors of any shapes with continuous conditionals, the mean of every bounded continuous function after the scan exists and keeps its expectation (C77_real_single_partial, C77_real_free_partial)."
  },
  {
   "property": "C78",
   "status": "partial",
   "theorems": [
    "C78_order_refuted",
    "C78_conditional_partial",
    "C78_returns_partial",
    "C78_broadcast"
   ],
   "note": "REFUTED of the code: the placeholder of a statistic takes the shape of the first node found for it, in the order of a set, so with mu scalar and x = Normal(tf.ones(2) * mu, 1.) one order gives the conditional of shape [] and another a distribution of shape [2] with wrong entries (C78_order_refuted). Proved for every order and all shapes: if the first node of each statistic has the variable's shape, the result has that shape and the right density, and it is returned whenever the statistics are those of an entry of the table. Hypotheses as in C34: what simplification found is right, products have one factor with the variable."
  },
  {
   "property": "C79",
   "status": "partial",
   "theorems": [
    "C79_full_conditional_partial",
    "C79_given_value_refuted"
   ],
   "note": "REFUTED of the code: a random variable constructed with the argument value has a tensor that is not computed from its parameters, so it is no child of them and its term is missing from the joint density (C79_given_value_refuted). Proved for all graphs whose random variables are sampled from their parameters."
  },
  {
   "property": "C80",
   "status": "partial",
   "theorems": [
    "C80_mh_builds_partial",
    "C80_mh_frozen_partial",
    "C80_mh_covers_refuted",
    "C80_gibbs_builds_partial",
    "C80_gibbs_scan_partial",
    "C80_gibbs_update_partial"
   ],
   "note": "REFUTED of the code: Metropolis-Hastings accepts proposal_vars that lack a latent variable, which then keeps its initial value for ever (C80_mh_covers_refuted, C80_mh_frozen_partial); Gibbs does not notice proposals for other variables. Proved: exactly which dictionaries are refused, by both, and what a KeyError in the middle of a Gibbs scan leaves behind."
  },
  {
   "property": "C81",
   "status": "partial",
   "theorems": [
    "C81_algorithm_refuted",
    "C81_draws_refuted",
    "C81_numpy_refuted",
    "C81_data",
    "C81_session",
    "C81_checked_partial"
   ],
   "note": "REFUTED of the code: only operations that exist when Inference.initialize is called are checked, so a NaN in the loss or a gradient goes unnoticed (C81_algorithm_refuted); the checks are a session run of their own with other draws (C81_draws_refuted); with floating point data given as Python or NumPy values no update ever returns, as the constructor's placeholder is checked and not fed (C81_numpy_refuted, for every model, algorithm and value). Proved: exactly when the checks raise (C81_checked_partial). What tf.add_check_numerics_ops covers (outputs of type float16, float32 and float64 of the operations there at the call) is taken from TensorFlow's documentation."
  },
  {
   "property": "C82",
   "status": "partial",
   "theorems": [
    "C82_frame",
    "C82_counters",
    "C82_isolated",
    "C82_order",
    "C82_fixed_refuted",
    "C82_fixed_partial"
   ],
   "note": "REFUTED of the code: conditional inference does not leave the conditioned approximation fixed if the approximation of an inferred variable depends on it; the default var_list then trains its variables too (C82_fixed_refuted). Proved in full: what any history can change (C82_frame), the counters (C82_counters), independence of inferences that share nothing (C82_isolated, C82_order); C82_fixed_partial says which variables stay fixed. Gibbs and GAN updates are not in this model."
  },
  {
   "property": "C83",
   "status": "partial",
   "theorems": [
    "C83_epoch",
    "C83_replacement",
    "C83_reparam",
    "C83_reparam_gradient",
    "C83_map",
    "C83_map_gradient",
    "C83_sgld",
    "C83_score_partial",
    "C83_score_refuted",
    "C83_kl_small",
    "C83_kl_refuted",
    "C83_kl_partial",
    "C83_kl_scaling"
   ],
   "note": "REFUTED of the code for local latent variables: with analytic KL divergences (what KLqp picks when all pairs are Normal) scale does not reach the divergences, so the local ones count M/N of what they should (C83_kl_small, C83_kl_refuted, exact gap in C83_kl_partial, remedy by kl_scaling in C83_kl_scaling); score function gradients come out N/M times too large (C83_score_refuted). Proved in full: loss and gradient of reparameterized KLqp, of MAP, and the log joint of SGLD and SGHMC; which batch laws qualify (C83_epoch, C83_replacement); score function gradients without local latent variables (C83_score_partial). Laws of batches have finite support; the noise of the approximation is fixed in the expectation."
  },
  {
   "property": "C84",
   "status": "partial",
   "theorems": [
    "C84_kl_refuted",
    "C84_kl",
    "C84_kl_exact",
    "C84_penalty",
    "C84_entropy_refuted",
    "C84_entropy",
    "C84_entropy_exact"
   ],
   "note": "REFUTED of the code: divergences and entropies come from the distribution, which does not know sample_shape, so entries that share their parameters count once (C84_kl_refuted, C84_entropy_refuted). Proved in full: the factor (C84_kl, C84_entropy, C84_penalty) and exactly when the terms are right (C84_kl_exact: parameters of the two together fill the shape; C84_entropy_exact: those of the approximation do). kl_scaling is a scalar."
  },
  {
   "property": "C85",
   "status": "partial",
   "theorems": [
    "C85_reach_refuted",
    "C85_travel",
    "C85_first_step",
    "C85_no_schedule",
    "C85_decay_sum",
    "C85_descend_short",
    "C85_descend_travel",
    "C85_sgld"
   ],
   "note": "REFUTED of the code: the default learning rate decays geometrically, so all rates together add up to 100 at most (C85_decay_sum), and with Adam no entry of a variable moves by more than 730 in a run of any length (C85_travel); an optimum at distance 1000 is not approached (C85_reach_refuted). With a global_step gradient descent stops short as well (C85_descend_short, C85_descend_travel); without one the rate is constant and never settles, so no schedule that Edward chooses meets both conditions (C85_no_schedule). Proved: SGLD's do (C85_sgld). The updates of Adam and gradient descent are TensorFlow's, modelled from their documentation (C85_first_step pins the first)."
  },
  {
   "property": "C86",
   "status": "proved",
   "theorems": [
    "C86_sgld",
    "C86_joint"
   ],
   "note": "Stated without a theory of Gaussian processes: each stored sample is an explicit linear combination of the start and the noises, and the coefficients converge so that independent standard normal noises give a normal law with mean and variance tending to the posterior's. The hypothesis is on the gradient of the log joint density for the entry, tf.gradients being an oracle as in C26. C86_sgld is about single entries; C86_joint about normal posteriors of all variables with any positive definite precision matrix A, through the combinations A b of entries (A being invertible, these are all; for them the posterior variance needs no inverse of A). Untransformed variables (for others see C26_sgld_refuted)."
  },
  {
   "property": "C87",
   "status": "partial",
   "theorems": [
    "C87_line_refuted",
    "C87_line_partial",
    "C87_box",
    "C87_slopes",
    "C87_zero",
    "C87_batch_refuted"
   ],
   "note": "REFUTED of the code: one random number is drawn per entry instead of per example, so the penalised points leave the line (C87_line_refuted; exactly when they do not: C87_line_partial) and fill the box the two examples span (C87_box); for critics that look at the whole batch, as with batch normalisation, the gradient of the sum of outputs is taken and slopes can vanish though every output depends on its example (C87_batch_refuted). Proved in full for critics that see one example at a time: the slopes are the norms of the gradients (C87_slopes) and the penalty vanishes exactly if all are 1 (C87_zero). Real and generated batches have the same shape."
  },
  {
   "property": "C88",
   "status": "partial",
   "theorems": [
    "C88_joint_refuted",
    "C88_variance_refuted",
    "C88_small_steps",
    "C88_stationary"
   ],
   "note": "REFUTED of the code: for every step_size the limit variance exceeds the posterior's, and if step_size / 100 is at least friction / 2 times the posterior variance, it is infinite (C88_variance_refuted); with the defaults that is any posterior variance of at most 1/20 (C88_default). Nothing in the code decreases step_size or rejects. Proved as documented: the error tends to zero with the step size (C88_small_steps); the limit is the stationary variance (C88_stationary). Gaussian laws enter through coefficients of the noises, as in C86; C88_joint_refuted says the same of posteriors whose entries interact, along every eigenvector of the precision matrix. Transformed variables are not covered."
  },
  {
   "property": "C89",
   "status": "partial",
   "theorems": [
    "C89_periodic_refuted",
    "C89_hmc_refuted",
    "C89_general_partial",
    "C89_finite_partial",
    "C89_real_partial",
    "C89_gibbs_partial"
   ],
   "note": "REFUTED of the code: with a proposal that always flips between two equally probable states the n-th sample alternates for ever (C89_periodic_refuted); HMC with its default n_steps=2 and a step_size of sqrt 2 posterior standard deviations accepts every proposal and its samples are alternately the reflection of the start and the start (C89_hmc_refuted). Proved where the proposal density is at least a multiple eps of the posterior's from everywhere, with the rate (1 - eps)^n (C89_general_partial: any space and integral; C89_real_partial: real tensors of any shapes, where also the means exist); on finitely many states wherever it is positive (C89_finite_partial); for Gibbs with finitely many values (C89_gibbs_partial). Random walks on R^n, whose proposal density is no multiple of the posterior's, are not covered."
  },
  {
   "property": "C90",
   "status": "partial",
   "theorems": [
    "C90_bound",
    "C90_gap",
    "C90_only_posterior",
    "C90_spaces",
    "C90_posterior",
    "C90_rb",
    "C90_entropy",
    "C90_kl_partial",
    "C90_kl_hierarchy_refuted"
   ],
   "note": "REFUTED of the code: with analytic divergences, which KLqp uses for normals, and a prior that depends on another latent variable, the divergence is taken given a value of that variable drawn from its prior, and the expected loss at the posterior is below the negative log evidence (C90_kl_hierarchy_refuted). Proved for the estimators without analytic divergences (C90_bound, C90_rb, C90_entropy), with the exact gap and that it vanishes at the posterior only (C90_gap, C90_only_posterior, C90_spaces, C90_posterior); for analytic divergences where they are the expected ones (C90_kl_partial). scale must be 1 on latent variables; on data it may be anything, the evidence being that of the scaled model."
  },
  {
   "property": "C91",
   "status": "partial",
   "theorems": [
    "C91_one_sample",
    "C91_default_refuted",
    "C91_posterior",
    "C91_limit",
    "C91_loss",
    "C91_finite"
   ],
   "note": "REFUTED of the code with the default n_samples=1: the single normalised weight is 1 whatever the model and the data, so the expected gradient is that of the penalty alone (C91_one_sample), which for a coin with posterior 3/4 is 0 instead of -1 (C91_default_refuted). Proved: the limit, with rate 1/sqrt(n_samples), where the importance weights are bounded below and have second moments (C91_limit, C91_loss), on finite spaces without condition (C91_finite); that the posterior is a fixed point on average for every n_samples (C91_posterior)."
  },
  {
   "property": "C92",
   "status": "partial",
   "theorems": [
    "C92_finite_partial",
    "C92_real_partial",
    "C92_gibbs_partial",
    "C92_hmc_refuted"
   ],
   "note": "REFUTED of HMC: a step size and number of steps with which, on a normal posterior, the average of the squared samples is the square of the starting point for every number of samples and whatever is drawn (C92_hmc_refuted). Proved on finite spaces: Metropolis-Hastings with a positive proposal density (C92_finite_partial) and Gibbs scans that reach every variable (C92_gibbs_partial), both with a rate. Proved on R^n for bounded continuous functions when the proposal density is at least a multiple of the posterior density (C92_real_partial), with an explicit bound. Missing: other proposal densities (random walks), unbounded functions, almost sure convergence."
  },
  {
   "property": "C93",
   "status": "proved",
   "theorems": [
    "C93_bound",
    "C93_small_steps",
    "C93_unstable",
    "C93_unstable_joint"
   ],
   "note": "Reals in place of floats. The posterior is normal in the unconstrained space and the gradient is its gradient; other posteriors have no such bound. C93_unstable is the case of one variable of C93_unstable_joint."
  },
  {
   "property": "C94",
   "status": "partial",
   "theorems": [
    "C94_dictionary",
    "C94_shared",
    "C94_own_partial",
    "C94_none",
    "C94_gibbs_caller",
    "C94_gibbs_sticky",
    "C94_caller_refuted"
   ],
   "note": "REFUTED of the code: update writes the inference's bound data into the caller's dictionary, so an update of another inference given the same dictionary is fed values the caller never passed to it (C94_caller_refuted); Gibbs keeps what it is passed and feeds it in all later updates (C94_gibbs_sticky). Proved for all histories: exactly what a shared dictionary holds and what is fed from it (C94_dictionary, C94_shared); that what is passed is fed if no earlier update given the dictionary bound the key (C94_own_partial); that an update given no dictionary is not affected by the past (C94_none); that Gibbs leaves the caller's dictionary alone (C94_gibbs_caller)."
  },
  {
   "property": "C95",
   "status": "partial",
   "theorems": [
    "C95_history",
    "C95_refuted",
    "C95_gibbs"
   ],
   "note": "REFUTED of the code: reset sets t and n_accept only, and row 0 of the Empirical holds both the state the chain starts from and its first sample, so a run after a reset starts from the first sample of the run before (C95_refuted: SGLD for a standard normal, same draws, another sample). Proved for all histories and any algorithm (C95_history): the counters are 0, every run is a chain started from the first sample of the last run that moved and with the further state that run ended with, every row holds the sample of the last run that got there, so that after a shorter run the samples of two chains are mixed, and other rows are unchanged. For Gibbs also that the state its draws condition on goes on as if there were no resets (C95_gibbs)."
  },
  {
   "property": "C96",
   "status": "partial",
   "theorems": [
    "C96_densities",
    "C96_batches",
    "C96_many",
    "C96_dropped",
    "C96_dropped_refuted",
    "C96_discriminator",
    "C96_discriminator_log",
    "C96_global_refuted"
   ],
   "note": "REFUTED of the code as to scale: a single scale multiplies the ratio whichever variable it is bound to, so that of a global variable does not scale its densities (C96_global_refuted); with two scales or more, variables without one are left out of the objective instead of counting once (C96_dropped_refuted, for all dictionaries C96_dropped). Proved: the loss is minus the log ratio of the joint densities plus the regularisers (C96_densities), minibatch losses average to the loss of all points (C96_batches), with several scales each ratio is multiplied by its own (C96_many), and the discriminator is trained on the variables with a scale, each with weight 1 (C96_discriminator), with one scale or none on the loss of C58 (C96_discriminator_log). Scales are scalars; that the discriminator finds the ratio is C58."
  }
 ]
}