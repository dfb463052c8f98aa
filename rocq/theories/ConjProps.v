(** * Properties C32-C34: conjugate log densities, natural parameters,
      complete conditionals. *)
From Coq Require Import List Arith Reals Bool Lra.
From Verif Require Import Simplify SimplifySpec Ext ConjLogProb ConjSpec ConjProofs
  Conjugacy ConjugacySpec ConjugacyProofs.
Import ListNotations.
Local Open Scope R_scope.

(** In the theorems [G] is any function that is positive on the positive reals
    and extends the factorial, such as the Gamma function, and tf.lgamma its
    logarithm. *)
Example ex_gamma_function : exists G, gamma_function G.
Proof. exists some_gamma. exact some_gamma_ok. Qed.

(** ** C32

    Full statement: for each of the fourteen families, conjugate_log_prob is
    the logarithm of the density.  False for the chi-squared family at every
    parameter and value, and, in the arithmetic with infinities and NaN, for
    Bernoulli and Categorical when some probability is zero.  Proved instead:
    the other families, with positive probabilities. *)

Theorem C32_chi2_refuted : forall G lgamma, gamma_function G -> log_gamma G lgamma ->
  forall df x, 0 < df -> 0 < x ->
  chi2_log_prob lgamma df x <> ln (chi2_pdf G df x).
Proof. intros G lgamma HG Hl. exact (chi2_wrong G lgamma HG Hl). Qed.
Print Assumptions C32_chi2_refuted.

Theorem C32_bernoulli_degenerate_refuted :
  bernoulli_log_prob_ext 1 1 = NaN /\ bernoulli_log_prob_ext 0 0 = NaN.
Proof. exact bernoulli_nan. Qed.
Print Assumptions C32_bernoulli_degenerate_refuted.

Theorem C32_categorical_degenerate_refuted : forall ps k,
  In 0 ps -> nth k ps 0 <> 0 -> categorical_log_prob_ext ps k = NaN.
Proof. exact categorical_nan. Qed.
Print Assumptions C32_categorical_degenerate_refuted.

Theorem C32_log_probs_partial : forall G lgamma, gamma_function G -> log_gamma G lgamma ->
  (forall p k, 0 < p < 1 -> (k <= 1)%nat -> bernoulli_log_prob p k = ln (bernoulli_pmf p k)) /\
  (forall a b x, 0 < a -> 0 < b -> 0 < x < 1 -> beta_log_prob lgamma a b x = ln (beta_pdf G a b x)) /\
  (forall n p k, 0 < p < 1 -> (k <= n)%nat -> binomial_log_prob lgamma n p k = ln (binomial_pmf n p k)) /\
  (forall ps k, positive ps -> (k < length ps)%nat -> categorical_log_prob ps k = ln (categorical_pmf ps k)) /\
  (forall a x, positive a -> positive x -> a <> [] -> length a = length x ->
     dirichlet_log_prob lgamma a x = ln (dirichlet_pdf G a x)) /\
  (forall r x, 0 < r -> exponential_log_prob r x = ln (exponential_pdf r x)) /\
  (forall a b x, 0 < a -> 0 < b -> 0 < x -> gamma_log_prob lgamma a b x = ln (gamma_pdf G a b x)) /\
  (forall a b x, 0 < a -> 0 < b -> 0 < x ->
     inverse_gamma_log_prob lgamma a b x = ln (inverse_gamma_pdf G a b x)) /\
  (forall m s x, 0 < s -> laplace_log_prob m s x = ln (laplace_pdf m s x)) /\
  (forall n ps ks, positive ps -> length ps = length ks ->
     multinomial_log_prob lgamma n ps ks = ln (multinomial_pmf n ps ks)) /\
  (forall m s x, 0 < s -> normal_log_prob m s x = ln (normal_pdf m s x)) /\
  (forall m s x, positive s -> length m = length s -> length s = length x ->
     vsum (mvn_diag_log_prob m s x) = ln (mvn_diag_pdf m s x)) /\
  (forall r k, 0 < r -> poisson_log_prob lgamma r k = ln (poisson_pmf r k)).
Proof. exact log_probs_ok. Qed.
Print Assumptions C32_log_probs_partial.

Example ex_log_prob : log_gamma some_gamma (fun x => ln (some_gamma x)) /\ positive [/ 4; 3 / 4].
Proof. split; [intros x _; reflexivity|]. repeat constructor; lra. Qed.
Example ex_degenerate : In 0 [0; 1] /\ nth 1 [0; 1] 0 <> 0.
Proof. simpl. split; [auto|lra]. Qed.

(** ** C33

    Full statement: for each entry of the table the distribution built from
    natural parameters [eta] has log density [eta . s(x)] plus a constant.
    False for the entry (nonnegative, log x), which builds a Chi2, and for
    (countable, x), which builds a Poisson, for all parameters.  Proved
    instead: the other entries. *)

Theorem C33_chi2_entry_refuted : forall G, gamma_function G ->
  forall p1, 0 < p1 + 1 -> exists d,
  scalar_table SupNonnegative [StLog] [p1] = Some d /\ proper d /\
  forall c, ~ is_log_density G d (fun x => dot [p1] (stats [StLog] x) + c).
Proof. exact chi2_entry_refuted. Qed.
Print Assumptions C33_chi2_entry_refuted.

Theorem C33_poisson_entry_refuted : forall G, gamma_function G ->
  forall p1, exists d,
  scalar_table SupCountable [StX] [p1] = Some d /\ proper d /\
  forall c, ~ is_log_density G d (fun x => dot [p1] (stats [StX] x) + c).
Proof. exact poisson_entry_refuted. Qed.
Print Assumptions C33_poisson_entry_refuted.

Theorem C33_scalar_entries_partial : forall G, gamma_function G ->
  forall sup key eta d,
  scalar_table sup key eta = Some d -> proper d -> ~ wrong_entry d ->
  exists c, is_log_density G d (fun x => dot eta (stats key x) + c).
Proof. exact scalar_entries_ok. Qed.
Print Assumptions C33_scalar_entries_partial.

Theorem C33_vector_entries_partial : forall G, gamma_function G ->
  (forall eta d, vector_table SupCategorical [StOneHot] [eta] = Some d ->
     exists ls c, d = DCategorical ls /\ forall k, (k < length eta)%nat ->
       ln (categorical_pmf (softmax ls) k) = vsum (map2 Rmult eta (one_hot k (length eta))) + c) /\
  (forall eta d, vector_table SupSimplex [StLog] [eta] = Some d -> proper d -> eta <> [] ->
     exists a c, d = DDirichlet a /\ forall x, positive x -> length eta = length x ->
       ln (dirichlet_pdf G a x) = vsum (map2 (fun q v => q * ln v) eta x) + c) /\
  (forall p1 p2 d, vector_table SupMultivariateReal [StSquare; StX] [p1; p2] = Some d ->
     Forall (fun p => p < 0) p1 -> length p1 = length p2 ->
     exists m s c, d = DMVNDiag m s /\ forall x, length x = length p1 ->
       ln (mvn_diag_pdf m s x) =
       vsum (map2 (fun p v => p * (v * v)) p1 x) + vsum (map2 Rmult p2 x) + c).
Proof. exact vector_entries_ok. Qed.
Print Assumptions C33_vector_entries_partial.

Example ex_entry : exists d, scalar_table SupNonnegative [StLog; StX] [2; -3] = Some d /\
  proper d /\ ~ wrong_entry d.
Proof. eexists. split; [reflexivity|]. simpl. split; [lra|tauto]. Qed.

(** ** C34

    Full statement: whenever complete_conditional returns a distribution its
    log density is the log joint up to a constant.  False: the constant inside
    log (x + 1) is dropped; a product of two statistics is taken to be linear;
    and the two wrong entries of C33.  Proved instead: if every statistic node
    is of the form on which simplification is exact (C30), every product above
    the statistics has one factor that depends on the variable, and the entry
    is not one of those two, then the statement holds for every log joint. *)

Theorem C34_inner_constant_refuted : forall G, gamma_function G ->
  exists ti fuel en own lty base stop sup nodes g x0 d,
  env_ok ti en /\ linear_ops lty en /\
  unfolding base stop g /\ arity_ok lty base stop g /\ one_dependent_factor lty base stop g /\
  nodes = suff_stat_nodes lty base stop g /\
  in_support sup x0 /\ true_values en own base stop x0 g /\
  complete_conditional ti fuel en own lty base stop sup nodes g x0 = Some (Ret d) /\
  proper d /\ ~ wrong_entry d /\
  ~ exists c, is_log_density G d (fun x => tval en base stop x g + c).
Proof. exact bad1_refuted. Qed.
Print Assumptions C34_inner_constant_refuted.

Theorem C34_product_of_statistics_refuted : forall G, gamma_function G ->
  exists ti fuel en own lty base stop sup nodes g x0 d,
  env_ok ti en /\ linear_ops lty en /\
  unfolding base stop g /\ arity_ok lty base stop g /\
  nodes = suff_stat_nodes lty base stop g /\
  (forall n, In n nodes -> simplifies_exactly ti en (in_support sup) (symbolic_suff_stat base stop n)) /\
  in_support sup x0 /\ true_values en own base stop x0 g /\
  complete_conditional ti fuel en own lty base stop sup nodes g x0 = Some (Ret d) /\
  proper d /\ ~ wrong_entry d /\
  ~ exists c, is_log_density G d (fun x => tval en base stop x g + c).
Proof. exact bad2_refuted. Qed.
Print Assumptions C34_product_of_statistics_refuted.

Theorem C34_complete_conditional_partial :
  forall G ti fuel en own lty base stop sup nodes g x0 d,
  gamma_function G -> env_ok ti en -> linear_ops lty en ->
  unfolding base stop g -> arity_ok lty base stop g -> one_dependent_factor lty base stop g ->
  (forall n, In n nodes <-> In n (suff_stat_nodes lty base stop g)) ->
  (forall n, In n nodes -> simplifies_exactly ti en (in_support sup) (symbolic_suff_stat base stop n)) ->
  in_support sup x0 -> true_values en own base stop x0 g ->
  complete_conditional ti fuel en own lty base stop sup nodes g x0 = Some (Ret d) ->
  proper d -> ~ wrong_entry d ->
  exists c, is_log_density G d (fun x => tval en base stop x g + c).
Proof. exact conditional_sound. Qed.
Print Assumptions C34_complete_conditional_partial.

(** The hypotheses are met by c x^2 + y x. *)
Example ex_conditional :
  env_ok bad_ti good_en /\ linear_ops bad_lty good_en /\
  unfolding 0 [2; 3]%nat good /\ arity_ok bad_lty 0 [2; 3]%nat good /\
  one_dependent_factor bad_lty 0 [2; 3]%nat good /\
  good_nodes = suff_stat_nodes bad_lty 0 [2; 3]%nat good /\
  (forall n, In n good_nodes ->
     simplifies_exactly bad_ti good_en (in_support SupReal) (symbolic_suff_stat 0 [2; 3]%nat n)) /\
  in_support SupReal 7 /\ true_values good_en (good_own 7) 0 [2; 3]%nat 7 good /\
  exists d, complete_conditional bad_ti 20 good_en (good_own 7) bad_lty 0 [2; 3]%nat SupReal good_nodes good 7
            = Some (Ret d) /\ proper d /\ ~ wrong_entry d.
Proof. exact good_ok. Qed.
