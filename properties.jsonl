{"id": "C01", "title": "get_parents / get_children return exactly the nearest random variables", "statement": "ed.get_parents(x, collection) returns, without duplicates, exactly the random variables r of the collection, other than x, from whose value a dataflow path leads to x with no other collection member strictly in between; ed.get_children(x, collection) returns exactly those reached by such a path from x. The answer does not depend on the order in which pending nodes are visited and the call always returns, also on cyclic (while-loop) graphs.", "quantifier": "every finite dataflow graph (cyclic or not), every collection, every query node, every choice of the next pending node at every step", "why_tests_cant": "The traversal pops from a Python set, whose order is arbitrary, and the set of graphs is infinite; tests fix a few small graphs and one hash order.", "anchors": ["edward/util/random_variables.py:get_parents", "edward/util/random_variables.py:get_children"]}
{"id": "C02", "title": "get_ancestors / get_descendants are exact reachability", "statement": "ed.get_ancestors(x, collection) returns exactly the collection members other than x whose value reaches x through a non-empty dataflow path; ed.get_descendants returns exactly those reached from x; the result is independent of visiting order, duplicate free, and the traversal terminates on every finite graph.", "quantifier": "every finite dataflow graph, collection, query node and visiting order", "why_tests_cant": "Unbounded graphs, arbitrary set-pop order and cycles cannot be enumerated.", "anchors": ["edward/util/random_variables.py:get_ancestors", "edward/util/random_variables.py:get_descendants"]}
{"id": "C03", "title": "Parent/child and ancestor/descendant queries are mutually consistent", "statement": "For two distinct random variables a and b of the collection: a is in get_ancestors(b) iff b is in get_descendants(a), in every graph; and a is in get_parents(b) iff b is in get_children(a).", "quantifier": "every finite graph, collection and pair of random variables", "why_tests_cant": "Relates two independently written traversals over all graphs.", "anchors": ["edward/util/random_variables.py:get_parents", "edward/util/random_variables.py:get_children", "edward/util/random_variables.py:get_ancestors", "edward/util/random_variables.py:get_descendants"]}
{"id": "C04", "title": "Ancestors are the transitive closure of parents", "statement": "get_ancestors(x) contains r iff r is reached from x by repeatedly taking get_parents (and r is not x), and likewise get_descendants from get_children.", "quantifier": "every finite graph, collection and query node", "why_tests_cant": "Transitive closure over unbounded graphs.", "anchors": ["edward/util/random_variables.py:get_ancestors", "edward/util/random_variables.py:get_parents"]}
{"id": "C05", "title": "get_blanket and get_siblings are the documented sets", "statement": "get_blanket(x) is exactly parents, children and the children's other parents of x, never x itself; get_siblings(x) is exactly the other children of x's parents; both duplicate free.", "quantifier": "every finite graph, collection and query node", "why_tests_cant": "Set equality over all graphs.", "anchors": ["edward/util/random_variables.py:get_blanket", "edward/util/random_variables.py:get_siblings"]}
{"id": "C06", "title": "get_variables finds exactly the variables a node depends on", "statement": "ed.get_variables(x, collection) returns exactly the tf.Variables of the collection, other than x, from which a dataflow path leads to x, independent of visiting order.", "quantifier": "every finite graph, variable collection, query node and visiting order", "why_tests_cant": "Default var_list and MonteCarlo storage lookups depend on it for every model graph.", "anchors": ["edward/util/random_variables.py:get_variables"]}
{"id": "C07", "title": "is_independent decides d-separation", "statement": "ed.is_independent(a, b, condition) returns False iff there is an active trail, given condition, from a node of b to a node of a in the graph of random variables (deterministic PointMass nodes do not send the ball back down); the answer does not depend on the processing order and the call terminates on every finite graph.", "quantifier": "every finite parent/child graph, all sets a, b, condition, every set of PointMass nodes, every processing order", "why_tests_cant": "Active trails are unbounded paths; a test can only probe finitely many graphs.", "anchors": ["edward/util/random_variables.py:is_independent"]}
{"id": "C08", "title": "The Markov blanket shields a variable", "statement": "is_independent(x, rest, get_blanket(x)) is True for every x and every set rest disjoint from x and its blanket; and without PointMass nodes is_independent is symmetric in a and b.", "quantifier": "every finite graph, node x, set rest, and sets a, b, condition", "why_tests_cant": "Universal over graphs and combines two functions.", "anchors": ["edward/util/random_variables.py:is_independent", "edward/util/random_variables.py:get_blanket"]}
{"id": "C09", "title": "copy never changes existing graph elements", "statement": "ed.copy(x, ...) only adds graph elements: every operation, its inputs and every random variable that existed before the call are unchanged afterwards, and therefore every existing tensor keeps its value, after any sequence of copy calls.", "quantifier": "every graph, every sequence of copy calls with any swap dictionaries and scopes", "why_tests_cant": "History property over arbitrary call sequences.", "anchors": ["edward/util/random_variables.py:copy"]}
{"id": "C10", "title": "copy computes the substituted expression", "statement": "With a scope not used before, the element returned by ed.copy(x, dict_swap, scope) evaluates, for every feed, variable state and random noise, to the value of x in which every occurrence of a swapped ancestor is replaced by the value of its replacement (swaps are applied at the first swapped node met from x upwards; copied random variables draw from the same distribution with the substituted parameters, using fresh noise).", "quantifier": "every acyclic graph, every dict_swap, every x, every variable/placeholder/noise assignment", "why_tests_cant": "Semantic equality over all programs.", "anchors": ["edward/util/random_variables.py:copy"]}
{"id": "C11", "title": "copy depends only on its arguments", "statement": "Two calls of ed.copy on the same x with different dict_swap give elements computing their own substitution each, irrespective of earlier calls in the same graph (including the default scope).", "quantifier": "every call history, every pair of swap dictionaries", "why_tests_cant": "History dependent name-based memoisation.", "anchors": ["edward/util/random_variables.py:copy"]}
{"id": "C12", "title": "Variables, placeholders and queues are shared by copies, stateless operations are duplicated", "statement": "A copy of an expression depends on the same tf.Variables, placeholders and queues as the original unless they are swapped, so feeding or training the original affects the copy.", "quantifier": "every acyclic graph and copy call", "why_tests_cant": "Universal over graphs.", "anchors": ["edward/util/random_variables.py:copy"]}
{"id": "C13", "title": "Accepted data is never silently dropped", "statement": "Inference(latent_vars, data): the constructor raises TypeError exactly when the documented kind, shape and dtype rules are broken, raises TensorFlow's conversion error only when some Python value cannot be converted to its key's dtype, and otherwise stores every key of data with its value (Python values converted to the key's dtype).", "quantifier": "every data dictionary over all combinations of key kind, value kind, shape and dtype", "why_tests_cant": "Combinatorial input space and unbounded dictionaries/shapes.", "anchors": ["edward/util/random_variables.py:check_data", "edward/inferences/inference.py:Inference.__init__"]}
{"id": "C14", "title": "Latent variable bindings are type and shape consistent", "statement": "Inference construction succeeds only if every latent_vars entry binds a random variable or tensor to a random variable or tensor of compatible shape and equal dtype, and raises TypeError otherwise.", "quantifier": "every latent_vars dictionary", "why_tests_cant": "Unbounded dictionaries and shapes.", "anchors": ["edward/util/random_variables.py:check_latent_vars"]}
{"id": "C15", "title": "transform maps every supported support to an unconstrained one", "statement": "ed.transform(x) returns x itself when its support is unconstrained, otherwise a transformed variable with unconstrained support whose bijector is a bijection from the support of x onto the reals (inverse after forward is the identity) and whose log-det-Jacobian is the log derivative; it raises for every other support.", "quantifier": "every support label and every real argument", "why_tests_cant": "Universal over the reals.", "anchors": ["edward/util/random_variables.py:transform"]}
{"id": "C16", "title": "auto_transform only rewrites continuous, mismatched pairs and keeps every latent variable", "statement": "inference.initialize(auto_transform=True) leaves every latent variable bound, rewrites a pair only if both supports are continuous and differ, and leaves all other pairs exactly as they were.", "quantifier": "every latent_vars dictionary and every combination of supports", "why_tests_cant": "All combinations over unbounded dictionaries; repeated initialisation.", "anchors": ["edward/inferences/inference.py:Inference.initialize"]}
{"id": "C17", "title": "run performs exactly n_iter iterations numbered 1..n_iter and finalises once", "statement": "inference.run(n_iter=N) performs initialize, variable initialisation, then exactly N update calls whose reported iteration numbers are 1, 2, ..., N, then finalize exactly once; an exception in update k leaves exactly k-1 completed updates.", "quantifier": "every N and every position at which an update may raise", "why_tests_cant": "Unbounded loop and every crash point.", "anchors": ["edward/inferences/inference.py:Inference.run", "edward/inferences/inference.py:Inference.update"]}
{"id": "C18", "title": "Progress and summaries are emitted at exactly the documented iterations", "statement": "With n_print = P > 0, progress is printed and (with logging) a summary written exactly at iteration 1 and at the multiples of P; with P = 0 never; the default P is n_iter/100 rounded down.", "quantifier": "every n_iter, P and iteration count", "why_tests_cant": "Arithmetic over all iteration counts.", "anchors": ["edward/inferences/inference.py:Inference.initialize", "edward/inferences/inference.py:Inference.update", "edward/inferences/inference.py:Inference.print_progress"]}
{"id": "C19", "title": "The progress bar never leaves stale characters", "statement": "After any sequence of Progbar.update calls the current terminal line shows exactly the most recently drawn bar and values followed only by blanks, and the last call with current >= target moves to a fresh line.", "quantifier": "every target, width, every sequence of updates, values and clock readings", "why_tests_cant": "Sequence property over unbounded histories.", "anchors": ["edward/util/progbar.py:Progbar.update"]}
{"id": "C20", "title": "Bound data always reaches the session", "statement": "In every Inference.update the placeholders bound in data are fed with their bound values, whatever feed_dict the caller passes, and all other fed keys are passed through unchanged.", "quantifier": "every data dictionary, every feed_dict, every sequence of updates", "why_tests_cant": "All dictionaries and call histories.", "anchors": ["edward/inferences/inference.py:Inference.update", "edward/inferences/variational_inference.py:VariationalInference.update", "edward/inferences/monte_carlo.py:MonteCarlo.update", "edward/inferences/gibbs.py:Gibbs.update"]}
{"id": "C21", "title": "Monte Carlo samples fill the Empirical in order", "statement": "After k updates of a Monte Carlo algorithm, rows 0..k-1 of every Empirical hold the k chain states in order and the other rows are unchanged; run() never writes outside any Empirical and ends with the first n_iter rows written.", "quantifier": "every kernel, every set of Empiricals of any sizes, every k", "why_tests_cant": "Inductive over all iteration counts, sizes and random draws.", "anchors": ["edward/inferences/monte_carlo.py:MonteCarlo.initialize", "edward/inferences/monte_carlo.py:MonteCarlo.update", "edward/inferences/metropolis_hastings.py:MetropolisHastings.build_update"]}
{"id": "C22", "title": "A rejected proposal repeats the previous state and acceptances are counted exactly", "statement": "In MetropolisHastings and HMC, iteration t stores either the whole proposed state (all latent variables together) or the whole previous state; n_accept equals the number of accepted iterations, so 0 <= n_accept <= t at every point.", "quantifier": "every chain length, proposal, model and random draw", "why_tests_cant": "Inductive over executions.", "anchors": ["edward/inferences/metropolis_hastings.py:MetropolisHastings.build_update", "edward/inferences/hmc.py:HMC.build_update"]}
{"id": "C23", "title": "The reported acceptance rate is the fraction of accepted iterations", "statement": "The accept_rate returned by MonteCarlo.update at iteration t is (number accepted so far) / t and hence lies in [0, 1].", "quantifier": "every execution and every dataflow schedule of the session run", "why_tests_cant": "Depends on the dataflow schedule.", "anchors": ["edward/inferences/monte_carlo.py:MonteCarlo.initialize", "edward/inferences/monte_carlo.py:MonteCarlo.update"]}
{"id": "C24", "title": "Metropolis-Hastings acceptance satisfies detailed balance", "statement": "For every model density p, data and proposal g (any dependence on the old state, any number of variables), the acceptance rule of MetropolisHastings makes p(z) g(z'|z) a(z,z') symmetric in z and z', so p is stationary: expectations of a chain started from p are the same after any number of steps.", "quantifier": "every density, proposal and pair of states; for stationarity every space of states (finite, countable, R^n) and number of steps", "why_tests_cant": "Statement about all states; a sampler test is statistical.", "anchors": ["edward/inferences/metropolis_hastings.py:MetropolisHastings.build_update"]}
{"id": "C25", "title": "HMC's leapfrog integrator is reversible and its acceptance is balanced", "statement": "For every gradient field, step size and number of steps, integrating, negating the momentum and integrating again returns to the start; the map preserves phase-space volume; the HMC acceptance ratio is antisymmetric under this reversal; so an update leaves the expectations under the posterior as they are.", "quantifier": "every gradient field, dimension, step size, n_steps and state", "why_tests_cant": "Universal over functions and reals.", "anchors": ["edward/inferences/hmc.py:leapfrog", "edward/inferences/hmc.py:HMC.build_update"]}
{"id": "C26", "title": "Auto-transformed Monte Carlo reads back the sample it stored", "statement": "When a constrained latent variable is auto-transformed, the state from which iteration t+1 starts is the state stored by iteration t, and the density targeted includes the log-Jacobian.", "quantifier": "every sample value, transformation and algorithm (HMC, SGLD, SGHMC)", "why_tests_cant": "Round trip over all reals and all iterations.", "anchors": ["edward/inferences/hmc.py:HMC._log_joint_unconstrained", "edward/inferences/sgld.py:SGLD.build_update", "edward/inferences/sghmc.py:SGHMC.build_update"]}
{"id": "C27", "title": "Gibbs stores the draws its chain conditions on", "statement": "In every Gibbs update each variable is drawn from its conditional given the latest values of all others, in scan order, and the row stored in the Empiricals is the resulting state.", "quantifier": "every model, scan order, number of updates and random draw", "why_tests_cant": "Depends on all histories and on which draw is stored.", "anchors": ["edward/inferences/gibbs.py:Gibbs.update", "edward/inferences/gibbs.py:Gibbs.build_update"]}
{"id": "C28", "title": "Replica exchange keeps a permutation of replicas and the right target at every temperature", "statement": "Each exchange step permutes the replicas (no state lost or duplicated), its acceptance satisfies detailed balance for the product of tempered targets, and each replica's own move satisfies detailed balance for p^beta.", "quantifier": "every number of replicas, temperature ladder, proposal, model and random draw", "why_tests_cant": "Permutation invariants over all replica counts; all proposals.", "anchors": ["edward/inferences/replica_exchange_mc.py:ReplicaExchangeMC._replica_exchange", "edward/inferences/replica_exchange_mc.py:ReplicaExchangeMC._mh_sample"]}
{"id": "C29", "title": "reset restores the state of a fresh inference", "statement": "Running inference.reset after any number of updates puts every variable owned by that inference back to its initial value and touches no variable of another inference.", "quantifier": "every history of updates, every algorithm, any number of coexisting inferences", "why_tests_cant": "History property over several objects.", "anchors": ["edward/inferences/inference.py:Inference.initialize", "edward/inferences/variational_inference.py:VariationalInference.initialize", "edward/inferences/monte_carlo.py:MonteCarlo.initialize", "edward/inferences/sghmc.py:SGHMC.initialize"]}
{"id": "C30", "title": "Symbolic simplification preserves the sufficient statistic", "statement": "full_simplify returns an expression equal to its input up to an additive constant independent of x, for every x in the support.", "quantifier": "every expression tree, every environment and every x in the support", "why_tests_cant": "All expression trees and all reals.", "anchors": ["edward/inferences/conjugacy/simplify.py:full_simplify"]}
{"id": "C31", "title": "Symbolic simplification always terminates", "statement": "full_simplify, which rewrites until no rule applies, returns for every expression and its result admits no further rewrite.", "quantifier": "every expression tree of any size and arity", "why_tests_cant": "Termination over an infinite input set.", "anchors": ["edward/inferences/conjugacy/simplify.py:full_simplify", "edward/inferences/conjugacy/simplify.py:_register_simplify_fn"]}
{"id": "C32", "title": "Conjugate log probabilities are the true log densities", "statement": "For every family with conjugate_log_prob, its value is the logarithm of that family's density (mass) at the given value.", "quantifier": "every parameter and value in the support", "why_tests_cant": "Universal over the reals.", "anchors": ["edward/inferences/conjugacy/conjugate_log_probs.py"]}
{"id": "C33", "title": "Natural parameters are converted to the distribution they describe", "statement": "For every entry of the conjugacy table, the distribution built from natural parameters eta has log density equal to the sum of eta_i s_i(x) plus a constant not depending on x, s being the sufficient statistics that selected the entry.", "quantifier": "every table entry, natural parameter and x in the support", "why_tests_cant": "Universal over the reals.", "anchors": ["edward/inferences/conjugacy/conjugacy.py:_suff_stat_to_dist"]}
{"id": "C34", "title": "complete_conditional returns the true complete conditional", "statement": "Whenever ed.complete_conditional(z, cond_set) returns a distribution, its log density is the log joint of cond_set as a function of z up to a constant.", "quantifier": "every log-joint expression accepted by complete_conditional and every z in its support", "why_tests_cant": "Universal over model expressions.", "anchors": ["edward/inferences/conjugacy/conjugacy.py:complete_conditional", "edward/inferences/conjugacy/conjugacy.py:suff_stat_nodes"]}
{"id": "C35", "title": "Constant multipliers are separated from sufficient statistics without loss", "statement": "extract_s_stat_multipliers splits a simplified expression into a constant factor and a statistic whose product is the expression, whenever the statistic is one the conjugacy table knows.", "quantifier": "every simplified expression", "why_tests_cant": "All expression trees.", "anchors": ["edward/inferences/conjugacy/conjugacy.py:extract_s_stat_multipliers", "edward/inferences/conjugacy/conjugacy.py:reconstruct_multiplier"]}
{"id": "C36", "title": "Variational losses average the objective over n_samples", "statement": "Every KLqp variant reports minus the Monte Carlo estimate of its documented objective averaged over all n_samples draws, plus the regularisation penalty, each log density multiplied by its scale.", "quantifier": "every n_samples, set of variables, densities and scales", "why_tests_cant": "Unbounded sample counts and variable sets.", "anchors": ["edward/inferences/klqp.py"]}
{"id": "C37", "title": "Score-function gradients are unbiased", "statement": "The expected value, over the variational draw, of the gradient used by ScoreKLqp, ScoreKLKLqp, ScoreEntropyKLqp equals the derivative of the documented objective.", "quantifier": "every finite sample space, differentiable q, model and number of samples", "why_tests_cant": "An identity between a derivative and an expectation.", "anchors": ["edward/inferences/klqp.py:build_score_loss_and_gradients", "edward/inferences/klqp.py:build_score_kl_loss_and_gradients", "edward/inferences/klqp.py:build_score_entropy_loss_and_gradients"]}
{"id": "C38", "title": "KLpq weights are a probability vector and the objective is the documented one", "statement": "The normalised importance weights are positive and sum to one for every set of samples, are invariant to adding a constant to log p, and the reported loss is the weighted sum of log weights plus the regularisation penalty.", "quantifier": "every n_samples and every log weights", "why_tests_cant": "All sample counts and reals.", "anchors": ["edward/inferences/klpq.py:KLpq.build_loss_and_gradients"]}
{"id": "C39", "title": "scale multiplies the log probability of the variable it is given for", "statement": "inference.initialize(scale={v: c}) multiplies v's log density, and only v's, by c in the objective of every algorithm.", "quantifier": "every algorithm, every set of variables and scales", "why_tests_cant": "All combinations of variables and scales.", "anchors": ["edward/inferences/inference.py:Inference.initialize", "edward/inferences/hmc.py:HMC._log_joint", "edward/inferences/wake_sleep.py:WakeSleep.build_loss_and_gradients"]}
{"id": "C40", "title": "Every optimised variable receives exactly one gradient", "statement": "The (gradient, variable) pairs of every variational algorithm contain each variable of var_list exactly once, those reaching a variational factor paired with the inference gradient and the others with the model gradient.", "quantifier": "every variable list and graph", "why_tests_cant": "Unbounded lists.", "anchors": ["edward/inferences/klqp.py", "edward/inferences/klpq.py", "edward/inferences/wake_sleep.py"]}
{"id": "C41", "title": "The default var_list is all trainable variables that the latent variables and data depend on", "statement": "With var_list=None, VariationalInference optimises exactly the trainable variables that a latent variable, its approximation, or an observed random variable bound to a value (not to another random variable) depends on, each once.", "quantifier": "every model graph and binding", "why_tests_cant": "All graphs.", "anchors": ["edward/inferences/variational_inference.py:VariationalInference.initialize"]}
{"id": "C42", "title": "Optimizer selection follows the documentation", "statement": "Every optimizer argument either yields the documented optimizer and learning-rate schedule or raises; a default optimizer, with a global step that is None or a tf.Variable, always decays its rate by 0.9 every 100 steps from 0.1, and the rate is positive and non-increasing.", "quantifier": "every optimizer argument, global step and step count", "why_tests_cant": "All strings and all step counts.", "anchors": ["edward/inferences/variational_inference.py:VariationalInference.initialize", "edward/inferences/gan_inference.py:_build_optimizer"]}
{"id": "C43", "title": "Laplace sets the covariance to the inverse Hessian", "statement": "After Laplace.finalize the approximating normal's covariance is the inverse of the Hessian of the negative log joint at the mode.", "quantifier": "every positive definite Hessian and every approximating family", "why_tests_cant": "Universal over matrices; the shipped tests only check that a determinant is near zero.", "anchors": ["edward/inferences/laplace.py:Laplace.finalize"]}
{"id": "C44", "title": "GAN training separates generator and discriminator; WGAN weights stay clipped", "statement": "In GAN-style inference each trainable variable and regulariser is assigned to exactly one side, variables in scope Disc and only those to the discriminator; update('Gen') leaves the discriminator unchanged and update('Disc') the generator; every update increments the iteration number by one and an invalid selector changes nothing; with WGAN clipping every discriminator weight is within [-clip, clip] after every update once the discriminator was updated.", "quantifier": "every variable set, every sequence of updates", "why_tests_cant": "Invariant over unbounded update sequences.", "anchors": ["edward/inferences/gan_inference.py:GANInference", "edward/inferences/wgan_inference.py:WGANInference"]}
{"id": "C45", "title": "Random variables are registered once, in creation order, only on success", "statement": "Constructing a RandomVariable either raises and registers nothing, or appends it once to each named collection; random_variables() lists them in creation order per graph; equality is identity.", "quantifier": "every sequence of constructions over any graphs", "why_tests_cant": "History property.", "anchors": ["edward/models/random_variable.py:RandomVariable.__init__", "edward/util/graphs.py:random_variables"]}
{"id": "C46", "title": "Empirical and PointMass moments are those of the stored points", "statement": "Empirical samples are stored rows; its mean/variance are the moments of the uniform distribution on the rows, with variance >= 0 and 0 iff all rows are equal; PointMass has mean its parameter, variance 0.", "quantifier": "every number of points and values", "why_tests_cant": "All sizes and reals.", "anchors": ["edward/models/empirical.py", "edward/models/point_mass.py"]}
{"id": "C47", "title": "DirichletProcess draws share one growing list of atoms", "statement": "Sampling a DirichletProcess never changes atoms or stick proportions already created, appends new ones only when needed, and draw i equals the atom at the first position where its coin came up heads; a valid base distribution is accepted.", "quantifier": "every sequence of sample calls, coin flips, base draws and sample sizes", "why_tests_cant": "All coin sequences and histories.", "anchors": ["edward/models/dirichlet_process.py:distributions_DirichletProcess"]}
{"id": "C48", "title": "ParamMixture agrees with the mixture it denotes", "statement": "ParamMixture's sample is the selected component's sample; its conditional log density is the selected component's; marginal_log_prob is the log of the weighted sum of component densities; its mean and variance obey the laws of total expectation and variance.", "quantifier": "every number of components, weights and component values", "why_tests_cant": "All reals and component counts.", "anchors": ["edward/models/param_mixture.py:distributions_ParamMixture"]}
{"id": "C49", "title": "to_simplex maps onto the simplex", "statement": "ed.to_simplex of any vector of K-1 reals is a vector of K positive numbers summing to one, the zero vector maps to the uniform vector, and distinct inputs give distinct outputs.", "quantifier": "every K and every real vector", "why_tests_cant": "All dimensions and reals.", "anchors": ["edward/util/tensorflow.py:to_simplex"]}
{"id": "C50", "title": "rbf is the squared-exponential kernel", "statement": "ed.rbf(X, X2) has entries variance * exp(-1/2 sum_d ((x_d - x2_d)/l_d)^2); the kernel matrix of X is symmetric with diagonal variance and entries in (0, variance].", "quantifier": "every matrix, lengthscale and variance > 0", "why_tests_cant": "All reals; the code uses an algebraically different expression.", "anchors": ["edward/util/tensorflow.py:rbf"]}
{"id": "C51", "title": "get_control_variate_coef is the variance minimising coefficient", "statement": "The coefficient returned for samples f, h minimises the sample variance of the control-variate estimator described in the documentation.", "quantifier": "every pair of sample vectors with non-constant h", "why_tests_cant": "Optimality over all reals.", "anchors": ["edward/util/tensorflow.py:get_control_variate_coef"]}
{"id": "C52", "title": "compute_multinomial_mode returns a mode", "statement": "compute_multinomial_mode(probs, total_count) returns non-negative counts summing to total_count that maximise the multinomial probability, terminates, and leaves probs unchanged.", "quantifier": "every probability vector, total_count and random choice", "why_tests_cant": "Termination and optimality over all inputs.", "anchors": ["edward/util/random_variables.py:compute_multinomial_mode"]}
{"id": "C53", "title": "Evaluation metrics have their defining ranges and averages", "statement": "accuracies lie in [0,1] and are 1 iff predictions agree everywhere; squared and absolute errors are non-negative and 0 iff equal; kl_divergence is non-negative; micro and macro averages coincide for rectangular targets; an unknown average option raises ValueError.", "quantifier": "every non-empty targets and predictions", "why_tests_cant": "All reals and shapes.", "anchors": ["edward/criticisms/evaluate.py", "edward/util/metrics.py:with_binary_averaging"]}
{"id": "C54", "title": "evaluate dispatches every documented metric", "statement": "ed.evaluate accepts every documented form of metrics and output_key, returns one value per metric in order (a scalar when one was given), and raises for everything else.", "quantifier": "every metrics argument and every data dictionary", "why_tests_cant": "All lists of metrics.", "anchors": ["edward/criticisms/evaluate.py:evaluate"]}
{"id": "C55", "title": "ppc pairs replicated and observed discrepancies", "statement": "ed.ppc returns two arrays of length n_samples; entry i of both is the discrepancy at the same posterior draw z^i, one with data replicated from that draw, the other with the observed data.", "quantifier": "every discrepancy, n_samples and random draws", "why_tests_cant": "Depends on joint randomness of separate session runs.", "anchors": ["edward/criticisms/ppc.py:ppc"]}
{"id": "C56", "title": "Seeding and sessions behave as a state machine", "statement": "set_seed succeeds exactly while the graph has no operation (other than the Keras learning phase) and then fixes both seeds, otherwise raises and changes nothing; get_session returns the same session on every call until a different default session is installed.", "quantifier": "every sequence of API calls", "why_tests_cant": "History property.", "anchors": ["edward/util/graphs.py:set_seed", "edward/util/graphs.py:get_session"]}
{"id": "C57", "title": "Separated multipliers can be rebuilt as tensors", "statement": "For every sufficient statistic of the conjugacy table, the constant multiplier that was separated from it is rebuilt as a tensor of the same value.", "quantifier": "every simplified expression and every value of its tensors", "why_tests_cant": "All expression trees.", "anchors": ["edward/inferences/conjugacy/conjugacy.py:reconstruct_multiplier", "edward/inferences/conjugacy/simplify.py:reconstruct_expr"]}
{"id": "C58", "title": "Adversarial losses: density ratio, generator, Wasserstein and hinge", "statement": "The discriminator loss of GANInference, BiGANInference and ImplicitKLqp with the log loss is, over any two batches, least exactly when the discriminator's output is the log ratio of the frequencies of real and generated points; the logits form used is the cross entropy of the logistic probability. The generator's loss decreases as the discriminator takes more of its output for data. The Wasserstein critic's loss depends on differences only and, for critics of slope at most 1, is at least minus the mean distance of any pairing of the batches; the gradient penalty vanishes exactly at slope 1.", "quantifier": "every batch, every discriminator function and every regulariser", "why_tests_cant": "Optimality over all functions.", "anchors": ["edward/inferences/gan_inference.py:GANInference.build_loss_and_gradients", "edward/inferences/implicit_klqp.py:log_loss", "edward/inferences/bigan_inference.py:BiGANInference.build_loss_and_gradients"]}
{"id": "C59", "title": "ImplicitKLqp shows its discriminator joint draws of the model", "statement": "The first call of the ratio estimator gets a joint draw of the model, local latent variables from the prior and data generated from those, and the second call the data with draws of the approximation.", "quantifier": "every model and draw", "why_tests_cant": "Depends on which draw feeds which node, for every value drawn.", "anchors": ["edward/inferences/implicit_klqp.py:ImplicitKLqp.build_loss_and_gradients"]}
{"id": "C60", "title": "dot is the matrix product of a vector and a matrix", "statement": "ed.dot of an M-vector and an M x N matrix, or of an M x N matrix and an M-vector, is the 1-D tensor of length N whose entry j is sum_i v_i m_ij.", "quantifier": "every vector and matrix", "why_tests_cant": "All sizes and reals.", "anchors": ["edward/util/tensorflow.py:dot"]}
{"id": "C61", "title": "evaluate scores the best prediction", "statement": "ed.evaluate scores, for discrete outputs, a most probable outcome under the probabilities averaged over n_samples posterior draws (so that no other prediction has a higher expected accuracy), and otherwise the average of n_samples draws; cross-entropies and divergences are those of the averaged probabilities.", "quantifier": "every output distribution, every set of posterior draws and every observed data", "why_tests_cant": "All probabilities, including ties; all numbers of trials.", "anchors": ["edward/criticisms/evaluate.py:evaluate", "edward/util/random_variables.py:compute_multinomial_mode"]}
{"id": "C62", "title": "The log joint density an algorithm builds is the model's at its sample", "statement": "The log joint density HMC, SGLD, SGHMC, MAP, Laplace and replica exchange build for a sample is the sum of the log densities of the latent and observed random variables of the program, each at the value the algorithm gives it and with every latent or observed ancestor held at the value the algorithm gives it; existing elements of the graph are unchanged and the build always succeeds.", "quantifier": "every acyclic graph, set of latent variables, sample, data binding, meaning of the operations and draws", "why_tests_cant": "Depends on which copy in a scope feeds which argument, for every graph.", "anchors": ["edward/inferences/hmc.py:HMC._log_joint", "edward/inferences/sgld.py:SGLD._log_joint", "edward/inferences/sghmc.py:SGHMC._log_joint", "edward/inferences/map.py:MAP.build_loss_and_gradients", "edward/inferences/replica_exchange_mc.py:ReplicaExchangeMC._replica_ratio", "edward/util/random_variables.py:copy"]}
{"id": "C63", "title": "Each variational sample is one joint draw of the approximation scored by the model", "statement": "In KLqp, KLpq and WakeSleep each of the n_samples samples draws every latent variable from its approximation exactly once, with randomness shared with no other sample; log q is the sum of the approximations' log densities at those draws and log p is the log joint density of the program at those draws and the data.", "quantifier": "every acyclic graph, latent bindings, data, number of samples, meaning of the operations and draws", "why_tests_cant": "Depends on which copy in a scope feeds which argument, for every graph and number of samples.", "anchors": ["edward/inferences/klqp.py:build_reparam_loss_and_gradients", "edward/inferences/klqp.py:build_score_loss_and_gradients", "edward/inferences/klpq.py:KLpq.build_loss_and_gradients", "edward/inferences/wake_sleep.py:WakeSleep.build_loss_and_gradients"]}
{"id": "C64", "title": "The Metropolis-Hastings ratio is computed from the right copies", "statement": "MetropolisHastings proposes new values from the proposals given the old state, and its ratio is the log joint density at the new state minus that at the old, minus the log density of proposing new from old, plus that of proposing old from new; data bound to a random variable is drawn once for both states.", "quantifier": "every acyclic graph, proposals, state, data, meaning of the operations and draws", "why_tests_cant": "Depends on which copy in three interleaved scopes feeds which argument.", "anchors": ["edward/inferences/metropolis_hastings.py:MetropolisHastings.build_update"]}
{"id": "C65", "title": "The log joint density is one function of the sample", "statement": "Within one run, two evaluations of an HMC, SGLD or SGHMC algorithm's log joint density at samples of equal value are equal, whatever was added to the graph in between, if the model is deterministic given its latent and observed variables; in particular the energy difference of a proposal that does not move is that of the momenta.", "quantifier": "every acyclic graph, sample, data and later graph", "why_tests_cant": "Relates two evaluations for all graphs and histories.", "anchors": ["edward/inferences/hmc.py:HMC._log_joint", "edward/inferences/hmc.py:HMC.build_update", "edward/inferences/sgld.py:SGLD._log_joint"]}
{"id": "C66", "title": "Rao-Blackwellized gradients leave out terms without changing the expected gradient", "statement": "For every variational variable, KLqp's Rao-Blackwellized gradient keeps exactly the terms of log p and log q of the Markov blankets of the latent variables the variable leads to, and its expectation is the gradient of the objective.", "quantifier": "every graph of the model and the approximation, every variable, every finite space of values and conditional probabilities", "why_tests_cant": "Depends on conditional independence in every graph, and on expectations.", "anchors": ["edward/inferences/klqp.py:build_score_rb_loss_and_gradients", "edward/util/random_variables.py:get_blanket", "edward/util/random_variables.py:get_descendants"]}
{"id": "C67", "title": "The two phases of WakeSleep", "statement": "WakeSleep reports minus the average log joint density at draws of the approximation and follows its gradient for the model; in the sleep phase it maximises the log density of the approximation at draws (fantasies) of the model, which are held fixed; with another phase_q, at its own draws held fixed.", "quantifier": "every model, approximation, scale, number of samples and variable, every finite space of draws", "why_tests_cant": "Expectation of a gradient over all draws.", "anchors": ["edward/inferences/wake_sleep.py:WakeSleep.build_loss_and_gradients"]}
{"id": "C68", "title": "KLqp takes the estimator its arguments call for", "statement": "KLqp takes the reparameterization gradient exactly if all approximations are reparameterizable, the analytic KL exactly if moreover all priors and approximations are normal, raises exactly if kl_scaling is given and the KL is not analytic, and otherwise takes the score-function gradient; kl_scaling is never silently ignored; n_samples must be positive.", "quantifier": "every set of latent variables, their types, and arguments", "why_tests_cant": "All combinations of types and arguments.", "anchors": ["edward/inferences/klqp.py:KLqp.initialize", "edward/inferences/klqp.py:KLqp.build_loss_and_gradients"]}
{"id": "C69", "title": "a list of latent variables gets one approximation each, of the right kind, shape and support", "statement": "Given a list of continuous random variables, KLqp and KLpq bind each to a Normal, MAP to a PointMass, Laplace to a MultivariateNormalTriL and the Monte Carlo algorithms to an Empirical of 10000 samples: one approximation per variable, of the variable's shape and dtype, made of new variables that no other approximation uses; the Normal's scale is positive whatever its variable holds and every positive scale can be reached; the point mass lies in the variable's support whatever its free parameters hold, and every point of the support is reached by exactly one value of them. Variables that are not continuous are refused. Given a dictionary, MAP, Laplace and Monte Carlo accept it unchanged exactly if every value is of the documented class and agrees in shape and dtype with its key.", "quantifier": "every list (with repetitions) and dictionary of random variables of every support, sample, batch and event shape and dtype, every value of the free parameters", "why_tests_cant": "The combinations of support, shape, dtype and algorithm are unbounded and the support of the point mass is a claim about all real parameter values; tests pass a few scalar normals.", "anchors": ["edward/inferences/klqp.py:KLqp.__init__", "edward/inferences/klpq.py:KLpq.__init__", "edward/inferences/map.py:MAP.__init__", "edward/inferences/laplace.py:Laplace.__init__", "edward/inferences/monte_carlo.py:MonteCarlo.__init__"]}
{"id": "C70", "title": "complete_conditional starts from the log joint of its own conditioning set", "statement": "Whatever conditionals were asked for before in the same graph, the log joint density from which complete_conditional(rv, cond_set) is derived is the sum of the log densities of the members of cond_set and rv, each once, and of nothing else; it does not depend on the order of the set; asking again for the same set adds nothing to the graph; a set with a member whose log density is not known raises NotImplementedError. Without cond_set, exactly the Markov blanket is conditioned on, less the conditionals that earlier calls returned.", "quantifier": "every history of calls for any sets of random variables, with and without known log densities, in any order", "why_tests_cant": "The log joint is looked up by name in a graph shared by all calls, so a wrong answer depends on the history and on the names of all random variables; a test asks for one or two conditionals.", "anchors": ["edward/inferences/conjugacy/conjugacy.py:get_log_joint", "edward/inferences/conjugacy/conjugacy.py:complete_conditional"]}
{"id": "C71", "title": "a model is a program: one run of its graph is one execution of the program", "statement": "Python code that creates random variables and combines them and numbers with operators behaves, when its variables are fetched in one session run, as if it had been executed directly with each random variable drawn once, when it is created: every variable of the program shows its value in that execution, two uses of a random variable see the same draw, and a random variable fed a value has that value everywhere below it. Operands of different types, numbers that cannot be represented in the other operand's type, and random variables used as conditions raise the documented exceptions instead of computing something else.", "quantifier": "every program of assignments of nested expressions, every meaning of the operators in which x > y is y < x, every noise and every feed of random variables", "why_tests_cant": "The graph a program builds depends on which operand is a random variable, tensor or number at every node; tests check each operator on one pair of operands.", "anchors": ["edward/models/random_variable.py:RandomVariable._overload_operator", "edward/models/random_variable.py:RandomVariable.__bool__", "edward/models/random_variable.py:RandomVariable.eval", "edward/models/random_variable.py:RandomVariable.value", "edward/models/random_variable.py:RandomVariable._tensor_conversion_function", "edward/models/random_variable.py:RandomVariable._session_run_conversion_fetch_function", "edward/models/random_variable.py:RandomVariable._session_run_conversion_feed_function"]}
{"id": "C72", "title": "the TensorBoard log of an inference shows exactly its own variables, losses and gradients", "statement": "With logdir set and log_vars=None, the summaries an inference writes are: each variable from which its data keys, latent variables or approximations are computed, exactly once, as a curve if it has one entry and as a histogram otherwise; its losses or acceptance counter; and the gradient of each trained variable with its norm. They contain nothing of another inference or of the program in the same graph, no two summaries in the graph share a tag, and asking for a log changes nothing else about initialization.", "quantifier": "every program that uses names, creates summaries in any collections and initialises any number of inferences, in any name scopes and any order", "why_tests_cant": "Which summaries are merged depends on the names and collections everything before it in the graph has used; tests initialise one inference in a fresh graph.", "anchors": ["edward/inferences/inference.py:Inference.initialize", "edward/inferences/inference.py:Inference._set_log_variables", "edward/inferences/variational_inference.py:VariationalInference.initialize", "edward/inferences/monte_carlo.py:MonteCarlo.initialize", "edward/inferences/gan_inference.py:GANInference.initialize"]}
{"id": "C73", "title": "after ed.set_seed a program is reproducible, and every random operation, original or copied, draws its own numbers", "statement": "Once ed.set_seed(x) has been called on an empty graph, every random number the rest of the program sees (session runs of random variables and of their copies, the order in which inferences visit variables, NumPy) is a function of x and the program alone. With or without a seed, no random operation of the graph, and no copy made by ed.copy or by an inference, ever repeats the numbers of another.", "quantifier": "every program: any sequence of seeding, creating operations with and without seeds of their own, copying, running, Gibbs updates and NumPy draws; any behaviour of the generators that are not seeded", "why_tests_cant": "A test runs one program twice in one process and sees one sequence; whether another generator was consulted, or two streams coincide, depends on the whole history of the graph.", "anchors": ["edward/util/graphs.py:set_seed", "edward/util/random_variables.py:copy", "edward/inferences/gibbs.py:Gibbs.update"]}
{"id": "C74", "title": "copying a model with tf.while_loop or tf.cond gives a loop of its own", "statement": "ed.copy of a tensor computed by loops and conditionals, nested in any way, terminates and returns the output of a copied loop that mirrors the original: every copied operation has, in order, the copies of its inputs and control inputs (variables, placeholders and queues themselves; replacements where dict_swap says so), and runs under a frame name with the scope prepended; every control flow context is copied exactly once, holds the copies of its operations and is nested in the copy of the context around it. Exactly the operations the tensor needs are copied.", "quantifier": "every finite graph of operations with cycles, control inputs and nested contexts as TensorFlow builds them, every dict_swap on tensors, every scope, every tensor", "why_tests_cant": "Operations of a loop depend on each other in a cycle and each copy re-enters the copy of its context; a test copies one small loop.", "anchors": ["edward/util/random_variables.py:copy", "edward/util/random_variables.py:_copy_context", "edward/util/random_variables.py:_get_context_copy"]}
{"id": "C75", "title": "every option given to initialize or run reaches the algorithm that documents it", "statement": "initialize (and run) of every inference class accept exactly the options documented for the class and the classes above it, by position in the documented order or by name; every option is used with the value given for it, or with its default; an unknown, surplus or doubly given option raises TypeError and a non-positive n_samples ValueError.", "quantifier": "every inference class, every list of positional and dictionary of keyword arguments", "why_tests_cant": "Options pass through up to four methods by *args and **kwargs; combinations of position and keyword are unbounded in number, and a swallowed or shifted option changes the algorithm silently.", "anchors": ["edward/inferences/inference.py:Inference.initialize", "edward/inferences/inference.py:Inference.run", "edward/inferences/variational_inference.py:VariationalInference.initialize", "edward/inferences/monte_carlo.py:MonteCarlo.initialize", "edward/inferences/gan_inference.py:GANInference.initialize", "edward/inferences/klqp.py:KLqp.initialize", "edward/inferences/gibbs.py:Gibbs.initialize", "edward/inferences/hmc.py:HMC.initialize"]}
{"id": "C76", "title": "one iteration gives the same result in whatever order TensorFlow runs its operations", "statement": "Within one session run TensorFlow may run operations in any order that respects inputs and control dependencies. One iteration (update()) stores the same samples, takes the same gradient steps, and returns the same acceptance rate or loss in every such order: those computed from the values the variables had when the iteration began.", "quantifier": "every graph of an iteration (any number of latent or trained variables, any model and proposal computation), every initial content of the variables, every order of the operations", "why_tests_cant": "Orders grow factorially with the graph and TensorFlow chooses one per run, by timing; a test sees the usual ones.", "anchors": ["edward/inferences/monte_carlo.py:MonteCarlo.update", "edward/inferences/variational_inference.py:VariationalInference.update", "edward/inferences/metropolis_hastings.py:MetropolisHastings.build_update", "edward/inferences/hmc.py:HMC.build_update", "edward/inferences/sgld.py:SGLD.build_update", "edward/inferences/sghmc.py:SGHMC.build_update", "edward/inferences/gibbs.py:Gibbs.build_update", "edward/inferences/replica_exchange_mc.py:ReplicaExchangeMC._replica_ratio"]}
{"id": "C77", "title": "a Gibbs scan, of variables or of blocks, keeps the posterior", "statement": "If the state of a Gibbs sampler is distributed as the posterior and every latent variable is drawn from its complete conditional, then after one scan the state is again distributed as the posterior: for scan_order='random', any list of variables, and any list of lists of variables (a blocked Gibbs sampler).", "quantifier": "every model on any spaces (finite, countable, real), every density with complete conditionals, every scan order with and without blocks, every expectation", "why_tests_cant": "A distribution over states: a test sees finitely many draws of a few models, and a small bias of the limit law is within its tolerance.", "anchors": ["edward/inferences/gibbs.py:Gibbs.update", "edward/inferences/gibbs.py:Gibbs.initialize"]}
{"id": "C78", "title": "the conditional of a tensor-valued variable has its shape and its density", "statement": "complete_conditional of a variable of any shape returns a distribution of that shape whose entries are independent and whose density is, as a function of the variable, proportional to the joint density, with parameters and data broadcast against the variable in any way the operations allow; the result does not depend on the iteration order of Python sets.", "quantifier": "every shape, every graph of broadcasting operations and sums, every value of the other variables, every order in which the set of statistic nodes is iterated over", "why_tests_cant": "The order of a set of tensors depends on memory addresses and differs between runs; broadcasting patterns are unbounded, and a test sees one run of a few shapes.", "anchors": ["edward/inferences/conjugacy/conjugacy.py:complete_conditional", "edward/inferences/conjugacy/conjugacy.py:suff_stat_nodes", "edward/inferences/conjugacy/conjugacy.py:extract_subgraph", "edward/inferences/conjugacy/conjugacy.py:is_child"]}
{"id": "C79", "title": "by default complete_conditional conditions on everything else", "statement": "Called with a random variable only, complete_conditional starts from the joint density of the variable and the rest of its Markov blanket, and that is, as a function of the variable, the density of the whole model given the values of all other random variables up to a factor that does not depend on the variable; results of earlier calls in the same graph do not enter.", "quantifier": "every acyclic graph, every set of random variables in it, every density, every value of the other variables, every history of earlier calls and every order of the conditioning set", "why_tests_cant": "That the parts left out do not depend on the variable is a statement about all graphs and all values; a test compares one conditional of a small model with its known form.", "anchors": ["edward/inferences/conjugacy/conjugacy.py:complete_conditional", "edward/inferences/conjugacy/conjugacy.py:get_log_joint", "edward/util/random_variables.py:get_blanket", "edward/models/random_variable.py:RandomVariable.__init__"]}
{"id": "C80", "title": "every variable in latent_vars is inferred, or the dictionaries are refused", "statement": "MetropolisHastings, ReplicaExchangeMC and Gibbs either refuse latent_vars and proposal_vars, or every variable in latent_vars is moved by the chain: a latent variable without proposal, and a proposal for a variable that is not latent, raise an error before anything is stored.", "quantifier": "every set of latent variables, of proposals and of observed variables, every model, every state, every sequence of draws and every number of updates; for Gibbs every scan order, with blocks, and every state an earlier error left behind", "why_tests_cant": "That a variable never moves is a statement about all draws of all updates, and which dictionaries are refused is one about all pairs of dictionaries; a test runs a few that match.", "anchors": ["edward/inferences/metropolis_hastings.py:MetropolisHastings.__init__", "edward/inferences/metropolis_hastings.py:MetropolisHastings.build_update", "edward/inferences/replica_exchange_mc.py:ReplicaExchangeMC.build_update", "edward/inferences/gibbs.py:Gibbs.update", "edward/inferences/gibbs.py:Gibbs.build_update"]}
{"id": "C81", "title": "debug=True checks every computation of an update for NaN and Inf", "statement": "With debug=True, update() raises if and only if one of the floating point values it computed is NaN or infinite, and returns what it returns without debug otherwise.", "quantifier": "every model graph, every algorithm's operations, every data dictionary (tensors, NumPy values or placeholders, of every type), every feed_dict, every state of the variables and every sequence of random draws", "why_tests_cant": "It is a claim about every operation of every graph and about all random draws; a test sees the one graph it builds and the draws it happens to get.", "anchors": ["edward/inferences/inference.py:Inference.__init__", "edward/inferences/inference.py:Inference.initialize", "edward/inferences/inference.py:Inference.update", "edward/inferences/variational_inference.py:VariationalInference.update", "edward/inferences/monte_carlo.py:MonteCarlo.update", "edward/inferences/gan_inference.py:GANInference.update", "edward/inferences/gibbs.py:Gibbs.update"]}
{"id": "C82", "title": "inferences compose: an update changes only what its inference infers", "statement": "In a program with several inferences in one session, an update changes only the variables its inference trains or samples into and its own counters; an approximation that data conditions on stays fixed; each inference counts its own updates; inferences that share no variables give exactly the values they give alone, in every interleaving.", "quantifier": "every number of variational inferences and samplers over any variables, shared or not, every history of updates and initialisations, every random draw and fed value, every order in which TensorFlow runs the operations of each session run", "why_tests_cant": "It quantifies over all interleavings of updates of several objects and over all orders within each session run; a test runs one interleaving in one order.", "anchors": ["docs/tex/api/inference-compositionality.tex", "edward/inferences/inference.py:Inference.run", "edward/inferences/variational_inference.py:VariationalInference.initialize", "edward/inferences/variational_inference.py:VariationalInference.update", "edward/inferences/monte_carlo.py:MonteCarlo.update"]}
{"id": "C83", "title": "minibatches with scale estimate the full-data objective without bias", "statement": "When an inference runs on minibatches of M of N data points with scale N/M on the variables that have a value per data point, then over the random choice of the minibatch the expected loss, log joint density and gradient are those on the whole data set, for KLqp (every estimator), MAP, SGLD and SGHMC.", "quantifier": "every hierarchical model and approximation with any global and local variables, every N and M, every law of minibatches in which all data are expected equally often (passes over the data in any order, draws with replacement, ...), every draw of the approximation, all values of the variables", "why_tests_cant": "Unbiasedness is an equation between real expectations over all minibatches, for every model; a test averages noisy gradients of one model.", "anchors": ["docs/tex/api/inference-data-subsampling.tex", "edward/inferences/inference.py:Inference.initialize", "edward/inferences/klqp.py:build_reparam_loss_and_gradients", "edward/inferences/klqp.py:build_reparam_kl_loss_and_gradients", "edward/inferences/klqp.py:build_score_loss_and_gradients", "edward/inferences/map.py:MAP.build_loss_and_gradients", "edward/inferences/sgld.py:SGLD._log_joint", "examples/probabilistic_pca_subsampling.py"]}
{"id": "C84", "title": "analytic divergences and entropies count every entry of a variable", "statement": "Where KLqp uses an analytic KL divergence or entropy, the term is the one of the whole latent variable and approximation, as the sampled estimators use: the expected difference of the log densities summed over all entries, also when the random variables were built with sample_shape.", "quantifier": "every family with an analytic divergence or entropy, every sample_shape and shape of parameters of approximation and latent variable (with broadcasting), all parameters, any number of latent variables and kl_scaling, every expectation (finite, series, integral)", "why_tests_cant": "The claim equates an expectation with a closed form for every shape; the repository's tests use scalar or fully listed parameters, where it holds.", "anchors": ["edward/inferences/klqp.py:build_reparam_kl_loss_and_gradients", "edward/inferences/klqp.py:build_reparam_entropy_loss_and_gradients", "edward/inferences/klqp.py:build_score_kl_loss_and_gradients", "edward/inferences/klqp.py:build_score_entropy_loss_and_gradients", "edward/models/random_variable.py:RandomVariable.__init__"]}
{"id": "C85", "title": "learning rates and step sizes let a run get as close to its target as wanted", "statement": "With the optimizer and learning rate that variational inference chooses by default, a parameter can move as far as its gradients call for when n_iter is large enough, and the steps settle; likewise the step sizes of SGLD: their sum is unbounded while the sum of their squares is not (the conditions of Robbins and Monro).", "quantifier": "every sequence of gradients (deterministic or not, depending on the parameter or not), every number of updates, every initial value, every value of a global_step variable, every optimizer name; every step_size of SGLD", "why_tests_cant": "It is a statement about sums over infinitely many updates for arbitrary gradients; a test runs a few hundred updates on one problem whose optimum is near.", "anchors": ["edward/inferences/variational_inference.py:VariationalInference.initialize", "edward/inferences/gan_inference.py:_build_optimizer", "edward/inferences/sgld.py:SGLD.build_update"]}
{"id": "C86", "title": "on a Gaussian posterior the samples of SGLD converge to it", "statement": "Where the posterior is normal, the law of the n-th sample that SGLD stores tends to it as n grows: its mean to the posterior mean and its covariance to the posterior covariance, from any start and for any step_size; so also for a single entry whose posterior is normal and independent of the others.", "quantifier": "every step_size, posterior mean and variance or precision matrix, start, number and shapes of latent variables, length of run, sequence of noises", "why_tests_cant": "It is a limit over runs of unbounded length and over all noises; a test compares moments of one finite run up to sampling error.", "anchors": ["edward/inferences/sgld.py:SGLD.build_update"]}
{"id": "C87", "title": "the gradient penalty of WGANInference pulls the critic's gradients to norm 1 between the data and the generated examples", "statement": "With penalty set, WGANInference adds to the critic's loss the penalty times the mean squared distance from 1 of the norm of the critic's gradient, one for each example, at a random point of the line between a real and a generated example; it is zero exactly if all these norms are 1.", "quantifier": "every critic (differentiable or not), batch, number of entries, draw of the random numbers and positive penalty", "why_tests_cant": "It is a statement about all draws and all critics, and about derivatives; a test sees a decreasing loss.", "anchors": ["edward/inferences/wgan_inference.py:WGANInference.build_loss_and_gradients", "edward/inferences/wgan_inference.py:WGANInference.initialize"]}
{"id": "C88", "title": "on a Gaussian posterior the samples of SGHMC converge to it", "statement": "Where the posterior of an entry of a latent variable is normal, the law of the n-th sample that SGHMC stores for it tends to that posterior as n grows, up to a discretization error that goes to zero as the learning rate decreases.", "quantifier": "every step_size, friction between 0 and 4, posterior mean and variance, start, number and shapes of latent variables, length of run, sequence of noises", "why_tests_cant": "It is a limit over runs of unbounded length and over all noises, and then over step sizes; a test compares moments of one finite run up to sampling error.", "anchors": ["edward/inferences/sghmc.py:SGHMC.build_update"]}
{"id": "C89", "title": "the samples of Metropolis-Hastings, HMC and Gibbs forget where they started", "statement": "Whatever the start, the law of the n-th sample of MetropolisHastings tends to the posterior as n grows, provided that the proposal is a density and the posterior's density is positive; so does that of HMC, whatever step_size and n_steps, and that of Gibbs when every variable is scanned.", "quantifier": "every model, proposal, start, bounded function of the latent variables, number of updates; for Gibbs every order of blocks of conditionally independent variables that covers all of them", "why_tests_cant": "It is a limit over runs of unbounded length, from every start and for every function; a test sees one run from one start and cannot tell slow mixing from none.", "anchors": ["edward/inferences/metropolis_hastings.py:MetropolisHastings.build_update", "edward/inferences/hmc.py:HMC.build_update", "edward/inferences/gibbs.py:Gibbs.update"]}
{"id": "C90", "title": "KLqp's loss bounds the negative log evidence and is least at the posterior", "statement": "However many samples are taken, the expected loss of KLqp is at least the negative log evidence plus the penalty; it equals it at the posterior, where moreover every single draw gives that loss, and nowhere else.", "quantifier": "every model, approximation, data set, value of the trainable variables, number of samples; sums, series and integrals over real tensors of any shapes", "why_tests_cant": "It compares an expectation over all draws with an integral over all values of the latent variables, for every model and approximation; a test sees one noisy loss of one model and knows no evidence to compare it with.", "anchors": ["edward/inferences/klqp.py:KLqp.build_loss_and_gradients", "edward/inferences/klqp.py:build_reparam_loss_and_gradients", "edward/inferences/klqp.py:build_reparam_kl_loss_and_gradients", "edward/inferences/klqp.py:build_reparam_entropy_loss_and_gradients", "edward/inferences/klqp.py:build_score_loss_and_gradients", "edward/inferences/klqp.py:build_score_rb_loss_and_gradients"]}
{"id": "C91", "title": "KLpq's gradients are, on average, those of the divergence of the posterior from the approximation", "statement": "On average over the draws, the gradient that KLpq follows for the variables of the approximation is that of KL(p(z | x) || q(z)) plus the penalty, up to an error that vanishes as n_samples grows; at the posterior it vanishes for every n_samples. The average loss tends to that divergence plus the log evidence.", "quantifier": "every model, approximation, data set, value of the trainable variables and number of samples; sums, series and integrals", "why_tests_cant": "It is a limit of expectations over all draws, for every model and approximation; a test sees single noisy gradients, and for models whose posterior is not known has nothing to compare them with.", "anchors": ["edward/inferences/klpq.py:KLpq.build_loss_and_gradients", "edward/inferences/klpq.py:KLpq.initialize"]}
{"id": "C92", "title": "Averages over the samples of a Markov chain converge to posterior expectations", "statement": "From any starting state, the average of a bounded function over the first n samples of a run of MetropolisHastings or Gibbs converges to the function's posterior expectation as n grows: the expected squared error, and the probability of missing by delta or more, vanish like 1/n. The same for the other MCMC algorithms.", "quantifier": "every model, data set, proposal or scan order, starting state, bounded function, number of samples and tolerance", "why_tests_cant": "It is a statement about all runs of all lengths and their probabilities; a test sees a few finite runs, and no finite run shows a limit.", "anchors": ["edward/inferences/metropolis_hastings.py:MetropolisHastings.build_update", "edward/inferences/gibbs.py:Gibbs.update", "edward/inferences/hmc.py:HMC.build_update", "edward/inferences/monte_carlo.py:MonteCarlo.update", "edward/models/empirical.py:Empirical"]}
{"id": "C93", "title": "HMC's acceptance probability depends on step_size, not on n_steps, below the stability limit", "statement": "On a normal posterior with largest precision M, an update of HMC with step_size e and e^2 M < 4 moves from z with momenta r with probability at least exp(-(e^2 M / (4 - e^2 M)) H), where H is the energy of z and r, for every n_steps; so the probability of moving tends to 1 as step_size tends to 0, for all n_steps at once. If e^2 times some eigenvalue of the precision matrix exceeds 4, then for all states and momenta but those on one hyperplane the probability of moving tends to 0 as n_steps grows.", "quantifier": "every model whose posterior in the unconstrained space is normal (any number of interacting variables), state, momenta, step size and number of leapfrog steps", "why_tests_cant": "It is a bound for all numbers of leapfrog steps at once and a pair of limits; a test runs a few step sizes and trajectories, and rounding hides where the threshold is.", "anchors": ["edward/inferences/hmc.py:HMC.build_update", "edward/inferences/hmc.py:HMC._log_joint_unconstrained", "edward/inferences/hmc.py:leapfrog"]}
{"id": "C94", "title": "a feed_dict concerns only the update it is passed to", "statement": "update leaves the dictionary it is given as it was, and what it feeds is determined by the inference's own data and by the dictionary passed in that call: values passed to one update, or bound by one inference, do not reach updates of another or later updates.", "quantifier": "every history of assignments to dictionaries and updates of any number of inferences of any algorithm that share dictionaries", "why_tests_cant": "It ranges over all histories of a program; a unit test calls update with a fresh dictionary, where nothing can leak.", "anchors": ["edward/inferences/inference.py:Inference.update", "edward/inferences/variational_inference.py:VariationalInference.update", "edward/inferences/monte_carlo.py:MonteCarlo.update", "edward/inferences/gan_inference.py:GANInference.update", "edward/inferences/laplace.py:Laplace.finalize", "edward/inferences/gibbs.py:Gibbs.update"]}
{"id": "C95", "title": "reset starts a sampler over", "statement": "After sess.run(inference.reset) a Monte Carlo inference behaves as a fresh one: with the same draws its updates store the same samples. Whatever runs and resets a program makes, the approximations hold samples of one chain.", "quantifier": "every Monte Carlo algorithm that stores its chain through MonteCarlo.update, every sequence of runs of any lengths with a reset after each, and all draws", "why_tests_cant": "It ranges over all histories of runs and resets and all draws; a unit test resets once and looks at the counters, which are right.", "anchors": ["edward/inferences/inference.py:Inference.initialize", "edward/inferences/monte_carlo.py:MonteCarlo.initialize", "edward/inferences/monte_carlo.py:MonteCarlo.update", "edward/inferences/sgld.py:SGLD.build_update"]}
{"id": "C96", "title": "ImplicitKLqp's loss is the variational objective, and scale scales the variable it is bound to", "statement": "The loss ImplicitKLqp minimises is minus the log ratio of the joint densities of model and approximation at the draws, plus the regularisers, when the discriminator has found the log ratio of every point. Losses of minibatches with scale N/M average to the loss of all data. An entry of scale multiplies the terms of the variable it is bound to, and variables without an entry count once.", "quantifier": "every number of global variables and points, all positive densities, every partition into minibatches of one size, every dictionary of scales and every output of the discriminator", "why_tests_cant": "The identities hold for all densities and partitions; a unit test runs the optimiser on one model, where a wrong weight shows only as slower or biased learning.", "anchors": ["edward/inferences/implicit_klqp.py:ImplicitKLqp.build_loss_and_gradients", "edward/inferences/inference.py:Inference.initialize"]}
