# Formal model of blei-lab/edward in Rocq

## Method

Edward is a Python layer over TensorFlow.  What the Python code itself decides
(graph traversals, copying, bookkeeping of samplers, symbolic rewriting, the
formulas of losses, densities and metrics, argument checking) is modelled
function by function as total Gallina functions.  TensorFlow, NumPy and the
distributions library are not modelled; their results enter as arguments
(random draws, session clocks, gradients, component densities), so theorems
quantify over all of them.

For each group of functions there are

- `theories/X.v`: definitions only, each with a comment citing the file and
  lines modelled and saying what is simplified;
- `theories/XSpec.v`: the small independent specification the theorems use;
- `theories/XProofs.v` (and others ending in `Proofs`): lemmas;
- `theories/...Props.v`: the property theorems, each closed by `exact`, with
  `Print Assumptions` and `Example`s that meet the hypotheses beside them.

A property that is false of the code is recorded as a theorem
`..._refuted : exists ..., ...` with a concrete witness; the part that is true
is proved as `..._partial` with the missing part named in the comment and in
`MANIFEST.json`.  Such properties keep their full statement in
`properties.jsonl` and have status `partial`.

Loops without a static bound are modelled with fuel, and the theorems state
that enough fuel exists (or, for the refutations, that none suffices).  Sets
whose iteration order Python leaves open take the order as an oracle.
Exceptions are values.


## Per property

The note of each claim in `MANIFEST.json` says what is proved, what is missing
and what is refuted; the theorems are listed in the last section.

| id | property | status | model and specification | proof |
|----|----------|--------|------|-------|
| C01 | get_parents / get_children return exactly the nearest random variables | proved | `Graph.v`, `GraphSpec.v` | loop invariant of the worklist for an arbitrary pop order; soundness and completeness against inductively defined paths; a measure for termination |
| C02 | get_ancestors / get_descendants are exact reachability | proved | `Graph.v`, `GraphSpec.v` | same invariant, paths through random variables allowed |
| C03 | Parent/child and ancestor/descendant queries are mutually consistent | proved | `Graph.v` | from C01 and C02, reversing paths |
| C04 | Ancestors are the transitive closure of parents | proved | `Graph.v` | from C01 and C02, splitting paths at random variables |
| C05 | get_blanket and get_siblings are the documented sets | proved | `Graph.v` | from C01 |
| C06 | get_variables finds exactly the variables a node depends on | proved | `Graph.v` | loop invariant |
| C07 | is_independent decides d-separation | proved | `BayesBall.v`, `BayesBallSpec.v` | invariant and completeness of schedule and marks against inductively defined active walks; potential for termination |
| C08 | The Markov blanket shields a variable | proved | `BayesBall.v` | every walk out of the blanket is blocked; C07 |
| C09 | copy never changes existing graph elements | proved | `Copy.v`, `CopySpec.v` | frame lemma by induction on the fuel of the recursion, then on the history |
| C10 | copy computes the substituted expression | partial (part refuted) | `Copy.v`, `CopySpec.v`, `CopyQSpec.v` | simulation: values of the copy are values of the substituted expression; a rank of the acyclic graph bounds the fuel; copy_q=True simulates copy_q=False in the graph with the replacements made |
| C11 | copy depends only on its arguments | partial (part refuted) | `Copy.v` | C10 relative to the history; witness for equal scopes |
| C12 | Variables, placeholders and queues are shared by copies, stateless operations are duplicated | partial (part refuted) | `Copy.v` | invariant on the kinds of added operations; dependence from C10 |
| C13 | Accepted data is never silently dropped | proved | `Checks.v`, `ChecksSpec.v` | case analysis of kinds, induction on the dictionary |
| C14 | Latent variable bindings are type and shape consistent | proved | `Checks.v`, `ChecksSpec.v` | same |
| C15 | transform maps every supported support to an unconstrained one | proved | `Transform.v` | case analysis; derivatives and determinants (Coquelicot) |
| C16 | auto_transform only rewrites continuous, mismatched pairs and keeps every latent variable | partial (part refuted) | `Transform.v` | induction on the dictionary; witnesses |
| C17 | run performs exactly n_iter iterations numbered 1..n_iter and finalises once | partial (part refuted) | `Lifecycle.v` | induction on iterations of a trace semantics with a crash oracle |
| C18 | Progress and summaries are emitted at exactly the documented iterations | proved | `Lifecycle.v` | same, over histories |
| C19 | The progress bar never leaves stale characters | proved | `Progbar.v`, `ProgbarSpec.v` | terminal line model; invariant on widths |
| C20 | Bound data always reaches the session | partial (part refuted) | `Feed.v` | induction on dictionaries and histories |
| C21 | Monte Carlo samples fill the Empirical in order | proved | `MonteCarlo.v` | invariant over updates of an arbitrary kernel |
| C22 | A rejected proposal repeats the previous state and acceptances are counted exactly | proved | `MH.v`, `HMC.v`, `MonteCarlo.v` | case analysis of the accept step, induction on updates |
| C23 | The reported acceptance rate is the fraction of accepted iterations | partial (part refuted) | `MonteCarlo.v` | schedules of reads and writes of the two variables |
| C24 | Metropolis-Hastings acceptance satisfies detailed balance | proved | `MH.v`, `MHSpec.v`, `InvariantSpec.v`, `VolumeWalkSpec.v` | integral of the accept step over the uniform draw; algebra of densities with zeros; the flow is antisymmetric, so its double integral is zero; on R^n Tonelli and Fubini by Dini on cubes of lists |
| C25 | HMC's leapfrog integrator is reversible and its acceptance is balanced | proved | `HMC.v`, `InvariantSpec.v`, `VolumeSpec.v`, `VolumeHMCSpec.v` | induction on leapfrog steps; shears; the trajectory is an involution that reverses the flow; volume on R^n from iterated integrals, Fubini by induction on the dimension, dominated existence, induction on updates |
| C26 | Auto-transformed Monte Carlo reads back the sample it stored | partial (part refuted) | `SGLD.v`, `Transform.v` | induction on updates; change of variables; witnesses |
| C27 | Gibbs stores the draws its chain conditions on | partial (part refuted) | `Gibbs.v`, `GibbsSpec.v` | finite sums; a concrete posterior as witness |
| C28 | Replica exchange keeps a permutation of replicas and the right target at every temperature | partial (part refuted) | `Replica.v`, `ReplicaSpec.v`, `InvariantSpec.v` | permutations, algebra of products over the ladder |
| C29 | reset restores the state of a fresh inference | partial (part refuted) | `ResetOps.v` | name-prefix reasoning on programs that build inferences |
| C30 | Symbolic simplification preserves the sufficient statistic | partial (part refuted) | `Simplify.v`, `SimplifySpec.v` | option-valued denotation, rule by rule |
| C31 | Symbolic simplification always terminates | proved | `Simplify.v` | polynomial interpretation decreasing under every rule |
| C32 | Conjugate log probabilities are the true log densities | partial (part refuted) | `ConjLogProb.v` | real algebra, gamma function as a positive oracle |
| C33 | Natural parameters are converted to the distribution they describe | partial (part refuted) | `Conjugacy.v` | real algebra |
| C34 | complete_conditional returns the true complete conditional | partial (part refuted) | `Conjugacy.v` | composition of C30, C33 and C35; witnesses |
| C35 | Constant multipliers are separated from sufficient statistics without loss | proved | `Simplify.v` | induction on expressions |
| C36 | Variational losses average the objective over n_samples | partial (part refuted) | `VI.v`, `VISpec.v` | sums over lists |
| C37 | Score-function gradients are unbiased | partial (part refuted) | `VI.v`, `VISpec.v`, `VIIntegralSpec.v`, `VolumeDeriveSpec.v` | derivatives (Coquelicot) below any linear integral: finite sums, series, Riemann integrals, volume integrals with a dominated derivative (Dini) |
| C38 | KLpq weights are a probability vector and the objective is the documented one | partial (part refuted) | `VI.v` | softmax algebra |
| C39 | scale multiplies the log probability of the variable it is given for | partial (part refuted) | `VI.v`, `MH.v`, `SGLD.v` | sums; witnesses |
| C40 | Every optimised variable receives exactly one gradient | proved | `VI.v` | induction on variable lists |
| C41 | The default var_list is all trainable variables that the latent variables and data depend on | proved | `VI.v`, `Graph.v` | C01, C02 for the set of selected variables |
| C42 | Optimizer selection follows the documentation | proved | `Optim.v` | case analysis; induction on updates |
| C43 | Laplace sets the covariance to the inverse Hessian | partial (part refuted) | `Laplace.v`, `LaplaceJoint.v`, `LaplaceJointSpec.v` | matrix algebra; blocks by induction on the list of variables; Cauchy-Schwarz |
| C44 | GAN training separates generator and discriminator; WGAN weights stay clipped | partial (part refuted) | `GAN.v` | partition by scope; invariants over histories |
| C45 | Random variables are registered once, in creation order, only on success | partial (part refuted) | `RandomVar.v` | induction on construction programs |
| C46 | Empirical and PointMass moments are those of the stored points | partial (part refuted) | `Empirical.v` | sums |
| C47 | DirichletProcess draws share one growing list of atoms | partial (part refuted) | `DP.v` | invariant of the loop with coin flips as oracle; stick-breaking law by induction |
| C48 | ParamMixture agrees with the mixture it denotes | partial (part refuted) | `Mixture.v` | arrays as functions of multi-indices; sums |
| C49 | to_simplex maps onto the simplex | proved | `Util.v` | induction on vectors |
| C50 | rbf is the squared-exponential kernel | proved | `Util.v` | positive semidefiniteness via the series of exp |
| C51 | get_control_variate_coef is the variance minimising coefficient | partial (part refuted) | `Util.v` | quadratic minimisation |
| C52 | compute_multinomial_mode returns a mode | partial (part refuted) | `Mode.v` | counting; witnesses |
| C53 | Evaluation metrics have their defining ranges and averages | partial (part refuted) | `Metrics.v` | sums, inequalities |
| C54 | evaluate dispatches every documented metric | partial (part refuted) | `Evaluate.v` | case analysis of arguments, induction on lists of metrics |
| C55 | ppc pairs replicated and observed discrepancies | partial (part refuted) | `Ppc.v` | induction on runs |
| C56 | Seeding and sessions behave as a state machine | partial (part refuted) | `Session.v` | state machine over histories |
| C57 | Separated multipliers can be rebuilt as tensors | partial (part refuted) | `Simplify.v` | induction on expressions |
| C58 | Adversarial losses: density ratio, generator, Wasserstein and hinge | proved | `GAN.v` | pointwise minimisation, convexity |
| C59 | ImplicitKLqp shows its discriminator joint draws of the model | partial (part refuted) | `GAN.v` | witness; sums |
| C60 | dot is the matrix product of a vector and a matrix | partial (part refuted) | `Util.v` | sums |
| C61 | evaluate scores the best prediction | partial (part refuted) | `Predict.v` | sums, inequalities; witnesses |
| C62 | The log joint density an algorithm builds is the model's at its sample | partial (part refuted) | `LogJoint.v`, `LogJointSpec.v` | C10 generalised to several calls in one scope; evaluation of copies is evaluation with values held; witness |
| C63 | Each variational sample is one joint draw of the approximation scored by the model | partial (part refuted) | `LogJoint.v`, `LogJointSpec.v` | same, and scopes that add disjoint names; witness |
| C64 | The Metropolis-Hastings ratio is computed from the right copies | partial (part refuted) | `LogJoint.v`, `LogJointSpec.v` | same, with three interleaved scopes |
| C65 | The log joint density is one function of the sample | partial (part refuted) | `LogJoint.v`, `LogJointSpec.v` | two uses of C62 related by induction on the graph; witness |
| C66 | Rao-Blackwellized gradients leave out terms without changing the expected gradient | partial (part refuted) | `VI.v`, `RBSpec.v`, `RBIntegralSpec.v` | blankets by C05; terms outside have expectation zero, by induction along the order of the approximations, for finite sums and for iterated integrals; with scales, for each approximation in turn |
| C67 | The two phases of WakeSleep | partial (part refuted) | `VI.v`, `VIMoreSpec.v` | as C37; witness |
| C68 | KLqp takes the estimator its arguments call for | proved | `VI.v` | cases |
| C69 | a list of latent variables gets one approximation each, of the right kind, shape and support | partial (part refuted) | `Default.v`, `DefaultSpec.v` | invariant of the loop over the list; bijections of C15; witnesses |
| C70 | complete_conditional starts from the log joint of its own conditioning set | partial (part refuted) | `CondJoint.v`, `CondJointSpec.v` | joined names can be taken apart; invariant of the named tensors over the history; witness |
| C71 | a model is a program: one run of its graph is one execution of the program | proved | `RVProgram.v`, `RVProgramSpec.v` | mutual induction over expressions: graph and interpreter related by the values every run gives; numbers, branches and types stated separately |
| C72 | the TensorBoard log of an inference shows exactly its own variables, losses and gradients | partial (part refuted) | `LogVars.v`, `LogVarsSpec.v`, `LogTagsSpec.v` | invariant of names and collections over the program; freshness of unique_name by counting; C06; witnesses |
| C73 | after ed.set_seed a program is reproducible, and every random operation, original or copied, draws its own numbers | partial (part refuted) | `Seeds.v`, `SeedsSpec.v` | invariants of the seeds over the program; witnesses |
| C74 | copying a model with tf.while_loop or tf.cond gives a loop of its own | partial (part refuted) | `CopyLoop.v`, `CopyLoopSpec.v` | joint induction over the three mutually recursive functions with the operations under construction excepted; nothing of a context is touched while the contexts around it are copied; measure: operations not copied and depth of contexts; witness |
| C75 | every option given to initialize or run reaches the algorithm that documents it | partial (part refuted) | `Options.v`, `OptionsSpec.v` | a chain of methods with *args/**kwargs is one function with the concatenated signature (binding commutes with entries set later), then induction on the signature |
| C76 | one iteration gives the same result in whatever order TensorFlow runs its operations | partial (part refuted) | `Schedule.v`, `ScheduleSpec.v` | commuting of enabled operations and induction on the order; an invariant that what ran returned its value at the start; concrete pairs of orders |
| C77 | a Gibbs scan, of variables or of blocks, keeps the posterior | partial (part refuted) | `Gibbs.v`, `GibbsBlockSpec.v`, `VolumeGibbsSpec.v` | the conditional expectation of one variable keeps integrals, by Fubini; a free block is a chain of these; induction on the scan order. On R^n: rotating the flat state puts a variable last, so Fubini of `VolumeFubiniProofs.v` applies; the conditional mean is bounded and continuous |
| C78 | the conditional of a tensor-valued variable has its shape and its density | partial (part refuted) | `TConj.v`, `TConjSpec.v` | every entry of the graph is the same affine function of the placeholders and of the true statistics, by induction on the graph; derivative; C33 |
| C79 | by default complete_conditional conditions on everything else | partial (part refuted) | `FullCondSpec.v` on `Graph.v` and `CondJoint.v` | a parameter of a variable that is no child has the same value in both runs, by induction on the depth in the graph; C05; C70 |
| C80 | every variable in latent_vars is inferred, or the dictionaries are refused | partial (part refuted) | `Proposals.v` on `MH.v`, `Gibbs.v`, `MonteCarlo.v` | keys of the new sample by induction on the proposals; the accept/reject chain of C22; induction on the blocks |
| C81 | debug=True checks every computation of an update for NaN and Inf | partial (part refuted) | `Debug.v` | induction on the graph in the order of creation; the checked set is fixed by the prefix of the graph that exists at the call |
| C82 | inferences compose: an update changes only what its inference infers | partial (part refuted) | `Compose.v` on `Schedule.v`, `VI.v` | noninterference: two session runs in the same order from memories that agree on the footprint stay alike; induction on histories |
| C83 | minibatches with scale estimate the full-data objective without bias | partial (part refuted) | `VI.v`, `SGLD.v` | every summed log density is affine in the batch; expected counts over a fair law; derivative of a finite expectation |
| C84 | analytic divergences and entropies count every entry of a variable | partial (part refuted) | `KLShape.v`, `KLShapeSpec.v` | sums over indices factor over the dimensions that parameters lack; linearity of the expectation |
| C85 | learning rates and step sizes let a run get as close to its target as wanted | partial (part refuted) | `Optim.v`, `Steps.v`, `StepsSpec.v`, `SGLD.v` | closed form of the staircase sum; the invariant m^2 <= 53 v for Adam; telescoping bound for 1/k^1.1 |
| C86 | on a Gaussian posterior the samples of SGLD converge to it | proved | `SGLD.v`, `SGLDLimitSpec.v`, `SGLDJointSpec.v` | recursion of the variance as a contraction with step sizes of C85, for matrices in the quadratic form of the precision; induction over the run by C26_sgld_partial |
| C87 | the gradient penalty of WGANInference pulls the critic's gradients to norm 1 between the data and the generated examples | partial (part refuted) | `Penalty.v`, `PenaltySpec.v`, `GAN.v` | algebra of interpolation; derivative of a sum of which one term varies; sums of squares |
| C88 | on a Gaussian posterior the samples of SGHMC converge to it | partial (part refuted) | `SGLD.v`, `SGHMCLimitSpec.v` | quadratic form that a linear recurrence decreases by the squares of its terms; Casorati determinants for divergence; induction over the run by C26_sghmc_partial |
| C89 | the samples of Metropolis-Hastings, HMC and Gibbs forget where they started | partial (part refuted) | `MH.v`, `HMC.v`, `Gibbs.v`, `ForgetSpec.v` | Doeblin's condition: a step moves every mean by eps towards the posterior's, which it keeps (C24, C77); induction over the updates |
| C90 | KLqp's loss bounds the negative log evidence and is least at the posterior | partial (part refuted) | `VI.v`, `ElboSpec.v` | the tangent of exp at 0: the gap is the integral of the approximation's density times exp d - 1 - d; induction over the samples; nonnegative continuous functions whose iterated Riemann integrals vanish are zero |
| C91 | KLpq's gradients are, on average, those of the divergence of the posterior from the approximation | partial (part refuted) | `VI.v`, `VIIntegralSpec.v` | variance of a sum of independent centred terms by induction over the samples; |t| <= (t^2/k + k)/2 in place of Cauchy-Schwarz; monotonicity of iterated integrals |
| C92 | Averages over the samples of a Markov chain converge to posterior expectations | partial (part refuted) | `MH.v`, `Gibbs.v`, `HMC.v`, `AverageSpec.v` | the chain forgets its start at a geometric rate (C89), so the centred function is g - Pg up to a remainder (Poisson's equation truncated at n); the squares of the sum along the run are then controlled by induction over the updates, without independence |
| C93 | HMC's acceptance probability depends on step_size, not on n_steps, below the stability limit | proved | `HMC.v`, `HMCSpec.v`, `SGLDJointSpec.v`, `HMCAcceptSpec.v` | each leapfrog step keeps r.r + x.Ax - (e^2/4) Ax.Ax exactly, so the energy error is e^2/8 times the change of Ax.Ax; below the limit the kept quantity bounds Ax.Ax; above it the step has an expanding eigenvector |
| C94 | a feed_dict concerns only the update it is passed to | partial (part refuted) | `Feed.v`, `FeedHistory.v`, `FeedHistorySpec.v` | induction over histories: every event either writes a key of a dictionary or leaves it; Gibbs's own dictionary only ever gains or replaces what is passed or drawn |
| C95 | reset starts a sampler over | partial (part refuted) | `MonteCarlo.v`, `SamplerReset.v`, `SamplerResetSpec.v` | induction over the runs from the end, with the invariant that row 0 of the tables is where the next run starts; each run by the invariant of C21 |
| C96 | ImplicitKLqp's loss is the variational objective, and scale scales the variable it is bound to | partial (part refuted) | `ImplicitLoss.v`, `ImplicitLossSpec.v` | exponentials of sums of logs are products; sums over a partition by permutation; induction over the dictionary of scales |

## Trusted base

- Coq 8.16.1's kernel (and `coqchk`/the gate's rebuild of the last commit).
- The axioms of the standard library that `Print Assumptions` lists, see the
  last section: the two axioms of the constructive Dedekind reals,
  functional extensionality and, through Coquelicot and `Rtopology`,
  excluded middle.  No axiom, parameter or hypothesis of our own, no other
  library's axioms.
- Libraries: Coq's standard library and Coquelicot (derivatives, integrals).
- The fidelity of the definitions to the cited lines.  Nothing was run: the
  code was read as text.

What the model takes on trust about the world outside /repo:

- *Numbers.*  float32/float64 are real numbers; rounding, overflow and the
  sign of zero are not modelled.  NaN and the infinities are modelled where
  the properties are about them (`Ext.v`: acceptance ratios, log densities;
  `Mixture.v`: selection by multiplication; `Metrics.v`: KL).
- *TensorFlow graphs.*  An operation is its name, kind, inputs and outputs.
  Control edges, while-loop contexts (`_copy_context`, `_get_context_copy`) and
  multi-output operations are modelled in `CopyLoop.v` (C74), not in `Copy.v`;
  devices and colocation are not modelled.  Evaluating a graph is an inductive relation with
  an arbitrary meaning for each operation and arbitrary noise for each
  random operation; one session run is one such evaluation.
- *Sessions and variables.*  A variable holds a value; within one run reads
  and writes not ordered by data flow may be scheduled in any order
  (C23, C76).  A variable is a reference variable: reading it gives the variable
  itself, not a copy, and assign, scatter_update and the optimizers' updates
  change it in place (C76).  Coordinators, queue runners and their threads are not modelled.
- *Randomness.*  Draws are arguments.  Where a law matters, it is a finite
  distribution (C24 stationarity, C27, C37, C47, C61), a uniform draw
  integrated over [0, 1] (C24, C25, C28), or any linear integral (C37, C66, C67:
  `VIIntegralSpec.v`, with finite sums, series and Riemann integrals as
  instances), or the volume integral of continuous functions on R^n, built
  from iterated Riemann integrals (C25: `VolumeSpec.v`).
- *tf.gradients* is an oracle, or the true derivative where a theorem says
  so (C37); `tf.train` optimizers are opaque state machines (C42).
- *tf.contrib.distributions*: log densities, samples, means and variances
  are oracles, except the families C32-C34 mention, whose documented
  densities are in `ConjSpec.v`, with log Gamma an arbitrary real function.
  The bijectors of C15 (Softplus, Sigmoid, SoftmaxCentered, their inverses
  and Jacobians) are modelled as documented.
- *Conversions* such as `tf.convert_to_tensor`, static shapes and dtypes are
  oracles of `Checks.v`, constrained only by what a theorem states.
- *Python*: dictionaries keep insertion order; sets have an arbitrary order;
  integers are unbounded; `str` is a list of bytes.
- *sklearn/matplotlib/keras*: not modelled (`ppc_plots.py`).

## Disagreements between the code and its documentation

Every `..._refuted` theorem is one; the notes of `MANIFEST.json` describe
them.  Further observations made while reading, without a theorem:

- Metropolis-Hastings, HMC, SGLD, SGHMC and replica exchange ignore data
  bound to tensors that are not random variables when they build the joint
  (such data still reach placeholders, C20).
- `DirichletProcess.sample` registers a Bernoulli variable in
  `random_variables()`; its atoms persist only within one session run.
- With n_iter = 305 the progress bar's last printed iteration is not the
  last iteration.
- `WakeSleep` and the GAN family do not check `n_samples`.

## Testing the theorems against wrong programs

`seeded/LOG.jsonl` records edits of the model as realistic bugs would make
them, with the theorems that then fail.  Each edit was made in a copy outside
/verif; each lemma that no longer compiled was admitted there and the
theorems that depend on it (by `Print Assumptions`) counted as failing.


## Functions of /repo and where they are modelled

Generated from the citations in the theories: the lines of each function body
that some definition cites.  Functions with no entry are not modelled, or
only through the oracles above.  A definition may cite a range and still
leave aspects of it out; its comment says so.

| file | function | lines | cited in |
|------|----------|-------|----------|
| criticisms/evaluate.py | evaluate | 132 of 132 | Evaluate, Predict |
| criticisms/evaluate.py | binary_accuracy | 3 of 3 | Evaluate, Metrics |
| criticisms/evaluate.py | categorical_accuracy | 3 of 3 | Evaluate, Metrics |
| criticisms/evaluate.py | sparse_categorical_accuracy | 3 of 3 | Evaluate, Metrics |
| criticisms/evaluate.py | binary_crossentropy | 4 of 4 | Evaluate, Metrics |
| criticisms/evaluate.py | categorical_crossentropy | 4 of 4 | Evaluate, Metrics |
| criticisms/evaluate.py | sparse_categorical_crossentropy | 4 of 4 | Evaluate, Metrics |
| criticisms/evaluate.py | multinomial_accuracy | 3 of 3 | Evaluate, Metrics |
| criticisms/evaluate.py | kl_divergence | 6 of 6 | Evaluate, Metrics |
| criticisms/evaluate.py | hinge | 3 of 3 | Evaluate, Metrics |
| criticisms/evaluate.py | squared_hinge | 3 of 3 | Evaluate, Metrics |
| criticisms/evaluate.py | mean_squared_error | 1 of 1 | Evaluate, Metrics |
| criticisms/evaluate.py | mean_absolute_error | 1 of 1 | Evaluate, Metrics |
| criticisms/evaluate.py | mean_absolute_percentage_error | 3 of 3 | Evaluate, Metrics |
| criticisms/evaluate.py | mean_squared_logarithmic_error | 3 of 3 | Evaluate, Metrics |
| criticisms/evaluate.py | poisson | 1 of 1 | Evaluate, Metrics |
| criticisms/evaluate.py | cosine_proximity | 3 of 3 | Evaluate, Metrics |
| criticisms/ppc.py | ppc | 41 of 41 | Ppc |
| inferences/bigan_inference.py | BiGANInference.build_loss_and_gradients | 38 of 38 | GAN |
| inferences/conjugacy/conjugacy.py | mvn_diag_from_natural_params | 3 of 3 | ConjLogProb |
| inferences/conjugacy/conjugacy.py | normal_from_natural_params | 3 of 3 | ConjLogProb |
| inferences/conjugacy/conjugacy.py | complete_conditional | 79 of 80 | CondJoint, ConjLogProb, Conjugacy, TConj |
| inferences/conjugacy/conjugacy.py | get_log_joint | 27 of 27 | CondJoint |
| inferences/conjugacy/conjugacy.py | extract_s_stat_multipliers | 12 of 12 | Simplify |
| inferences/conjugacy/conjugacy.py | reconstruct_multiplier | 4 of 4 | Simplify |
| inferences/conjugacy/conjugacy.py | extract_subgraph | 7 of 7 | Conjugacy, TConj |
| inferences/conjugacy/conjugacy.py | is_child | 6 of 6 | Conjugacy, TConj |
| inferences/conjugacy/conjugacy.py | suff_stat_nodes | 17 of 17 | Conjugacy, TConj |
| inferences/conjugacy/conjugate_log_probs.py | bernoulli_log_prob | 3 of 3 | ConjLogProb, Ext |
| inferences/conjugacy/conjugate_log_probs.py | beta_log_prob | 6 of 6 | ConjLogProb |
| inferences/conjugacy/conjugate_log_probs.py | binomial_log_prob | 8 of 8 | ConjLogProb |
| inferences/conjugacy/conjugate_log_probs.py | categorical_log_prob | 3 of 3 | ConjLogProb, Ext |
| inferences/conjugacy/conjugate_log_probs.py | chi2_log_prob | 6 of 6 | ConjLogProb |
| inferences/conjugacy/conjugate_log_probs.py | dirichlet_log_prob | 5 of 5 | ConjLogProb |
| inferences/conjugacy/conjugate_log_probs.py | exponential_log_prob | 3 of 3 | ConjLogProb |
| inferences/conjugacy/conjugate_log_probs.py | gamma_log_prob | 6 of 6 | ConjLogProb |
| inferences/conjugacy/conjugate_log_probs.py | inverse_gamma_log_prob | 6 of 6 | ConjLogProb |
| inferences/conjugacy/conjugate_log_probs.py | laplace_log_prob | 5 of 5 | ConjLogProb |
| inferences/conjugacy/conjugate_log_probs.py | multinomial_log_prob | 7 of 7 | ConjLogProb |
| inferences/conjugacy/conjugate_log_probs.py | mvn_diag_log_prob | 7 of 7 | ConjLogProb |
| inferences/conjugacy/conjugate_log_probs.py | normal_log_prob | 7 of 7 | ConjLogProb |
| inferences/conjugacy/conjugate_log_probs.py | poisson_log_prob | 5 of 5 | ConjLogProb |
| inferences/conjugacy/simplify.py | _mul_n | 4 of 4 | Simplify |
| inferences/conjugacy/simplify.py | symbolic_suff_stat | 13 of 13 | Simplify |
| inferences/conjugacy/simplify.py | reconstruct_expr | 12 of 12 | Simplify |
| inferences/conjugacy/simplify.py | full_simplify | 8 of 8 | Simplify |
| inferences/conjugacy/simplify.py | _register_simplify_fn | 21 of 23 | Simplify |
| inferences/conjugacy/simplify.py | identity_op_simplify | 2 of 2 | Simplify |
| inferences/conjugacy/simplify.py | power_op_simplify | 3 of 3 | Simplify |
| inferences/conjugacy/simplify.py | pow_simplify | 12 of 12 | Simplify |
| inferences/conjugacy/simplify.py | log_pow_simplify | 4 of 4 | Simplify |
| inferences/conjugacy/simplify.py | log_mul_simplify | 2 of 2 | Simplify |
| inferences/conjugacy/simplify.py | pow_mul_simplify | 4 of 4 | Simplify |
| inferences/conjugacy/simplify.py | mul_add_simplify | 7 of 7 | Simplify |
| inferences/conjugacy/simplify.py | commutative_simplify | 12 of 12 | Simplify |
| inferences/conjugacy/simplify.py | add_add_simplify | 1 of 1 | Simplify |
| inferences/conjugacy/simplify.py | mul_mul_simplify | 1 of 1 | Simplify |
| inferences/conjugacy/simplify.py | identity_simplify | 16 of 16 | Simplify |
| inferences/conjugacy/simplify.py | mul_one_simplify | 1 of 1 | Simplify |
| inferences/conjugacy/simplify.py | add_zero_simplify | 1 of 1 | Simplify |
| inferences/conjugacy/simplify.py | mul_zero_simplify | 5 of 5 | Simplify |
| inferences/conjugacy/simplify.py | square_add_simplify | 8 of 8 | Simplify |
| inferences/conjugacy/simplify.py | expr_contains | 6 of 6 | Simplify |
| inferences/conjugacy/simplify.py | add_const_simplify | 11 of 11 | Simplify |
| inferences/conjugacy/simplify.py | one_m_simplify | 5 of 5 | Simplify |
| inferences/conjugacy/simplify.py | cast_simplify | 2 of 2 | Simplify |
| inferences/conjugacy/simplify.py | onehot_simplify | 2 of 2 | Simplify |
| inferences/gan_inference.py | GANInference.initialize | 19 of 19 | GAN, LogVars, Options, ResetOps |
| inferences/gan_inference.py | GANInference.build_loss_and_gradients | 36 of 36 | GAN |
| inferences/gan_inference.py | GANInference.update | 32 of 32 | Debug, Feed, FeedHistory, GAN, Lifecycle |
| inferences/gan_inference.py | _build_optimizer | 36 of 36 | Optim, Steps |
| inferences/gibbs.py | Gibbs.initialize | 4 of 4 | Feed, FeedHistory, Options |
| inferences/gibbs.py | Gibbs.update | 51 of 51 | Debug, Feed, FeedHistory, Gibbs, GibbsBlockSpec, Lifecycle, Proposals, Seeds, SeedsProps, SeedsSpec |
| inferences/gibbs.py | Gibbs.build_update | 9 of 9 | Gibbs, Proposals, Schedule |
| inferences/hmc.py | HMC.initialize | 5 of 5 | Options |
| inferences/hmc.py | HMC.build_update | 58 of 58 | Ext, HMC, MonteCarlo, Schedule, Transform |
| inferences/hmc.py | HMC._log_joint_unconstrained | 1 of 21 | Transform |
| inferences/hmc.py | HMC._log_joint | 24 of 24 | LogJoint |
| inferences/hmc.py | leapfrog | 7 of 15 | HMC |
| inferences/implicit_klqp.py | ImplicitKLqp.initialize | 10 of 10 | GAN, Options |
| inferences/implicit_klqp.py | ImplicitKLqp.build_loss_and_gradients | 78 of 78 | GAN, ImplicitLoss |
| inferences/implicit_klqp.py | log_loss | 5 of 5 | GAN |
| inferences/implicit_klqp.py | hinge_loss | 2 of 2 | GAN |
| inferences/inference.py | Inference.\_\_init\_\_ | 25 of 25 | Checks, Debug, Default, Feed |
| inferences/inference.py | Inference.run | 30 of 30 | Compose, Default, Feed, Lifecycle, MonteCarlo, Options, SamplerReset |
| inferences/inference.py | Inference.initialize | 82 of 82 | Compose, Debug, Lifecycle, LogVars, LogVarsProps, MonteCarlo, ResetOps, SGLD, SamplerReset, Schedule, SubsampleExampleProofs, Transform, VI |
| inferences/inference.py | Inference.update | 19 of 19 | Debug, Feed, FeedHistory, Lifecycle |
| inferences/inference.py | Inference.print_progress | 4 of 4 | Lifecycle |
| inferences/inference.py | Inference.finalize | 2 of 2 | Lifecycle |
| inferences/inference.py | Inference._set_log_variables | 24 of 25 | LogVars |
| inferences/klpq.py | KLpq.\_\_init\_\_ | 19 of 19 | Default |
| inferences/klpq.py | KLpq.initialize | 5 of 5 | Options, VI |
| inferences/klpq.py | KLpq.build_loss_and_gradients | 59 of 59 | LogJoint, VI |
| inferences/klqp.py | KLqp.\_\_init\_\_ | 19 of 19 | Default |
| inferences/klqp.py | KLqp.initialize | 9 of 9 | Options, VI |
| inferences/klqp.py | KLqp.build_loss_and_gradients | 26 of 26 | VI |
| inferences/klqp.py | ReparameterizationKLqp.\_\_init\_\_ | 19 of 19 | Default |
| inferences/klqp.py | ReparameterizationKLqp.initialize | 5 of 5 | Options |
| inferences/klqp.py | ReparameterizationKLKLqp.\_\_init\_\_ | 19 of 19 | Default |
| inferences/klqp.py | ReparameterizationKLKLqp.initialize | 9 of 9 | Options |
| inferences/klqp.py | ReparameterizationEntropyKLqp.\_\_init\_\_ | 19 of 19 | Default |
| inferences/klqp.py | ReparameterizationEntropyKLqp.initialize | 6 of 6 | Options |
| inferences/klqp.py | ScoreKLqp.\_\_init\_\_ | 19 of 19 | Default |
| inferences/klqp.py | ScoreKLqp.initialize | 5 of 5 | Options |
| inferences/klqp.py | ScoreKLKLqp.\_\_init\_\_ | 19 of 19 | Default |
| inferences/klqp.py | ScoreKLKLqp.initialize | 8 of 8 | Options |
| inferences/klqp.py | ScoreEntropyKLqp.\_\_init\_\_ | 19 of 19 | Default |
| inferences/klqp.py | ScoreEntropyKLqp.initialize | 5 of 5 | Options |
| inferences/klqp.py | ScoreRBKLqp.\_\_init\_\_ | 19 of 19 | Default |
| inferences/klqp.py | ScoreRBKLqp.initialize | 5 of 5 | Options |
| inferences/klqp.py | build_reparam_loss_and_gradients | 49 of 51 | KLShape, LogJoint, LogVars, SubsampleExampleProofs, Transform, VI |
| inferences/klqp.py | build_reparam_kl_loss_and_gradients | 22 of 47 | KLShape, SubsampleExampleProofs, VI |
| inferences/klqp.py | build_reparam_entropy_loss_and_gradients | 17 of 52 | KLShape, VI |
| inferences/klqp.py | build_score_loss_and_gradients | 56 of 60 | LogJoint, SubsampleExampleProofs, VI |
| inferences/klqp.py | build_score_kl_loss_and_gradients | 26 of 60 | VI |
| inferences/klqp.py | build_score_entropy_loss_and_gradients | 28 of 67 | VI |
| inferences/klqp.py | build_score_rb_loss_and_gradients | 85 of 85 | VI |
| inferences/laplace.py | Laplace.\_\_init\_\_ | 28 of 28 | Default, Laplace, LaplaceJoint |
| inferences/laplace.py | Laplace.initialize | 21 of 21 | Laplace, LaplaceJoint, Options |
| inferences/laplace.py | Laplace.finalize | 10 of 10 | Feed, FeedHistory, Laplace, LaplaceJoint |
| inferences/map.py | MAP.\_\_init\_\_ | 22 of 22 | Default |
| inferences/map.py | MAP.build_loss_and_gradients | 31 of 31 | LogJoint, VI |
| inferences/metropolis_hastings.py | MetropolisHastings.initialize | 2 of 2 | Options |
| inferences/metropolis_hastings.py | MetropolisHastings.build_update | 79 of 79 | Compose, Ext, LogJoint, MH, MonteCarlo, Schedule, ScheduleExampleProofs |
| inferences/monte_carlo.py | MonteCarlo.\_\_init\_\_ | 16 of 16 | Compose, Debug, Default, MonteCarlo, ResetOps |
| inferences/monte_carlo.py | MonteCarlo.initialize | 14 of 14 | Compose, Debug, Ext, LogVars, MonteCarlo, Options, Proposals, ResetOps, SamplerReset, Schedule |
| inferences/monte_carlo.py | MonteCarlo.update | 20 of 20 | Compose, Debug, Feed, FeedHistory, Lifecycle, MonteCarlo, Schedule |
| inferences/replica_exchange_mc.py | ReplicaExchangeMC.\_\_init\_\_ | 18 of 18 | Replica, ResetOps, SamplerReset |
| inferences/replica_exchange_mc.py | ReplicaExchangeMC.initialize | 2 of 2 | Options, Replica |
| inferences/replica_exchange_mc.py | ReplicaExchangeMC.build_update | 53 of 53 | Replica, Schedule |
| inferences/replica_exchange_mc.py | ReplicaExchangeMC._mh_sample | 71 of 71 | Ext, MH, MonteCarlo, Replica |
| inferences/replica_exchange_mc.py | ReplicaExchangeMC._replica_exchange | 17 of 17 | Replica |
| inferences/replica_exchange_mc.py | ReplicaExchangeMC._replica_ratio | 36 of 36 | LogJoint, Replica, Schedule |
| inferences/sghmc.py | SGHMC.initialize | 5 of 5 | Options, ResetOps, SGLD, SamplerReset, Schedule |
| inferences/sghmc.py | SGHMC.build_update | 32 of 32 | MonteCarlo, SGLD, Schedule, ScheduleExampleProofs |
| inferences/sghmc.py | SGHMC._log_joint | 25 of 25 | LogJoint, SGLD |
| inferences/sgld.py | SGLD.initialize | 2 of 2 | Options |
| inferences/sgld.py | SGLD.build_update | 27 of 27 | MonteCarlo, SGLD, Schedule |
| inferences/sgld.py | SGLD._log_joint | 25 of 25 | LogJoint, SGLD, SubsampleExampleProofs |
| inferences/variational_inference.py | VariationalInference.initialize | 81 of 81 | Compose, Debug, LogVars, LogVarsProps, Optim, Options, ResetOps, Schedule, ScheduleExampleProofs, Steps, VI |
| inferences/variational_inference.py | VariationalInference.update | 19 of 19 | Compose, Debug, Feed, FeedHistory, Lifecycle, Optim, Schedule, Steps |
| inferences/wake_sleep.py | WakeSleep.initialize | 3 of 3 | Options, VI |
| inferences/wake_sleep.py | WakeSleep.build_loss_and_gradients | 76 of 76 | LogJoint, VI |
| inferences/wgan_inference.py | WGANInference.initialize | 10 of 10 | GAN, Options |
| inferences/wgan_inference.py | WGANInference.build_loss_and_gradients | 40 of 40 | GAN, Penalty |
| inferences/wgan_inference.py | WGANInference.update | 7 of 7 | Feed, GAN |
| models/dirichlet_process.py | distributions_DirichletProcess.\_\_init\_\_ | 33 of 33 | DP, RandomVar |
| models/dirichlet_process.py | distributions_DirichletProcess.base | 1 of 1 | DP |
| models/dirichlet_process.py | distributions_DirichletProcess.concentration | 1 of 1 | DP |
| models/dirichlet_process.py | distributions_DirichletProcess.locs | 1 of 1 | DP |
| models/dirichlet_process.py | distributions_DirichletProcess.probs | 1 of 1 | DP |
| models/dirichlet_process.py | distributions_DirichletProcess._batch_shape_tensor | 1 of 1 | DP |
| models/dirichlet_process.py | distributions_DirichletProcess._batch_shape | 1 of 1 | DP |
| models/dirichlet_process.py | distributions_DirichletProcess._event_shape_tensor | 1 of 1 | DP |
| models/dirichlet_process.py | distributions_DirichletProcess._event_shape | 1 of 1 | DP |
| models/dirichlet_process.py | distributions_DirichletProcess._sample_n | 37 of 37 | DP |
| models/dirichlet_process.py | distributions_DirichletProcess._sample_n_cond | 1 of 1 | DP |
| models/dirichlet_process.py | distributions_DirichletProcess._sample_n_body | 36 of 36 | DP |
| models/empirical.py | distributions_Empirical.\_\_init\_\_ | 17 of 17 | Empirical |
| models/empirical.py | distributions_Empirical._param_shapes | 1 of 1 | Empirical |
| models/empirical.py | distributions_Empirical.params | 1 of 1 | Empirical |
| models/empirical.py | distributions_Empirical.n | 1 of 1 | Empirical |
| models/empirical.py | distributions_Empirical._batch_shape_tensor | 1 of 1 | Empirical |
| models/empirical.py | distributions_Empirical._batch_shape | 1 of 1 | Empirical |
| models/empirical.py | distributions_Empirical._event_shape_tensor | 1 of 1 | Empirical |
| models/empirical.py | distributions_Empirical._event_shape | 1 of 1 | Empirical |
| models/empirical.py | distributions_Empirical._mean | 1 of 1 | Empirical |
| models/empirical.py | distributions_Empirical._stddev | 2 of 2 | Empirical |
| models/empirical.py | distributions_Empirical._variance | 1 of 1 | Empirical |
| models/empirical.py | distributions_Empirical._sample_n | 12 of 12 | Empirical |
| models/param_mixture.py | distributions_ParamMixture.\_\_init\_\_ | 82 of 82 | Mixture, RandomVar |
| models/param_mixture.py | distributions_ParamMixture.cat | 1 of 1 | Mixture |
| models/param_mixture.py | distributions_ParamMixture.components | 1 of 1 | Mixture |
| models/param_mixture.py | distributions_ParamMixture.num_components | 1 of 1 | Mixture |
| models/param_mixture.py | distributions_ParamMixture._batch_shape_tensor | 1 of 1 | Mixture |
| models/param_mixture.py | distributions_ParamMixture._batch_shape | 1 of 1 | Mixture |
| models/param_mixture.py | distributions_ParamMixture._event_shape_tensor | 1 of 1 | Mixture |
| models/param_mixture.py | distributions_ParamMixture._event_shape | 1 of 1 | Mixture |
| models/param_mixture.py | distributions_ParamMixture._log_prob | 19 of 19 | Ext, Mixture |
| models/param_mixture.py | distributions_ParamMixture.conjugate_log_prob | 1 of 1 | Mixture |
| models/param_mixture.py | distributions_ParamMixture.marginal_log_prob | 11 of 11 | Mixture |
| models/param_mixture.py | distributions_ParamMixture._sample_n | 25 of 25 | Mixture |
| models/param_mixture.py | distributions_ParamMixture._mean | 4 of 4 | Mixture |
| models/param_mixture.py | distributions_ParamMixture._stddev | 4 of 4 | Mixture |
| models/param_mixture.py | distributions_ParamMixture._variance | 4 of 4 | Mixture |
| models/point_mass.py | distributions_PointMass.\_\_init\_\_ | 13 of 13 | Empirical |
| models/point_mass.py | distributions_PointMass._param_shapes | 2 of 2 | Empirical |
| models/point_mass.py | distributions_PointMass.params | 1 of 1 | Empirical |
| models/point_mass.py | distributions_PointMass._batch_shape_tensor | 1 of 1 | Empirical |
| models/point_mass.py | distributions_PointMass._batch_shape | 1 of 1 | Empirical |
| models/point_mass.py | distributions_PointMass._event_shape_tensor | 1 of 1 | Empirical |
| models/point_mass.py | distributions_PointMass._event_shape | 1 of 1 | Empirical |
| models/point_mass.py | distributions_PointMass._mean | 1 of 1 | Empirical |
| models/point_mass.py | distributions_PointMass._stddev | 1 of 1 | Empirical |
| models/point_mass.py | distributions_PointMass._variance | 1 of 1 | Empirical |
| models/point_mass.py | distributions_PointMass._sample_n | 5 of 5 | Empirical |
| models/random_variable.py | RandomVariable.\_\_init\_\_ | 47 of 47 | Copy, KLShape, RVProgram, RandomVar |
| models/random_variable.py | RandomVariable.\_\_repr\_\_ | 2 of 2 | Transform |
| models/random_variable.py | RandomVariable.\_\_hash\_\_ | 1 of 1 | Copy, Graph, RandomVar, Transform |
| models/random_variable.py | RandomVariable.\_\_eq\_\_ | 1 of 1 | Copy, Graph, RandomVar, Transform |
| models/random_variable.py | RandomVariable.\_\_bool\_\_ | 6 of 6 | RVProgram |
| models/random_variable.py | RandomVariable.\_\_nonzero\_\_ | 6 of 6 | RVProgram |
| models/random_variable.py | RandomVariable.eval | 1 of 1 | RVProgram |
| models/random_variable.py | RandomVariable.value | 1 of 1 | RVProgram |
| models/random_variable.py | RandomVariable._overload_all_operators | 2 of 2 | RVProgram |
| models/random_variable.py | RandomVariable._overload_operator | 9 of 9 | Copy, Graph, RVProgram |
| models/random_variable.py | RandomVariable._session_run_conversion_fetch_function | 1 of 1 | RVProgram |
| models/random_variable.py | RandomVariable._session_run_conversion_feed_function | 1 of 1 | RVProgram |
| models/random_variable.py | RandomVariable._tensor_conversion_function | 6 of 6 | RVProgram |
| util/graphs.py | get_session | 20 of 20 | Session |
| util/graphs.py | random_variables | 4 of 4 | Copy, RandomVar, Session |
| util/graphs.py | set_seed | 8 of 8 | Seeds, SeedsProps, SeedsSpec, Session |
| util/metrics.py | with_binary_averaging | 24 of 24 | Evaluate, Metrics |
| util/progbar.py | Progbar.\_\_init\_\_ | 10 of 10 | Progbar |
| util/progbar.py | Progbar.update | 62 of 62 | Progbar |
| util/random_variables.py | check_data | 37 of 37 | Checks |
| util/random_variables.py | check_latent_vars | 16 of 16 | Checks, Default |
| util/random_variables.py | _get_context_copy | 2 of 9 | CopyLoopSpec |
| util/random_variables.py | _copy_context | 28 of 28 | CopyLoopProps, CopyLoopSpec |
| util/random_variables.py | copy | 240 of 240 | Copy, CopyLoop, CopyLoopSpec, Seeds, SeedsProps, SeedsSpec |
| util/random_variables.py | get_ancestors | 26 of 26 | Graph |
| util/random_variables.py | get_blanket | 9 of 9 | Graph |
| util/random_variables.py | get_children | 27 of 27 | Graph |
| util/random_variables.py | get_descendants | 27 of 27 | Graph |
| util/random_variables.py | get_parents | 26 of 26 | Copy, Graph |
| util/random_variables.py | get_siblings | 7 of 7 | Graph |
| util/random_variables.py | get_variables | 26 of 26 | Graph, LogVars |
| util/random_variables.py | is_independent | 50 of 50 | BayesBall |
| util/random_variables.py | transform | 28 of 28 | Transform |
| util/random_variables.py | compute_multinomial_mode | 26 of 26 | Mode |
| util/tensorflow.py | dot | 15 of 15 | Util |
| util/tensorflow.py | rbf | 22 of 22 | Util |
| util/tensorflow.py | to_simplex | 26 of 26 | Util |
| util/tensorflow.py | get_control_variate_coef | 11 of 11 | Util |

Not cited by any definition: `criticisms/ppc_plots.py: ppc_density_plot`; `criticisms/ppc_plots.py: ppc_stat_hist_plot`; `inferences/bigan_inference.py: BiGANInference.__init__`; `inferences/conjugacy/conjugacy.py: subgraph_leaves`; `inferences/conjugacy/conjugate_log_probs.py: _val_wrapper`; `inferences/conjugacy/simplify.py: is_number`; `inferences/gan_inference.py: GANInference.__init__`; `inferences/gan_inference.py: GANInference.print_progress`; `inferences/gibbs.py: Gibbs.__init__`; `inferences/hmc.py: HMC.__init__`; `inferences/implicit_klqp.py: ImplicitKLqp.__init__`; `inferences/klqp.py: ReparameterizationKLqp.build_loss_and_gradients`; `inferences/klqp.py: ReparameterizationKLKLqp.build_loss_and_gradients`; `inferences/klqp.py: ReparameterizationEntropyKLqp.build_loss_and_gradients`; `inferences/klqp.py: ScoreKLqp.build_loss_and_gradients`; `inferences/klqp.py: ScoreKLKLqp.build_loss_and_gradients`; `inferences/klqp.py: ScoreEntropyKLqp.build_loss_and_gradients`; `inferences/klqp.py: ScoreRBKLqp.build_loss_and_gradients`; `inferences/metropolis_hastings.py: MetropolisHastings.__init__`; `inferences/monte_carlo.py: MonteCarlo.print_progress`; `inferences/monte_carlo.py: MonteCarlo.build_update`; `inferences/replica_exchange_mc.py: _stateful_lambda.__init__`; `inferences/replica_exchange_mc.py: _stateful_lambda.__call__`; `inferences/sghmc.py: SGHMC.__init__`; `inferences/sgld.py: SGLD.__init__`; `inferences/variational_inference.py: VariationalInference.__init__`; `inferences/variational_inference.py: VariationalInference.print_progress`; `inferences/variational_inference.py: VariationalInference.build_loss_and_gradients`; `inferences/wake_sleep.py: WakeSleep.__init__`; `inferences/wgan_inference.py: WGANInference.__init__`; `models/dirichlet_process.py: __init__`; `models/empirical.py: __init__`; `models/param_mixture.py: __init__`; `models/point_mass.py: __init__`; `models/random_variable.py: RandomVariable.sample_shape`; `models/random_variable.py: RandomVariable.shape`; `models/random_variable.py: RandomVariable.__str__`; `models/random_variable.py: RandomVariable.__iter__`; `models/random_variable.py: RandomVariable.get_ancestors`; `models/random_variable.py: RandomVariable.get_blanket`; `models/random_variable.py: RandomVariable.get_children`; `models/random_variable.py: RandomVariable.get_descendants`; `models/random_variable.py: RandomVariable.get_parents`; `models/random_variable.py: RandomVariable.get_siblings`; `models/random_variable.py: RandomVariable.get_variables`; `models/random_variable.py: RandomVariable.get_shape`; `models/random_variable.py: RandomVariable._session_run_conversion_feed_function_for_partial_run`; `util/random_variables.py: _copy_default`.

## Assumptions of each theorem (`Print Assumptions`)

### Closed under the global context (no axiom)

`C01_get_children_exact`, `C01_get_parents_exact`, `C02_get_ancestors_exact`, `C02_get_descendants_exact`, `C03_ancestors_descendants_dual`, `C03_parents_children_dual`, `C04_ancestors_are_closure_of_parents`, `C04_descendants_are_closure_of_children`, `C05_get_blanket_exact`, `C05_get_siblings_exact`, `C06_get_variables_exact`, `C07_is_independent_iff_d_separated`, `C08_blanket_shields`, `C08_symmetric_without_point_masses`, `C09_copy_keeps_values`, `C09_copy_only_adds`, `C09_names`, `C09_scope_required`, `C10_copy_q_cycle_refuted`, `C10_copy_q_endless_refuted`, `C10_copy_q_partial`, `C10_copy_q_variables_partial`, `C10_copy_substitutes_partial`, `C10_replace_itself_partial`, `C10_tensor_key_refuted`, `C10_without_parents_partial`, `C10_without_parents_refuted`, `C11_copy_after_history_partial`, `C11_same_scope_refuted`, `C12_copy_shares_state_partial`, `C12_no_state_added_partial`, `C12_placeholder_op_refuted`, `C13_data_never_dropped`, `C14_latent_vars_consistent`, `C16_discrete_refuted`, `C16_initialize_again_refuted`, `C17_crash_partial`, `C17_no_variables_refuted`, `C17_run_partial`, `C18_default`, `C18_history_reports`, `C18_run_reports`, `C19_no_stale_characters`, `C20_bound_data_partial`, `C20_gibbs_partial`, `C20_gibbs_passed`, `C20_gibbs_refuted`, `C20_main_run_partial`, `C27_start_partial`, `C28_permutation_partial`, `C29_adversarial_refuted`, `C29_captured_refuted`, `C29_gibbs_refuted`, `C29_global_step_refuted`, `C29_isolated_partial`, `C29_sampler_partial`, `C29_variational_partial`, `C29_velocity_refuted`, `C30_rounding`, `C30_rounding_error`, `C31_full_simplify_terminates`, `C40_plain`, `C40_split`, `C41_default_var_list`, `C44_bigan_partial`, `C44_bigan_refuted`, `C44_bigan_regularisers_partial`, `C44_history`, `C44_outer_scope_refuted`, `C44_prefix_refuted`, `C44_regularisers`, `C44_sides_partial`, `C44_update`, `C45_compound`, `C45_documented_refuted`, `C45_graphs`, `C45_half_registered_refuted`, `C45_identity`, `C45_inner_refuted`, `C45_once_partial`, `C45_order`, `C45_outcome`, `C45_value`, `C45_value_unknown`, `C47_base_partial`, `C47_base_refuted`, `C47_ends`, `C47_memoized`, `C47_sample`, `C48_axis`, `C48_one_vector_refuted`, `C48_shape_partial`, `C54_bad_average`, `C54_default_tensor_output`, `C54_documented_partial`, `C54_log_lik`, `C54_no_output`, `C54_python_value_refuted`, `C54_rejects`, `C54_stray_param_refuted`, `C54_tensor_output_refuted`, `C54_tuple_refuted`, `C54_undocumented`, `C54_unknown_metric`, `C55_entries_partial`, `C55_no_latent_vars`, `C55_raises`, `C55_same_draw_partial`, `C55_same_draw_refuted`, `C56_float_seed_refuted`, `C56_get_session`, `C56_keras`, `C56_same_session`, `C56_seeds_agree`, `C56_seeds_fixed`, `C56_set_seed`, `C57_rebuild_refuted`, `C59_joint_refuted`, `C59_samples_partial`, `C66_sets`, `C68_choice`, `C68_kl_scaling`, `C68_n_samples`, `C69_dict`, `C69_dict_raises`, `C69_klqp_outcome`, `C69_klqp_partial`, `C69_laplace_returns`, `C69_laplace_scalar_refuted`, `C69_laplace_simplex_refuted`, `C69_map_discrete`, `C69_map_returns`, `C69_map_simplex_refuted`, `C69_monte_carlo_partial`, `C69_sample_shape_refuted`, `C70_built_once_partial`, `C70_default_set`, `C70_joined_names_refuted`, `C70_log_joint_of_set_partial`, `C70_node_name`, `C71_absolute`, `C71_branches`, `C71_constants`, `C71_negation`, `C71_numbers`, `C71_parameters`, `C71_program`, `C72_gradient_refuted`, `C72_log_partial`, `C72_names_apart`, `C72_shared_refuted`, `C72_tags`, `C73_fresh_noise_partial`, `C73_gibbs_refuted`, `C73_own_seed_refuted`, `C73_reproducible_partial`, `C74_gradient_refuted`, `C74_loops_partial`, `C75_given_refuted`, `C75_initialize_partial`, `C75_positional`, `C75_run_partial`, `C75_used_exist`, `C75_value_error`, `C76_increment_apart`, `C76_rate_refuted`, `C76_replica_ratio`, `C76_sampler`, `C76_sghmc_partial`, `C76_sghmc_refuted`, `C76_variational_partial`, `C76_variational_refuted`, `C78_broadcast`, `C80_gibbs_builds_partial`, `C81_algorithm_refuted`, `C81_checked_partial`, `C81_data`, `C81_draws_refuted`, `C81_numpy_refuted`, `C81_session`, `C82_counters`, `C82_fixed_partial`, `C82_fixed_refuted`, `C82_frame`, `C82_isolated`, `C82_order`, `C94_caller_refuted`, `C94_dictionary`, `C94_gibbs_caller`, `C94_gibbs_sticky`, `C94_none`, `C94_own_partial`, `C94_shared`

### `ClassicalDedekindReals.sig_forall_dec`

`C46_samples`, `C60_documented_refuted`, `C60_matrix_vector_partial`, `C60_vector_matrix`, `C62_log_joint_partial`, `C62_map_loss`, `C62_replica_partial`, `C63_samples_partial`, `C65_one_function_partial`, `C66_iterated`, `C96_dropped`, `C96_dropped_refuted`

### `FunctionalExtensionality.functional_extensionality_dep`

`C76_determined`, `C76_sampler_same`

### `FunctionalExtensionality.functional_extensionality_dep`, `ClassicalDedekindReals.sig_forall_dec`

`C21_past_end`, `C21_run`, `C21_updates`, `C23_above_one_refuted`, `C23_first_rate_refuted`, `C23_rate_partial`, `C25_lebesgue`, `C25_reversible`, `C25_volume`, `C26_scaled_target_partial`, `C27_invariant_partial`, `C27_law_refuted`, `C27_scan_partial`, `C28_ladder_partial`, `C36_kl_hierarchy_refuted`, `C36_rb_partial`, `C36_rb_refuted`, `C36_reparam`, `C36_reparam_entropy`, `C36_reparam_kl_partial`, `C36_score`, `C36_score_entropy`, `C36_score_kl_partial`, `C39_kl_refuted`, `C39_map_partial`, `C39_sgld_partial`, `C39_sleep_refuted`, `C42_default_rate`, `C42_rate_decays`, `C42_selection`, `C43_joint_partial`, `C43_marginal`, `C43_normal_partial`, `C43_normal_refuted`, `C43_tril_partial`, `C43_tril_refuted`, `C43_tril_stored_partial`, `C44_clip_partial`, `C44_clip_refuted`, `C44_var_list_refuted`, `C46_point_mass`, `C46_probs`, `C46_scalar_refuted`, `C47_stick_breaking`, `C48_log_prob_nan`, `C48_log_prob_partial`, `C48_log_prob_refuted`, `C48_mean`, `C48_sample`, `C48_variance`, `C48_variance_nonneg`, `C48_vector_refuted`, `C51_documented_refuted`, `C51_optimal_partial`, `C53_accuracy`, `C53_averages`, `C53_categorical_accuracy`, `C53_class_wise`, `C53_hinge`, `C53_hinge_labels_refuted`, `C53_mean_errors`, `C53_one_hot`, `C53_unknown_average_refuted`, `C58_hinge`, `C58_penalty`, `C58_wasserstein`, `C58_wgan`, `C61_average`, `C61_bernoulli`, `C61_bernoulli_best`, `C61_binomial_refuted`, `C61_categorical`, `C62_log_joint_refuted`, `C63_samples_refuted`, `C64_ratio_partial`, `C64_scope_refuted`, `C65_one_function_refuted`, `C67_fantasy_refuted`, `C67_wake_loss`, `C77_block_refuted`, `C77_free_partial`, `C77_single_partial`, `C79_full_conditional_partial`, `C79_given_value_refuted`, `C80_gibbs_scan_partial`, `C80_gibbs_update_partial`, `C83_epoch`, `C83_kl_partial`, `C83_kl_refuted`, `C83_kl_scaling`, `C83_kl_small`, `C83_map`, `C83_reparam`, `C83_replacement`, `C83_sgld`, `C84_entropy`, `C84_entropy_exact`, `C84_kl`, `C84_kl_exact`, `C84_penalty`, `C85_decay_sum`, `C85_descend_short`, `C85_descend_travel`, `C85_no_schedule`, `C87_box`, `C87_line_partial`, `C87_line_refuted`, `C88_small_steps`, `C88_stationary`, `C89_gibbs_partial`, `C92_gibbs_partial`, `C95_gibbs`, `C95_history`, `C96_batches`, `C96_discriminator`, `C96_global_refuted`, `C96_many`

### `FunctionalExtensionality.functional_extensionality_dep`, `ClassicalDedekindReals.sig_forall_dec`, `ClassicalDedekindReals.sig_not_dec`

`C25_real_integral`, `C25_real_riemann`, `C37_integrals`, `C37_interchange_sum`, `C37_model_variables`, `C37_model_variables_general`, `C37_reparam`, `C37_reparam_general`, `C37_score_entropy_general_partial`, `C37_score_entropy_partial`, `C37_score_general_partial`, `C37_score_kl_general_partial`, `C37_score_kl_partial`, `C37_score_partial`, `C37_stopped_entropy_partial`, `C37_stopped_kl_partial`, `C37_stopped_partial`, `C40_rb`, `C43_joint_refuted`, `C46_moments_partial`, `C50_entries`, `C50_raises`, `C50_semidefinite`, `C52_one_partial`, `C52_terminates_refuted`, `C52_total_partial`, `C52_unchanged_refuted`, `C52_whole_partial`, `C53_cosine`, `C53_cosine_self`, `C66_as_score`, `C66_unbiased_partial`, `C67_other_phase_partial`, `C67_sleep_general_partial`, `C67_sleep_held_partial`, `C67_sleep_partial`, `C67_wake_general`, `C67_wake_partial`, `C83_map_gradient`, `C83_reparam_gradient`, `C83_score_partial`, `C85_first_step`, `C85_reach_refuted`, `C85_travel`, `C87_batch_refuted`, `C87_slopes`, `C87_zero`, `C90_spaces`

### `Classical_Prop.classic`, `FunctionalExtensionality.functional_extensionality_dep`, `ClassicalDedekindReals.sig_forall_dec`, `ClassicalDedekindReals.sig_not_dec`

`C15_log_det_jacobian`, `C15_transform`, `C15_transform_total`, `C16_auto_transform_partial`, `C16_initialize_again_partial`, `C16_raises_partial`, `C22_hmc`, `C22_mh`, `C24_detailed_balance`, `C24_probability_unique`, `C24_real_fubini`, `C24_real_stationary`, `C24_stationary`, `C24_stationary_general`, `C25_balance`, `C25_probability_unique`, `C25_real_stationary`, `C25_real_volume`, `C25_stationary`, `C26_hmc_partial`, `C26_sghmc_partial`, `C26_sghmc_refuted`, `C26_sgld_partial`, `C26_sgld_refuted`, `C26_simplex_refuted`, `C26_volume_partial`, `C28_exchange_partial`, `C28_exchange_stationary_partial`, `C28_move_partial`, `C28_move_refuted`, `C28_order_partial`, `C28_run_partial`, `C30_extraction_exact`, `C30_full_simplify_partial`, `C30_full_simplify_refuted`, `C30_powers_rounded_refuted`, `C30_root_of_square_refuted`, `C30_rules_exact_partial`, `C30_statistic_of_tensor_partial`, `C32_bernoulli_degenerate_refuted`, `C32_categorical_degenerate_refuted`, `C32_chi2_refuted`, `C32_log_probs_partial`, `C33_chi2_entry_refuted`, `C33_poisson_entry_refuted`, `C33_scalar_entries_partial`, `C33_vector_entries_partial`, `C34_complete_conditional_partial`, `C34_inner_constant_refuted`, `C34_product_of_statistics_refuted`, `C35_multipliers_exact`, `C37_interchange_interval`, `C37_interchange_volume`, `C37_scale_refuted`, `C37_score_real_partial`, `C37_shared_refuted`, `C37_stopped_refuted`, `C38_gradient`, `C38_loss_partial`, `C38_model_gradient`, `C38_model_partial`, `C38_model_refuted`, `C38_penalty_refuted`, `C38_stopped_partial`, `C38_weights`, `C39_klpq_refuted`, `C39_mh_refuted`, `C48_marginal_partial`, `C49_accepts`, `C49_injective`, `C49_onto`, `C49_rows`, `C49_simplex`, `C49_uniform`, `C50_kernel`, `C52_mode_refuted`, `C53_binary_crossentropy`, `C53_errors`, `C53_kl`, `C53_poisson`, `C53_sparse_crossentropy`, `C57_rebuild_exact_partial`, `C58_bigan`, `C58_cross_entropy`, `C58_generator`, `C58_optimum`, `C61_kl_negative_refuted`, `C61_kl_overwritten_refuted`, `C61_log_loss_refuted`, `C61_log_loss_value_refuted`, `C66_scale_refuted`, `C66_unbiased_general_partial`, `C69_laplace_partial`, `C69_map_partial`, `C69_map_transformed_refuted`, `C69_scale`, `C77_real_free_partial`, `C77_real_single_partial`, `C78_conditional_partial`, `C78_order_refuted`, `C78_returns_partial`, `C80_mh_builds_partial`, `C80_mh_covers_refuted`, `C80_mh_frozen_partial`, `C83_score_refuted`, `C84_entropy_refuted`, `C84_kl_refuted`, `C85_sgld`, `C86_joint`, `C86_sgld`, `C88_joint_refuted`, `C88_variance_refuted`, `C89_finite_partial`, `C89_general_partial`, `C89_hmc_refuted`, `C89_periodic_refuted`, `C89_real_partial`, `C90_bound`, `C90_entropy`, `C90_gap`, `C90_kl_hierarchy_refuted`, `C90_kl_partial`, `C90_only_posterior`, `C90_posterior`, `C90_rb`, `C91_default_refuted`, `C91_finite`, `C91_limit`, `C91_loss`, `C91_one_sample`, `C91_posterior`, `C92_finite_partial`, `C92_hmc_refuted`, `C92_real_partial`, `C93_bound`, `C93_small_steps`, `C93_unstable`, `C93_unstable_joint`, `C95_refuted`, `C96_densities`, `C96_discriminator_log`
