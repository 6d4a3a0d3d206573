{"id": "C01", "title": "Backward operation search is exact and ordered", "statement": "get_backward_ops(seeds, treat_as_inputs) terminates on every finite acyclic op graph and returns a duplicate-free list that contains exactly the ops reachable backwards from the seeds (data inputs are not followed through tensors in treat_as_inputs; control inputs always are), with every op placed after all the ops it was reached to depend on.", "quantifier": "every finite acyclic graph of ops with data and control inputs, every seed list, every treat_as_inputs set", "why_tests_cant": "tests cover five hand-made graphs of at most six ops; the claim is about graphs of any size and any sharing pattern", "anchors": ["zhusuan/framework/utils.py:get_backward_ops"]}
{"id": "C02", "title": "Context stacks are balanced", "statement": "Whatever with-blocks a program nests and wherever exceptions are raised or caught, leaving the program restores the context stack it started with; inside a block the innermost open context is the one returned, and asking with no open context raises RuntimeError.", "quantifier": "all programs built from nested with-blocks, sequencing, raising and catching, of any depth; all initial stacks", "why_tests_cant": "a test exercises one nesting depth and no exceptional exit", "anchors": ["zhusuan/framework/utils.py:Context.__enter__", "zhusuan/framework/utils.py:Context.__exit__", "zhusuan/framework/utils.py:Context.get_context"]}
{"id": "C03", "title": "Observations reach exactly the networks built under the innermost observe", "statement": "A BayesianNet created while a model function runs sees exactly the observations of the innermost enclosing observe() call (and the model that call belongs to), never those of an outer, sibling, finished or failed one; a BayesianNet created outside every observe() sees none.", "quantifier": "all programs nesting observe() calls to any depth, with exceptions raised and caught anywhere", "why_tests_cant": "nesting depth and exception points are unbounded", "anchors": ["zhusuan/framework/meta_bn.py:MetaBayesianNet.observe", "zhusuan/framework/meta_bn.py:MetaBayesianNet._run_with_observations", "zhusuan/framework/bn.py:_BayesianNet.__init__"]}
{"id": "C04", "title": "A stochastic node has one value", "statement": "During the whole life of a BayesianNet every read of the same stochastic node returns the same tensor, an observed node is never sampled and reads as its observation, an unobserved node is sampled at most once, and its cached conditional log-probability is the log-probability of that same tensor. The deprecated sample() of a node draws anew without changing the node's value.", "quantifier": "all finite histories of node creation, reads, conditional log-prob and log-joint queries", "why_tests_cant": "the order and number of reads is unbounded; a second sample would only be visible in the histories nobody tests", "anchors": ["zhusuan/framework/bn.py:StochasticTensor.tensor", "zhusuan/framework/bn.py:StochasticTensor.cond_log_p", "zhusuan/framework/bn.py:_BayesianNet.cond_log_prob"]}
{"id": "C05", "title": "Stochastic node names are unique and nodes are permanent", "statement": "Adding a stochastic node under a name already in the network raises ValueError and changes nothing; a node, once added, stays bound to its name for the rest of the history as long as deterministic() and the deprecated constructors are not called with that very name, and no other call ever affects the binding; item assignment is refused. (deterministic() silently replaces a node of the same name: recorded as a refutation of the unrestricted claim.)", "quantifier": "all finite histories of network operations", "why_tests_cant": "tests try one duplicate right after the first creation", "anchors": ["zhusuan/framework/bn.py:_BayesianNet.stochastic", "zhusuan/framework/bn.py:_BayesianNet.deterministic"]}
{"id": "C06", "title": "log_joint is the sum over the current stochastic nodes", "statement": "At every point of every history whose nodes are added with stochastic() (and deterministic() under fresh names), log_joint() equals the sum of the conditional log-probabilities of all stochastic nodes then in the network, also when it was queried (and cached) before nodes were added. A custom log_joint function set on the model before is applied to the current conditional log-probabilities it asks for. Three ways to get a stale value (deterministic() over an existing name, deprecated StochasticTensor construction, changing meta_bn.log_joint after a query) are exhibited.", "quantifier": "all finite histories of adding nodes and querying, in any interleaving", "why_tests_cant": "the cache makes the result depend on the whole history", "anchors": ["zhusuan/framework/bn.py:_BayesianNet.log_joint", "zhusuan/framework/bn.py:_BayesianNet._log_joint", "zhusuan/framework/bn.py:_BayesianNet.stochastic"]}
{"id": "C07", "title": "Multi-name queries are ordered and all-or-nothing", "statement": "get(names) and cond_log_prob(names) return one answer per name in the order asked, including repetitions; if any name is unknown they raise ValueError and, for cond_log_prob, if any name is not a stochastic node they raise ValueError, before touching any node. The deprecated outputs() and query() answer in the same order, query() with one tuple per name.", "quantifier": "all networks and all finite name lists", "why_tests_cant": "lists and networks are unbounded", "anchors": ["zhusuan/framework/bn.py:_BayesianNet.get", "zhusuan/framework/bn.py:_BayesianNet.cond_log_prob", "zhusuan/framework/bn.py:_BayesianNet._check_names_exist", "zhusuan/framework/bn.py:BayesianNet.query"]}
{"id": "C08", "title": "Observation precedence", "statement": "The value a stochastic node is bound to is decided by a fixed precedence: observations of the enclosing observe(), then observations given to the BayesianNet constructor, else a sample; None passed to observe() counts as no observation, None passed to the constructor is rejected; an observation that cannot be converted raises ValueError and leaves every name as it was.", "quantifier": "all observation dictionaries and names", "why_tests_cant": "dictionaries are unbounded and the cases interact", "anchors": ["zhusuan/framework/bn.py:_BayesianNet._get_observation", "zhusuan/framework/bn.py:StochasticTensor.__init__", "zhusuan/framework/bn.py:BayesianNet.__init__"]}
{"id": "C09", "title": "Dictionary merging is last-wins and defines who overrides whom", "statement": "merge_dicts of any number of dictionaries binds each key to its value in the last dictionary that has it and has no other keys; hence a user's `observed` entry overrides a variational sample or an HMC latent of the same name, while AIS evaluates its initial weight with the opposite precedence (so the two disagree exactly on overlapping keys).", "quantifier": "any number of dictionaries with any keys", "why_tests_cant": "number of dictionaries and key overlap patterns are unbounded", "anchors": ["zhusuan/utils.py:merge_dicts", "zhusuan/variational/base.py:VariationalObjective._log_joint_term", "zhusuan/hmc.py:HMC.sample", "zhusuan/evaluation.py:AIS.__init__"]}
{"id": "C10", "title": "Parameter broadcasting is exact", "statement": "Broadcasting two parameters succeeds iff, aligned from the right, each pair of extents is equal or has a 1; both results then have the same shape, the elementwise maximum-of-compatible extents, and each output element is the input element at the index with stretched axes set to 0. The operation is symmetric, associative on shapes and idempotent.", "quantifier": "all ranks, all extents, all tensors", "why_tests_cant": "ranks and extents are unbounded", "anchors": ["zhusuan/distributions/utils.py:explicit_broadcast", "zhusuan/distributions/utils.py:maybe_explicit_broadcast"]}
{"id": "C11", "title": "Shape contract of sample, prob and log_prob", "statement": "sample(n) has shape [n]+batch_shape+value_shape, sample() has shape batch_shape+value_shape; log_prob/prob of a value of shape broadcastable with batch_shape+value_shape has the broadcast batch shape with the last group_ndims axes removed.", "quantifier": "all distributions covered, all batch shapes, given shapes, n and group_ndims", "why_tests_cant": "ranks and extents are unbounded", "anchors": ["zhusuan/distributions/base.py:Distribution.sample", "zhusuan/distributions/base.py:Distribution.log_prob", "zhusuan/distributions/univariate.py", "zhusuan/distributions/multivariate.py"]}
{"id": "C12", "title": "Grouping sums log-probabilities and multiplies probabilities", "statement": "With group_ndims=g each entry of log_prob is the sum of the ungrouped log-probabilities over the last g batch axes, each entry of prob is the product, so prob = exp(log_prob) holds for every g; grouping in two stages equals grouping at once; a negative group_ndims is rejected.", "quantifier": "all tensors of log-probabilities, all g up to the rank", "why_tests_cant": "ranks and extents are unbounded", "anchors": ["zhusuan/distributions/base.py:Distribution.__init__", "zhusuan/distributions/base.py:Distribution.log_prob", "zhusuan/distributions/base.py:Distribution.prob"]}
{"id": "C13", "title": "Shape queries agree with the run-time shape", "statement": "get_shape_list and get_shape_at return the extents the tensor really has at run time, whatever part of the shape was known statically (including zero extents and unknown rank), and is_same_dynamic_shape is true iff the two run-time shapes are equal.", "quantifier": "all run-time shapes, all partial static knowledge consistent with them", "why_tests_cant": "the static/dynamic split has unboundedly many cases", "anchors": ["zhusuan/distributions/utils.py:get_shape_list", "zhusuan/distributions/utils.py:get_shape_at", "zhusuan/distributions/utils.py:is_same_dynamic_shape"]}
{"id": "C14", "title": "Static shape rejection is sound", "statement": "If log_prob or an observation is rejected at graph-building time for its shape, then no run-time completion of the unknown extents could have been broadcast with the distribution's shape; fully known shapes are rejected iff they cannot be broadcast.", "quantifier": "all partially known shapes and all their completions", "why_tests_cant": "completions are infinite in number", "anchors": ["zhusuan/distributions/base.py:Distribution._check_input_shape", "zhusuan/framework/bn.py:StochasticTensor._check_observation"]}
{"id": "C15", "title": "Discrete distributions are normalised", "statement": "For every parameter value exp(log_prob) is nonnegative and sums to one over the support for Bernoulli, Categorical, OnehotCategorical, Binomial(n), Poisson (infinite series) and Multinomial(n, k categories).", "quantifier": "all real logits, all rates > 0, all n, all numbers of categories", "why_tests_cant": "parameters are real-valued and supports unbounded", "anchors": ["zhusuan/distributions/univariate.py:Bernoulli._log_prob", "zhusuan/distributions/univariate.py:Categorical._log_prob", "zhusuan/distributions/univariate.py:Binomial._log_prob", "zhusuan/distributions/univariate.py:Poisson._log_prob", "zhusuan/distributions/multivariate.py:Multinomial._log_prob", "zhusuan/distributions/multivariate.py:OnehotCategorical._log_prob"]}
{"id": "C16", "title": "Continuous densities integrate to one", "statement": "For every valid parameter value the density exp(log_prob) of Uniform, Laplace, Normal, FoldNormal, BinConcrete and (relative to the Gamma integral that lgamma names) Gamma, InverseGamma and Beta integrates to one over its support, and those of Dirichlet, Concrete and (in log ratios to the last category) ExpConcrete over the simplex of any number of categories. The densities of MultivariateNormalCholesky and MatrixVariateNormalCholesky integrate to one over all vectors and matrices of any dimension, for every lower triangular factor with positive diagonal.", "quantifier": "all real parameter values", "why_tests_cant": "the parameter space is a continuum", "anchors": ["zhusuan/distributions/univariate.py:Uniform._log_prob", "zhusuan/distributions/univariate.py:Laplace._log_prob", "zhusuan/distributions/univariate.py:Normal._log_prob", "zhusuan/distributions/univariate.py:FoldNormal._log_prob", "zhusuan/distributions/univariate.py:BinConcrete._log_prob", "zhusuan/distributions/univariate.py:Gamma._log_prob", "zhusuan/distributions/univariate.py:InverseGamma._log_prob", "zhusuan/distributions/univariate.py:Beta._log_prob", "zhusuan/distributions/multivariate.py:Dirichlet._log_prob"]}
{"id": "C17", "title": "The sampler draws from the density that log_prob reports", "statement": "For the distributions whose sampler is a deterministic transform of noise, the transform carries the noise law to exp(log_prob): Uniform, Laplace and BinConcrete turn the u-quantile of uniform noise into the u-quantile of the reported density; Normal's transform has unit density Jacobian balance; Bernoulli returns 1 on a noise set of measure exp(log_prob(1)). For the samplers built on tf.random.categorical (Categorical, OnehotCategorical, Binomial, Multinomial), when each random cell is an independent categorical draw, every draw of every batch entry has exactly the probabilities exp(log_prob). Beta's quotient of two independent standard gamma draws has, below every threshold, exactly the mass of exp(log_prob). Concrete and ExpConcrete turn independent uniform noise, and Dirichlet turns independent standard gamma draws, into points of the simplex (or their logarithms) under which every statistic has the mean that the reported density gives it, for any number of categories. MultivariateNormalCholesky and MatrixVariateNormalCholesky turn independent standard normals into draws under which every statistic has the mean that the reported density gives it.", "quantifier": "all parameters, all noise values in the open noise range", "why_tests_cant": "a statistical test cannot exclude a wrong tail or a parameter region", "anchors": ["zhusuan/distributions/univariate.py:Laplace._sample", "zhusuan/distributions/univariate.py:Uniform._sample", "zhusuan/distributions/univariate.py:BinConcrete._sample", "zhusuan/distributions/univariate.py:Normal._sample", "zhusuan/distributions/univariate.py:Bernoulli._sample", "zhusuan/distributions/multivariate.py:Dirichlet._sample", "zhusuan/distributions/multivariate.py:ExpConcrete._sample", "zhusuan/distributions/multivariate.py:Concrete._sample"]}
{"id": "C18", "title": "Samples lie in the support", "statement": "Every sample lies where log_prob is finite: Uniform in [minval,maxval), Bernoulli in {0,1}, BinConcrete in (0,1), Binomial in 0..n, Multinomial counts are nonnegative and sum to n_experiments, OnehotCategorical has exactly one 1, Concrete and Dirichlet samples are on the open simplex. FoldNormal is refuted: its sampler returns negative values, whose reported density is zero.", "quantifier": "all parameters and all noise values", "why_tests_cant": "noise and parameters are continuous", "anchors": ["zhusuan/distributions/univariate.py:FoldNormal._sample", "zhusuan/distributions/univariate.py:Binomial._sample", "zhusuan/distributions/multivariate.py:Multinomial._sample", "zhusuan/distributions/multivariate.py:Dirichlet._sample", "zhusuan/distributions/multivariate.py:Concrete._sample"]}
{"id": "C19", "title": "Parameterisations of the same distribution agree", "statement": "Normal and FoldNormal given std and given logstd=log(std) have the same samples for the same noise and the same log_prob; passing neither or both is rejected; adding a constant to all logits changes no log_prob and no Gumbel-type sample of Categorical, OnehotCategorical, Multinomial and Concrete families.", "quantifier": "all parameters, values and noise", "why_tests_cant": "parameters are continuous", "anchors": ["zhusuan/distributions/univariate.py:Normal.__init__", "zhusuan/distributions/univariate.py:FoldNormal.__init__", "zhusuan/distributions/multivariate.py:Concrete._log_prob"]}
{"id": "C20", "title": "Related distributions are consistent with each other", "statement": "InverseGamma is the law of 1/Gamma; Concrete is the law of exp(ExpConcrete); BinConcrete(T, l) is the first coordinate of Concrete(T, [l,0]); Dirichlet of two categories is Beta; OnehotCategorical of a one-hot value is Categorical of its index; Multinomial with one experiment is OnehotCategorical; Binomial with one experiment is Bernoulli; UnnormalizedMultinomial differs from Multinomial by the log multinomial coefficient; FoldNormal is Normal folded at zero.", "quantifier": "all parameters and values", "why_tests_cant": "identities over continuous parameters and unbounded category counts", "anchors": ["zhusuan/distributions/univariate.py", "zhusuan/distributions/multivariate.py"]}
{"id": "C21", "title": "Cholesky-parameterised normals: sampler and density are inverse to each other", "statement": "For any dimension and any lower-triangular Cholesky factor with positive diagonal, the whitening done by MultivariateNormalCholesky.log_prob recovers exactly the standard-normal noise that sample used, so log_prob(sample(noise)) = -sum(noise^2)/2 - sum(log diag) - n/2 log(2 pi); the same holds for MatrixVariateNormalCholesky with row and column factors; with a diagonal factor the density is the product of univariate Normals.", "quantifier": "all dimensions, all factors, all noise", "why_tests_cant": "dimension is unbounded", "anchors": ["zhusuan/distributions/multivariate.py:MultivariateNormalCholesky", "zhusuan/distributions/multivariate.py:MatrixVariateNormalCholesky"]}
{"id": "C22", "title": "log_combination is the log multinomial coefficient", "statement": "For every n and every list of nonnegative counts summing to n, exp(log_combination(n, ks)) is the number of arrangements n!/(k1!...km!), an integer at least 1.", "quantifier": "all n and all count lists", "why_tests_cant": "n and number of categories are unbounded", "anchors": ["zhusuan/distributions/utils.py:log_combination"]}
{"id": "C23", "title": "log_mean_exp and log_sum_exp are exact and overflow-free", "statement": "For every nonempty list of reals they equal log(mean(exp)) and log(sum(exp)); they are monotone, shift-equivariant, lie between max - log n (resp. max) and max (resp. max + log n); every exponential taken internally is at most 1 and the logarithm's argument is at least 1/n (resp. 1). With every entry equal to -infinity the result is NaN instead of -infinity (refutation on extended reals).", "quantifier": "all nonempty finite lists of reals, and of extended reals", "why_tests_cant": "overflow depends on magnitudes tests do not reach", "anchors": ["zhusuan/utils.py:log_mean_exp", "zhusuan/utils.py:log_sum_exp"]}
{"id": "C24", "title": "The HMC integrator is the leapfrog scheme, reversible and volume preserving", "statement": "For every number of leapfrog steps, step size, mass and gradient field, the integrator equals that many kick-drift-kick steps; flipping the momentum and integrating again returns to the start exactly; each step has Jacobian determinant one (smooth gradient).", "quantifier": "all n >= 1, all dimensions, all step sizes, all masses, all gradient fields", "why_tests_cant": "number of steps and dimension unbounded, gradient arbitrary", "anchors": ["zhusuan/hmc.py:HMC._leapfrog", "zhusuan/hmc.py:leapfrog_integrator"]}
{"id": "C25", "title": "Metropolis correction satisfies detailed balance and rejects non-finite proposals", "statement": "The acceptance rate is in [0,1], is exactly min(1, exp(oldH-newH)) for finite energies, is 0 whenever the proposal's energy or log-density is not finite, and together with the reversible integrator satisfies exp(-H(x)) a(x->y) = exp(-H(y)) a(y->x) for the momentum-flipped pair; hence the transition leaves every target with a continuous log-density invariant: for a position drawn from the target, standard normal noise and a uniform acceptance number, every continuous non-negative function of a chain's values has the same mean after the step as before, in any dimension and whatever the other chains hold. The same holds after any number of transitions, each with its own noise, uniform number and settings. The momenta are drawn from the law proportional to exp(-H) that this test assumes.", "quantifier": "all energies including infinities and NaN, all states", "why_tests_cant": "continuous energies, NaN/infinity corner cases", "anchors": ["zhusuan/hmc.py:get_acceptance_rate", "zhusuan/hmc.py:hamiltonian", "zhusuan/hmc.py:HMC.sample"]}
{"id": "C26", "title": "Each HMC chain ends exactly at its proposal or its old state, and the report matches", "statement": "After one HMC step every chain's stored latents are, for all latents together, either all the proposal or all the old values according to one accept decision u < acceptance_rate for that chain, chains do not influence each other's values given the proposal, and the reported log_prob is the log-density of the stored state. A step whose starting density is not finite fails only if the caller fetches a log-density; otherwise it is silently run (finding).", "quantifier": "any number of chains and latents, all proposals and uniforms", "why_tests_cant": "number of chains and latents unbounded", "anchors": ["zhusuan/hmc.py:HMC.sample"]}
{"id": "C27", "title": "Step-size adaptation state", "statement": "For any sequence of acceptance rates and restart flags the tuner's step counter is the number of tuned iterations since the last restart, the returned step size is positive, the averaged log step size is a weighted average (nonnegative weights summing to one) of the log step sizes proposed since the last restart, and while adaptation is off nothing changes and the averaged step size is used. If adaptation is off from the first iteration the configured step size is replaced by 1 (refutation).", "quantifier": "all finite sequences of acceptance rates, restart and adapt flags", "why_tests_cant": "sequence length unbounded, reals", "anchors": ["zhusuan/hmc.py:StepsizeTuner.tune", "zhusuan/hmc.py:StepsizeTuner.restart", "zhusuan/hmc.py:HMC.sample"]}
{"id": "C28", "title": "Mass adaptation computes the exact exponentially weighted mean and variance", "statement": "After any number of updates with any number of chains the stored mean and variance equal the exponentially weighted mean and variance of all samples seen (weights decay^(T-t), normalised, uniform over chains); the variance is nonnegative; the mass used before mass_collect_iters iterations is 1.", "quantifier": "all sequences of chain states, any decay in (0,1)", "why_tests_cant": "sequence length and number of chains unbounded", "anchors": ["zhusuan/hmc.py:ExponentialWeightedMovingVariance", "zhusuan/hmc.py:HMC._adapt_mass"]}
{"id": "C29", "title": "Initial step-size search", "statement": "The search returns the initial step size times an integer power of 1.5; when the first trial is acceptable it grows until the first step size whose acceptance falls below the target and returns the last acceptable one, and it terminates exactly when such a crossing exists. When the first trial is below target it stops after a single reduction, whatever the acceptance there (refutation of the crossing guarantee), and it does not terminate when acceptance never crosses.", "quantifier": "all acceptance functions of the step size, all starting step sizes and targets", "why_tests_cant": "the acceptance function is arbitrary and the loop unbounded", "anchors": ["zhusuan/hmc.py:HMC._init_step_size"]}
{"id": "C30", "title": "Stochastic-gradient samplers update as one simultaneous step", "statement": "In one run of SGLD, PSGLD, SGHMC or SGNHT every latent (and its auxiliary state) is updated from the values all latents had before the step, for every order in which the runtime executes the graph that respects its dependencies: for SGHMC and SGNHT always, for SGLD and PSGLD when each variable is read once per step. If computations of SGLD look at the live variable buffers, a schedule exists under which one latent is updated from another's new value (refutation for live reads).", "quantifier": "all numbers of latents, all gradient functions, all schedules compatible with the graph", "why_tests_cant": "schedules are exponentially many", "anchors": ["zhusuan/sgmcmc.py:SGMCMC.sample", "zhusuan/sgmcmc.py:SGLD._update", "zhusuan/sgmcmc.py:PSGLD._update", "zhusuan/sgmcmc.py:SGHMC._update", "zhusuan/sgmcmc.py:SGNHT._update"]}
{"id": "C31", "title": "Momentum resampling period of SGHMC and SGNHT", "statement": "With the counter read before its increment in every step the momentum is resampled exactly at steps that are multiples of n_iter_resample_v (never if it is 0). Because the read is not ordered with the increment, a schedule exists under which a period passes with two resamplings and one under which it passes with none (refutation for all schedules).", "quantifier": "all runs of any length, all schedules", "why_tests_cant": "schedule dependence is not reproducible in a test", "anchors": ["zhusuan/sgmcmc.py:SGMCMC._apply_updates", "zhusuan/sgmcmc.py:SGHMC._update", "zhusuan/sgmcmc.py:SGNHT._update"]}
{"id": "C32", "title": "Stochastic-gradient samplers reduce to one another", "statement": "SGHMC (first order) with friction 1 and variance estimate 0 is SGLD with doubled learning rate; without friction and noise second-order SGHMC is a drift-kick-drift step that is undone by flipping the momentum; PSGLD with a constant preconditioner is SGLD; SGNHT with zero tuning rate is SGHMC with that friction; the thermostat is stationary exactly when the mean kinetic energy equals the learning rate.", "quantifier": "all states, learning rates, gradients and noise", "why_tests_cant": "continuous state space", "anchors": ["zhusuan/sgmcmc.py:SGLD", "zhusuan/sgmcmc.py:PSGLD", "zhusuan/sgmcmc.py:SGHMC", "zhusuan/sgmcmc.py:SGNHT"]}
{"id": "C33", "title": "ELBO is a lower bound with gap KL", "statement": "For any finite latent space, any variational distribution and any unnormalised joint, the expectation of the elbo objective equals log evidence minus KL(q||posterior), hence is at most the log evidence with equality iff q is the posterior; sgvb() is its negation; with no latent variables the objective is log_joint alone.", "quantifier": "all finite latent spaces, all distributions on them", "why_tests_cant": "distributions are arbitrary", "anchors": ["zhusuan/variational/exclusive_kl.py:EvidenceLowerBoundObjective._objective", "zhusuan/variational/exclusive_kl.py:EvidenceLowerBoundObjective.sgvb"]}
{"id": "C34", "title": "REINFORCE gradient is unbiased", "statement": "For any finite latent space and differentiable variational and model parameters, the expected gradient of the reinforce() cost equals minus the gradient of the expected elbo, with or without a baseline that does not depend on the sample, and with the moving-average control variate when it is read before being updated. When the update runs first the estimate is biased (refutation for all schedules).", "quantifier": "all finite latent spaces, all differentiable parameterisations, all baselines", "why_tests_cant": "unbiasedness is an identity over all distributions; statistical tests have thresholds", "anchors": ["zhusuan/variational/exclusive_kl.py:EvidenceLowerBoundObjective.reinforce"]}
{"id": "C35", "title": "Importance-weighted objective is sandwiched and tightens", "statement": "Pathwise the importance weighted objective is at least the average elbo term and at most the largest log weight; in expectation it is at most the log evidence, does not decrease when a sample is added, and with one sample equals the elbo; is_loglikelihood returns the same value.", "quantifier": "all sample counts, all finite latent spaces and distributions", "why_tests_cant": "number of samples and distributions unbounded", "anchors": ["zhusuan/variational/monte_carlo.py:ImportanceWeightedObjective._objective", "zhusuan/evaluation.py:is_loglikelihood"]}
{"id": "C36", "title": "VIMCO's control variate leaves the sample out and keeps the gradient unbiased", "statement": "For every sample count K >= 2 the learning signal of sample j subtracts a quantity that does not depend on sample j's weight and equals the objective with log-weight j replaced by the mean of the others; the expected gradient of the cost equals minus the gradient of the expected objective; K < 2 is rejected; the axis permutation used is an involution that puts the sample axis last for every rank.", "quantifier": "all K, all ranks, all finite latent spaces and differentiable parameterisations", "why_tests_cant": "K and rank unbounded, unbiasedness is an identity over distributions", "anchors": ["zhusuan/variational/monte_carlo.py:ImportanceWeightedObjective.vimco"]}
{"id": "C37", "title": "Inclusive-KL importance weights are self-normalised", "statement": "The weights used by klpq().importance() are nonnegative, sum to one over the sample axis, are proportional to exp(log_joint - log q), do not change when log_joint is shifted by a constant, and with exact proposals (q equal to the posterior) are uniform; the cost gradient is the self-normalised weighted score.", "quantifier": "all sample counts and weights", "why_tests_cant": "number of samples unbounded, overflow cases", "anchors": ["zhusuan/variational/inclusive_kl.py:InclusiveKLObjective.importance"]}
{"id": "C38", "title": "Variational objective construction and coverage", "statement": "Exactly one of latent/variational must be given, otherwise ValueError; the entropy term covers exactly the unobserved stochastic nodes of the variational network. The documented check that every model node is observed or has a variational posterior never fires (refutation).", "quantifier": "all models and variational networks", "why_tests_cant": "networks unbounded; a check that never fires passes every positive test", "anchors": ["zhusuan/variational/base.py:VariationalObjective.__init__", "zhusuan/variational/base.py:VariationalObjective._validate_variational_inputs"]}
{"id": "C39", "title": "Planar flow is invertible with the reported log-determinant", "statement": "For any dimension, parameters with w != 0 and any number of layers the planar flow map is injective, the internal constraint w.u > -1 always holds, each layer's Jacobian determinant is the strictly positive number whose log is subtracted, and the returned log-probability is the input log-probability minus the sum of layer log-determinants. Hence, when the given log-probabilities are the log density of the samples, the returned ones are the log density of the returned samples: every non-negative continuous function has the same integral against both.", "quantifier": "all dimensions, parameters, inputs and layer counts", "why_tests_cant": "dimension and layer count unbounded", "anchors": ["zhusuan/transform.py:planar_normalizing_flow"]}
{"id": "C40", "title": "Inverse autoregressive flow is invertible with the reported log-determinant", "statement": "linear_ar output j depends only on inputs before j; for any autoregressive network the 'normal' and 'gru' updates are invertible for any number of iterations, the Jacobian is triangular with determinant the product of the scales (reversal has determinant of absolute value one), and the returned log-probability subtracts exactly its log, so that it is the log density of the returned samples when the given one is that of the given samples. An unknown update name silently applies only the reversal (refutation).", "quantifier": "all dimensions, autoregressive networks, inputs, iteration counts", "why_tests_cant": "dimension and iteration count unbounded", "anchors": ["zhusuan/transform.py:inv_autoregressive_flow", "zhusuan/transform.py:linear_ar"]}
{"id": "C41", "title": "Effective sample size range and invariances", "statement": "For every non-constant chain of n >= 3 scalars effective_sample_size_1d is positive and invariant under any affine rescaling of the chain. It never exceeds n(n-1)/(3n-5), about n/3, because lag 0 is counted, so it never reaches n (refutation of 'an uncorrelated chain has ESS about n').", "quantifier": "all chains of all lengths", "why_tests_cant": "chain length unbounded", "anchors": ["zhusuan/diagnostics.py:effective_sample_size_1d"]}
{"id": "C42", "title": "Effective sample size of vector chains", "statement": "effective_sample_size is the minimum over dimensions of the one-dimensional values after burn-in, is a single number (not an array as documented), does not depend on the discarded prefix, and is not increased by adding a dimension. A chain no longer than the burn-in is reported as infinite instead of being rejected (refutation), and one remaining sample or a constant dimension raises.", "quantifier": "all chains, dimensions and burn-in lengths", "why_tests_cant": "dimension unbounded", "anchors": ["zhusuan/diagnostics.py:effective_sample_size"]}
{"id": "C43", "title": "AIS temperature schedule", "statement": "For every number of temperatures the schedule starts at 0, ends at exactly 1 and is strictly increasing; the temperatures are symmetric: schedule(n-t) = 1 - schedule(t). A run adapts at a temperature of the schedule, draws the prior afresh, and makes one transition per temperature in increasing order.", "quantifier": "all n >= 1 and all steps", "why_tests_cant": "n unbounded", "anchors": ["zhusuan/evaluation.py:AIS._map_t", "zhusuan/evaluation.py:AIS._get_schedule_t"]}
{"id": "C44", "title": "AIS weights are unbiased", "statement": "The accumulated log weight telescopes to the sum over temperatures of the log-ratio of consecutive tempered densities; for any finite state space and any transition kernels leaving the tempered densities invariant, the expectation of the exponentiated weight equals the ratio of final to initial normalising constants, hence the expected returned value is at most its log. In continuous spaces of any dimension, with HMC transitions at the tempered densities, the mean weight over the prior draw, the noise and the uniform numbers is the marginal likelihood. If the sampler keeps adapting while the weights accumulate (the same feed is used throughout a run) the estimate can be biased even though every kernel used leaves its target invariant (refutation).", "quantifier": "all numbers of temperatures, all finite state spaces, all invariant kernels", "why_tests_cant": "number of temperatures and kernels unbounded", "anchors": ["zhusuan/evaluation.py:AIS.run", "zhusuan/evaluation.py:AIS._get_lower_bound"]}
{"id": "C45", "title": "Arithmetic on tensor-like objects keeps operand order", "statement": "Every binary operator on a stochastic tensor or variational objective is the TensorFlow operator applied to the operands in the order written, including reflected operators; equality and hashing are by identity and consistent; a dictionary keyed by such objects maps object identities; iteration and truth testing are rejected; matrix product and shifts are not supported.", "quantifier": "all operators and operand values", "why_tests_cant": "the operator table is exercised for addition only in the tests", "anchors": ["zhusuan/utils.py:TensorArithmeticMixin"]}
{"id": "C46", "title": "Deprecated special distributions", "statement": "Empirical rejects sampling and density queries; Implicit's sample repeats its stored samples. Implicit's reported probability for a continuous value different from its sample is minus infinity instead of zero (refutation of nonnegativity), for grouped vectors any even number of differing coordinates gives plus infinity, and its log_prob reduces the grouped axes twice (refutations).", "quantifier": "all stored samples and queried values", "why_tests_cant": "continuous values", "anchors": ["zhusuan/legacy/distributions/special.py:Empirical", "zhusuan/legacy/distributions/special.py:Implicit"]}
{"id": "C47", "title": "Gradient flags change gradients, never values", "statement": "is_reparameterized and use_path_derivative do not change the value of any sample or log_prob. With is_reparameterized=False no gradient reaches the parameters through a sample; with True the gradient of a sample is the derivative of the sampling formula. Without use_path_derivative the gradient of log_prob is the full derivative in parameters and value; with it, on the classes that document it, the parameters are constants, and what is dropped is exactly the score, which for the Normal has mean zero. Gamma, Beta, InverseGamma and Dirichlet report is_reparameterized=False although their samples carry gradients (refutation), and the classes that do not document use_path_derivative accept and ignore it (refutation).", "quantifier": "all 15 differentiable-or-continuous classes, all parameter expression graphs, all motions of the inputs, all noise", "why_tests_cant": "gradients are taken of arbitrary expression graphs at every point; unit tests check whether a gradient is None", "anchors": ["zhusuan/distributions/base.py:Distribution.is_reparameterized", "zhusuan/distributions/base.py:Distribution.path_param", "zhusuan/distributions/univariate.py:Normal", "zhusuan/distributions/multivariate.py:Concrete", "zhusuan/distributions/univariate.py:Gamma"]}
{"id": "C48", "title": "Named node constructors build the node their arguments describe", "statement": "Calling a named constructor of a Bayesian net (or one of the deprecated tensor classes) with any mix of positional and keyword arguments builds the node of the given name whose distribution is exactly the one obtained by calling the distribution class with the same arguments by name, with n_samples going to the node and every omitted parameter at its documented default; a call that cannot be bound, that names an argument twice, or that tries to override the node's own fields or the distribution's fixed attributes raises instead of building another node.", "quantifier": "all named constructors, all argument lists and keyword dictionaries, all argument values", "why_tests_cant": "the combinations of positional and keyword arguments are unbounded and every wrapper repeats the parameter list by hand, so tests cover only a few call shapes", "anchors": ["zhusuan/framework/bn.py:BayesianNet.normal", "zhusuan/framework/bn.py:BayesianNet.stochastic", "zhusuan/framework/bn.py:StochasticTensor.__init__", "zhusuan/legacy/framework/stochastic.py", "zhusuan/distributions/univariate.py", "zhusuan/distributions/multivariate.py", "zhusuan/distributions/base.py:Distribution.__init__"]}
{"id": "C49", "title": "Constructors accept exactly the documented arguments", "statement": "Constructing a distribution succeeds, and all assertions it adds hold when the graph runs, exactly if the tensor arguments share one allowed floating dtype, the dtype argument is allowed, the run-time shapes fit each other (broadcastable parameters, rank, scalar temperature, at least two categories, square factors matching the mean), integers are ints or int32 scalars in range, and exactly one of std and logstd is given by name. Whatever is known of shapes while the graph is built does not change this. Wrong types always raise TypeError from the constructor; a ValueError or failed assertion means a wrong value; when everything is known while building nothing is left to fail at run time, except that an axis of extent 0 of a multivariate normal's mean is treated as unknown (refutation). The dtype and param_dtype of the object are those documented.", "quantifier": "all 19 classes, all dtypes, all run-time shapes of any rank, all partial static knowledge of them, all integer arguments", "why_tests_cant": "ranks, shapes and partial static knowledge are unbounded; tests try a handful of shapes per class", "anchors": ["zhusuan/distributions/univariate.py", "zhusuan/distributions/multivariate.py", "zhusuan/distributions/base.py:Distribution.__init__", "zhusuan/distributions/utils.py:assert_same_float_dtype", "zhusuan/distributions/utils.py:assert_rank_at_least", "zhusuan/distributions/utils.py:assert_positive_int32_scalar"]}
{"id": "C50", "title": "Dtypes of samples and probabilities", "statement": "For every distribution that can be constructed, samples have the distribution's dtype and prob and log_prob have its param_dtype; the only dtype errors log_prob and prob can raise are that the given value cannot be converted to the distribution's dtype, on every branch on static shapes; in particular a sample can always be given back to log_prob. Only UnnormalizedMultinomial and a Multinomial without n_experiments refuse to be sampled.", "quantifier": "all 19 classes, all dtypes accepted by the constructors, all given values, all branches on static shapes", "why_tests_cant": "mixed dtypes of parameters, samples and given values and the branches on static shapes multiply; a missing cast shows only for one combination", "anchors": ["zhusuan/distributions/base.py:Distribution.sample", "zhusuan/distributions/base.py:Distribution.log_prob", "zhusuan/distributions/base.py:Distribution.prob", "zhusuan/distributions/univariate.py:Categorical._log_prob", "zhusuan/distributions/multivariate.py:MatrixVariateNormalCholesky._log_prob"]}
{"id": "C51", "title": "Variables across calls of observe()", "statement": "For a model made with a scope and reuse_variables=True, any two requests for the same name, in whatever observe() calls, from whatever outer scopes and whatever other models, scopes or exceptions come in between, get the same variable; once an observe() has returned, later ones create no variable, and observing again with the model function doing the same returns and gets the same variables in the same order, also under automatically numbered layer scopes. First calls get only newly created variables, so two such models never share those. A model made with reuse_variables=False never gets a variable twice, and from the same scope asking again for a name raises. reuse_variables=True without a scope is refused. A model built without the optional args or kwargs can never be observed, and a model whose first observe() raised may be unusable afterwards (findings).", "quantifier": "all programs creating models, opening scopes, catching exceptions and observing models to any depth, all model functions and observations, both versions of TensorFlow's make_template", "why_tests_cant": "sharing depends on the whole history of scopes and calls; unit tests call observe() twice in a row", "anchors": ["zhusuan/framework/meta_bn.py:MetaBayesianNet.__init__", "zhusuan/framework/meta_bn.py:MetaBayesianNet.observe", "zhusuan/framework/meta_bn.py:meta_bayesian_net", "zhusuan/framework/utils.py:reuse_variables"]}
{"id": "C52", "title": "Life of a variational objective", "statement": "However a program interleaves the uses of an objective (its value, conversion to a tensor, sgvb, reinforce, vimco, importance), reads of obj.bn, calls on the variational network and changes of the dictionary it passed, all estimates it gets are those of one log joint and one set of latent log probabilities: the model is built once, observed with the values given at construction and, for the other names, with the samples of the variational network; each of its factors is evaluated at that value, and log q at the same samples. Estimators of another class fail, klpq has no value, a failed model or log joint function is tried again, and a second variance-reduced reinforce() in one variable scope fails unless the scope reuses variables. Adding a stochastic node to obj.bn breaks the agreement: the value stays, the estimators change.", "quantifier": "all models and variational networks, all observations, all sequences of accesses of any length, the three classes of objectives, all points at which exceptions occur", "why_tests_cant": "the objective is an object with five caches whose content depends on the order of accesses; unit tests read one property of a fresh object", "anchors": ["zhusuan/variational/base.py:VariationalObjective.bn", "zhusuan/variational/base.py:VariationalObjective.tensor", "zhusuan/variational/base.py:VariationalObjective._log_joint_term", "zhusuan/variational/base.py:VariationalObjective._entropy_term", "zhusuan/variational/exclusive_kl.py:EvidenceLowerBoundObjective.reinforce", "zhusuan/variational/monte_carlo.py:ImportanceWeightedObjective.vimco", "zhusuan/variational/inclusive_kl.py:InclusiveKLObjective.importance"]}
{"id": "C53", "title": "Densities on every float and the check_numerics switch", "statement": "log_prob and prob give an answer for every float value and parameter, finite or not. check_numerics=True never changes an answer: it either makes the call fail or leaves the result of check_numerics=False, and with valid finite parameters and a value inside the support it never fails. When a checked call succeeds and the inputs no check looks at are finite, the answer is finite (FoldNormal below 0 excepted). One bad entry makes the call for a whole batch fail. Without the checks, valid parameters and a value outside the support give minus infinity (FoldNormal, Uniform, Poisson, Binomial) or NaN (Gamma, InverseGamma, Beta, BinConcrete, Dirichlet, Concrete); a NaN parameter never gives a number. At boundary points where the law has a definite density or probability some answers are NaN, sampling a Normal built from std checks nothing, and an infinite logstd passes the checks of log_prob (findings).", "quantifier": "all classes with a check_numerics switch and Multinomial, all finite and non-finite parameters and values, batches of any size", "why_tests_cant": "the inputs range over all floats and combinations of boundary, invalid and non-finite values; unit tests try one bad value per class", "anchors": ["zhusuan/distributions/univariate.py:Normal._log_prob", "zhusuan/distributions/univariate.py:Uniform._prob", "zhusuan/distributions/univariate.py:Gamma._log_prob", "zhusuan/distributions/univariate.py:Beta._log_prob", "zhusuan/distributions/univariate.py:BinConcrete._log_prob", "zhusuan/distributions/multivariate.py:Dirichlet._log_prob", "zhusuan/distributions/multivariate.py:MultivariateNormalCholesky._log_prob"]}
{"id": "C54", "title": "Sampling operations over a session", "statement": "sample() of the SGMCMC samplers and of HMC succeeds exactly when the latent dictionary is not empty, all its values are tf.Variables, and the log joint depends on each latent name and none of these names is also observed; otherwise it raises, and a TypeError about a non-variable names the first one. Running a sampling operation sets each of its latent variables to the result of one step of the sampler, advances the counter of the sampler object by one and changes nothing else: no other variable of the graph and no state of another operation. sgmcmc_info.attr[name] is that attribute of the latent of that name. However runs of several operations are interleaved, operations on different variables without momentum resampling do not influence each other; the friction of SGNHT is its initial value plus the tune rate times the accumulated surplus of kinetic energy; with resampling and the counter read before its increment, the initial momenta are never used. Operations of one object share the counter, so that n_iter_resample_v does not count calls to one sampling operation (finding).", "quantifier": "all latent and observed dictionaries, all samplers and hyper-parameters, any number of operations of one sampler object, all histories of runs of any length, all fed learning rates, gradients and draws", "why_tests_cant": "effects accumulate over runs and over operations that share hidden state; unit tests run one operation of one sampler", "anchors": ["zhusuan/sgmcmc.py:SGMCMC.sample", "zhusuan/sgmcmc.py:SGHMC._update", "zhusuan/sgmcmc.py:SGNHT._update", "zhusuan/sgmcmc.py:PSGLD.__init__", "zhusuan/hmc.py:HMC.sample"]}
{"id": "C55", "title": "Numerical stability of log_sum_exp, log_mean_exp and the acceptance rate", "statement": "In floating-point arithmetic, for any list of n floats and minus infinities (not all minus infinity), however large or far apart and in whatever order and grouping the reduction adds them, log_sum_exp and log_mean_exp do not overflow: they return a float v, not below (log_mean_exp: not above) the largest entry, and within (|v| + 5n) units of roundoff of the exact value, for n up to 2^precision. HMC's acceptance rate is a number between 0 and 1 even when the energies overflow or are NaN, is exactly 1 when the energy does not increase, and otherwise within 8/5 units of roundoff of min(1, exp(old - new)).", "quantifier": "all formats with at least two bits (float16, bfloat16, float32, float64), all entries, all orders of summation, all implementations of exp and log that return one of the two neighbouring floats", "why_tests_cant": "overflow and loss of accuracy show for extreme inputs or unlucky orders of summation; unit tests compare a few values of moderate size", "anchors": ["zhusuan/utils.py:log_sum_exp", "zhusuan/utils.py:log_mean_exp", "zhusuan/hmc.py:get_acceptance_rate"]}
{"id": "C56", "title": "HMC iterations do not depend on the execution order", "statement": "sess.run(sample_op) of HMC executes the operations of the iteration in an order TensorFlow chooses among those the graph allows. Unless step size adaptation is given and fed False, every such order ends with the same contents of all variables (latents, step size, tuner, moving variance, counters) and reports the same samples and acceptance rates: those of the iteration executed in program order. With adaptation given and fed False, the iteration is that of the program order with the step size taken before or after its assignment, and from the second such iteration on these coincide; the first one does depend on the order (finding).", "quantifier": "all numbers of latents and chains, all contents of variables, all draws, the five combinations of adaptation arguments and their fed values, all execution orders consistent with data and control edges including the times at which kernels take the contents of variables", "why_tests_cant": "the executor picks one of exponentially many orders and tests see one of them", "anchors": ["zhusuan/hmc.py:HMC.sample", "zhusuan/hmc.py:HMC._adapt_step_size", "zhusuan/hmc.py:StepsizeTuner.tune", "zhusuan/hmc.py:ExponentialWeightedMovingVariance.update"]}
{"id": "C57", "title": "Sampling iterations that are interrupted", "statement": "If an iteration of HMC or of an SGMCMC sampler stops at any point (an operation fails, the process is killed after variables were saved), every variable holds either its content from before the iteration or the one the completed iteration would have left. Before the acceptance rates are computed no latent has changed, nor have the step size and the tuner's averages if adaptation is on. Stopping later may leave some latents new and others old (finding), and a first iteration stopped early leaves the counter advanced, so that the retry skips the step size search (finding). For SGHMC and SGNHT no latent, momentum or friction changes before the last new value is computed.", "quantifier": "all points of all execution orders, all configurations and contents", "why_tests_cant": "crash points cannot be enumerated by tests", "anchors": ["zhusuan/hmc.py:HMC.sample", "zhusuan/sgmcmc.py:SGHMC._update", "zhusuan/sgmcmc.py:SGNHT._update"]}
{"id": "C58", "title": "Samples in floating-point arithmetic", "statement": "For all random bits, the noise of the reparameterised samplers is finite: open_interval_standard_uniform returns a float strictly between 0 and 1, and the Gumbel, logistic and Laplace noise computed from it is finite and bounded. Samples are floats of the closed support: BinConcrete and Beta in [0, 1] whatever the finite parameters (also when a sum of Gamma draws overflows), InverseGamma positive, Uniform in [minval, maxval] when maxval - minval does not overflow, Laplace finite for parameters not close to overflow; Concrete and Dirichlet samples have entries in [0, 1] that add up to 1 within 7 n units of roundoff, ExpConcrete samples are finite and not positive; softmax and log_softmax are accurate, whatever the order of summation. The open support is not kept: Uniform can return maxval (and NaN if maxval - minval overflows), Beta, BinConcrete and Concrete can return 0 and 1, where their own log densities are infinite, NaN or rejected by check_numerics (findings).", "quantifier": "all random bits, all finite parameters, any number of categories up to 2^precision / 6, all formats of TensorFlow, all orders of summation, all implementations of exp, log, log1p and sigmoid that return one of the two neighbouring floats", "why_tests_cant": "the bad draws have probability around 2^-24 or need extreme parameters; unit tests draw a few samples", "anchors": ["zhusuan/distributions/utils.py:open_interval_standard_uniform", "zhusuan/distributions/univariate.py:Uniform._sample", "zhusuan/distributions/univariate.py:Beta._sample", "zhusuan/distributions/univariate.py:InverseGamma._sample", "zhusuan/distributions/univariate.py:Laplace._sample", "zhusuan/distributions/univariate.py:BinConcrete._sample", "zhusuan/distributions/multivariate.py:Dirichlet._sample", "zhusuan/distributions/multivariate.py:ExpConcrete._sample", "zhusuan/distributions/multivariate.py:Concrete._sample"]}
{"id": "C59", "title": "Log densities in floating-point arithmetic", "statement": "Evaluated in floating point, log_prob is finite and accurate over a wide range. Bernoulli: for every finite logits, however large, the value at 0 and at 1 is a float, not positive, and within (|v| + 2) units of roundoff of the exact logarithm. Categorical: likewise not positive and within (3 (max - logit) + 7 n) units; OnehotCategorical returns exactly the same float at the one-hot vector. Normal and Laplace: as long as variance, squared distance and their ratio stay inside the range of the format, no intermediate value overflows and the error is at most a small multiple of the roundoff times the size of the terms. Uniform: minus the logarithm of the width inside [minval, maxval), minus infinity outside. Findings: Normal's log_prob is NaN at its own mean when 1/std^2 overflows (float32: std < 2^-64; float16: std < 2^-8) and not finite anywhere; Uniform's is minus infinity everywhere when maxval - minval overflows; OnehotCategorical's is NaN when another category has logit minus infinity, where Categorical is right.", "quantifier": "all formats of TensorFlow, all floats in the stated ranges, any number of categories up to 2^precision, all orders of summation, all implementations of exp, log and log1p that return one of the two neighbouring floats", "why_tests_cant": "rounding and overflow depend on the values; unit tests compare a few values of moderate size with a tolerance", "anchors": ["zhusuan/distributions/univariate.py:Normal._log_prob", "zhusuan/distributions/univariate.py:Bernoulli._log_prob", "zhusuan/distributions/univariate.py:Categorical._log_prob", "zhusuan/distributions/univariate.py:Uniform._log_prob", "zhusuan/distributions/univariate.py:Laplace._log_prob", "zhusuan/distributions/multivariate.py:OnehotCategorical._log_prob"]}
{"id": "C60", "title": "Step size of HMC in floating-point arithmetic", "statement": "The step size adaptation of HMC is robust in floating point. Tuner: for every history of calls (adapting or not, with any fresh starts and any acceptance rates in [0, 1]) its three variables stay finite floats: the counter is exact up to 2^precision and then stops, |h_bar| <= 2, and the averaged log step size stays bounded; the step size is never NaN and never negative. h_bar and the log of the step size follow the exact dual averaging recursion within an explicit rounding error, and the step size is positive and finite while the exact proposal is inside the range of the format. Search of the initial step size: an infinite step size has acceptance rate exactly 0 for every model, so the search ends after at most 2 (top - e) + 1 trials from a step size of at least 2^e (257 trials for float32 from 1), whatever the gradients and log probabilities, including infinite and NaN ones (in exact arithmetic it need not end, C29). The mean acceptance rate passed to the tuner is a float of [0, 1] whatever the Hamiltonians. Findings: on a flat target the search returns an infinite step size; in float32 with settings close to the defaults 256 rejections in a row bring the step size down to at most the smallest subnormal number, and 1024 acceptances in a row make it infinite.", "quantifier": "all formats of TensorFlow, all histories of tuner calls, all gradient and log probability functions with any number of chains and entries, all orders of summation, all implementations of exp and pow that return one of the two neighbouring floats", "why_tests_cant": "histories are unbounded and the bad step sizes need hundreds of extreme acceptance rates; termination is for all models", "anchors": ["zhusuan/hmc.py:StepsizeTuner", "zhusuan/hmc.py:StepsizeTuner.tune", "zhusuan/hmc.py:HMC._init_step_size", "zhusuan/hmc.py:leapfrog_integrator", "zhusuan/hmc.py:get_acceptance_rate"]}
{"id": "C61", "title": "Mass adaptation of HMC in floating-point arithmetic", "statement": "The moving variance behind adapt_mass is robust for a single chain: after any number of updates the stored mean of each entry lies between the smallest and the largest position seen so far and the stored variance is a finite number, not negative; both differ from the exact exponentially weighted mean and variance by at most a fixed multiple of roundoff / (1 - decay) times the size (squared size) of the positions, a bound that does not grow with the length of the history. The mass is positive or plus infinity, never NaN. Findings: after one update the variance is exactly 0 and the mass infinite; if an entry did not move before the adapted mass is first used, every later iteration is rejected for every model, and with mass_collect_iters <= 1 a single chain never moves. With several chains the average over chains can round so that the variance becomes negative: six identical float32 chains give a negative mass and NaN momenta.", "quantifier": "all formats of TensorFlow, all histories of positions of any length, all decays that stay away from 0 and 1, all gradient and log probability functions, all draws, all implementations of exp and pow that return one of the two neighbouring floats", "why_tests_cant": "histories are unbounded, rounding errors could accumulate over them, and that a chain is stuck forever is a statement about all later iterations", "anchors": ["zhusuan/hmc.py:ExponentialWeightedMovingVariance", "zhusuan/hmc.py:ExponentialWeightedMovingVariance.update", "zhusuan/hmc.py:ExponentialWeightedMovingVariance.get_precision", "zhusuan/hmc.py:HMC._adapt_mass", "zhusuan/hmc.py:HMC.sample"]}
{"id": "C62", "title": "SGMCMC samplers in floating-point arithmetic", "statement": "With bounded gradients and draws (size at most 2^k) and learning rates in [0, 1], the stochastic-gradient samplers never overflow and never give NaN, however many iterations are run: SGLD and PSGLD positions stay finite and PSGLD's average of squared gradients stays in [0, 2^(2k+1)]; SGHMC momenta stay below 2^(k+j+6) for a friction of at least 2^-j and its positions stay finite, at first and second order, with or without resampling. PSGLD's average equals the exponentially weighted sum of all squared gradients seen so far within an error that does not grow with the number of iterations, and its preconditioner is 1/(epsilon + sqrt(average)) within 4 units of roundoff. One iteration of SGLD, PSGLD, SGHMC (both orders) and of SGNHT's friction equals the exact update within an explicit multiple of the roundoff. An iteration that resamples equals one without resampling from a fresh momentum. SGNHT with tune_rate 0 is SGHMC with variance_estimate 0, bit for bit, after any number of iterations; with a = 0 each entry moves like SGHMC with that entry's friction. Findings: when the updates are smaller than half the spacing of the floats at the current position SGLD never moves again; a first-order friction below half a unit of roundoff has no effect at all; variance_estimate greater than friction makes momentum and position NaN from the first iteration on.", "quantifier": "all formats of TensorFlow, all histories of minibatch gradients, learning rates, draws and resampling decisions, any number of entries, all implementations of exp and square that return one of the two neighbouring floats", "why_tests_cant": "histories are unbounded and rounding errors could accumulate; that a chain never moves again is a statement about all later iterations", "anchors": ["zhusuan/sgmcmc.py:SGLD._update_single", "zhusuan/sgmcmc.py:PSGLD._update_single", "zhusuan/sgmcmc.py:SGHMC._update", "zhusuan/sgmcmc.py:SGNHT._update"]}
{"id": "C63", "title": "Importance weighted estimators in floating-point arithmetic", "statement": "In floating-point arithmetic the importance weights computed by the inclusive KL objective are floats between 0 and 1, each within 9n units of roundoff of the exact softmax of the log weights, and add up to 1 within 7n units; a sample of log weight minus infinity has weight exactly 0. The self-normalised importance cost is finite and within 12 n^2 units of roundoff (relative to the largest |log q|) of the weighted sum of the entropy terms. VIMCO's learning signals and cost are finite and within 42n and 348 n^2 units of roundoff (relative to the size of log p and log q) of the exact ones, where the exact signal of a sample is the bound minus the bound with the sample's log weight replaced by the mean of the others. Findings: one sample of log weight minus infinity makes VIMCO's cost NaN whatever the other samples, although the bound it estimates is finite and computed accurately; the self-normalised cost is NaN when all samples are impossible.", "quantifier": "all formats of TensorFlow, all numbers of samples up to 2^prec, all finite log joints and entropies of bounded size (for the weights: also minus infinity), every order of summation in every reduction, all implementations of exp and log that return one of the two neighbouring floats", "why_tests_cant": "error bounds over all inputs and all reduction orders; a NaN that only appears for impossible samples", "anchors": ["zhusuan/variational/inclusive_kl.py:InclusiveKLObjective.importance", "zhusuan/variational/monte_carlo.py:ImportanceWeightedObjective.vimco", "zhusuan/utils.py:log_mean_exp"]}
{"id": "C64", "title": "Annealed importance sampling in floating-point arithmetic", "statement": "The temperatures, computed in the host's float64 and fed to a float32 placeholder, are exactly 0 at step 0 and exactly 1 at the last step for every number of temperatures, are within 128 host units of roundoff of the exact schedule before feeding and one more device unit after, and, if the host's exp preserves order, never decrease and lie in [0, 1]. The tempered log density equals exactly the prior's at temperature 0 and the joint's at temperature 1 and is within 5/2 units of roundoff in between. The log weight of a chain after m temperatures is finite and within 4 m^2 units of the exact sum of log-density differences; the estimate of K chains is finite and within (20 m^2 + 5 K) units of the logarithm of the mean of the exact weights. Findings: a state of zero joint density has tempered log density NaN (not the prior's) at temperature 0, and one of zero prior density NaN at temperature 1; one chain whose draw from the prior has zero joint density therefore makes the whole estimate NaN, whatever the other chains and data.", "quantifier": "all formats with at least 12 bits on the host and all of TensorFlow's on the device, all numbers of temperatures, chains and data, all reported log densities of bounded size, every order of summation, all implementations of exp and log that return one of the two neighbouring floats", "why_tests_cant": "numbers of temperatures and chains are unbounded and rounding errors accumulate over them", "anchors": ["zhusuan/evaluation.py:AIS._map_t", "zhusuan/evaluation.py:AIS._get_schedule_t", "zhusuan/evaluation.py:AIS.run", "zhusuan/evaluation.py:AIS._get_lower_bound"]}
{"id": "C65", "title": "Evidence lower bound and REINFORCE in floating-point arithmetic", "statement": "For log joint densities, log densities of the latent variables and baselines that are floats of moderate size, the ELBO and the SGVB cost differ from the exact ones by at most (4n + 3) rounding units times the size (n samples), in whatever order the mean is accumulated; the baseline cost is accurate too. The moving mean used for variance reduction stays within 12 u / (1 - decay) times the size of the exact debiased weighted mean of all batch means seen so far, after any number of steps, including past the point where its float step counter stops counting. So the REINFORCE cost of every step is finite and within an explicit bound of the exact cost computed from the exact history, whether the moving mean is read before or after its update. One sample whose log joint density is not finite, however, makes the moving mean and every later cost NaN for the rest of the training.", "quantifier": "every format, numbers of samples and batch positions, order of summation, history of batches of any length, decay, baseline or none, read order of the moving mean", "why_tests_cant": "rounding errors of the moving mean accumulate over a training run of millions of steps and its counter saturates only at 2^24; tests run a handful of steps on benign values", "anchors": ["zhusuan/variational/exclusive_kl.py:EvidenceLowerBoundObjective._objective", "zhusuan/variational/exclusive_kl.py:EvidenceLowerBoundObjective.sgvb", "zhusuan/variational/exclusive_kl.py:EvidenceLowerBoundObjective.reinforce"]}
{"id": "C66", "title": "Effective sample size in floating-point arithmetic", "statement": "For a chain of n >= 2 finite samples of size at most 2^r that is not constant, the effective sample size of one dimension computed in floating-point arithmetic is a finite positive number, whatever the order in which numpy adds up. Let d be 256 n u 2^(2r) / variance (u the unit of roundoff) with 64 n d <= 1: the lag at which the sum of autocorrelations is cut is the right one up to autocorrelations of size at most 2d, the result is within a relative 3 n d of the exact formula for that cut, and of the exact effective sample size when no autocorrelation up to the cut is within 2d of 0; the minimum over the dimensions is as accurate as its parts. A sample that is NaN or infinite makes the call raise AssertionError. Two natural expectations fail: finite samples of size 2^(top/2) or more can give NaN (AssertionError), and a chain that never moves, which should be refused, can be reported as about half an effective sample, when the mean of its equal values is rounded to another number.", "quantifier": "every floating-point format, chain length up to 2^(prec-3), number of dimensions, burn-in, samples of bounded size, and order of summation in every reduction", "why_tests_cant": "rounding errors accumulate over chains of any length and the cut is a discontinuous function of the samples; tests compare a few chains with a tolerance", "anchors": ["zhusuan/diagnostics.py:effective_sample_size_1d", "zhusuan/diagnostics.py:effective_sample_size"]}
{"id": "C67", "title": "Planar normalizing flow in floating-point arithmetic", "statement": "For layers whose variables are floats of size at most 2^r, with w.w at least om and softplus(w.aux_u) at least c, the vector u of a layer computed in floating-point arithmetic is within 100 d u D^3 / om^2 of the exact one (d the dimension, u the unit of roundoff, D = d 2^(2r)), and the transformed samples and log probabilities after any number of layers are finite floats within an explicit bound of the exact ones; the run-time assertion w.u >= -1 does not fail. Outside those ranges the guarantee w.u > -1 that makes the exact flow invertible is lost: for w.aux_u below about -2 prec the rounded w.u can be exactly -1, so that the determinant is 0 and the reported log probability plus infinity for an ordinary sample; it can round below -1, so that the assertion fails for every input (single precision, w = 5/4, aux_u = -16); and for w.aux_u above the overflow threshold of exp the sample is NaN and the log probability minus infinity. In all three cases the exact values are finite.", "quantifier": "all formats of TensorFlow, all numbers of layers and dimensions, all samples and variables in range, every order of summation of the inner products, all implementations of exp, log and tanh that return one of the two neighbouring floats", "why_tests_cant": "rounding errors grow with the number of layers and depend on the order of summation; tests compare a few layers with an approximate tolerance", "anchors": ["zhusuan/transform.py:planar_normalizing_flow"]}
{"id": "C68", "title": "Inverse autoregressive flow in floating-point arithmetic", "statement": "In floating-point arithmetic the linear autoregressive network stays autoregressive bit for bit, whatever the order of summation, as long as its input is finite; an infinite input entry makes every output NaN, also those it precedes. Its means are within 3 d u D of the exact ones and its scales within a relative e + 3 u (D = d 2^(2r)). One layer of the normal update is within 2 u 2^(2r), and one of the gru update within 8 u 2^r, of the exact samples. The log probability after any number of layers is a finite float within an explicit bound of the initial one minus the exact logarithms of the scales met on the way. The scale is returned by the network only to have its logarithm taken, and where exp or sigmoid underflows the log probability is plus infinity or less than half of the exact value, for both updates.", "quantifier": "all formats of TensorFlow, all dimensions and numbers of layers, all networks, samples and weights in range, every order of summation, all implementations of exp, log and the logistic function that return one of the two neighbouring floats", "why_tests_cant": "rounding errors depend on the order of summation and on the library; tests compare a few layers with an approximate tolerance", "anchors": ["zhusuan/transform.py:linear_ar", "zhusuan/transform.py:inv_autoregressive_flow"]}
{"id": "C69", "title": "Estimates converge as the number of samples grows", "statement": "With K independent samples from the variational posterior the elbo objective has mean squared error Var / K around log p(x) - KL(q || p(z|x)), so the probability of an error of eps or more is at most Var / (K eps^2). is_loglikelihood and the importance weighted objective are within eps of log p(x) except with probability at most Var / (K (p(x) (1 - e^-eps))^2), provided the variational posterior can draw every point; otherwise they converge to the log of the mass it covers, which is strictly less. The gradients reported by sgvb (of both objectives), by reinforce and by the inclusive KL objective converge in probability to the gradients of the quantities they estimate: the elbo, the log of the mean weight, and KL(p(z|x) || q); the inclusive KL cost itself converges to the cross entropy.", "quantifier": "all joint and variational distributions over a finite latent space or (elbo, importance weighted) with positive continuous densities on R^d and a finite variance, all numbers of samples, all eps > 0", "why_tests_cant": "a statement about the law of the output for every number of samples; a test sees a few draws", "anchors": ["zhusuan/variational/exclusive_kl.py:EvidenceLowerBoundObjective", "zhusuan/variational/monte_carlo.py:ImportanceWeightedObjective", "zhusuan/variational/inclusive_kl.py:InclusiveKLObjective.importance", "zhusuan/evaluation.py:is_loglikelihood"]}
{"id": "C70", "title": "Log densities with Gamma functions and BinConcrete in floating-point arithmetic", "statement": "For floats inside their domains, log_prob of Poisson, Binomial, Gamma, InverseGamma, Beta and BinConcrete computed in floating-point arithmetic is a finite float within 6 to 14 units of roundoff of the logarithm of the textbook density, relative to the total size of the terms that are added up (counts below 2^prec). Because these terms cancel, the result itself need not be accurate: in single precision the most likely count of a Poisson distribution of rate 2^30, whose probability lies between exp(-31) and exp(-1), gets a log probability that is a multiple of 2048, so prob returns 1, infinity or (nearly) 0. At 0 and 1 the BinConcrete log density is NaN for every temperature and logits, and with logits 1024 and temperature 1 this is the log density of every sample the distribution itself draws.", "quantifier": "every floating-point format of at least 6 bits, all parameters and values in range, all implementations of log, lgamma and softplus within the stated accuracy, all random bits", "why_tests_cant": "rounding errors for all floats of all formats; tests compare a few moderate values with scipy at a tolerance", "anchors": ["zhusuan/distributions/univariate.py:Gamma._log_prob", "zhusuan/distributions/univariate.py:Beta._log_prob", "zhusuan/distributions/univariate.py:Poisson._log_prob", "zhusuan/distributions/univariate.py:Binomial._log_prob", "zhusuan/distributions/univariate.py:InverseGamma._log_prob", "zhusuan/distributions/univariate.py:BinConcrete._log_prob"]}
{"id": "C71", "title": "HMC iteration in floating-point arithmetic", "statement": "Let states of size at most 2^r contain the exact leapfrog trajectory with a margin of a factor 2, let the gradient be Lipschitz and computed up to delta, and let the masses be at least 2^(-s). Then n leapfrog steps in floating-point arithmetic end within (1 + g)^(n+1) (n + 1) w of the exact end point, where w is one step's rounding error (a few units of roundoff times 2^(r+s), plus the step size times delta) and g = O(step size). Running them, flipping the momentum and running them again returns within the doubled bound of the start. A whole iteration (momentum, leapfrog, energies, acceptance test) never fails; each chain stays exactly where it was or moves to within that error of the exact proposal, and its decision is that of the exact sampler unless the uniform number is within a stated distance of the exact acceptance probability. Exact reversibility, on which the correctness of the sampler rests in real arithmetic, fails in every floating-point format: on a flat posterior the step from 2^prec with momentum 1 stays, and the reversed step leads to 2^prec - 1.", "quantifier": "every floating-point format, all log posteriors, gradients and masses within the stated ranges, all numbers of steps, chains and data entries, every order of summation, all random numbers", "why_tests_cant": "an error analysis over all trajectories and formats; tests run short chains and compare sample moments with wide tolerances", "anchors": ["zhusuan/hmc.py:leapfrog_integrator", "zhusuan/hmc.py:HMC._leapfrog", "zhusuan/hmc.py:hamiltonian", "zhusuan/hmc.py:get_acceptance_rate", "zhusuan/hmc.py:HMC.sample"]}
{"id": "C72", "title": "Many AIS chains, and overestimates of the likelihood", "statement": "With a sampler whose kernels are fixed while annealing, the log weights of the K chains of an AIS run are independent draws of one law that depends neither on K nor on the state of the session before the run; so the average weight has mean squared error Var / K around the marginal likelihood, where Var is the variance of the weight of a single chain, the reported value is eps or more away from the log marginal likelihood with probability at most Var / (K (Z (1 - e^-eps))^2), which vanishes as K grows, and for every K it exceeds the log marginal likelihood by b or more with probability at most e^-b. The same one-sided bound holds for is_loglikelihood and the importance weighted objective, whatever the proposal, over finite and over continuous latent variables.", "quantifier": "all finite state spaces, priors, joints, kernels that leave the tempered densities invariant, numbers of chains, temperatures and adaptation steps, initial session states; all proposals and numbers of samples; all eps and b", "why_tests_cant": "independence and probability bounds quantify over all random outcomes and all numbers of chains; a test sees single outcomes", "anchors": ["zhusuan/evaluation.py:AIS.run", "zhusuan/evaluation.py:AIS._get_lower_bound", "zhusuan/evaluation.py:is_loglikelihood", "zhusuan/variational/monte_carlo.py:ImportanceWeightedObjective"]}
{"id": "C73", "title": "Averaging over devices and batches in the examples", "statement": "A batch divided over any number of devices as the examples do is used completely, every example by exactly one device, in shards that differ by at most one. If the shards are of equal size, average_gradients returns for every variable the loss depends on, in the given order, the gradient of the mean loss over the whole batch, and average_losses the mean losses; with unequal shards it does not. A variable without gradient on the first device is left out without an error whatever the other devices computed; one without gradient on a later device raises an error. Loops over (N + b - 1) // b batches visit every example once; loops over N // b batches visit the first N // b * b and report their mean; padding adds fewer than b zero rows and makes all batches full.", "quantifier": "all batch sizes, numbers of devices and variables, gradient functions, data sets and batch sizes", "why_tests_cant": "the identities must hold for every batch size, number of devices and data set; tests use a few that divide evenly", "anchors": ["examples/utils/multi_gpu.py:average_gradients", "examples/utils/multi_gpu.py:average_losses", "examples/generative_adversarial_nets/dcgan.py:main", "examples/topic_models/lntm_mcem.py", "examples/probabilistic_matrix_factorization/pmf_hmc.py:main"]}
{"id": "C74", "title": "Steps of the Adamax optimizer of the examples", "statement": "For 0 <= beta1 < 1, beta1 < beta2, any non-negative learning rate and any sequence of gradients, however large, each update moves a variable by at most lr (1 - beta1) beta2 / (beta2 - beta1), never divides by a number below 1e-8, moves against the exponentially weighted sum of all gradients so far, and leaves the variable alone while all gradients are zero; after t updates it is within t times that bound of where it started. The bias correction of the cited algorithm is missing: the first step is 1 - beta1 of the published one.", "quantifier": "all gradient histories, learning rates, decay rates with beta1 < beta2, initial values", "why_tests_cant": "a bound on every step after every history of gradients cannot be tested", "anchors": ["examples/utils/optimizers.py:AdamaxOptimizer"]}
{"id": "C75", "title": "Data preparation in the examples", "statement": "Standardized training data have mean 0 and variance 1 in every column that is not constant, and 0 in the others; the test data are transformed with the same numbers, and both can be recovered from the returned mean and deviation. to_one_hot marks exactly the label's position for labels from 0 to depth - 1 and raises an error beyond; a negative label is silently taken from the end. Semi-supervised loaders label min(k, size) different points of each class with their own labels, and return all training points, the labeled ones included, as unlabeled. The random splits are partitions of the data of the stated sizes for every permutation. The lists per user, movie and document hold exactly the entries of that user, movie or document in order, and the dense and sparse bags of words agree.", "quantifier": "all data sets, labels, permutations and shuffles, sizes", "why_tests_cant": "the statements range over all data sets and random permutations", "anchors": ["examples/utils/dataset.py:standardize", "examples/utils/dataset.py:to_one_hot", "examples/utils/dataset.py:load_mnist_semi_supervised", "examples/utils/dataset.py:load_uci_boston_housing", "examples/utils/dataset.py:load_movielens1m", "examples/utils/dataset.py:load_movielens1m_mapped", "examples/utils/dataset.py:load_uci_bow", "examples/utils/dataset.py:load_uci_bow_sparse"]}
{"id": "C76", "title": "Evaluation helpers of the examples", "statement": "average_rmse_over_batches of the errors of any nonempty batches is the root mean squared error over all data together, however they were divided. save_image_collections puts pixel (y, x) of image k, counted along the rows of the grid, at its place for every image that fits, and zeros where there is none. select_from_corpus returns user numbers, movie indices and scores that describe exactly the ratings of the requested users, in order, with every movie listed once.", "quantifier": "all divisions into batches, image sizes, grids and numbers of images, rating lists and ranges of users", "why_tests_cant": "the equalities must hold for every division, grid and corpus", "anchors": ["examples/utils/utils.py:average_rmse_over_batches", "examples/utils/utils.py:save_image_collections", "examples/probabilistic_matrix_factorization/pmf_hmc.py:select_from_corpus"]}
{"id": "C77", "title": "Data loaders that are interrupted", "statement": "The loaders of the examples keep their downloads. Undisturbed, a first run returns the server's data and a later one the same data from the files without writing anything. Whatever runs were stopped before, at whatever point, including the two bag-of-words loaders sharing their files, a run that returns from a format that rejects files cut short (gzip, zip, pickle, npy) returns the server's data. But a stopped download is never repeated: from then on every run fails until the file is deleted, or, for the plain text files and vocabularies, returns fewer rows without any error; an extraction of the cifar archive stopped after data_batch_5 is never finished. A run of load_uci_bow stopped before its array is written is made good by the next one; one stopped before the download is deleted leaves it there for good.", "quantifier": "all histories of runs, each stopped after any number of steps or not; all file contents, formats and archive orders", "why_tests_cant": "crash points and histories of crashes cannot be enumerated by tests", "anchors": ["examples/utils/dataset.py:download_dataset", "examples/utils/dataset.py:load_mnist_realval", "examples/utils/dataset.py:load_cifar10", "examples/utils/dataset.py:load_uci_boston_housing", "examples/utils/dataset.py:load_uci_bow", "examples/utils/dataset.py:load_uci_bow_sparse"]}
{"id": "C78", "title": "Gaussian process conditioning is exact", "statement": "For every set of inducing points, every kernel scale parameter, every value vector and every evaluation points, gp_conditional returns the conditional Gaussian: mean K(x,z)K(z,z)^-1 f(z), covariance K(x,x)-K(x,z)K(z,z)^-1 K(z,x); the variances computed without the full matrix are the diagonal of that covariance and lie in [0,1]; the covariance is symmetric positive semidefinite, and at an inducing point the mean is the given value and the deviation 0. RBF kernel matrices are symmetric positive semidefinite with values in (0,1], and Kdiag is their diagonal. The variational scale matrix is a Cholesky factor for all parameter values and every factor is reached.", "quantifier": "all numbers of inducing and evaluation points, all covariates, scales, values and Cholesky factors of K(z,z)", "why_tests_cant": "a test compares one small matrix up to rounding; semidefiniteness ranges over all point sets and all vectors", "anchors": ["examples/gaussian_process/utils.py:RBFKernel", "examples/gaussian_process/utils.py:gp_conditional", "examples/gaussian_process/svgp.py:build_variational"]}
{"id": "C79", "title": "Minibatch log joints are unbiased and test errors are in original units", "statement": "After any history of earlier shuffles, averaged over the next shuffle, the log joint used in every training step of bnn_vi, bnn_sgmcmc and svgp (prior plus mean log-likelihood of the batch times the number of rows) equals the log joint of the whole training set, for every batch size including the short last batch, and so does its derivative in any parameter; the average over one epoch is the full log joint when the batch size divides the number of rows (and not otherwise). The reported rmse, mse and log-likelihoods are those of the predictions and targets in their original unit.", "quantifier": "all data sets, likelihood functions, priors, batch sizes, steps, histories of permutations, parameters, particles and units", "why_tests_cant": "a test draws a few shuffles; unbiasedness is a statement about all n! orders for every n", "anchors": ["examples/bayesian_neural_nets/bnn_vi.py:log_joint", "examples/bayesian_neural_nets/bnn_sgmcmc.py:log_joint", "examples/gaussian_process/svgp.py:log_joint", "examples/gaussian_process/svgp.py:main"]}
{"id": "C80", "title": "The topic model keeps every document with its chain, and its likelihood is normalized", "statement": "Through any number of epochs with any shuffles, every document of the topic model example keeps its own persistent chain: its row of Eta comes from its own initial parameters by exactly num_e_steps transitions per epoch, all made for that document. Every row of the document-word matrix is a probability distribution for all parameters, so leaving the logits unnormalized changes nothing; the log-likelihood is the log of the product of word probabilities and never positive, so the perplexity is at least 1; padding with empty documents changes neither the likelihood nor the word count (but it does change the hyper-parameters). The learning rates of any number of epochs sum to less than learning_rate_0 * t0.", "quantifier": "all document sets, batch sizes, numbers of epochs and E steps, shuffles, samplers acting by rows, topic parameters, word counts", "why_tests_cant": "a mix-up of rows after a shuffle gives plausible numbers and is invisible to a test of one epoch; the rest ranges over all real parameters and all horizons", "anchors": ["examples/topic_models/lntm_mcem.py:lntm", "examples/topic_models/lntm_mcem.py"]}
{"id": "C81", "title": "The semi-supervised bound enumerates every label and stays below the likelihood", "statement": "In the semi-supervised example the bound for image i with label y stands in row i, column y, for every batch and number of classes. The smoothed classifier output is a probability distribution with entries bounded away from zero for all logits and in the order of the logits. The bound for an unlabeled image equals the logarithm of the sum over labels of exp of the bounds with that label, minus the divergence of the classifier from their softmax; hence the value of a batch never exceeds the mean log likelihood when each bound with a label is at most log p(x, y). The accuracy is the fraction of images whose first largest logit is at the label.", "quantifier": "all batches, numbers of classes, logits, bounds and likelihoods", "why_tests_cant": "tile and reshape in the wrong order pair images with the wrong labels and still give numbers of the right shape; the inequality ranges over all classifiers", "anchors": ["examples/semi_supervised_vae/vae_ssl.py"]}
{"id": "C82", "title": "Adversarial training optimizes the stated losses and keeps the critic in its range", "statement": "The losses of the adversarial example are minus the mean logarithms of the discriminator's probabilities and are positive for all logits; over any two distributions of real and generated images no discriminator has a smaller expected loss than the log ratio of the two. In the Wasserstein example the reported distance on any number of devices is the difference of the critic's means over all real and all generated images; after every run of training steps, whatever the optimizer does, every weight of the critic is in [-0.01, 0.01] and nearest in that range to what the optimizer wrote, while nothing else changes. A critic with weights in [-c, c] changes by at most the product over its layers of c times the connections of a unit (over sqrt epsilon after batch normalization) times the change of its input. (The comment that clipping ensures a 1-Lipschitz critic is refuted.)", "quantifier": "all logits, distributions, discriminators, numbers of devices and steps, optimizers, critics of any depth and width", "why_tests_cant": "a clip before the update, or of the wrong variables, shows only along some training histories; optimality and steepness quantify over all discriminators and inputs", "anchors": ["examples/generative_adversarial_nets/dcgan.py", "examples/generative_adversarial_nets/wasserstein_gan.py:discriminator", "examples/generative_adversarial_nets/wasserstein_gan.py"]}
{"id": "C83", "title": "Chunked sampling of the matrix factorization targets the posterior of all ratings", "statement": "In the matrix factorization example the log density that is sampled for a chunk of users (or movies) is the conditional posterior of these rows given all other rows and all training ratings: exchanging the chunk changes both by the same amount, for every training set, chunk size, prior and likelihood. An epoch moves every chunk exactly once from its own value, users given the old movies and movies given the new users, and with steps that never lower their density the posterior of the whole model is never lowered. Rounding gives every user and movie a row. (The reported error measures sampled ratings instead of predicted ones, so it does not vanish for perfect predictions.)", "quantifier": "all training sets, chunk sizes, numbers of chunks, rows, priors, likelihoods and samplers", "why_tests_cant": "wrong indices of a chunk give a sampler for a slightly different model whose error also falls; the identity ranges over all rows and ratings", "anchors": ["examples/probabilistic_matrix_factorization/pmf_hmc.py:pmf", "examples/probabilistic_matrix_factorization/pmf_hmc.py:select_from_corpus", "examples/probabilistic_matrix_factorization/pmf_hmc.py:main"]}
{"id": "C84", "title": "The toy examples compare samples with the right reference", "statement": "The kernel density estimate of the toy examples is the mean of normal kernels over all samples for every batch size that divides their number, and other sizes are refused. For every number of iterations the kept samples are exactly those of the second half, and nothing adapts from the first kept iteration on. The mixture's log joint is the log density of the equal mixture up to one constant and its exponentials cannot overflow; the printed mean and standard deviation are those of the mixture. The target contours of the two-dimensional example are the model's. (Those drawn for the approximation are not its own: the standard deviation is used as a variance.)", "quantifier": "all samples, points, kernel widths, batch sizes, numbers of iterations and mixture parameters", "why_tests_cant": "a wrong reference looks like a sampling error; the identities range over all reals and sizes", "anchors": ["examples/toy_examples/gaussian.py:kde", "examples/toy_examples/mixture_sgnht.py:log_joint", "examples/toy_examples/toy2d_intractable.py:draw"]}
{"id": "C85", "title": "In the adaptive semi-supervised example all particles of an unlabeled image share one label", "statement": "For every image, model and proposal, the bound of an unlabeled image is the bound of the labeled case at the one label that was drawn, minus its log probability, and the proposal's cost splits the same way. So with any number of particles the mean of the bound stays below log p(x) by at least the divergence of q(y|x) from p(y|x), and reaches exactly that when q(z|x,y) is exact. (More particles do not close the gap, and the cost of unlabeled images moves the classifier q(y|x) by minus the score of the drawn label: in the mean, not at all.)", "quantifier": "all models and proposals on finite label and latent spaces, numbers of particles and parameters", "why_tests_cant": "a loose bound and a gradient of mean zero look like slow training; the claim is about means over all draws and every number of particles", "anchors": ["examples/semi_supervised_vae/vae_ssl_adaptive_is.py:unlabeled_proposal", "zhusuan/variational/inclusive_kl.py:InclusiveKLObjective.importance", "zhusuan/variational/monte_carlo.py:ImportanceWeightedObjective"]}
{"id": "C86", "title": "The variational dropout example reports the bound of the model whose images share one noise", "statement": "For every number of particles, batch size that divides the data, order of the data, network and noise distribution, the mean over an epoch of the reported bound is 1/N of the evidence lower bound of the model in which one noise is shared by all N images, so at most 1/N of that model's log evidence. The standard deviation of the noise stays above 1e-5 and its variance below 1 + 1e-10. The learning rate of epoch e is the initial one times factor^(e div freq), and the averaged prediction is a distribution over the classes. (It is not a bound for the network as built, in which every image has a noise of its own.)", "quantifier": "all likelihoods, priors and noise distributions on finite noise spaces, numbers of particles, data sets, orders and batch sizes, epochs, logits", "why_tests_cant": "which likelihood a reported bound belongs to is an identity of means over all draws and all batches", "anchors": ["examples/bayesian_neural_nets/variational_dropout.py:log_joint", "examples/bayesian_neural_nets/variational_dropout.py:q", "examples/bayesian_neural_nets/variational_dropout.py:var_dropout"]}
{"id": "C87", "title": "The sigmoid belief network examples bound and follow the log-likelihood of a proper model", "statement": "For every layer width and all weights, the three-layer network of the sigmoid belief network examples is a probability distribution over binary images, and the inference network a distribution with full support over the hidden layers. So for every image and number of particles the mean of the bound is at most log p(x), itself at most 0, and never loosens with more particles; and whatever weights a parameter moves, the mean of the vimco gradient is the derivative of the mean bound. Images are binarized so that a pixel is lit with probability exactly its value. (vae_conv.py compares with <= and lights every pixel below 1 too often by one part in the number of draws.)", "quantifier": "all widths, weights, images, numbers of particles, differentiable curves of weights, and pixel values", "why_tests_cant": "normalization and mean gradients are sums over all hidden states, exponentially many in the width", "anchors": ["examples/sigmoid_belief_nets/sbn_vimco.py:build_sbn", "examples/sigmoid_belief_nets/sbn_vimco.py:build_q_net", "examples/sigmoid_belief_nets/sbn_adaptive_is.py:build_proposal", "examples/variational_autoencoders/vae_conv.py:main"]}
{"id": "C88", "title": "The flow posterior of the normalizing flow example is a density, and its bound bounds log p(x)", "statement": "When planar_normalizing_flow is applied twice in a row to the sample and log probability of a normal node, the result is that of one call with the layers of both, row by row and for every leading shape. The returned log probability is the log density of the returned sample, which has total mass 1. So for every image, continuous decoder and encoder output p(x) lies in (0, 1], the importance weight formed from the returned pair has mean exactly p(x), and the mean lower bound, where it exists, is at most log p(x).", "quantifier": "all dimensions, shapes, means, log standard deviations, layer parameters with w != 0 (any number of layers), images and continuous decoders", "why_tests_cant": "the statements are about integrals over the latent space; the example itself carries a TODO to test repeated calls of flows", "anchors": ["examples/normalizing_flows/vae_nf.py:build_gen", "examples/normalizing_flows/vae_nf.py:build_q_net", "examples/normalizing_flows/vae_nf.py:main", "zhusuan/transform.py:planar_normalizing_flow"]}
{"id": "C89", "title": "The binary latent example bounds log p(x) and its combined cost follows the bound, with fixed normalization statistics", "statement": "For every decoder the model of the binary latent example is a probability distribution over binary images. When batch normalization uses statistics that do not depend on the draws, the mean bound of an image is at most log p(x) for every number of particles, and the minimized sum of the reinforce cost and the baseline cost has, in the mean, minus the gradient of the exact bound plus (baseline - bound) times the gradient of the baseline: the baseline network never disturbs the other two. In training mode, where the decoder's batch normalization mixes the images of a batch, the last part is false: the mean gradient can be nonzero where the exact gradient of the mean bound is zero.", "quantifier": "all latent and image sizes, encoders and decoders with logits differentiable at the current parameter, images, numbers of particles, baselines and moving means fixed before the draws", "why_tests_cant": "means over all latent states; the bias in training mode is hidden by sampling noise", "anchors": ["examples/variational_autoencoders/bernoulli_latent_vae.py:build_gen", "examples/variational_autoencoders/bernoulli_latent_vae.py:build_q_net", "examples/variational_autoencoders/bernoulli_latent_vae.py:main", "zhusuan/variational/exclusive_kl.py:EvidenceLowerBoundObjective.reinforce"]}
