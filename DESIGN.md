# Formal model of ZhuSuan in Rocq (Coq 8.16.1)

## Layout (rocq/theories)

| files | content |
|---|---|
| `Model*.v` | the model: total Gallina definitions that follow the Python functions branch by branch; each definition cites file and lines in /repo and names its simplifications. No proofs. `ModelCall.v` holds the tables of signatures and call chains. |
| `Spec*.v` | small specifications used by theorem statements and written without the model's helpers (reachability, NumPy broadcasting, multinomial coefficients, improper integrals, laws of random draws, detailed balance, ...). |
| `Proof*.v` | auxiliary lemmas. |
| `Prop*.v` | the property theorems (`Cnn_...`), each followed by `Print Assumptions`, with an `Example` beside it showing that a concrete case meets the hypotheses. |

Theorems whose name ends in `_refuted` show, with a witness, that a statement one would expect from the documentation is false of the code; they are findings, collected at the end of this file.

## Modelling conventions

* **Exceptions** are values; the state at the point of failure is part of the result.
* **Numbers.** TensorFlow floats are modelled by the real numbers `R` of the standard library. Rounding, overflow and dtype width are not modelled, except in `ModelFloat.v`, `ModelFloatSample.v`, `ModelFloatDensity.v`, `ModelFloatTune.v`, `ModelFloatMass.v`, `ModelFloatSGMCMC.v`, `ModelFloatImportance.v`, `ModelFloatAIS.v`, `ModelFloatVI.v`, `ModelFloatDiag.v`, `ModelFloatFlow.v`, `ModelFloatIaf.v` and `ModelFloatDensity2.v` (C55, C58 to C68, C70, C71). Where a property is about non-finite values (HMC acceptance, log_mean_exp, special distributions) an extended type with both infinities and NaN is used (`ModelExt.v`).
* **Randomness.** Every random op is an argument of the model: the noise actually drawn. "For every noise" is universal quantification. Laws are stated with improper Riemann integrals (Coquelicot), iterated for vectors, with integrals over all of R^d (least upper bound of the iterated integrals over cubes, `SpecVolume.v`), or with finite sums.
* **TensorFlow ops** are defined mathematically in the model (elementwise ops with broadcasting, reshape, transpose, reduce, one_hot, random.categorical as a table of picks, matmul, triangular solve, matrix_diag_part) or are function arguments with their assumptions written in the theorem: `tf.lgamma` (only lgamma(n+1)=ln n!, or being the logarithm of Euler's integral; one function meeting both is constructed in `ProofGammaFn.v`), `tf.gradients` of the user's log joint, user callbacks.
* **Graph execution order.** Where TensorFlow leaves it open (SGMCMC updates, resampling counters, moving averages) the model has explicit operations and dependencies, and theorems quantify over all schedules.
* **Gradients** (C33-C37, C47) are forward-mode derivatives of expression graphs with stop_gradient; `C47` proves them equal to Coquelicot's `is_derive`.
* **Tensors** are pairs of a shape (list of extents) and a function on indices, for every rank and every extent including zero unless a theorem says otherwise.

## Trusted base

1. Coq's kernel (8.16.1) and the standard library's axioms listed under "Print Assumptions of every theorem". All of them are standard library axioms: `ClassicalDedekindReals.sig_forall_dec`, `ClassicalDedekindReals.sig_not_dec`, `FunctionalExtensionality.functional_extensionality_dep`, `Classical_Prop.classic`, `ClassicalEpsilon.constructive_indefinite_description` (the last only through `ProofRing.v`, in the Jacobian theorems of C24, C39 and C40 and what uses the lemmas of those files). The development declares no axiom, parameter, functor or module type, and leaves nothing admitted.
2. `coqchk -o` and tools that list a library's context also print symbols of sealed modules: `Coq.Reals.Rdefinitions.RbaseSymbolsImpl.*`, `Coq.ssr.ssrunder.Under_rel.*`, and mathcomp's `finset`, `perm`, `finfun`, `fintype`, `bigop`, `tuple`, `generic_quotient` locked definitions. These are definitions hidden behind a module signature inside the standard library and mathcomp, with bodies checked by the kernel, not axioms; `Print Assumptions` does not report them.
3. The correspondence between the hand-written model and /repo: the comments with file and line numbers, and the conventions above.
4. The meaning of the TensorFlow primitives as defined in the model, and the laws of its random ops: uniform, standard normal, standard gamma, Poisson draws have these laws; the cells of `tf.random.categorical` are independent and distributed as the softmax of their row.

## What is modelled

| code | model |
|---|---|
| framework/utils.py: Context, get_backward_ops | `ModelContext.v`, `ModelGraph.v` |
| framework/bn.py: StochasticTensor, BayesianNet (stochastic, deterministic, get, cond_log_prob, log_joint, observations, all node constructors; the deprecated outputs, local_log_prob, query and node methods) | `ModelBN.v`, `ModelQuery.v`, `ModelCall.v`, `ModelOps.v` |
| framework/meta_bn.py: MetaBayesianNet, meta_bayesian_net, Local; variable creation and reuse through the template | `ModelContext.v`, `ModelVar.v` |
| distributions/base.py: sample, log_prob, prob, shapes, grouping, given checks | `ModelShape.v`, `ModelTensor.v`, `ModelGrad.v` |
| distributions/utils.py: log_combination, explicit_broadcast, maybe_explicit_broadcast, is_same_dynamic_shape, static shape helpers | `ModelShape.v`, `ModelDist.v` |
| distributions/univariate.py and multivariate.py: every constructor; dtypes of every method | `ModelInit.v`, `ModelDtype.v` |
| distributions/univariate.py and multivariate.py: every `_sample`, `_log_prob`, `_prob` and shape method | `ModelDist.v`, `ModelTensor.v`, `ModelChol.v`, `ModelGrad.v` |
| distributions/univariate.py and multivariate.py: every `_log_prob` and `_prob` with a check_numerics switch, on non-finite numbers | `ModelNum.v` |
| hmc.py: whole module | `ModelHMC.v`, `ModelExt.v` |
| hmc.py: HMC.sample as a graph of operations executed in any order | `ModelExec.v`, `ModelHMCExec.v` |
| sgmcmc.py: SGLD, PSGLD, SGHMC, SGNHT | `ModelSGMCMC.v` |
| utils.py log_sum_exp, log_mean_exp and the acceptance rate of hmc.py in floating-point arithmetic | `ModelFloat.v` |
| distributions: the _sample methods that start from uniform noise or Gamma draws, in floating-point arithmetic | `ModelFloatSample.v` |
| distributions: _log_prob of Normal, Bernoulli, Categorical, OnehotCategorical, Uniform and Laplace, in floating-point arithmetic | `ModelFloatDensity.v` |
| hmc.py: StepsizeTuner.tune, one trial of _init_step_size (leapfrog_integrator, hamiltonian, get_acceptance_rate) and its loop, in floating-point arithmetic | `ModelFloatTune.v` |
| hmc.py: ExponentialWeightedMovingVariance, _adapt_mass and an iteration of sample() with adapt_mass, in floating-point arithmetic | `ModelFloatMass.v` |
| sgmcmc.py: SGLD, PSGLD, SGHMC, SGNHT (friction per entry) in floating-point arithmetic | `ModelFloatSGMCMC.v` |
| inclusive_kl.py: importance; monte_carlo.py: vimco, in floating-point arithmetic | `ModelFloatImportance.v` |
| evaluation.py: AIS in floating-point arithmetic | `ModelFloatAIS.v` |
| variational/exclusive_kl.py: ELBO, SGVB, REINFORCE and TensorFlow's debiased moving average in floating-point arithmetic | `ModelFloatVI.v` |
| diagnostics.py in floating-point arithmetic | `ModelFloatDiag.v` |
| transform.py (planar flow) in floating-point arithmetic | `ModelFloatFlow.v` |
| transform.py (inverse autoregressive flow) in floating-point arithmetic | `ModelFloatIaf.v` |
| distributions/univariate.py (Gamma, Beta, Poisson, Binomial, InverseGamma, BinConcrete log densities) in floating-point arithmetic | `ModelFloatDensity2.v` |
| sgmcmc.py: SGMCMC.sample, sgmcmc_info, PSGLD.__init__; hmc.py: HMC.sample (validation); sessions with several operations | `ModelSession.v` |
| variational/: base, exclusive_kl, inclusive_kl, monte_carlo | `ModelVI.v`, `ModelObjective.v` |
| a whole session with a variational objective: both networks, merging, caching, the estimators | `ModelLife.v` |
| evaluation.py: is_loglikelihood, AIS | `ModelVI.v`, `ModelAIS.v` |
| diagnostics.py | `ModelDiag.v` |
| transform.py: planar_normalizing_flow, inv_autoregressive_flow, linear_ar | `ModelFlow.v` |
| utils.py: TensorArithmeticMixin, log_sum_exp, log_mean_exp, merge_dicts | `ModelOps.v`, `ModelUtils.v`, `ModelDict.v` |
| legacy/: special distributions, StochasticTensor subclasses | `ModelSpecial.v`, `ModelCall.v` |
| examples/utils: multi_gpu.py, optimizers.py, dataset.py after reading the files, average_rmse_over_batches and save_image_collections of utils.py; batching loops and select_from_corpus of the examples | `ModelExamples.v` |
| examples/gaussian_process: kernel, conditional, variational factor | `ModelGP.v` |
| examples/bayesian_neural_nets and gaussian_process: minibatch log joint, shuffling, test errors | `ModelTrain.v` |
| examples/topic_models/lntm_mcem.py: word distribution, training loop, reports | `ModelTopic.v` |
| examples/semi_supervised_vae/vae_ssl.py: bound over the labels, classifier, accuracy | `ModelSSL.v` |
| examples/generative_adversarial_nets: losses, clipping, critic | `ModelGAN.v` |
| examples/probabilistic_matrix_factorization/pmf_hmc.py: targets, chunks, epoch, report | `ModelPMF.v` |
| examples/semi_supervised_vae/vae_ssl_adaptive_is.py: bounds and costs | `ModelASSL.v` |
| examples/bayesian_neural_nets/variational_dropout.py: bound, noise scale, learning rate, prediction | `ModelDropout.v` |
| examples/sigmoid_belief_nets: both networks; binarization of images in all examples | `ModelSBN.v` |
| examples/normalizing_flows: posterior, model and bound of one image | `ModelVaeNF.v` |
| examples/variational_autoencoders/bernoulli_latent_vae.py: model, bound, cost; batch normalization for one unit | `ModelBernoulliVae.v` |
| examples/toy_examples: kde, burn-in, mixture, plotted densities | `ModelToy.v` |
| examples/utils/dataset.py: download and cache files of all loaders, stopped at any point | `ModelCache.v` |

Not modelled: floating-point rounding; name scopes of operations, and variable scope names with several components; warnings and logging; TensorFlow's graph construction costs; documentation inheritance; Python 2/3 compatibility shims; the examples other than the parts listed above, and the docs and tests directories.

## Each property: what is modelled and how it is proved

Statements are in properties.jsonl, theorem names in MANIFEST.json.

* **C01** Backward operation search is exact and ordered. Graph as a finite map from operations to data and control inputs; the double-ended-queue search with fuel. Termination bound, exactness and order by an invariant on (queue, seen, done, result), for every acyclic graph. Files: `PropGraph.v`.
* **C02** Context stacks are balanced. Host programs are trees of library calls with arbitrary continuations; balance by induction on the tree, exceptions included. Files: `PropContext.v`.
* **C03** Observations reach exactly the networks built under the innermost observe. Same program model; the innermost active observe block determines what a network built under it sees. Files: `PropContext.v`. Note: the refuted theorems record how the guarantee is lost if a context class is subclassed
* **C04** A stochastic node has one value. BayesianNet as a state machine over operation lists; invariant that the cached value of a node never changes. Files: `PropBN.v`, `PropQuery.v`.
* **C05** Stochastic node names are unique and nodes are permanent. Same state machine; invariant over all histories of calls. Files: `PropBN.v`. Note: C05_permanent_refuted records that deterministic() breaks permanence of the name it reuses
* **C06** log_joint is the sum over the current stochastic nodes. Same state machine; log_joint as a sum over the node table, all histories. Files: `PropBN.v`. Note: the calls excluded in the property are shown to break it
* **C07** Multi-name queries are ordered and all-or-nothing. Same state machine; queries as list traversals with early exit. Files: `PropBN.v`, `PropQuery.v`.
* **C08** Observation precedence. Same state machine plus the context program model. Files: `PropBN.v`.
* **C09** Dictionary merging is last-wins and defines who overrides whom. Dictionaries as association lists; merge as fold; callers of merge_dicts individually. Files: `PropDict.v`. Note: merge_dicts semantics and the precedence each caller gets from it; AIS density and sampler disagree exactly on overlapping keys.
* **C10** Parameter broadcasting is exact. Shapes as lists, right-aligned extents as specification; the code path through tf.ones_like and elementwise ops. Files: `PropShape.v`.
* **C11** Shape contract of sample, prob and log_prob. Tensor programs evaluated with broadcasting; a generic theorem for flat elementwise programs, applied to each distribution; reshape/transpose samplers by index arithmetic. Files: `PropChol.v`, `PropTensor.v`, `PropTensorMulti.v`. Note: Shapes and elements of sample and log_prob for every distribution.
* **C12** Grouping sums log-probabilities and multiplies probabilities. reduce over the trailing axes as nested sums. Files: `PropShape.v`.
* **C13** Shape queries agree with the run-time shape. Static shapes as options; soundness and agreement with run-time shapes. Files: `PropShape.v`.
* **C14** Static shape rejection is sound. Static checks as functions on partial shapes; soundness and completeness. Files: `PropShape.v`. Note: The check is sound and complete for mutual broadcasting; the documented one-directional contract is refuted with a witness.
* **C15** Discrete distributions are normalised. Finite sums; binomial and multinomial theorems; exponential series for Poisson. Files: `PropDiscrete.v`. Note: lgamma enters only through lgamma(n+1)=ln n!. Multinomial masses of count vectors with another total are shown positive, so they add up to more than one (refutation).
* **C16** Continuous densities integrate to one. Improper Riemann integrals; the Gaussian integral by a parametric integral; Gamma by substitution to the Euler integral; Beta by a recurrence and log-convexity that pin its integral down to the quotient of Gammas; Dirichlet by iterating scaled Beta integrals over the simplex; the multivariate normals by iterated integrals and change of variables along triangular maps. Concrete and ExpConcrete (and Dirichlet again) follow from the law of their samplers. Files: `PropBeta.v`, `PropDensity.v`, `PropDensityMulti.v`, `PropRatio.v`. Note: Gamma, InverseGamma, Beta and Dirichlet relative to lgamma being the log of Euler's integral at the arguments it is called with; ProofGammaFn.v (lgamma_premises_met) shows one function meets that premise for every positive argument together with the factorial premise. The multivariate integrals are iterated improper integrals; the Dirichlet one ranges over the simplex (SpecSimplex.v).
* **C17** The sampler draws from the density that log_prob reports. Quantile transport for increasing transforms; counting argument for the samplers built on categorical draws; Beta by exchanging two improper integrals (a Tonelli theorem for non-negative continuous integrands, ProofTonelli.v); change of variables for every statistic for the Cholesky normals. Concrete, ExpConcrete and Dirichlet: the noise is moved to log coordinates, independent log-gamma variables are split into log ratios and the log of their sum (ProofRatio.v), and simplex integrals are moved to log ratios by breaking the stick (ProofRange.v, ProofSimplex.v); the simplex integral is over the first coordinates, as the supremum over an exhaustion by compact parts (SpecRange.v). Files: `PropBetaLaw.v`, `PropDensityMulti.v`, `PropRatio.v`, `PropSampler.v`, `PropSamplerMulti.v`. Note: FoldNormal refuted: its sampler is the Normal's. The laws of the TensorFlow noise are trusted; for tf.random.categorical: independent cells, each distributed as the softmax of its row; for tf.random_gamma: independent standard gamma draws. ExpConcrete's density is relative to Lebesgue measure on the log ratios to the last category (SpecRange.v), which is where it is exact; with respect to the first log coordinates it would need a further factor.
* **C18** Samples lie in the support. Direct inequalities for each sampler. Files: `PropSupport.v`. Note: FoldNormal refuted: C18_foldnormal_refuted.
* **C19** Parameterisations of the same distribution agree. Algebra of the formulas, through the constructors. Files: `PropSupport.v`.
* **C20** Related distributions are consistent with each other. Algebra of the formulas and shared-noise arguments. Files: `PropSupport.v`. Note: Laws are compared through densities with Jacobian factors and through the samplers on the same noise.
* **C21** Cholesky-parameterised normals: sampler and density are inverse to each other. Triangular solve as recursion; sums over explicit dimensions; broadcasting of factors. Files: `PropChol.v`. Note: C21_mvn_non_triangular_refuted: a non-triangular factor is accepted without error, and then log_prob is not the density of the samples.
* **C22** log_combination is the log multinomial coefficient. Factorial identities. Files: `PropDiscrete.v`. Note: lgamma(n+1)=ln n! is a hypothesis on the lgamma parameter.
* **C23** log_mean_exp and log_sum_exp are exact and overflow-free. Extended reals; exactness for all finite lists, classification of non-finite ones. Files: `PropUtils.v`. Note: Idealised floats: exact reals with infinities and NaN. All -inf gives NaN (refutation).
* **C24** The HMC integrator is the leapfrog scheme, reversible and volume preserving. Loop equals iterated kick-drift-kick; reversibility algebraically; Jacobian by matrix algebra over the ring of real functions (mathcomp), any dimension. Files: `PropHMC.v`. Note: The loop equals n kick-drift-kick steps for every n >= 1 (n = 0 applies one half kick, negative n nothing); reversibility is exact; the Jacobian determinant is one for any smooth gradient in any finite dimension.
* **C25** Metropolis correction satisfies detailed balance and rejects non-finite proposals. Extended-real acceptance rate; detailed balance; a change-of-variables theorem for iterated Riemann integrals over any finite number of coordinates (triangular affine maps, cut-offs, least upper bounds of integrals over cubes) shows that the proposal preserves volume, and with it that the whole transition keeps the mean of every function; the momentum law by change of variables; runs of several transitions by induction, with a change of variables that touches only part of the coordinates. Files: `PropInvariance.v`, `PropMetropolis.v`, `PropMomentum.v`, `PropRun.v`. Note: Rates over extended numbers; detailed balance for real energies; a full transition of every chain with its own energies over all entries of all latents; invariance of the target for real integrals in any dimension, for one chain among several; momenta law for any number of latents and entries.
* **C26** Each HMC chain ends exactly at its proposal or its old state, and the report matches. Index arithmetic of where() over chains and latents; non-interference between chains. Files: `PropMetropolis.v`. Note: For every chain shape and list of latents; chain independence for log-densities and gradients that do not mix chains.
* **C27** Step-size adaptation state. Tuner as a state machine; all histories of flags and rates. Files: `PropAdapt.v`. Note: For every history of adapt flags, rates and restarts. Findings: adaptation off from the start replaces the configured step size by 1; the shrinkage point is exp(10*step_size) instead of 10*step_size.
* **C28** Mass adaptation computes the exact exponentially weighted mean and variance. Exponentially weighted moments by induction on batches. Files: `PropAdapt.v`. Note: Exact weighted moments for every sequence of non-empty batches and every decay in (0,1). Finding: adapt_mass off from the start makes the mass infinite.
* **C29** Initial step-size search. Search loop with fuel; exact stopping conditions. Files: `PropAdapt.v`. Note: For every acceptance function. Findings: below-target first trial stops after one reduction; no termination without a crossing or with a target above one.
* **C30** Stochastic-gradient samplers update as one simultaneous step. Dataflow graph with read, compute, assign operations; all schedules. Files: `PropSGMCMC.v`. Note: Every schedule of a dataflow graph with explicit read, compute and assign operations, any number of latents. Finding: SGLD and PSGLD lack the control dependencies of SGHMC and SGNHT, so with live buffer reads the update is not simultaneous.
* **C31** Momentum resampling period of SGHMC and SGNHT. Counter model and schedules. Files: `PropSGMCMC.v`. Note: Finding: the counter read is unordered with its increment; resampling can be doubled, skipped, or differ between latents.
* **C32** Stochastic-gradient samplers reduce to one another. Equalities of update functions. Files: `PropSGMCMC.v`. Note: Equalities of update functions for all states, gradients and noise.
* **C33** ELBO is a lower bound with gap KL. Finite latent spaces: expectations as sums; dual numbers. R^d: expectations as improper integrals (SpecExpect), Jensen's inequality and differentiation under the integral sign proved in ProofExpect/ProofDerive. Files: `PropELBO.v`, `PropExpect.v`, `PropGradient.v`. Note: finite latent spaces (sums) and latent vectors in R^d (improper integrals), any number of samples, dual-number gradients; for R^d the interchange of derivative and integral is proved from a dominating integrable function
* **C34** REINFORCE gradient is unbiased. Score-function identity; dual numbers; both orders of reading the moving average. The same in R^d. Files: `PropELBO.v`, `PropGradient.v`. Note: finite latent spaces and R^d; unbiasedness proved when the moving average is read before its update; the other order is refuted with a witness (C34_update_first_refuted)
* **C35** Importance-weighted objective is sandwiched and tightens. Jensen on finite spaces and in R^d, any number of samples; exchangeability for monotonicity. Files: `PropExpect.v`, `PropGradient.v`, `PropIW.v`. Note: finite latent spaces and R^d
* **C36** VIMCO's control variate leaves the sample out and keeps the gradient unbiased. Leave-one-out terms; conditional expectations. Also in R^d, by integrating out one draw at a time (ProofSamples). Files: `PropGradient.v`, `PropVimco.v`. Note: finite latent spaces and R^d; negative axis values are refuted with a witness (C36_negative_axis_refuted)
* **C37** Inclusive-KL importance weights are self-normalised. Self-normalised weights; gradients by dual numbers. Zero mean gradient at the posterior also in R^d. Files: `PropGradient.v`, `PropIW.v`. Note: finite latent spaces; zero mean gradient at the posterior also in R^d
* **C38** Variational objective construction and coverage. Objective construction over the BayesianNet state machine. Files: `PropObjective.v`. Note: the documented coverage check is refuted: it never fires
* **C39** Planar flow is invertible with the reported log-determinant. Monotonicity and determinant lemma; Jacobian by derivatives. The density statement: a layer is a linear change of one coordinate, shears, a monotone change of one coordinate and the inverse linear change; the change of variables formula is proved for each and composed (ProofBimove.v). Files: `PropFlow.v`, `PropFlowBatch.v`, `PropFlowDensity.v`. Note: parameters with w = 0 (division by zero) are excluded by hypothesis
* **C40** Inverse autoregressive flow is invertible with the reported log-determinant. Triangular Jacobian; inverse by recursion over coordinates. The density statement: changes of variables one coordinate at a time, in order, followed by the renaming of the coordinates (ProofBimove.v). Files: `PropFlow.v`, `PropFlowBatch.v`, `PropFlowDensity.v`. Note: unknown update names are refuted: they are accepted and only reverse
* **C41** Effective sample size range and invariances. Sums of autocovariances; rearrangement bounds. Files: `PropDiag.v`. Note: range n/(...) with the bound n(n-1)/(3n-5); uncorrelated chains do not reach n (refutation)
* **C42** Effective sample size of vector chains. Minimum over dimensions, failure cases. Files: `PropDiag.v`. Note: minimum over dimensions; burn-in of at least the chain length gives infinity (refutation); which inputs raise
* **C43** AIS temperature schedule. Real analysis of the schedule; run as a list of calls. Files: `PropAIS.v`. Note: schedule endpoints, monotonicity, symmetry; order and temperatures of a whole run
* **C44** AIS weights are unbiased. Telescoping weights; induction on temperatures on finite state spaces, and backwards along the run for HMC in R^d with integrals over the start, every noise vector and every uniform number. Files: `PropAIS.v`, `PropRun.v`. Note: telescoping for any deterministic session; unbiasedness and Jensen bound for finite state spaces, any number of chains, temperatures and adaptation steps; bias under continued adaptation (refutation)
* **C45** Arithmetic on tensor-like objects keeps operand order. Python's operator dispatch rules and the mixin's table. Files: `PropOps.v`. Note: for every operator and either operand order, including comparisons reflected by the language; NumPy arrays and tf.Tensor left operands have operator methods of their own and are not modelled
* **C46** Deprecated special distributions. Tensors over extended reals. Files: `PropSpecial.v`. Note: full behaviour of sampling and densities, with three refutations of the intended density
* **C47** Gradient flags change gradients, never values. Expression graphs with stop_gradient; forward-mode derivative proved equal to the analytic derivative. Files: `PropGrad.v`. Note: Parameters are expression graphs; tf.gradients is forward-mode differentiation with stop_gradient, proved equal to the Coquelicot derivative. lgamma/digamma and the gamma draw are arbitrary functions. Score mean zero is proved for the Normal only.
* **C48** Named node constructors build the node their arguments describe. Python argument binding as a function; tables of signatures; case analysis over all constructors for arbitrary argument lists. Files: `PropCall.v`. Note: All 20 constructor methods and the 22 deprecated classes. Findings: unknown keywords are silently ignored (C48_unknown_ignored, C48_misspelled_refuted), the deprecated Empirical drops is_continuous (C48_empirical_refuted), positional order of group_ndims and n_samples differs between constructors (C48_positional_order_refuted).
* **C49** Constructors accept exactly the documented arguments. Each constructor as a sequence of checks that raise or add run-time assertions; a Hoare-style rule for sequences of checks relates the outcome to a contract over run-time shapes. Files: `PropInit.v`. Note: All 19 constructors, then Distribution.__init__. What the constructor knows of a shape is separate from the run-time shape. TensorFlow's own conversion and assertion ops are modelled; assertions on constants are always counted as run-time assertions. Finding: for the matrix factors of the multivariate normals an extent 0 is taken for an unknown one (C49_empty_axis_refuted).
* **C50** Dtypes of samples and probabilities. Every tensor expression of the methods with its values left out and a dtype inference for it; case analysis over classes and accepted dtypes. Files: `PropDtype.v`. Note: Dtype inference for every expression of sample, log_prob and prob of the 19 classes; which kernels a TensorFlow release provides (e.g. float16 triangular solve) is not modelled.
* **C51** Variables across calls of observe(). Programs as trees of get_variable, variable scopes, exceptions, model creation and observe(); the variable store, the scope counters and make_template as state; a record of all answers. One invariant over all programs (what every model's scope is, what the record contains) proved by induction on the program; a simulation of the second run of a model function by the first. Files: `PropVar.v`. Note: Two findings: a model built without args/kwargs cannot be observed; a model whose first observe() raised may be unusable.
* **C52** Life of a variational objective. The objective object with its caches (network, tensor, log joint, entropy) as state over the networks of ModelBN and the constructor of ModelObjective; accesses as a transition function over arbitrary histories; what the estimators compute is a parameter (it is the subject of C33-C37). Invariant: the caches hold the value of the one fixed log joint and entropy; nodes evolve monotonically; composition with C38_coverage and C06_log_joint_is_sum gives the end-to-end theorem. Files: `PropLife.v`. Note: All histories of accesses. Adding a stochastic node to obj.bn is excluded from C52_consistent and refuted separately.
* **C53** Densities on every float and the check_numerics switch. Every `_log_prob` over the reals with both infinities and NaN (ModelNum.v), with the checks as failures; case analysis; agreement with the real-number formulas of ModelDist.v inside the support. Files: `PropNum.v`, `PropNumMatrix.v`. Note: all classes with a check_numerics switch; exact reals with infinities and NaN (no rounding, overflow or signed zeros); answers-are-numbers for the matrix normal not included; boundary NaNs refuted with witnesses
* **C54** Sampling operations over a session. Validation of sample() and sessions with several operations of one sampler object (ModelSession.v, over the step functions of ModelSGMCMC.v); induction over histories of runs; the sharing of the counter is refuted as a per-operation period. Files: `PropSession.v`. Note: Validation, effect and frame of one run, the statistics dictionary, and histories of interleaved runs. The shared counter is a finding (refuted as a per-operation period).
* **C55** Numerical stability of log_sum_exp, log_mean_exp and the acceptance rate. The operations of ModelExt.v followed by rounding (Flocq's FLT format, nearest even, overflow to infinity; ModelFloat.v), exp and log as functions assumed faithfully rounded; error analysis by induction over the plan of summation. Files: `PropFloat.v`. Note: Any format satisfying wide (float16, bfloat16, float32, float64), any plan of summation, faithful exp and log. C55_unshifted_refuted: the formula without the shift overflows at one ordinary float.
* **C56** HMC iterations do not depend on the execution order. The operations of HMC.sample as a dataflow graph (ModelHMCExec.v) over a generic machine for graphs in which kernels take variable contents at any time before they finish (ModelExec.v). Per variable: its readers are ancestors of its writer, or read through the assignment; so every order gives the result of the sequential reference (SpecExec.v), which is the transition of C25/C26 with the adaptation of C27 and C28. The unordered pair (assignment and read of step_size) is refuted with two orders. Files: `PropExec.v`. Note: Every execution order of one iteration, any number of latents and chains; operations grouped where no assigned variable is read in between. Finding: with adaptation given and switched off the first iteration depends on the order.
* **C57** Sampling iterations that are interrupted. Prefixes of the execution orders of C56; single writers give all-or-nothing per variable; ancestors of the assignments of the latents include the rates. Torn states refuted with a witness. Files: `PropExec.v`, `PropSGMCMC.v`. Note: Every prefix of every execution order. Findings: torn latents; the retry of an interrupted first iteration skips the step size search.
* **C58** Samples in floating-point arithmetic. The _sample methods over the formats of C55 from the random bits of tf.random_uniform and draws of tf.random_gamma (ModelFloatSample.v); ranges by monotonicity of rounding, the end points by exact arithmetic on the grid of the bits, sums by induction over the plan of summation. Boundary samples refuted with witnesses. Files: `PropFloatSample.v`. Note: The refuted theorems show that the open supports are not kept (findings).
* **C59** Log densities in floating-point arithmetic. The formulas of _log_prob over the formats of C55 (ModelFloatDensity.v); forward error analysis operation by operation with the relative error of rounding and gradual underflow, exactness of multiplication by powers of two, and C58's log_softmax. Overflow cases refuted with witnesses. Files: `PropFloatDensity.v`. Note: log_prob in floating-point arithmetic: finiteness and error bounds for every format; the overflow cases are refuted with witnesses. check_numerics, signed zeros and flushing of subnormal numbers are not modelled.
* **C60** Step size of HMC in floating-point arithmetic. StepsizeTuner.tune, one search trial and the search loop over the formats of C55 (ModelFloatTune.v). Invariant of the tuner by induction over the history: a rounded moving average cannot leave a power-of-two bound because the last rounding is below the midpoint; ties-to-even stops the counter. Error recursion for h_bar times (n + t0), compared with the specification of C27. The search: two increases at least double the step size, so it overflows after boundedly many; at an infinite step size every momentum is infinite or NaN. Findings refuted with witnesses. C60_trial bounds the rounding error of the leapfrog step of a trial. Files: `PropFloatTune.v`. Note: Floating-point model of ModelFloatTune.v. The three _refuted theorems are findings.
* **C61** Mass adaptation of HMC in floating-point arithmetic. ExponentialWeightedMovingVariance, _adapt_mass and a whole iteration of sample() with adapt_mass over the formats of C55 (ModelFloatMass.v). Weight of an update: 1 at the first one and between (1 - decay)(1 - 8u) and 1 afterwards; the new mean is a rounded point between old mean and position, hence inside the range by monotonicity of rounding. The error obeys e' <= (1 - w) e + c u, whose fixed point c u / w bounds it for every history (SpecAdapt.v gives the exact averages). A stuck chain: the variance stays exactly 0, the mass is infinite, momentum and kinetic energy NaN, and a NaN Hamiltonian has acceptance rate 0; induction over the iterations. Findings refuted with witnesses. Files: `PropFloatMass.v`. Note: Moving variance and mass in floating point: range and history-independent accuracy for one chain; a chain that did not move before the adapted mass is used is stuck; refutations: never moves with mass_collect_iters <= 1, negative variance with several chains.
* **C62** SGMCMC samplers in floating-point arithmetic. Float model of the four samplers of sgmcmc.py, one vector entry at a time, with the learning rate, the gradient function and the draws of each iteration as inputs. Boundedness by invariants over the list of iterations (positions saturate because additions below half the spacing are absorbed; momenta contract by the friction). Accuracy by propagating absolute error bounds through the operations; the average of squares by induction over the history. Files: `PropFloatSGMCMC.v`. Note: SGNHT with a friction per entry only; the mean kinetic energy of the scalar friction is covered over the reals (C30, C32). Findings: C62_sgld_frozen, C62_friction_refuted, C62_variance_refuted.
* **C63** Importance weighted estimators in floating-point arithmetic. One position of the batch, lists along the sample axis, the code's own sequence of rounded operations, reductions with arbitrary summation plans (`ModelFloatImportance.v`). Error bound for signed sums under any plan by induction on the plan; log_mean is 1-Lipschitz in the sup norm; the rest from the accuracy of log_mean_exp (C55) and softmax (C58). Files: `PropFloatImportance.v`. Note: ModelFloatImportance.v; the two _refuted theorems are findings about impossible samples
* **C64** Annealed importance sampling in floating-point arithmetic. The schedule in a host format followed by one rounding to the device format; densities, weights and the estimate with the device's rounded operations (`ModelFloatAIS.v`). Transitions enter through the log densities they report, which are arbitrary. Forward error analysis of the sigmoid; induction over the temperatures for the weights; C55's log_mean_exp and the sup-norm Lipschitz bound of C63 for the estimate. Files: `PropFloatAIS.v`. Note: ModelFloatAIS.v; the two _refuted theorems are findings about zero densities
* **C65** Evidence lower bound and REINFORCE in floating-point arithmetic. Entries of the tensors with rounded operations, the batch as positions of lists, the mean over all entries for the moving mean, TensorFlow's debiased moving average with its float step counter (`ModelFloatVI.v`). An invariant over the history tracks the shadow variable by contraction (the error of each step is multiplied by the decay afterwards), so the bound does not grow with the number of steps; the saturated counter is covered by decay^(2^prec) <= u. Files: `PropFloatVI.v`. Note: ModelFloatVI.v; the two _refuted theorems are findings about samples of non-finite density
* **C66** Effective sample size in floating-point arithmetic. `diagnostics.py` with rounded operations and arbitrary reduction trees (`ModelFloatDiag.v`). Forward error analysis of mean, variance and autocovariances, a perturbation lemma for the ratio and the sum, and the exact C41 for the comparison; the two refuted expectations are computed for every format. Files: `PropFloatDiag.v`. Note: ModelFloatDiag.v; the two _refuted theorems are findings
* **C67** Planar normalizing flow in floating-point arithmetic. `planar_normalizing_flow` with rounded operations and arbitrary reduction trees (`ModelFloatFlow.v`). Forward error analysis of the inner products, of softplus (1-Lipschitz), of tanh (1-Lipschitz by the mean value theorem) and of the logarithm of a determinant bounded below; induction over the layers against the exact model of C39. The refuted expectations are computed for every format, the spurious assertion failure for single precision. Files: `PropFloatFlow.v`. Note: ModelFloatFlow.v; the three _refuted theorems are findings
* **C68** Inverse autoregressive flow in floating-point arithmetic. `linear_ar` and `inv_autoregressive_flow` with rounded operations and arbitrary reduction trees (`ModelFloatIaf.v`). Masked products are exactly 0, so bitwise equality needs no error analysis; the accuracy theorems reuse the inner product bound of C67, and the log probability is an induction over the layers. The refuted expectations are computed for every format. Files: `PropFloatIaf.v`. Note: ModelFloatIaf.v; the _refuted theorems are findings
* **C69** Estimates converge as the number of samples grows. Uses the models of C33 to C37 (`ModelVI.v`). Variances of averages of independent draws by induction on the number of draws and Chebyshev's inequality; logarithms of averages and self-normalised ratios are reduced to it with explicit constants, and consistency is the limit of the explicit bounds. Over R^d the same is proved with improper integrals, probabilities being tested with continuous functions. Missing support is a refuted expectation. Files: `PropChance.v`, `PropChanceR.v`. Note: finite latent spaces; elbo and importance weighted objective also on R^d. C69_support_refuted is a finding.
* **C70** Log densities with Gamma functions and BinConcrete in floating-point arithmetic. The six `_log_prob` methods with rounded operations (`ModelFloatDensity2.v`). A relation between a float and the exact value with an error in units of roundoff relative to a size is carried through each operation; the exact formula is then identified with the logarithm of the textbook density. tf.lgamma and tf.nn.softplus are arguments with an accuracy assumption, met by correctly rounded functions. The Poisson expectation is refuted with an elementary form of Stirling's bounds. Files: `PropFloatDensity2.v`. Note: Accuracy relative to the size of the terms, for every format of at least 6 bits; loss of accuracy by cancellation and NaN at the boundary are stated as refuted expectations. check_numerics off.
* **C71** HMC iteration in floating-point arithmetic. The iteration of `ModelFloatMass.v` (with the integrator and energies of `ModelFloatTune.v`) against the exact integrator of `ModelHMC.v`. Both loops are unfolded stage by stage; the maximum error of positions and momenta grows by a factor and an increment per stage, by induction over the stages. Reversibility follows from C24_reversible and the same bound started at an error. The energy error adds summation errors and Lipschitz terms; min(1, exp(-x)) is 1-Lipschitz, which bounds the error of the acceptance probability. Exact reversibility is refuted at 2^prec, where adding 1 is lost and subtracting 1 is not. Files: `PropFloatLeapfrog.v`. Note: Accuracy of the leapfrog integrator, approximate reversibility and a whole iteration with a given mass in floating-point arithmetic; exact reversibility is refuted for every format.
* **C72** Many AIS chains, and overestimates of the likelihood. Over the model of AIS.run in the expectation monad (ModelAIS.v, SpecAIS.v): every random value there has finitely many outcomes, so expectations of independent values can be exchanged; by induction on the transitions left, annealing K chains together is annealing each alone, and the adaptation phase drops out because the chains are redrawn from the prior. The law of one weight then gives the mean squared error (independence), the two-sided probability (Chebyshev) and the one-sided one (Markov's inequality from C44's unbiasedness). The one-sided bounds of is_loglikelihood follow from the expected weight in the same way. Files: `PropAISLaw.v`, `PropAISLawR.v`. Note: Kernels are fixed while annealing; a sampler that keeps adapting couples the chains and can bias the estimate (C44_adaptive_refuted). AIS over finite state spaces; the bounds for is_loglikelihood also over continuous ones.
* **C73** Averaging over devices and batches in the examples. Lists of lists: zip, slices and averages as the code computes them (ModelExamples.v). Cuts at i * N / G are increasing, so the slices concatenate to the whole; the mean of the means of parts of equal size is the mean of the whole. Files: `PropTowers.v`. Note: see PropTowers.v
* **C74** Steps of the Adamax optimizer of the examples. The update as a fold over the gradients. Invariant: |v| <= c m with c = (1 - beta1) beta2 / (beta2 - beta1), since m decays by beta2 > beta1 and is at least |g|. Files: `PropAdamax.v`. Note: see PropAdamax.v
* **C75** Data preparation in the examples. Each loader's computation after reading the file, as a function of the data and the permutation; partitions and multiplicities as Permutation, grouped lists by induction over the ratings against filter. Files: `PropData.v`. Note: see PropData.v
* **C76** Evaluation helpers of the examples. rms over batches by algebra on sums of squares; the grid by induction over its cells with div and mod; select_from_corpus against the list of (user number, movie, score) of the requested users. Files: `PropHelpers.v`. Note: see PropHelpers.v
* **C77** Data loaders that are interrupted. Loaders as programs of file system calls (ModelCache.v); a run is cut after n steps, where writing takes one step per byte. Invariant over all histories: every file is a prefix of its true content, kept by programs that write only what belongs there if they read only that (ProofCache.v). Stuck states are fixed points of every cut run. Files: `PropCache.v`. Note: see PropCache.v
* **C78** Gaussian process conditioning is exact. Model: `ModelGP.v` (kernel, forward substitution against the identity, the two matrix products, both forms of the covariance). The kernel is proved semidefinite from the power series of exp (powers of an inner product are semidefinite by induction, limits preserve it); L L^T = K makes the computed inverse two-sided, and the mean and covariance are stated through solutions of K a = b; the conditional covariance is a Schur complement of a semidefinite kernel matrix. Files: `PropGP.v`. Note: real arithmetic; hypothesis: the Cholesky factor used is one of K(z,z)
* **C79** Minibatch log joints are unbiased and test errors are in original units. Model: `ModelTrain.v`. All orders of n rows are enumerated by insertion; by induction every row is equally often at every position, so the mean of a batch is unbiased; any duplicate-free list of all orders is a permutation of that enumeration. Change of unit: the normal density scales by the standard deviation; log_mean_exp is the log of the mixture density. Files: `PropTrain.v`. Note: real arithmetic; the epoch average is refuted for batch sizes that do not divide the number of rows
* **C80** The topic model keeps every document with its chain, and its likelihood is normalized. Model: `ModelTopic.v` (word distribution, training loop with shuffle, batches, E steps and write-back). Induction over epochs with an explicit order of the documents; inside an epoch induction over batches, with firstn/skipn arithmetic for the write-back; the sampler is any function that moves the rows of a batch separately. The learning-rate bound telescopes. Files: `PropTopic.v`. Note: real arithmetic; the sampler is any function moving the rows of a batch separately; hyper-parameters are refuted to be independent of padding
* **C81** The semi-supervised bound enumerates every label and stays below the likelihood. Model: `ModelSSL.v` (tiling and reshaping of images and labels, smoothed class probabilities, bound, argmax and accuracy). Induction over the batch for the layout; the gap of the bound is a Kullback-Leibler divergence, nonnegative by ln x <= x - 1. Files: `PropSSL.v`. Note: The bound with one label is a parameter (C33 treats it).
* **C82** Adversarial training optimizes the stated losses and keeps the critic in its range. Model: `ModelGAN.v` (losses, averaging over devices, clip operation and training loop with an arbitrary optimizer, critic as layers of units). Losses by case analysis on the sign of the logit; optimality from ln x <= x - 1; the range by splitting off the last step of any run; steepness by induction over the layers. Files: `PropGAN.v`. Note: The critic is modelled outside training, with convolutions as sparse rows.
* **C83** Chunked sampling of the matrix factorization targets the posterior of all ratings. Model: `ModelPMF.v` (log joint on gathered rows, targets of both samplers, copy in, sample, copy out, epoch, report), on top of select_from_corpus and the loader of `ModelExamples.v`. The sum over the selected arrays is rewritten, with C76_select, into a sum over training ratings with an indicator; the rest of the posterior does not mention the chunk. The epoch is an induction over the chunks. Files: `PropPMF.v`. Note: One particle is followed; HMC on the target is C24-C26.
* **C84** The toy examples compare samples with the right reference. Model: `ModelToy.v` (kde in batches, burn-in flags, mixture log joint and moments, plotted densities). Batches by C73_full_batches; the rest is real algebra with exp and ln. Files: `PropToy.v`. Note: scipy's normal densities are modelled by their formula.
* **C85** In the adaptive semi-supervised example all particles of an unlabeled image share one label. Model: `ModelASSL.v` (the two proposals' log probabilities, put through the objectives of `ModelVI.v`). Shift of log_mean_exp and of the normalised weights by log q(y), then C35_lower_bound for each label and the sign of the divergence over labels; mean score zero for the classifier. Files: `PropASSL.v`. Note: finite label and latent spaces
* **C86** The variational dropout example reports the bound of the model whose images share one noise. Model: `ModelDropout.v` (log joint, bound of a batch with noise per image and particle, noise scale, learning rate, prediction). Linearity of the mean over independent draws, batches by C73_full_batches, and the decomposition of the evidence lower bound used for C33. Files: `PropDropout.v`. Note: finite noise spaces; batch normalization with stored averages
* **C87** The sigmoid belief network examples bound and follow the log-likelihood of a proper model. Model: `ModelSBN.v` (dense layers, Bernoulli layers, both networks' log probabilities, binarization). Induction on the width for one layer, exchange of sums over layers; differentiability of every layer in its weights; then C35_lower_bound, C35_monotone and C36_unbiased. Counting for the binarization. Files: `PropSBN.v`.
* **C88** The flow posterior of the normalizing flow example is a density, and its bound bounds log p(x). Model: `ModelVaeNF.v` (reparameterized normal sample and log probability, two flow calls, the model's log joint). C39_batch twice for the rows; the normal sample as a change of variables composed with those of C39_density; domination by the prior for p(x); exp t >= 1 + t for the bound. Not covered: existence of the mean bound for every decoder (where it does not exist the statement is empty), and the relu layers themselves, which enter as an arbitrary continuous function. Files: `PropVaeNF.v`. Note: Two flow calls compose; the returned log probability is a log density of mass 1; importance weights average to p(x) and the mean bound, when it exists, is at most log p(x). The relu layers enter as arbitrary continuous functions.
* **C89** The binary latent example bounds log p(x) and its combined cost follows the bound, with fixed normalization statistics. Model: `ModelBernoulliVae.v` (log joint, log q, the sum of the two costs, a batch with batch normalization in training mode for one unit). Sums over bits as in C87; C33_lower_bound, C34_unbiased and C34_baseline_cost; the training mode claim is refuted by a batch of two images, computed exactly. Not covered: the layers, which enter as differentiable logits (a relu kink at the current parameter is excluded). Files: `PropBernoulliVae.v`. Note: Proved for normalization statistics that do not depend on the draws; for training mode, which the example uses, unbiasedness is refuted with a two-image batch. The layers enter as differentiable logits.

## Print Assumptions of every theorem

Letters: F = `sig_forall_dec`, N = `sig_not_dec`, E = `functional_extensionality_dep`, C = `classic`, D = `constructive_indefinite_description`. Obtained by running `Print Assumptions` on each theorem of MANIFEST.json.

* no axioms ("Closed under the global context") (191 theorems): C01 (all); C02 (all); C03 (all); C04 (all); C05 (all); C06 (all); C07 (all); C08 (all); C09 (all); C10 (all); C11_poisson_sample, C11_categorical_sample, C11_multinomial_sample, C11_binomial_sample; C12 (all); C13 (all); C14 (all); C18_binomial, C18_multinomial; C21_mvn_accepts, C21_mvmn_accepts; C27_segment_exists; C28_needs_adapt_step_size; C30_barrier, C30_snapshot; C31 (all); C34_needs_latent; C36_permutation; C38 (all); C45 (all); C46_empirical_rejects, C46_sample; C47_flags; C48 (all); C49 (all); C50 (all); C51 (all); C52 (all); C54_sgmcmc_accepts, C54_sgmcmc_errors, C54_hmc_accepts, C54_info; C56_exists; C57_sgmcmc_stopped, C57_snapshot_stopped; C73_shards, C73_first_none_refuted, C73_all_batches, C73_full_batches, C73_padding; C75_labeled, C75_labeled_part, C75_unlabeled, C75_uci_split, C75_credits, C75_movielens, C75_grouped, C75_num_of, C75_untrained, C75_bag_of_words; C76_grid, C76_all_images, C76_select; C77 (all); C79_epoch_rows; C80_chains; C83_rounded; C84_burnin.
* axioms F (16 theorems): C11_log_prob_shape3, C11_log_prob_shape2, C11_log_prob_documented_shape, C11_normal_sample, C11_uniform_sample, C11_onehot_sample, C11_rows_documented_shape, C21_mvmn_sample; C18_onehot; C21_mvmn_sample; C28_not_adapted; C75_one_hot, C75_one_hot_rejects, C75_one_hot_negative_refuted; C81_labels; C83_epoch.
* axioms E, F (74 theorems): C11_uniform_prob, C11_gamma_sample, C11_inverse_gamma_sample, C11_beta_sample, C11_dirichlet_sample, C21_mvn_sample; C18_gamma_family, C18_dirichlet; C20_dirichlet_beta_sample; C21_mvn_sample; C24_leapfrog_scheme, C24_zero_leapfrogs, C24_negative_leapfrogs, C24_reversible; C28_exact_moments, C28_variance_nonneg, C28_variance_zero_iff, C28_mass, C28_unit_mass_before_collection, C28_off_from_start_refuted; C29_deterministic, C29_power, C29_grows_to_crossing, C29_single_reduction_refuted, C29_target_above_one, C29_trial_is_one_leapfrog; C32_preconditioner_history; C33_no_latent; C34_moving_average_range, C34_baseline_cost, C34_baseline_output; C41 (all); C42 (all); C44_data_mean; C46_grouped_refuted; C53_sampling_ignores_std; C54_psgld_init; C73_gradients, C73_batch, C73_losses, C73_unequal_refuted, C73_later_none, C73_reported_mean, C73_left_over_refuted; C74 (all); C79_unbiased, C79_gradient, C79_epoch_average, C79_epoch_average_refuted; C80_padding_hyper_refuted, C80_learning_rate; C82_distance, C82_clipped; C83_user_conditional, C83_movie_conditional, C83_ascent; C86_rate; C87_binarize, C87_binarize_conv_refuted.
* axioms C, E, F (1 theorems): C29_terminates_iff.
* axioms E, F, N (51 theorems): C11_bernoulli_sample; C18_bernoulli; C25_bad_start_reported, C25_bad_proposal_rejected; C26_report_fails_iff, C26_bad_start_unnoticed; C30_sghmc, C30_sgnht, C30_sgld, C30_psgld, C30_live_reads_refuted; C32_sghmc_is_sgld, C32_second_order_reversible, C32_second_order_drift_kick_drift, C32_sgnht_is_sghmc, C32_thermostat, C32_thermostat_second_order, C32_psgld_is_sgld, C32_preconditioner_range; C33_sgvb_unbiased; C37_normalised, C37_shift_invariant, C37_gradient; C40_linear_formula; C53_sampling_logstd; C54_run, C54_frame, C54_counter, C54_entering, C54_isolated, C54_shared_counter_refuted, C54_initial_momenta_unused, C54_friction_history, C54_initial_variables, C54_friction_from_start, C54_average_history, C54_entering_late; C69_sgvb; C72_independent; C75_standardize; C76_rmse, C76_plain_average_refuted; C79_rmse; C82_steepness, C82_one_lipschitz_refuted; C83_rmse_refuted, C83_rmse; C84_kde, C84_moments; C86_std, C86_prediction.
* axioms C, E, F, N (413 theorems): C11_mvn_log_prob, C11_mvmn_log_prob, C11_normal_log_prob, C11_bernoulli_log_prob, C11_gamma_log_prob, C11_beta_log_prob, C11_poisson_log_prob, C11_binomial_log_prob, C11_inverse_gamma_log_prob, C11_laplace_log_prob, C11_bin_concrete_log_prob, C11_foldnormal_log_prob, C11_laplace_sample, C11_bin_concrete_sample, C11_unnormalized_multinomial_log_prob, C11_multinomial_log_prob, C11_dirichlet_log_prob, C11_exp_concrete_log_prob, C11_concrete_log_prob, C11_concrete_sample, C11_exp_concrete_sample, C11_onehot_log_prob, C11_categorical_log_prob; C15 (all); C16 (all); C17 (all); C18_uniform, C18_bin_concrete, C18_concrete, C18_foldnormal_refuted; C19 (all); C20_inverse_gamma, C20_concrete_exp, C20_concrete_exp_log_prob, C20_bin_concrete, C20_bin_concrete_sample, C20_dirichlet_beta, C20_onehot_categorical, C20_multinomial_one, C20_binomial_one, C20_unnormalized, C20_foldnormal; C21_mvn_log_prob, C21_mvmn_log_prob, C21_mvn_log_prob_of_sample, C21_mvmn_log_prob_of_sample, C21_mvn_diagonal, C21_mvn_non_triangular_refuted; C22 (all); C23 (all); C25_rate_formula, C25_rate_range, C25_detailed_balance, C25_target_invariant, C25_transition, C25_momentum_law, C25_invariant, C25_chain_invariant, C25_run_invariant; C26_one_decision_per_chain, C26_reported_log_prob, C26_chains_independent; C27_state, C27_tuned_step_size, C27_weights_average, C27_step_size_positive, C27_frozen, C27_off_from_start_refuted, C27_shrinkage_point_refuted, C27_run, C27_used_step_size, C27_not_adapted, C27_search_iterations; C29_trial_acceptance, C29_trial_rate; C33_expected_value, C33_expected_value_unreduced, C33_lower_bound, C33_continuous, C33_continuous_unreduced, C33_sgvb_continuous; C34_unbiased, C34_unbiased_unreduced, C34_moving_average, C34_update_first_refuted, C34_continuous, C34_continuous_unreduced; C35 (all); C36_cost, C36_rejects, C36_negative_axis_refuted, C36_unbiased, C36_continuous; C37_uniform_at_posterior, C37_exact_at_posterior, C37_continuous_at_posterior; C39_constraint, C39_layer_map, C39_rejects, C39_density, C39_normal_density; C40_unknown_update_refuted, C40_rejects, C40_density; C43 (all); C44_telescope, C44_log_mean_weight, C44_unbiased, C44_lower_bound, C44_adaptive_refuted, C44_hmc_unbiased; C46_discrete, C46_continuous_refuted, C46_log_prob_rank_refuted, C46_log_prob_collapses; C47_values, C47_blocked, C47_reparameterized, C47_full_gradient, C47_path_gradient, C47_path_drops_score, C47_gamma_sample_gradient, C47_not_reparameterized_refuted, C47_path_ignored, C47_path_everywhere_refuted, C47_normal_score_mean_zero, C47_mvn_density, C47_mvmn_density, C47_std_logstd, C47_std_logstd_agree; C53_checks_change_nothing, C53_unchecked_always_returns, C53_accepts_exactly, C53_checked_answers_are_numbers, C53_inside, C53_outside, C53_nan_parameter, C53_nan_value, C53_nan_is_outside_uniform, C53_prob, C53_uniform_prob, C53_batch, C53_boundary, C53_boundary_refuted, C53_dirichlet, C53_exp_concrete, C53_concrete, C53_multivariate_normal, C53_matrix_normal, C53_dirichlet_inside, C53_exp_concrete_inside, C53_concrete_inside, C53_rows_outside, C53_zero_probability_refuted, C53_rows_are_numbers, C53_multivariate_normal_is_number, C53_multivariate_normal_inside, C53_matrix_normal_inside, C53_multinomial_inside, C53_matrix_normal_is_number, C53_never_succeeds; C55 (all); C56_iteration, C56_frozen, C56_settled, C56_transition, C56_order_refuted; C57_stopped, C57_before_decision, C57_torn_refuted, C57_retry_skips_search; C58 (all); C59 (all); C60 (all); C61 (all); C62 (all); C63 (all); C64 (all); C65 (all); C66 (all); C67 (all); C68 (all); C69_elbo, C69_importance, C69_support_refuted, C69_importance_sgvb, C69_reinforce, C69_inclusive, C69_elbo_continuous, C69_importance_continuous; C70 (all); C71 (all); C72_mean_squared_error, C72_converges, C72_seldom_above, C72_importance, C72_importance_continuous; C78 (all); C79_log_likelihood, C79_joint_log_likelihood; C80_doc_word, C80_log_px, C80_padding, C80_perplexity, C80_perplexity_words, C80_logstd; C81_classifier, C81_bound, C81_batch, C81_batch_bound, C81_accuracy; C82_losses, C82_optimal; C84_mixture, C84_target, C84_contour_refuted; C85 (all); C86_batch, C86_epoch, C86_own_noise_refuted; C87_model, C87_bound, C87_vimco; C88_posterior, C88_bound; C89 (all).
* axioms C, D, E, F, N (14 theorems): C24_jacobian_entries, C24_volume_preserving; C39_layer_jacobian, C39_flow, C39_batch; C40_linear_ar, C40_flow, C40_layer_map, C40_logdet, C40_linear_admissible, C40_batch, C40_linear_density, C40_normal_density; C88_two_calls.

## Findings

Statements that are false of the code, each proved with a witness or a general counter-theorem.

* C03: subclassing a context class shares the stack and loses the innermost-observe guarantee.
* C05: `deterministic()` reuses the name of a stochastic node and breaks permanence.
* C06: the cached log joint and log densities go stale after deterministic() reuses a name, after set of a custom log joint following its first use, and after deprecated node construction; a failed deprecated construction breaks the network.
* C07: the deprecated `outputs` fails on deterministic nodes.
* C09/C44: AIS uses the opposite precedence for overlapping keys in its density and its sampler.
* C14: a value that would stretch the distribution's own value axis passes the shape check.
* C15: `Multinomial.log_prob` gives positive mass to counts of another total.
* C17/C18: the FoldNormal sampler is the Normal's; it returns negative values.
* C21: MultivariateNormalCholesky accepts a non-triangular factor and then reports the density of another law.
* C23: log_mean_exp of all minus infinity is NaN.
* C27/C28: adaptation switched off from the first call replaces the step size by 1 and makes the mass infinite; the shrinkage point is exp(10 step_size).
* C29: the initial step size search need not terminate, and stops after one reduction if the first trial is below target.
* C30: SGLD and PSGLD lack the control dependencies of the other samplers, so the update of several latents is not simultaneous under every schedule.
* C31: the resampling counter is read unordered with its increment.
* C34: REINFORCE with a moving-average baseline is biased if the update runs before the read.
* C36: VIMCO with a negative axis mixes the wrong samples.
* C38: the documented coverage validation of variational objectives never fires.
* C40: an unknown `update` name in inverse autoregressive flow is accepted.
* C41/C42: effective sample size of uncorrelated chains does not reach n; burn-in of at least the chain length gives infinity; a constant dimension fails.
* C44: AIS is biased if HMC adaptation stays on.
* C45: `@` and shifts are not supported by the arithmetic mixin.
* C46: densities of the deprecated Implicit distribution.
* C47: the Gamma family passes gradients to its samples although is_reparameterized is False; use_path_derivative is ignored.
* C48: unknown keywords of node constructors are ignored; the deprecated Empirical drops is_continuous; positional orders differ between constructors.
* C49: for the matrix factors of the multivariate normals an axis of extent 0 is taken for an unknown one, so a mismatch is found only at run time.
* C51: the default arguments of a MetaBayesianNet are fixed at construction and cannot be observed; a first observe() that fails half-way leaves variables behind, so that later calls raise.
* C52: reinforce() twice in one variable scope raises; the tensor of an objective is not refreshed when its network is extended; an observation silently overrides a latent sample of the same name.
* C53: log_prob is NaN at boundary points of definite density (Gamma(1, b) at 0, InverseGamma at 0, BinConcrete at 0 and 1, Poisson(0) at 0, certain Bernoulli and Binomial outcomes, a Multinomial with a category of probability zero); with check_numerics the Uniform's log_prob fails outside the support; sampling a Normal built from std checks nothing; an infinite logstd passes log_prob's checks; concentrations below 0 pass the checks unless they are integers.
* C54: n_iter_resample_v counts the runs of all operations of one sampler object: with two operations run in turn and a period of 2 one gets fresh momenta at every run and the other never; an empty latent dictionary raises a bare ValueError; observing a name that is also latent disconnects the gradient and raises; the abstract SGMCMC returns, and does not raise, NotImplementedError.
* C25, C26: the check of the starting log density (tf.check_numerics, hmc.py:45) is an input of the reported log probabilities only. Running `sample_op` without fetching `hmc_info.log_prob` or `orig_log_prob` never executes it: a chain that starts at NaN or plus infinity then stays there forever with rate 0, one at minus infinity accepts its next finite proposal.
* C27, C56: HMC.t advances only in runs with adapt_step_size given; otherwise no operation needs it.
* C56: with adapt_step_size given and fed False, the assignment `step_size := exp(log_epsilon_bar)` is unordered with the leapfrog's use of step_size; the first such iteration may use either value.
* C57: an interrupted iteration may leave some latents updated and others not; a first iteration that fails after the counter was advanced is retried without the step size search.
* C58: Uniform samples can round up to maxval, where the density of the same object is 0, and are NaN for zero random bits when maxval - minval overflows; Beta, BinConcrete and Concrete samples can be exactly 0 or 1 (for Concrete and BinConcrete always, for logits far apart), where log_prob of the same object is infinite, NaN, or fails with check_numerics. Trusted about TensorFlow: tf.random_uniform scales a multiple of 2^(1-precision) below 1 in floating point, tf.random_gamma returns at least the smallest normal number, tf.nn.softmax subtracts the maximum and divides by the sum or multiplies by its inverse.
* C59: Normal.log_prob computes exp(-2 * logstd): once 1/std^2 overflows (float32 std below 2^-64, float16 below 2^-8) it is NaN at the mean and not finite anywhere, although the log density is an ordinary number. Uniform.log_prob is minus infinity on the whole interval when maxval - minval overflows. OnehotCategorical.log_prob is NaN when some other category has logit minus infinity; Categorical.log_prob is right there.
* C60: on a flat target _init_step_size grows the step size to infinity and returns infinity. With gamma = 1/16, t0 = 100, delta = 3/4 in float32, 256 rejections in a row give a step size of at most 2^-149, 1024 acceptances in a row an infinite one; nothing bounds the proposals.
* C61: with adapt_mass and one chain the variance is exactly 0 after the first update, so the mass is infinite; if an entry does not move before the adapted mass is first used every later iteration is rejected, and with mass_collect_iters <= 1 the chain never moves. With several chains rounding of the mean over chains can make the variance negative (six identical float32 chains), which gives NaN momenta.
* C62: SGLD stops moving for good when its updates are below half the spacing of the floats at the current position (small learning rates, large positions); a first-order SGHMC friction below half a unit of roundoff has no effect; variance_estimate greater than friction makes momentum and position NaN from the first iteration on (nothing checks it).
* C63: one sample of log weight minus infinity makes VIMCO's cost NaN (its own column of the control variate subtracts minus infinity from itself), although the bound it estimates is finite; the self-normalised importance cost of the inclusive KL objective is NaN when all samples are impossible.
* C64: AIS multiplies the joint log density by temperature 0 to get the prior's: a prior draw of zero joint density gives NaN, and one such chain makes the returned estimate NaN for the whole batch; likewise for zero prior density at temperature 1.
* C65: REINFORCE feeds the batch mean into the moving mean without a check: one sample with an infinite or NaN log joint density makes the moving mean NaN for good, and with it every later cost.
* C66: a chain that never moves can pass the effective sample size's assertion: ten copies of 2^prec - 1 give about 0.53 because numpy's mean is rounded to 2^prec - 2. Samples of size 2^(top/2) give NaN and AssertionError although the exact value is ordinary.
* C67: the planar flow's invertibility constraint is lost to rounding. With w = 1, aux_u = -n (n at least 2 prec) the computed w.u is exactly -1, which the assertion lets through: the determinant is 0 and the log probability plus infinity. With w = 5/4, aux_u = -16 in single precision w.u rounds below -1 and the assertion fails for every input. With w.aux_u above the overflow threshold of exp (88.7 in single precision) samples are NaN. `tf.nn.softplus(x) - 1` with `log1p(exp(-x))` style evaluation would avoid the first and the last.
* C68: `linear_ar` returns exp(x) and `inv_autoregressive_flow` takes its logarithm again; when x is below the exponent range the log probability is plus infinity (or, with subnormals, at most half of the exact value). The gru update has the same defect with log(sigmoid(s)). One infinite sample entry makes all outputs of the masked network NaN, also those that must not depend on it.
* C69: where the variational posterior cannot draw some point of positive probability, is_loglikelihood and the importance weighted objective converge to a value strictly below log p(x); nothing in the code checks for this.
* C70: Poisson log probabilities lose all accuracy for large rates (single precision, rate 2^30: a multiple of 2048 instead of about -11), because three large terms cancel; BinConcrete reports NaN for its own samples when they round to 0 or 1.
* C71: leapfrog steps are reversible only up to rounding: on a flat posterior the step from 2^prec with momentum 1 stays there, and the reversed step moves to 2^prec - 1.
* C73: gradients averaged over devices with unequal shards (a batch size that is not a multiple of the number of devices) are not the gradient of the mean loss; a variable without gradient on the first device is dropped silently; loops over N // batch_size batches leave the last N mod batch_size examples out of the reported means.
* C74: the examples' Adamax has no bias correction: its first step is (1 - beta1) times the published one.
* C75: to_one_hot takes negative labels from the end; the semi-supervised loaders return all training points as unlabeled, the labeled ones included, although the documentation says "all the other".
* C77: a download that is stopped leaves a partial file, and the loaders only check that the file exists: all later runs fail, or, for plain text data and vocabularies, silently return fewer rows. load_cifar10 only looks for data_batch_5 to decide whether the archive was extracted.
* C79: the lower bound printed by bnn_vi.py for an epoch is the mean of the steps; when the batch size does not divide the number of rows the short last batch is weighted like a full one, so the number is not the bound of the epoch's data (`C79_epoch_average_refuted`).
* C80: the empty documents that fill the last batch of lntm_mcem.py have topic parameters too, and these are averaged into Eta_mean and Eta_logstd (`C80_padding_hyper_refuted`). The learning rates have a finite sum, so with bounded optimizer steps beta can move only a bounded distance however long training runs.
* C78 (read, not modelled): gp_conditional calls tf.eye(n_z) and svgp.py builds RBFKernel(n_covariates) without a dtype, so both are float32 whatever the -dtype option says. An evaluation point that equals an inducing point has standard deviation exactly 0 (`C78_interpolates`), for which the log density is undefined.
* vae_ssl.py and vae_ssl_adaptive_is.py (read, not modelled): the numpy arrays x_labeled and x_unlabeled are rebound to tensors of the same name before the training loop shuffles and slices them.
* C81: the classifier of vae_ssl.py reads the fed images (x_unlabeled_ph) while the bounds are for their random binarizations (x_unlabeled); the bound holds for any classifier, so for this one too. The test loop feeds x_unlabeled but not x_unlabeled_ph, which the classifier still reads (read, not modelled).
* C82: wasserstein_gan.py:121 says the weights are clipped to ensure a 1-Lipschitz critic; weights within 0.01 alone do not ensure it when units have hundreds of connections and batch normalization divides by sqrt(variance + 0.001) (`C82_one_lipschitz_refuted`). That clip_op reads the updated weights relies on TensorFlow aliasing the variable's buffer on one device (not modelled: clip_op is run after infer_op).
* C83: pmf_hmc.py:117 evaluates node "r", which is not observed there, so ratings are sampled with noise alpha_pred; node "r_pred" holds the prediction. The reported error does not vanish for perfect predictions (`C83_rmse_refuted`).
* C84: toy2d_intractable.py:75-77 passes exp(logstd) as the variance when drawing the approximation; the contours are those of half the log standard deviations (`C84_contour_refuted`).
* C85: vae_ssl_adaptive_is.py:64 draws the label without n_samples. More particles do not close the gap of the unlabeled bound (`C85_gap_refuted`), and the klpq cost of unlabeled images has mean gradient zero for the classifier (`C85_classifier_refuted`).
* C86: variational_dropout.py draws a noise per image but counts its divergence once per data set; the reported number is a lower bound for the model with one shared noise (`C86_epoch`) and not for the network as built (`C86_own_noise_refuted`).
* C87: vae_conv.py:114 binarizes with <=, so that a black pixel is lit when the draw is exactly 0 (`C87_binarize_conv_refuted`); the other examples use <.
* C89: bernoulli_latent_vae.py trains with is_training=True, so the decoder's batch normalization makes the log joint of an image depend on the latent draws of the other images; reinforce multiplies each image's signal with its own score only, and the gradient is biased (`C89_training_refuted`).

## Mutation testing

seeded/LOG.jsonl records one line per wrong program: the model definition, the edit, the claims it breaks, the theorems that no longer check, and what was tightened when none failed. Each edit is applied to a scratch copy, dependent files are rebuilt with failing proofs skipped, and a theorem counts as failed if its proof or a lemma it uses no longer checks. A second, automatic tool makes every single-token change of a list (operators, constants, constructors, argument swaps) in the Model files; survivors were examined one by one: they are either equivalent programs or led to the theorems named in the log.
