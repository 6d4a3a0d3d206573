{"claims": [
 {"property": "C01", "status": "proved", "theorems": ["C01_backward_ops_exact", "C01_backward_ops_sound"], "note": ""},
 {"property": "C02", "status": "proved", "theorems": ["C02_stacks_balanced", "C02_block_outcome"], "note": ""},
 {"property": "C03", "status": "proved", "theorems": ["C03_innermost_observe", "C03_subclass_context_refuted", "C03_shared_stack_refuted"], "note": "the refuted theorems record how the guarantee is lost if a context class is subclassed"},
 {"property": "C04", "status": "proved", "theorems": ["C04_value_stable", "C04_one_draw_per_node", "C04_log_prob_of_value", "C04_node_sample", "C04_node_log_prob"], "note": ""},
 {"property": "C05", "status": "proved", "theorems": ["C05_duplicate_refused", "C05_binding_permanent", "C05_permanent_refuted", "C05_other_names_untouched", "C05_fresh_node", "C05_no_item_assignment"], "note": "C05_permanent_refuted records that deterministic() breaks permanence of the name it reuses"},
 {"property": "C06", "status": "proved", "theorems": ["C06_log_joint_is_sum", "C06_custom_log_joint", "C06_stale_after_deterministic_refuted", "C06_stale_after_legacy_refuted", "C06_stale_after_set_log_joint_refuted", "C06_failed_legacy_breaks_network_refuted", "C06_not_callable"], "note": "the calls excluded in the property are shown to break it"},
 {"property": "C07", "status": "proved", "theorems": ["C07_get_many", "C07_cond_log_prob_refused", "C07_cond_log_prob_many", "C07_outputs_many", "C07_outputs_deterministic_refuted", "C07_outputs_one", "C07_query_many", "C07_query_one", "C07_query_options", "C07_query_refused"], "note": ""},
 {"property": "C08", "status": "proved", "theorems": ["C08_precedence"], "note": ""},
 {"property": "C09", "status": "proved", "theorems": ["C09_merge_last_wins", "C09_variational_observed_wins", "C09_sampler_observed_wins", "C09_ais_disagrees_exactly_on_overlap", "C09_ais_feed"], "note": "merge_dicts semantics and the precedence each caller gets from it; AIS density and sampler disagree exactly on overlapping keys."},
 {"property": "C10", "status": "proved", "theorems": ["C10_broadcast_iff_compatible", "C10_broadcast_exact", "C10_shown_index_unique", "C10_broadcast_symmetric", "C10_broadcast_associative", "C10_broadcast_associative_ok", "C10_broadcast_idempotent", "C10_maybe_broadcast_exact"], "note": ""},
 {"property": "C11", "status": "proved", "theorems": ["C11_mvn_log_prob", "C11_mvmn_log_prob", "C11_normal_log_prob", "C11_bernoulli_log_prob", "C11_uniform_prob", "C11_gamma_log_prob", "C11_beta_log_prob", "C11_poisson_log_prob", "C11_binomial_log_prob", "C11_inverse_gamma_log_prob", "C11_laplace_log_prob", "C11_bin_concrete_log_prob", "C11_foldnormal_log_prob", "C11_log_prob_shape3", "C11_log_prob_shape2", "C11_log_prob_documented_shape", "C11_normal_sample", "C11_uniform_sample", "C11_laplace_sample", "C11_bernoulli_sample", "C11_bin_concrete_sample", "C11_gamma_sample", "C11_inverse_gamma_sample", "C11_poisson_sample", "C11_beta_sample", "C11_categorical_sample", "C11_onehot_sample", "C11_multinomial_sample", "C11_binomial_sample", "C11_unnormalized_multinomial_log_prob", "C11_multinomial_log_prob", "C11_dirichlet_log_prob", "C11_exp_concrete_log_prob", "C11_concrete_log_prob", "C11_rows_documented_shape", "C11_concrete_sample", "C11_exp_concrete_sample", "C11_dirichlet_sample", "C11_onehot_log_prob", "C11_categorical_log_prob", "C21_mvn_sample", "C21_mvmn_sample"], "note": "Shapes and elements of sample and log_prob for every distribution."},
 {"property": "C12", "status": "proved", "theorems": ["C12_grouping_sums", "C12_grouping_range", "C12_prob_is_exp_log_prob", "C12_two_stage", "C12_negative_rejected"], "note": ""},
 {"property": "C13", "status": "proved", "theorems": ["C13_get_shape_list", "C13_get_shape_at", "C13_is_same_dynamic_shape", "C13_assert_rank_at_least", "C13_assert_scalar"], "note": ""},
 {"property": "C14", "status": "proved", "theorems": ["C14_input_check_exact", "C14_observation_check_exact", "C14_known_iff", "C14_enforces_documented_contract_refuted"], "note": "The check is sound and complete for mutual broadcasting; the documented one-directional contract is refuted with a witness."},
 {"property": "C15", "status": "proved", "theorems": ["C15_bernoulli", "C15_categorical", "C15_onehot", "C15_binomial", "C15_poisson", "C15_multinomial", "C15_multinomial_support_refuted"], "note": "lgamma enters only through lgamma(n+1)=ln n!. Multinomial masses of count vectors with another total are shown positive, so they add up to more than one (refutation)."},
 {"property": "C16", "status": "proved", "theorems": ["C16_uniform", "C16_laplace", "C16_normal", "C16_foldnormal", "C16_bin_concrete", "C16_gamma", "C16_inverse_gamma", "C16_beta", "C16_dirichlet", "C16_mvn", "C16_mvmn", "C16_concrete", "C16_exp_concrete", "C16_dirichlet_simplex"], "note": "Gamma, InverseGamma, Beta and Dirichlet relative to lgamma being the log of Euler's integral at the arguments it is called with; ProofGammaFn.v (lgamma_premises_met) shows one function meets that premise for every positive argument together with the factorial premise. The multivariate integrals are iterated improper integrals; the Dirichlet one ranges over the simplex (SpecSimplex.v)."},
 {"property": "C17", "status": "proved", "theorems": ["C17_mvn", "C17_mvmn", "C17_uniform", "C17_laplace", "C17_bin_concrete", "C17_normal", "C17_foldnormal_refuted", "C17_bernoulli", "C17_inverse_gamma", "C17_beta", "C17_gumbel", "C17_multinomial", "C17_binomial", "C17_categorical", "C17_onehot", "C17_concrete", "C17_exp_concrete", "C17_dirichlet"], "note": "FoldNormal refuted: its sampler is the Normal's. The laws of the TensorFlow noise are trusted; for tf.random.categorical: independent cells, each distributed as the softmax of its row; for tf.random_gamma: independent standard gamma draws. ExpConcrete's density is relative to Lebesgue measure on the log ratios to the last category (SpecRange.v), which is where it is exact; with respect to the first log coordinates it would need a further factor."},
 {"property": "C18", "status": "proved", "theorems": ["C18_uniform", "C18_bernoulli", "C18_bin_concrete", "C18_gamma_family", "C18_concrete", "C18_dirichlet", "C18_binomial", "C18_multinomial", "C18_onehot", "C18_foldnormal_refuted"], "note": "FoldNormal refuted: C18_foldnormal_refuted."},
 {"property": "C19", "status": "proved", "theorems": ["C19_normal", "C19_normal_exactly_one", "C19_logits_shift", "C19_concrete_log_prob_shift", "C19_concrete_sample_shift"], "note": ""},
 {"property": "C20", "status": "proved", "theorems": ["C20_inverse_gamma", "C20_concrete_exp", "C20_concrete_exp_log_prob", "C20_bin_concrete", "C20_bin_concrete_sample", "C20_dirichlet_beta", "C20_dirichlet_beta_sample", "C20_onehot_categorical", "C20_multinomial_one", "C20_binomial_one", "C20_unnormalized", "C20_foldnormal"], "note": "Laws are compared through densities with Jacobian factors and through the samplers on the same noise."},
 {"property": "C21", "status": "proved", "theorems": ["C21_mvn_accepts", "C21_mvmn_accepts", "C21_mvn_sample", "C21_mvmn_sample", "C21_mvn_log_prob", "C21_mvmn_log_prob", "C21_mvn_log_prob_of_sample", "C21_mvmn_log_prob_of_sample", "C21_mvn_diagonal", "C21_mvn_non_triangular_refuted"], "note": "C21_mvn_non_triangular_refuted: a non-triangular factor is accepted without error, and then log_prob is not the density of the samples."},
 {"property": "C22", "status": "proved", "theorems": ["C22_log_combination"], "note": "lgamma(n+1)=ln n! is a hypothesis on the lgamma parameter."},
 {"property": "C23", "status": "proved", "theorems": ["C23_exact", "C23_no_overflow", "C23_all_minus_inf_refuted", "C23_plus_inf_or_nan", "C23_bounds", "C23_shift", "C23_monotone"], "note": "Idealised floats: exact reals with infinities and NaN. All -inf gives NaN (refutation)."},
 {"property": "C24", "status": "proved", "theorems": ["C24_leapfrog_scheme", "C24_zero_leapfrogs", "C24_negative_leapfrogs", "C24_reversible", "C24_jacobian_entries", "C24_volume_preserving"], "note": "The loop equals n kick-drift-kick steps for every n >= 1 (n = 0 applies one half kick, negative n nothing); reversibility is exact; the Jacobian determinant is one for any smooth gradient in any finite dimension."},
 {"property": "C25", "status": "proved", "theorems": ["C25_rate_formula", "C25_rate_range", "C25_bad_start_reported", "C25_bad_proposal_rejected", "C25_detailed_balance", "C25_target_invariant", "C25_transition", "C25_momentum_law", "C25_invariant", "C25_chain_invariant", "C25_run_invariant"], "note": "Rates over extended numbers; detailed balance for real energies; a full transition of every chain with its own energies over all entries of all latents; invariance of the target for real integrals in any dimension, for one chain among several; momenta law for any number of latents and entries."},
 {"property": "C26", "status": "proved", "theorems": ["C26_one_decision_per_chain", "C26_reported_log_prob", "C26_chains_independent", "C26_report_fails_iff", "C26_bad_start_unnoticed"], "note": "For every chain shape and list of latents; chain independence for log-densities and gradients that do not mix chains."},
 {"property": "C27", "status": "proved", "theorems": ["C27_state", "C27_segment_exists", "C27_tuned_step_size", "C27_weights_average", "C27_step_size_positive", "C27_frozen", "C27_off_from_start_refuted", "C27_shrinkage_point_refuted", "C27_run", "C27_used_step_size", "C27_not_adapted", "C27_search_iterations"], "note": "For every history of adapt flags, rates and restarts. Findings: adaptation off from the start replaces the configured step size by 1; the shrinkage point is exp(10*step_size) instead of 10*step_size."},
 {"property": "C28", "status": "proved", "theorems": ["C28_exact_moments", "C28_variance_nonneg", "C28_variance_zero_iff", "C28_mass", "C28_unit_mass_before_collection", "C28_off_from_start_refuted", "C28_not_adapted", "C28_needs_adapt_step_size"], "note": "Exact weighted moments for every sequence of non-empty batches and every decay in (0,1). Finding: adapt_mass off from the start makes the mass infinite."},
 {"property": "C29", "status": "proved", "theorems": ["C29_deterministic", "C29_power", "C29_grows_to_crossing", "C29_terminates_iff", "C29_single_reduction_refuted", "C29_target_above_one", "C29_trial_is_one_leapfrog", "C29_trial_acceptance", "C29_trial_rate"], "note": "For every acceptance function. Findings: below-target first trial stops after one reduction; no termination without a crossing or with a target above one."},
 {"property": "C30", "status": "proved", "theorems": ["C30_barrier", "C30_snapshot", "C30_sghmc", "C30_sgnht", "C30_sgld", "C30_psgld", "C30_live_reads_refuted"], "note": "Every schedule of a dataflow graph with explicit read, compute and assign operations, any number of latents. Finding: SGLD and PSGLD lack the control dependencies of SGHMC and SGNHT, so with live buffer reads the update is not simultaneous."},
 {"property": "C31", "status": "proved", "theorems": ["C31_resampling_period", "C31_any_schedule", "C31_never_when_zero", "C31_unordered_counter_refuted"], "note": "Finding: the counter read is unordered with its increment; resampling can be doubled, skipped, or differ between latents."},
 {"property": "C32", "status": "proved", "theorems": ["C32_sghmc_is_sgld", "C32_second_order_reversible", "C32_second_order_drift_kick_drift", "C32_sgnht_is_sghmc", "C32_thermostat", "C32_thermostat_second_order", "C32_psgld_is_sgld", "C32_preconditioner_history", "C32_preconditioner_range"], "note": "Equalities of update functions for all states, gradients and noise."},
 {"property": "C33", "status": "proved", "theorems": ["C33_expected_value", "C33_expected_value_unreduced", "C33_lower_bound", "C33_no_latent", "C33_sgvb_unbiased", "C33_continuous", "C33_continuous_unreduced", "C33_sgvb_continuous"], "note": "finite latent spaces (sums) and latent vectors in R^d (improper integrals), any number of samples, dual-number gradients; for R^d the interchange of derivative and integral is proved from a dominating integrable function"},
 {"property": "C34", "status": "proved", "theorems": ["C34_unbiased", "C34_unbiased_unreduced", "C34_moving_average", "C34_moving_average_range", "C34_baseline_cost", "C34_needs_latent", "C34_update_first_refuted", "C34_baseline_output", "C34_continuous", "C34_continuous_unreduced"], "note": "finite latent spaces and R^d; unbiasedness proved when the moving average is read before its update; the other order is refuted with a witness (C34_update_first_refuted)"},
 {"property": "C35", "status": "proved", "theorems": ["C35_sandwich", "C35_one_sample", "C35_lower_bound", "C35_monotone", "C35_required_arguments", "C35_sgvb_unbiased", "C35_continuous", "C35_continuous_monotone", "C35_sgvb_continuous"], "note": "finite latent spaces and R^d"},
 {"property": "C36", "status": "proved", "theorems": ["C36_permutation", "C36_cost", "C36_rejects", "C36_negative_axis_refuted", "C36_unbiased", "C36_continuous"], "note": "finite latent spaces and R^d; negative axis values are refuted with a witness (C36_negative_axis_refuted)"},
 {"property": "C37", "status": "proved", "theorems": ["C37_normalised", "C37_shift_invariant", "C37_uniform_at_posterior", "C37_gradient", "C37_exact_at_posterior", "C37_continuous_at_posterior"], "note": "finite latent spaces; zero mean gradient at the posterior also in R^d"},
 {"property": "C38", "status": "proved", "theorems": ["C38_arguments", "C38_coverage", "C38_validation_refuted"], "note": "the documented coverage check is refuted: it never fires"},
 {"property": "C39", "status": "proved", "theorems": ["C39_constraint", "C39_layer_map", "C39_layer_jacobian", "C39_flow", "C39_rejects", "C39_batch", "C39_density", "C39_normal_density"], "note": "parameters with w = 0 (division by zero) are excluded by hypothesis"},
 {"property": "C40", "status": "proved", "theorems": ["C40_linear_ar", "C40_flow", "C40_layer_map", "C40_logdet", "C40_unknown_update_refuted", "C40_linear_admissible", "C40_rejects", "C40_batch", "C40_linear_formula", "C40_density", "C40_linear_density", "C40_normal_density"], "note": "unknown update names are refuted: they are accepted and only reverse"},
 {"property": "C41", "status": "proved", "theorems": ["C41_value", "C41_range", "C41_uncorrelated_refuted", "C41_affine", "C41_reversal", "C41_degenerate"], "note": "range n/(...) with the bound n(n-1)/(3n-5); uncorrelated chains do not reach n (refutation)"},
 {"property": "C42", "status": "proved", "theorems": ["C42_minimum", "C42_burn_in", "C42_more_dimensions", "C42_all_discarded_refuted", "C42_errors"], "note": "minimum over dimensions; burn-in of at least the chain length gives infinity (refutation); which inputs raise"},
 {"property": "C43", "status": "proved", "theorems": ["C43_start", "C43_end", "C43_increasing", "C43_symmetric", "C43_run_order"], "note": "schedule endpoints, monotonicity, symmetry; order and temperatures of a whole run"},
 {"property": "C44", "status": "proved", "theorems": ["C44_telescope", "C44_log_mean_weight", "C44_unbiased", "C44_lower_bound", "C44_data_mean", "C44_adaptive_refuted", "C44_hmc_unbiased"], "note": "telescoping for any deterministic session; unbiasedness and Jensen bound for finite state spaces, any number of chains, temperatures and adaptation steps; bias under continued adaptation (refutation)"},
 {"property": "C45", "status": "proved", "theorems": ["C45_order", "C45_value", "C45_unsupported", "C45_unary", "C45_equality", "C45_hash", "C45_dict_same", "C45_dict_other", "C45_rejected"], "note": "for every operator and either operand order, including comparisons reflected by the language; NumPy arrays and tf.Tensor left operands have operator methods of their own and are not modelled"},
 {"property": "C46", "status": "proved", "theorems": ["C46_empirical_rejects", "C46_sample", "C46_discrete", "C46_continuous_refuted", "C46_grouped_refuted", "C46_log_prob_rank_refuted", "C46_log_prob_collapses"], "note": "full behaviour of sampling and densities, with three refutations of the intended density"},
 {"property": "C47", "status": "proved", "theorems": ["C47_flags", "C47_values", "C47_blocked", "C47_reparameterized", "C47_full_gradient", "C47_path_gradient", "C47_path_drops_score", "C47_gamma_sample_gradient", "C47_not_reparameterized_refuted", "C47_path_ignored", "C47_path_everywhere_refuted", "C47_normal_score_mean_zero", "C47_mvn_density", "C47_mvmn_density", "C47_std_logstd", "C47_std_logstd_agree"], "note": "Parameters are expression graphs; tf.gradients is forward-mode differentiation with stop_gradient, proved equal to the Coquelicot derivative. lgamma/digamma and the gamma draw are arbitrary functions. Score mean zero is proved for the Normal only."},
 {"property": "C48", "status": "proved", "theorems": ["C48_method", "C48_name_keyword", "C48_method_rejects", "C48_legacy", "C48_empirical", "C48_empirical_refuted", "C48_arguments", "C48_fixed_keywords", "C48_unknown_ignored", "C48_misspelled_refuted", "C48_positional_order_refuted", "C48_accepts", "C48_path", "C48_omitted", "C48_required"], "note": "All 20 constructor methods and the 22 deprecated classes. Findings: unknown keywords are silently ignored (C48_unknown_ignored, C48_misspelled_refuted), the deprecated Empirical drops is_continuous (C48_empirical_refuted), positional order of group_ndims and n_samples differs between constructors (C48_positional_order_refuted)."},
 {"property": "C49", "status": "proved", "theorems": ["C49_accepts_exactly_the_contract", "C49_type_error", "C49_type_error_first", "C49_value_error", "C49_value_error_sound", "C49_independent_of_static_knowledge", "C49_known_calls_are_decided", "C49_empty_axis_refuted", "C49_dtypes"], "note": "All 19 constructors, then Distribution.__init__. What the constructor knows of a shape is separate from the run-time shape. TensorFlow's own conversion and assertion ops are modelled; assertions on constants are always counted as run-time assertions. Finding: for the matrix factors of the multivariate normals an extent 0 is taken for an unknown one (C49_empty_axis_refuted)."},
 {"property": "C50", "status": "proved", "theorems": ["C50_sample_dtype", "C50_log_prob_dtype", "C50_given"], "note": "Dtype inference for every expression of sample, log_prob and prob of the 19 classes; which kernels a TensorFlow release provides (e.g. float16 triangular solve) is not modelled."},
 {"property": "C51", "status": "proved", "theorems": ["C51_shared", "C51_reused", "C51_nothing_new", "C51_fresh", "C51_separate", "C51_without_reuse", "C51_again", "C51_reuse_needs_scope", "C51_default_arguments", "C51_recovery_refuted"], "note": "Two findings: a model built without args/kwargs cannot be observed; a model whose first observe() raised may be unusable."},
 {"property": "C52", "status": "proved", "theorems": ["C52_consistent", "C52_once", "C52_bn_values", "C52_own_copy", "C52_available", "C52_klpq_no_value", "C52_reinforce_again", "C52_retry", "C52_retry_function", "C52_observations", "C52_end_to_end", "C52_extended_bn_refuted", "C52_create"], "note": "All histories of accesses. Adding a stochastic node to obj.bn is excluded from C52_consistent and refuted separately."},
 {"property": "C53", "status": "proved", "theorems": ["C53_checks_change_nothing", "C53_unchecked_always_returns", "C53_accepts_exactly", "C53_checked_answers_are_numbers", "C53_inside", "C53_outside", "C53_nan_parameter", "C53_nan_value", "C53_nan_is_outside_uniform", "C53_prob", "C53_uniform_prob", "C53_sampling_ignores_std", "C53_sampling_logstd", "C53_batch", "C53_boundary", "C53_boundary_refuted", "C53_dirichlet", "C53_exp_concrete", "C53_concrete", "C53_multivariate_normal", "C53_matrix_normal", "C53_dirichlet_inside", "C53_exp_concrete_inside", "C53_concrete_inside", "C53_rows_outside", "C53_zero_probability_refuted", "C53_rows_are_numbers", "C53_multivariate_normal_is_number", "C53_multivariate_normal_inside", "C53_matrix_normal_inside", "C53_multinomial_inside", "C53_matrix_normal_is_number", "C53_never_succeeds"], "note": "all classes with a check_numerics switch; exact reals with infinities and NaN (no rounding, overflow or signed zeros); answers-are-numbers for the matrix normal not included; boundary NaNs refuted with witnesses"},
 {"property": "C54", "status": "proved", "theorems": ["C54_sgmcmc_accepts", "C54_sgmcmc_errors", "C54_hmc_accepts", "C54_psgld_init", "C54_info", "C54_run", "C54_frame", "C54_counter", "C54_entering", "C54_isolated", "C54_shared_counter_refuted", "C54_initial_momenta_unused", "C54_friction_history", "C54_initial_variables", "C54_friction_from_start", "C54_average_history", "C54_entering_late"], "note": "Validation, effect and frame of one run, the statistics dictionary, and histories of interleaved runs. The shared counter is a finding (refuted as a per-operation period)."},
 {"property": "C55", "status": "proved", "theorems": ["C55_log_sum_exp", "C55_log_mean_exp", "C55_acceptance", "C55_unshifted_refuted"], "note": "Any format satisfying wide (float16, bfloat16, float32, float64), any plan of summation, faithful exp and log. C55_unshifted_refuted: the formula without the shift overflows at one ordinary float."},
 {"property": "C56", "status": "proved", "theorems": ["C56_iteration", "C56_frozen", "C56_settled", "C56_exists", "C56_transition", "C56_order_refuted"], "note": "Every execution order of one iteration, any number of latents and chains; operations grouped where no assigned variable is read in between. Finding: with adaptation given and switched off the first iteration depends on the order."},
 {"property": "C57", "status": "proved", "theorems": ["C57_stopped", "C57_before_decision", "C57_torn_refuted", "C57_retry_skips_search", "C57_sgmcmc_stopped", "C57_snapshot_stopped"], "note": "Every prefix of every execution order. Findings: torn latents; the retry of an interrupted first iteration skips the step size search."},
 {"property": "C58", "status": "proved", "theorems": ["C58_open_uniform", "C58_gumbel", "C58_logistic", "C58_laplace", "C58_bin_concrete", "C58_uniform", "C58_beta", "C58_inverse_gamma", "C58_dirichlet", "C58_softmax", "C58_log_softmax", "C58_concrete", "C58_exp_concrete", "C58_uniform_maxval_refuted", "C58_uniform_overflow_refuted", "C58_beta_boundary_refuted", "C58_bin_concrete_boundary_refuted", "C58_concrete_boundary_refuted"], "note": "The refuted theorems show that the open supports are not kept (findings)."},
 {"property": "C59", "status": "proved", "theorems": ["C59_bernoulli", "C59_normal", "C59_normal_std", "C59_normal_overflow", "C59_normal_refuted", "C59_laplace", "C59_uniform", "C59_uniform_overflow", "C59_categorical", "C59_onehot", "C59_onehot_refuted"], "note": "log_prob in floating-point arithmetic: finiteness and error bounds for every format; the overflow cases are refuted with witnesses. check_numerics, signed zeros and flushing of subnormal numbers are not modelled."},
 {"property": "C60", "status": "proved", "theorems": ["C60_tuner", "C60_shortfall", "C60_step_size", "C60_log_step", "C60_accuracy", "C60_infinite_step", "C60_search", "C60_search_ends", "C60_search_infinite_refuted", "C60_mean_rate", "C60_vanishes_refuted", "C60_diverges_refuted", "C60_trial"], "note": "Floating-point model of ModelFloatTune.v. The three _refuted theorems are findings."},
 {"property": "C61", "status": "proved", "theorems": ["C61_weight", "C61_range", "C61_accuracy", "C61_precision", "C61_frozen", "C61_moves_refuted", "C61_negative_refuted"], "note": "Moving variance and mass in floating point: range and history-independent accuracy for one chain; a chain that did not move before the adapted mass is used is stuck; refutations: never moves with mass_collect_iters <= 1, negative variance with several chains."},
 {"property": "C62", "status": "proved", "theorems": ["C62_sgld_finite", "C62_sgld_step", "C62_sgld_frozen", "C62_psgld_finite", "C62_psgld_average", "C62_psgld_step", "C62_sghmc_finite", "C62_sghmc_step1", "C62_sghmc_step2", "C62_resampled", "C62_friction_refuted", "C62_variance_refuted", "C62_sgnht_friction", "C62_sgnht_momentum", "C62_sgnht_untuned"], "note": "SGNHT with a friction per entry only; the mean kinetic energy of the scalar friction is covered over the reals (C30, C32). Findings: C62_sgld_frozen, C62_friction_refuted, C62_variance_refuted."},
 {"property": "C63", "status": "proved", "theorems": ["C63_log_weights", "C63_impossible_log_weight", "C63_weights", "C63_zero_weight", "C63_importance", "C63_vimco", "C63_signal", "C63_vimco_impossible_refuted", "C63_importance_impossible_refuted"], "note": "ModelFloatImportance.v; the two _refuted theorems are findings about impossible samples"},
 {"property": "C64", "status": "proved", "theorems": ["C64_schedule_ends", "C64_schedule_accurate", "C64_schedule_ordered", "C64_log_fn", "C64_log_fn_ends", "C64_log_weight", "C64_estimate", "C64_ends_refuted", "C64_impossible_refuted"], "note": "ModelFloatAIS.v; the two _refuted theorems are findings about zero densities"},
 {"property": "C65", "status": "proved", "theorems": ["C65_elbo", "C65_baseline_cost", "C65_cost", "C65_without", "C65_moving_mean", "C65_reinforce", "C65_moving_mean_refuted", "C65_cost_refuted"], "note": "ModelFloatVI.v; the two _refuted theorems are findings about samples of non-finite density"},
 {"property": "C66", "status": "proved", "theorems": ["C66_value", "C66_exact", "C66_columns", "C66_not_finite", "C66_assertion", "C66_large_refuted", "C66_constant_refuted"], "note": "ModelFloatDiag.v; the two _refuted theorems are findings"},
 {"property": "C67", "status": "proved", "theorems": ["C67_parameters", "C67_flow", "C67_infinite_refuted", "C67_overflow_refuted", "C67_assertion_refuted"], "note": "ModelFloatFlow.v; the three _refuted theorems are findings"},
 {"property": "C68", "status": "proved", "theorems": ["C68_autoregressive", "C68_contaminated_refuted", "C68_linear", "C68_normal", "C68_gru", "C68_log_prob", "C68_underflow_refuted", "C68_gru_refuted"], "note": "ModelFloatIaf.v; the _refuted theorems are findings"},
 {"property": "C69", "status": "proved", "theorems": ["C69_elbo", "C69_importance", "C69_support_refuted", "C69_importance_sgvb", "C69_sgvb", "C69_reinforce", "C69_inclusive", "C69_elbo_continuous", "C69_importance_continuous"], "note": "finite latent spaces; elbo and importance weighted objective also on R^d. C69_support_refuted is a finding."},
 {"property": "C70", "status": "proved", "theorems": ["C70_poisson", "C70_binomial", "C70_gamma", "C70_inverse_gamma", "C70_beta", "C70_bin_concrete", "C70_bin_concrete_boundary", "C70_poisson_refuted", "C70_own_sample_refuted"], "note": "Accuracy relative to the size of the terms, for every format of at least 6 bits; loss of accuracy by cancellation and NaN at the boundary are stated as refuted expectations. check_numerics off."},
 {"property": "C71", "status": "proved", "theorems": ["C71_leapfrog", "C71_reversible", "C71_iteration", "C71_reversible_refuted"], "note": "Accuracy of the leapfrog integrator, approximate reversibility and a whole iteration with a given mass in floating-point arithmetic; exact reversibility is refuted for every format."},
 {"property": "C72", "status": "proved", "theorems": ["C72_independent", "C72_mean_squared_error", "C72_converges", "C72_seldom_above", "C72_importance", "C72_importance_continuous"], "note": "Kernels are fixed while annealing; a sampler that keeps adapting couples the chains and can bias the estimate (C44_adaptive_refuted). AIS over finite state spaces; the bounds for is_loglikelihood also over continuous ones."},
 {"property": "C73", "status": "proved", "theorems": ["C73_shards", "C73_gradients", "C73_batch", "C73_losses", "C73_unequal_refuted", "C73_first_none_refuted", "C73_later_none", "C73_all_batches", "C73_full_batches", "C73_reported_mean", "C73_left_over_refuted", "C73_padding"], "note": "see PropTowers.v"},
 {"property": "C74", "status": "proved", "theorems": ["C74_slots", "C74_denominator", "C74_step", "C74_distance", "C74_direction", "C74_still", "C74_bias_refuted"], "note": "see PropAdamax.v"},
 {"property": "C75", "status": "proved", "theorems": ["C75_standardize", "C75_one_hot", "C75_one_hot_rejects", "C75_one_hot_negative_refuted", "C75_labeled", "C75_labeled_part", "C75_unlabeled", "C75_uci_split", "C75_credits", "C75_movielens", "C75_grouped", "C75_num_of", "C75_untrained", "C75_bag_of_words"], "note": "see PropData.v"},
 {"property": "C76", "status": "proved", "theorems": ["C76_rmse", "C76_plain_average_refuted", "C76_grid", "C76_all_images", "C76_select"], "note": "see PropHelpers.v"},
 {"property": "C77", "status": "proved", "theorems": ["C77_file_undisturbed", "C77_file_safe", "C77_file_stuck", "C77_file_stopped", "C77_text_cut", "C77_text_refuted", "C77_cifar_undisturbed", "C77_cifar_safe", "C77_cifar_stuck", "C77_cifar_refuted", "C77_bow_safe", "C77_bow_sparse_safe", "C77_bow_recovers", "C77_bow_stuck", "C77_bow_left_over", "C77_vocab_refuted"], "note": "see PropCache.v"},
 {"property": "C78", "status": "proved", "theorems": ["C78_kernel", "C78_kdiag", "C78_kernel_semidefinite", "C78_mean", "C78_covariance", "C78_covariance_semidefinite", "C78_variance", "C78_interpolates", "C78_posterior_factor", "C78_posterior_reaches"], "note": "real arithmetic; hypothesis: the Cholesky factor used is one of K(z,z)"},
 {"property": "C79", "status": "proved", "theorems": ["C79_unbiased", "C79_gradient", "C79_epoch_average", "C79_epoch_average_refuted", "C79_rmse", "C79_log_likelihood", "C79_joint_log_likelihood", "C79_epoch_rows"], "note": "real arithmetic; the epoch average is refuted for batch sizes that do not divide the number of rows"},
 {"property": "C80", "status": "proved", "theorems": ["C80_chains", "C80_doc_word", "C80_log_px", "C80_padding", "C80_padding_hyper_refuted", "C80_perplexity", "C80_perplexity_words", "C80_learning_rate", "C80_logstd"], "note": "real arithmetic; the sampler is any function moving the rows of a batch separately; hyper-parameters are refuted to be independent of padding"},
 {"property": "C81", "status": "proved", "theorems": ["C81_labels", "C81_classifier", "C81_bound", "C81_batch", "C81_batch_bound", "C81_accuracy"], "note": "The bound with one label is a parameter (C33 treats it)."},
 {"property": "C82", "status": "proved", "theorems": ["C82_losses", "C82_optimal", "C82_distance", "C82_clipped", "C82_steepness", "C82_one_lipschitz_refuted"], "note": "The critic is modelled outside training, with convolutions as sparse rows."},
 {"property": "C83", "status": "proved", "theorems": ["C83_rounded", "C83_user_conditional", "C83_movie_conditional", "C83_epoch", "C83_ascent", "C83_rmse_refuted", "C83_rmse"], "note": "One particle is followed; HMC on the target is C24-C26."},
 {"property": "C84", "status": "proved", "theorems": ["C84_kde", "C84_burnin", "C84_mixture", "C84_moments", "C84_target", "C84_contour_refuted"], "note": "scipy's normal densities are modelled by their formula."},
 {"property": "C85", "status": "proved", "theorems": ["C85_one_label", "C85_ceiling", "C85_reached", "C85_gap_refuted", "C85_classifier_refuted"], "note": "finite label and latent spaces"},
 {"property": "C86", "status": "proved", "theorems": ["C86_batch", "C86_epoch", "C86_own_noise_refuted", "C86_std", "C86_rate", "C86_prediction"], "note": "finite noise spaces; batch normalization with stored averages"},
 {"property": "C87", "status": "proved", "theorems": ["C87_model", "C87_bound", "C87_vimco", "C87_binarize", "C87_binarize_conv_refuted"], "note": ""},
 {"property": "C88", "status": "proved", "theorems": ["C88_two_calls", "C88_posterior", "C88_bound"], "note": "Two flow calls compose; the returned log probability is a log density of mass 1; importance weights average to p(x) and the mean bound, when it exists, is at most log p(x). The relu layers enter as arbitrary continuous functions."},
 {"property": "C89", "status": "proved", "theorems": ["C89_model", "C89_bound", "C89_gradient", "C89_training_refuted"], "note": "Proved for normalization statistics that do not depend on the draws; for training mode, which the example uses, unbiasedness is refuted with a two-image batch. The layers enter as differentiable logits."}
]}
