# What `Print Assumptions` lists

Generated by `tools/assumptions.py`. Every axiom is the standard library's.

## Closed under the global context

C83_regression_layouts, C83_regression_sizes, C83_regression_sizes_refuted, C83_regression_flat, C83_known_covariance_layouts, C83_known_precision_layouts, C83_known_mean_column_refuted, C83_known_mean_single_refuted, C83_multivariate_normal_single_refuted, C83_multivariate_normal_column, C83_np_outer, C71_by_name, C71_keyword_order, C71_results_are_priors, C71_missing_attribute, C99_constructor, C99_documented_order, C99_defaults, C19_elementwise_partial, C19_number, C19_concatenates_refuted, C19_truncates_refuted, C19_dist_needs_array, C28_dirichlet, C38_NormalInverseGamma_from_inverse_gamma, C98_loop, C32_entries_are_scalar_calls, C32_shapes, C33_symbolic_inputs, C33_parametric, C53_exactly_one, C53_normal_needs_nu, C53_predictive_needs_nu, C34_integer_key, C34_many_partial, C34_posterior_of_member, C34_posterior_of_members, C35_out_of_range_unchanged, C42_entries, C42_composes, C42_composes_integer, C42_out_of_range, C42_numpy_integer_refuted, C97_promotion, C43_scalar_prior_raises, C100_complete, C100_absorbing, C100_null, C100_confined, C49_dirichlet, C49_dirichlet_labels, C49_dirichlet_family_refuted, C49_dirichlet_list_refuted, C52_single, C52_each, C52_distinct, C52_curves_family, C52_curves_scalars, C108_normal_inverse_gamma, C108_normal_gamma, C108_normal_inverse_wishart, C108_normal_wishart, C108_stack, C92_prepended, C92_plain_number, C92_vector_refuted, C56_integer_seed_dependent, C56_generator_independent, C105_array, C105_distribution, C105_unsuitable_unchanged, C105_posterior, C105_lists_kept, C36_accepts, C36_rejects, C36_runs_iff, C36_union_raises_AttributeError, C36_ValueError_refuted, C36_union_functions, C36_signatures, C36_library_classes, C36_message_names, C36_forwarders, C54_alias_posterior, C54_alias_predictive, C54_aliases_reject, C54_values, C38_NormalInverseWishart_from_inverse_wishart

## `ClassicalDedekindReals.sig_forall_dec`

C34_length_one_refuted, C35_out_of_range_refuted, C95_sum_refuted, C95_no_plus, C109_injective, C105_broadcast_refuted

## `ClassicalDedekindReals.sig_forall_dec`, `FunctionalExtensionality.functional_extensionality_dep`

C99_equality, C99_reflexive, C99_vectors_refuted, C99_list_with_vector, C99_indexed, C80_one_category_refuted, C80_rvs, C80_rvs_defined, C34_python_list_refuted, C97_modular_in_range, C50_integers, C50_overshoot_refuted, C50_grid, C50_sorted, C50_linspace, C50_ticks, C51_conditional_partial, C51_share, C51_curves_refuted, C51_cdf_refuted, C109_round_trip, C109_any_call

## `ClassicalDedekindReals.sig_forall_dec`, `ClassicalDedekindReals.sig_not_dec`, `FunctionalExtensionality.functional_extensionality_dep`

C95_total, C95_number, C95_array, C95_sides_refuted, C95_proper, C95_mistakes_refuted, C49_last_bounds, C49_never_set, C49_after_set, C49_constructed, C49_slice_refuted, C49_uniform_refuted

## `ClassicalDedekindReals.sig_forall_dec`, `ClassicalDedekindReals.sig_not_dec`, `Classical_Prop.classic`, `FunctionalExtensionality.functional_extensionality_dep`

C72_texts, C72_ticks, C73_colours, C73_overlaid, C73_next_plot_refuted, C73_cycle_reference_refuted, C77_binomial_beta, C77_binomial_beta_mean, C77_bernoulli_beta, C77_bernoulli_beta_mean, C77_negative_binomial_beta, C77_negative_binomial_beta_mean, C77_poisson_gamma, C77_poisson_gamma_mean, C77_gamma_known_shape, C77_gamma_known_shape_mean, C77_normal_known_variance, C77_normal_known_variance_mean, C77_normal_known_precision, C77_normal_known_precision_mean, C77_normal_known_mean, C77_normal_known_mean_mean, C77_normal, C77_multinomial_dirichlet, C77_categorical_dirichlet, C94_coordinates, C94_classical, C65_counts, C65_draws, C65_beta, C65_von_mises, C65_uniform_refuted, C65_uniform, C65_beta_negative_binomial_refuted, C18_multinomial_dirichlet, C18_categorical_dirichlet, C18_density_normalised, C59_predictive_is_marginal, C59_default_one_trial, C59_total_mass, C38_Dirichlet_uninformative, C84_multinomial_dirichlet_predictive, C84_categorical_dirichlet_predictive, C80_mean, C80_mean_rows, C80_mean_defined, C80_rows, C80_compromise, C80_consistent, C80_multinomial_mean_calibrated, C80_categorical_mean_calibrated, C80_predictive_mean, C37_roundtrip_inverse_gamma, C37_roundtrip_scaled, C37_density_to, C37_density_from, C38_Beta_from_mean, C38_Normal_from_mean_and_variance, C38_Normal_from_mean_and_precision, C38_Beta_from_successes_and_failures, C38_Gamma_from_occurrences, C38_Gamma_from_occurrences_limit, C38_Beta_uninformative, C38_Normal_uninformative, C39_Poisson_add, C39_Poisson_mul, C39_NegativeBinomial_mul, C39_Poisson_add_comm, C39_Poisson_add_assoc, C40_Gamma_mul, C40_Exponential_mul, C40_Normal_mul, C40_Gamma_mul_mul, C40_Poisson_mul_mul, C40_NegativeBinomial_mul_mul, C40_Normal_mul_mul, C40_Exponential_mul_mul, C41_Beta_dist, C41_Gamma_dist, C41_InverseGamma_dist, C41_ScaledInverseChiSquared_dist, C41_Normal_dist, C41_Pareto_dist, C41_StudentT_dist, C41_Lomax_dist, C41_Weibull_dist, C41_VonMises_dist, C41_Binomial_dist, C41_NegativeBinomial_dist, C41_Poisson_dist, C41_Geometric_dist, C41_Hypergeometric_dist, C41_Exponential_refuted, C41_Exponential_iff, C41_Exponential_partial, C41_Uniform_refuted, C41_Uniform_iff, C41_Uniform_partial, C41_LogNormal_refuted, C41_LogNormal_iff, C64_available, C104_plotting, C104_vectorized, C104_indexing, C104_binomial_left, C73_binomial_page_refuted, C98_normal, C98_binomial, C87_thompson, C87_running_posterior, C87_post_engagement_refuted, C87_post_engagement_repaired, C87_window, C87_window_refuted, C88_binomial_beta, C88_negative_binomial_beta, C88_geometric_beta, C88_poisson_gamma, C88_gamma_known_shape, C88_inverse_gamma_known_rate, C88_pareto_gamma, C88_weibull, C88_normal_known_variance, C88_normal_known_precision, C88_normal_known_mean, C88_exponential_gamma_refuted, C62_lines, C62_density, C62_mass, C62_covered, C62_slice, C63_raises, C63_cdf_refuted, C63_list_refuted, C63_matrix_refuted, C93_order_kept, C93_normal_mean, C93_evidence_lost_refuted, C67_exact_when_representable, C67_counts_are_exact, C68_roundings, C68_relative_error, C69_geometric_beta_refuted, C69_normal_known_mean_refuted, C69_normal_refuted, C69_stable_functions, C70_sequential_refuted, C70_whole_numbers_exact, C70_sequential_error, C29_normal_no_data, C58_raises_exactly, C58_returns_the_model, C32_incompatible_raise_refuted, C42_normal_marginal_density, C42_normal_coordinate, C42_any_matrix, C42_cgf_meaning, C42_subvector, C42_t_coordinate_refuted, C97_python_numbers, C97_moderate, C97_no_overflow, C97_modular, C97_wraps_refuted, C97_out_of_bounds_refuted, C97_mixed_types_refuted, C84_binomial_beta_concentrates, C84_binomial_beta_predictive, C84_negative_binomial_beta_concentrates, C84_negative_binomial_beta_predictive, C84_geometric_beta_concentrates, C84_geometric_beta_predictive_refuted, C84_geometric_beta_predictive_shifted_partial, C84_poisson_gamma_concentrates, C84_poisson_gamma_predictive, C84_gamma_known_shape_concentrates, C84_inverse_gamma_known_rate_concentrates, C84_gamma_known_shape_predictive, C84_exponential_gamma_refuted, C84_exponential_gamma_partial, C84_weibull_concentrates, C84_pareto_gamma_concentrates, C84_uniform_pareto_concentrates, C84_normal_known_variance_concentrates, C84_normal_known_variance_predictive, C84_normal_known_precision_concentrates, C84_normal_known_precision_predictive, C84_normal_known_mean_concentrates, C84_normal_known_mean_predictive, C84_normal, C84_log_normal, C90_one_count, C90_maximum_refuted, C100_nan, C100_ignored_refuted, C100_unused, C100_builtin_max_refuted, C107_binomial_no_regret, C107_multinomial_no_regret, C107_categorical_no_regret, C107_negative_binomial_no_regret, C107_poisson_no_regret, C107_gamma_known_shape_no_regret, C107_normal_known_mean_no_regret, C107_normal_both_no_regret, C107_normal_no_regret, C107_normal_unbounded, C66_Beta, C66_Gamma, C66_Exponential, C66_InverseGamma, C66_ScaledInverseChiSquared, C66_Normal, C66_StudentT, C66_Uniform, C66_Pareto, C66_Lomax, C66_Weibull, C66_LogNormal, C66_CompoundGamma, C66_CompoundGamma_computed, C66_CompoundGamma_edge, C66_CompoundGamma_off_support_refuted, C66_VonMises, C66_Poisson, C66_NegativeBinomial, C66_Geometric, C66_BetaNegativeBinomial, C66_Binomial, C66_BetaBinomial, C66_Hypergeometric, C66_BetaGeometric_refuted, C66_BetaGeometric_total, C66_BetaGeometric_off_support_refuted, C106_booleans, C106_boolean_data, C106_clashes_needed, C106_wraps, C106_both_refuted, C106_or_refuted, C95_number_values, C95_sum, C75_two_categories, C75_two_categories_density, C75_two_categories_predictive, C76_geometric, C76_geometric_predictive_refuted, C76_pareto, C76_inverse_gamma, C76_weibull, C76_exponential_refuted, C76_exponential_predictive, C76_gamma_known_rate, C76_hypergeometric, C76_normal_priors, C01_binomial_beta_posterior, C01_bernoulli_beta_is_binomial, C02_negative_binomial_beta_posterior, C03_geometric_beta_posterior, C04_poisson_gamma_posterior, C05_exponential_gamma_posterior_refuted, C05_exponential_gamma_posterior_iff, C05_exponential_gamma_predictive_refuted, C05_exponential_gamma_predictive_iff, C05_exponential_gamma_swapped_partial, C05_exponential_gamma_exchanged_partial, C06_gamma_known_shape_posterior, C07_inverse_gamma_known_rate_posterior, C08_normal_known_variance_posterior, C08_normal_known_precision_posterior, C09_normal_known_mean_posterior, C09_normal_known_mean_routes_agree, C10_normal_posterior, C10_log_normal_posterior, C11_uniform_pareto_posterior, C12_pareto_gamma_posterior, C13_weibull_posterior, C14_gamma_posterior, C14_gamma_known_rate_posterior, C14_beta_posterior, C15_von_mises_known_direction_posterior, C16_von_mises_known_concentration_refuted, C16_von_mises_log_likelihood_refuted, C16_von_mises_true_posterior_partial, C16_von_mises_direction_partial, C17_hypergeometric_refuted, C17_hypergeometric_never_bayes, C17_hypergeometric_ignores_draws_partial, C17_hypergeometric_true_posterior_partial, C20_binomial_beta_predictive, C20_binomial_beta_predictive_total, C20_bernoulli_beta_predictive, C21_negative_binomial_beta_predictive, C22_geometric_beta_predictive_refuted, C22_geometric_beta_predictive_too_small, C22_geometric_beta_predictive_mass, C22_geometric_beta_predictive_shifted_partial, C22_geometric_beta_predictive_start_partial, C23_poisson_gamma_predictive, C23_poisson_gamma_predictive_units_refuted, C23_poisson_gamma_predictive_units_iff, C23_poisson_gamma_true_marginal_partial, C23_poisson_gamma_predictive_independent_rates_partial, C24_gamma_known_shape_predictive, C25_normal_known_variance_predictive, C25_normal_known_precision_predictive, C26_normal_known_mean_predictive, C27_normal_predictive, C27_normal_predictive_families, C74_binomial_beta, C74_bernoulli_beta, C74_negative_binomial_beta, C74_poisson_gamma, C74_gamma_known_shape, C74_normal_known_variance, C74_normal_known_precision, C74_normal_known_mean, C74_normal, C74_multinomial_dirichlet, C74_categorical_dirichlet, C96_quantile, C96_cdf, C96_credible, C96_normal_interval, C96_student_t_interval, C96_normal_interval_narrows, C96_binomial_quantiles, C96_poisson_quantiles, C96_formulas, C85_binomial, C85_geometric, C85_poisson, C85_negative_binomial, C85_normal_known_variance, C85_normal_known_precision, C85_normal_known_mean, C85_uniform, C85_exponential, C85_inverse_gamma_known_rate, C85_weibull, C85_normal_gamma, C85_hypergeometric_refuted, C85_hypergeometric_truth, C85_quantiles, C103_binomial, C103_bernoulli, C103_bernoulli_reached, C103_multinomial, C103_categorical, C103_categorical_reached, C103_normal_known_variance, C103_normal_known_variance_reached, C103_poisson, C103_poisson_exact, C103_gamma_known_shape, C103_gamma_known_shape_exact, C103_gamma_factor, C103_binomial_any_prior, C103_binomial_any_prior_exact, C103_negative_binomial, C103_negative_binomial_exact, C103_normal_known_mean, C103_normal_known_mean_exact, C103_normal, C103_normal_exact, C55_same_variance_refuted, C55_variance_ratio, C55_variance_law, C55_normal_inverse_gamma_law, C55_normal_gamma_law, C55_normal_inverse_wishart_law, C55_normal_wishart_law, C56_integer_seed_refuted, C56_integer_seed_reseeds, C56_integer_seed_collinear, C56_generator_threads, C57_beta_geometric_shape, C57_beta_geometric_incompatible, C57_compound_gamma_shape_partial, C57_compound_gamma_incompatible, C57_compound_gamma_shape_refuted, C57_size_zero_refuted, C57_size_zero_is_none, C60_compound_gamma_law, C60_beta_geometric_law, C60_beta_geometric_pmf_refuted, C61_shapes_partial, C61_other_covariances, C61_shapes_scalar, C61_one_dimension, C61_one_dimension_wishart_refuted, C61_no_samples_refuted, C101_normal_refuted, C101_gamma_refuted, C101_moments, C101_intended, C101_poisson, C28_binomial_beta_sequential, C28_bernoulli_beta_sequential, C28_negative_binomial_beta_sequential, C28_geometric_beta_sequential, C28_poisson_gamma_sequential, C28_exponential_gamma_sequential, C28_gamma_known_shape_sequential, C28_inverse_gamma_known_rate_sequential, C28_weibull_sequential, C28_pareto_gamma_sequential, C28_von_mises_known_direction_sequential, C28_normal_known_variance_sequential, C28_normal_known_precision_sequential, C28_normal_known_mean_sequential, C28_gamma_sequential, C28_gamma_known_rate_sequential, C28_beta_sequential, C28_uniform_pareto_sequential, C28_hypergeometric_sequential_refuted, C29_normal_sequential, C29_normal_order_independent, C29_normal_data, C30_history_proper, C30_von_mises_concentration_refuted, C31_binomial_beta_compromise, C31_binomial_beta_consistent, C31_poisson_gamma_compromise, C31_poisson_gamma_consistent, C31_normal_known_variance_compromise, C31_normal_known_variance_consistent, C31_normal_known_variance_shrinks, C78_binomial_beta, C78_bernoulli_beta, C78_negative_binomial_beta, C78_poisson_gamma, C78_gamma_known_shape, C78_normal_known_variance, C78_normal_known_precision, C78_normal_known_mean, C86_text_means_the_model, C86_only_the_model, C86_sales_query, C86_float_columns, C86_integer_division_refuted, C86_negative_constant_refuted, C91_pareto_gamma, C91_weibull, C91_inverse_gamma, C91_uniform

## `ClassicalDedekindReals.sig_forall_dec`, `ClassicalEpsilon.constructive_indefinite_description`, `Classical_Prop.classic`, `FunctionalExtensionality.functional_extensionality_dep`

C47_cone

## `ClassicalDedekindReals.sig_forall_dec`, `ClassicalDedekindReals.sig_not_dec`, `ClassicalEpsilon.constructive_indefinite_description`, `Classical_Prop.classic`, `FunctionalExtensionality.functional_extensionality_dep`

C83_regression_layouts_refuted, C79_known_covariance, C79_known_precision, C79_linear_regression, C43_linear_regression_posterior, C44_linear_regression_sequential, C45_linear_regression_predictive, C46_known_covariance_posterior, C46_known_precision_posterior, C46_variants_agree, C46_sequential, C46_known_covariance_predictive, C46_known_precision_predictive, C46_custom_inv_refuted, C46_custom_inv_fails, C75_known_covariance, C75_known_precision, C75_known_covariance_predictive, C75_known_precision_predictive, C75_known_mean, C75_regression_on_constant, C75_regression_on_constant_predictive, C81_known_covariance, C81_known_precision, C81_linear_regression, C81_multivariate_normal, C81_known_covariance_calibrated, C81_known_precision_calibrated, C81_linear_regression_calibrated, C81_multivariate_normal_calibrated, C102_known_covariance, C102_known_precision, C102_known_mean, C102_multivariate_normal, C102_linear_regression, C82_MultivariateNormal, C82_MultivariateStudentT, C82_InverseWishart, C82_NormalInverseGamma, C82_NormalInverseWishart, C82_known_covariance_predictive, C82_known_precision_predictive, C82_linear_regression_predictive, C82_multivariate_normal_predictive, C82_known_covariance_means, C82_known_precision_means, C82_linear_regression_means, C82_multivariate_normal_means, C89_prediction_widens, C89_further_is_wider, C47_density_proper, C47_known_mean_posterior, C47_sequential, C48_posterior, C48_np_outer, C48_sequential, C48_predictive, C48_one_dimension, C48_one_dimension_predictive
