{
 "claims": [
  {
   "property": "C01",
   "status": "proved",
   "theorems": [
    "C01_binomial_beta_posterior",
    "C01_bernoulli_beta_is_binomial"
   ],
   "note": ""
  },
  {
   "property": "C02",
   "status": "proved",
   "theorems": [
    "C02_negative_binomial_beta_posterior"
   ],
   "note": ""
  },
  {
   "property": "C03",
   "status": "proved",
   "theorems": [
    "C03_geometric_beta_posterior"
   ],
   "note": ""
  },
  {
   "property": "C04",
   "status": "proved",
   "theorems": [
    "C04_poisson_gamma_posterior"
   ],
   "note": ""
  },
  {
   "property": "C05",
   "status": "partial",
   "theorems": [
    "C05_exponential_gamma_posterior_refuted",
    "C05_exponential_gamma_posterior_iff",
    "C05_exponential_gamma_predictive_refuted",
    "C05_exponential_gamma_predictive_iff",
    "C05_exponential_gamma_swapped_partial",
    "C05_exponential_gamma_exchanged_partial"
   ],
   "note": "REFUTED: the two sufficient statistics (and the Lomax arguments) are exchanged. Theorems: counterexamples, exactly when the result happens to be right, and what is right (exchanged roles)."
  },
  {
   "property": "C06",
   "status": "proved",
   "theorems": [
    "C06_gamma_known_shape_posterior"
   ],
   "note": ""
  },
  {
   "property": "C07",
   "status": "proved",
   "theorems": [
    "C07_inverse_gamma_known_rate_posterior"
   ],
   "note": ""
  },
  {
   "property": "C08",
   "status": "proved",
   "theorems": [
    "C08_normal_known_variance_posterior",
    "C08_normal_known_precision_posterior"
   ],
   "note": ""
  },
  {
   "property": "C09",
   "status": "proved",
   "theorems": [
    "C09_normal_known_mean_posterior",
    "C09_normal_known_mean_routes_agree"
   ],
   "note": ""
  },
  {
   "property": "C10",
   "status": "proved",
   "theorems": [
    "C10_normal_posterior",
    "C10_log_normal_posterior"
   ],
   "note": ""
  },
  {
   "property": "C11",
   "status": "proved",
   "theorems": [
    "C11_uniform_pareto_posterior"
   ],
   "note": ""
  },
  {
   "property": "C12",
   "status": "proved",
   "theorems": [
    "C12_pareto_gamma_posterior"
   ],
   "note": ""
  },
  {
   "property": "C13",
   "status": "proved",
   "theorems": [
    "C13_weibull_posterior"
   ],
   "note": ""
  },
  {
   "property": "C14",
   "status": "proved",
   "theorems": [
    "C14_gamma_posterior",
    "C14_gamma_known_rate_posterior",
    "C14_beta_posterior"
   ],
   "note": ""
  },
  {
   "property": "C15",
   "status": "proved",
   "theorems": [
    "C15_von_mises_known_direction_posterior"
   ],
   "note": ""
  },
  {
   "property": "C16",
   "status": "partial",
   "theorems": [
    "C16_von_mises_known_concentration_refuted",
    "C16_von_mises_log_likelihood_refuted",
    "C16_von_mises_true_posterior_partial",
    "C16_von_mises_direction_partial"
   ],
   "note": "REFUTED: concentration of the posterior is wrong for every arctan2, log_likelihood uses a + cos. Theorems: counterexamples, the true posterior, and that the direction is right for kappa = 1."
  },
  {
   "property": "C17",
   "status": "partial",
   "theorems": [
    "C17_hypergeometric_refuted",
    "C17_hypergeometric_never_bayes",
    "C17_hypergeometric_ignores_draws_partial",
    "C17_hypergeometric_true_posterior_partial"
   ],
   "note": "REFUTED: n is overwritten by prior.n; wrong for every sample of at least one item. The true posterior is proved for comparison."
  },
  {
   "property": "C18",
   "status": "proved",
   "theorems": [
    "C18_multinomial_dirichlet",
    "C18_categorical_dirichlet",
    "C18_density_normalised"
   ],
   "note": ""
  },
  {
   "property": "C19",
   "status": "partial",
   "theorems": [
    "C19_elementwise_partial",
    "C19_number",
    "C19_concatenates_refuted",
    "C19_truncates_refuted",
    "C19_dist_needs_array"
   ],
   "note": "Element-wise for equal lengths and mixed containers. REFUTED: two lists or two tuples are concatenated (C19_concatenates_refuted); different lengths are silently truncated by zip (C19_truncates_refuted)."
  },
  {
   "property": "C20",
   "status": "proved",
   "theorems": [
    "C20_binomial_beta_predictive",
    "C20_binomial_beta_predictive_total",
    "C20_bernoulli_beta_predictive"
   ],
   "note": ""
  },
  {
   "property": "C21",
   "status": "proved",
   "theorems": [
    "C21_negative_binomial_beta_predictive"
   ],
   "note": ""
  },
  {
   "property": "C22",
   "status": "partial",
   "theorems": [
    "C22_geometric_beta_predictive_refuted",
    "C22_geometric_beta_predictive_too_small",
    "C22_geometric_beta_predictive_mass",
    "C22_geometric_beta_predictive_shifted_partial",
    "C22_geometric_beta_predictive_start_partial"
   ],
   "note": "REFUTED: BetaGeometric pmf is off by one and sums to beta/(alpha+beta). What holds: the shift statements."
  },
  {
   "property": "C23",
   "status": "partial",
   "theorems": [
    "C23_poisson_gamma_predictive",
    "C23_poisson_gamma_predictive_units_refuted",
    "C23_poisson_gamma_predictive_units_iff",
    "C23_poisson_gamma_true_marginal_partial",
    "C23_poisson_gamma_predictive_independent_rates_partial"
   ],
   "note": "n = 1 proved; n units REFUTED: right exactly for n = 1. What the code computes for n is characterised."
  },
  {
   "property": "C24",
   "status": "proved",
   "theorems": [
    "C24_gamma_known_shape_predictive"
   ],
   "note": ""
  },
  {
   "property": "C25",
   "status": "proved",
   "theorems": [
    "C25_normal_known_variance_predictive",
    "C25_normal_known_precision_predictive"
   ],
   "note": ""
  },
  {
   "property": "C26",
   "status": "proved",
   "theorems": [
    "C26_normal_known_mean_predictive"
   ],
   "note": ""
  },
  {
   "property": "C27",
   "status": "proved",
   "theorems": [
    "C27_normal_predictive",
    "C27_normal_predictive_families"
   ],
   "note": ""
  },
  {
   "property": "C28",
   "status": "proved",
   "theorems": [
    "C28_dirichlet",
    "C28_binomial_beta_sequential",
    "C28_bernoulli_beta_sequential",
    "C28_negative_binomial_beta_sequential",
    "C28_geometric_beta_sequential",
    "C28_poisson_gamma_sequential",
    "C28_exponential_gamma_sequential",
    "C28_gamma_known_shape_sequential",
    "C28_inverse_gamma_known_rate_sequential",
    "C28_weibull_sequential",
    "C28_pareto_gamma_sequential",
    "C28_von_mises_known_direction_sequential",
    "C28_normal_known_variance_sequential",
    "C28_normal_known_precision_sequential",
    "C28_normal_known_mean_sequential",
    "C28_gamma_sequential",
    "C28_gamma_known_rate_sequential",
    "C28_beta_sequential",
    "C28_uniform_pareto_sequential",
    "C28_hypergeometric_sequential_refuted"
   ],
   "note": "All additive models; hypergeometric_beta_binomial is refuted separately (it is not an additive-statistics model, see C17)."
  },
  {
   "property": "C29",
   "status": "proved",
   "theorems": [
    "C29_normal_no_data",
    "C29_normal_sequential",
    "C29_normal_order_independent",
    "C29_normal_data"
   ],
   "note": ""
  },
  {
   "property": "C30",
   "status": "proved",
   "theorems": [
    "C30_history_proper",
    "C30_von_mises_concentration_refuted"
   ],
   "note": "All element-wise models of the code except von_mises_known_concentration, which leaves the domain (refuted theorem)."
  },
  {
   "property": "C31",
   "status": "proved",
   "theorems": [
    "C31_binomial_beta_compromise",
    "C31_binomial_beta_consistent",
    "C31_poisson_gamma_compromise",
    "C31_poisson_gamma_consistent",
    "C31_normal_known_variance_compromise",
    "C31_normal_known_variance_consistent",
    "C31_normal_known_variance_shrinks"
   ],
   "note": ""
  },
  {
   "property": "C32",
   "status": "partial",
   "theorems": [
    "C32_entries_are_scalar_calls",
    "C32_shapes",
    "C32_incompatible_raise_refuted"
   ],
   "note": "Entries and shapes proved for all functions. REFUTED in one corner: incompatible shapes do not raise when the two arguments never meet in an expression (n and alpha in binomial_beta)."
  },
  {
   "property": "C33",
   "status": "proved",
   "theorems": [
    "C33_symbolic_inputs",
    "C33_parametric"
   ],
   "note": ""
  },
  {
   "property": "C34",
   "status": "partial",
   "theorems": [
    "C34_integer_key",
    "C34_many_partial",
    "C34_python_list_refuted",
    "C34_length_one_refuted",
    "C34_posterior_of_member",
    "C34_posterior_of_members"
   ],
   "note": "Proved for integer keys and for list, mask and slice keys on scalars, vectors and flags, and slicing commutes with every element-wise function. REFUTED: Python-list parameters with a list or mask key are kept whole (C34_python_list_refuted); a length-1 array is emptied by a slice (C34_length_one_refuted)."
  },
  {
   "property": "C35",
   "status": "partial",
   "theorems": [
    "C35_out_of_range_unchanged",
    "C35_out_of_range_refuted"
   ],
   "note": "REFUTED: SliceMixin swallows the IndexError and returns the distribution unchanged (C35_out_of_range_refuted, C35_out_of_range_unchanged)."
  },
  {
   "property": "C36",
   "status": "partial",
   "theorems": [
    "C36_accepts",
    "C36_rejects",
    "C36_runs_iff",
    "C36_union_raises_AttributeError",
    "C36_ValueError_refuted",
    "C36_union_functions",
    "C36_signatures",
    "C36_library_classes",
    "C36_message_names",
    "C36_forwarders"
   ],
   "note": "Proved for every function annotated with one class. REFUTED for the five Union-annotated functions: AttributeError instead of ValueError (the body still does not run)."
  },
  {
   "property": "C37",
   "status": "proved",
   "theorems": [
    "C37_roundtrip_inverse_gamma",
    "C37_roundtrip_scaled",
    "C37_density_to",
    "C37_density_from"
   ],
   "note": ""
  },
  {
   "property": "C38",
   "status": "proved",
   "theorems": [
    "C38_Dirichlet_uninformative",
    "C38_Beta_from_mean",
    "C38_Normal_from_mean_and_variance",
    "C38_Normal_from_mean_and_precision",
    "C38_Beta_from_successes_and_failures",
    "C38_Gamma_from_occurrences",
    "C38_Gamma_from_occurrences_limit",
    "C38_Beta_uninformative",
    "C38_Normal_uninformative",
    "C38_NormalInverseGamma_from_inverse_gamma",
    "C38_NormalInverseWishart_from_inverse_wishart"
   ],
   "note": ""
  },
  {
   "property": "C39",
   "status": "proved",
   "theorems": [
    "C39_Poisson_add",
    "C39_Poisson_mul",
    "C39_NegativeBinomial_mul",
    "C39_Poisson_add_comm",
    "C39_Poisson_add_assoc"
   ],
   "note": ""
  },
  {
   "property": "C40",
   "status": "proved",
   "theorems": [
    "C40_Gamma_mul",
    "C40_Exponential_mul",
    "C40_Normal_mul",
    "C40_Gamma_mul_mul",
    "C40_Poisson_mul_mul",
    "C40_NegativeBinomial_mul_mul",
    "C40_Normal_mul_mul",
    "C40_Exponential_mul_mul"
   ],
   "note": ""
  },
  {
   "property": "C41",
   "status": "partial",
   "theorems": [
    "C41_Beta_dist",
    "C41_Gamma_dist",
    "C41_InverseGamma_dist",
    "C41_ScaledInverseChiSquared_dist",
    "C41_Normal_dist",
    "C41_Pareto_dist",
    "C41_StudentT_dist",
    "C41_Lomax_dist",
    "C41_Weibull_dist",
    "C41_VonMises_dist",
    "C41_Binomial_dist",
    "C41_NegativeBinomial_dist",
    "C41_Poisson_dist",
    "C41_Geometric_dist",
    "C41_Hypergeometric_dist",
    "C41_Exponential_refuted",
    "C41_Exponential_iff",
    "C41_Exponential_partial",
    "C41_Uniform_refuted",
    "C41_Uniform_iff",
    "C41_Uniform_partial",
    "C41_LogNormal_refuted",
    "C41_LogNormal_iff"
   ],
   "note": "Proved for Beta, Gamma, InverseGamma, ScaledInverseChiSquared, Normal, Pareto, StudentT, Lomax, Weibull, VonMises, Binomial, NegativeBinomial, Poisson, Geometric, Hypergeometric; REFUTED for Exponential, Uniform and LogNormal, with exact characterisations."
  },
  {
   "property": "C42",
   "status": "partial",
   "theorems": [
    "C42_normal_marginal_density",
    "C42_normal_coordinate",
    "C42_any_matrix",
    "C42_cgf_meaning",
    "C42_subvector",
    "C42_entries",
    "C42_composes",
    "C42_composes_integer",
    "C42_out_of_range",
    "C42_numpy_integer_refuted",
    "C42_t_coordinate_refuted"
   ],
   "note": "Proved for MultivariateNormal and for sub-vectors of both. REFUTED for MultivariateStudentT[k]: the scale is the diagonal entry, not its square root (C42_t_coordinate_refuted); numpy integers raise IndexError (C42_numpy_integer_refuted)."
  },
  {
   "property": "C43",
   "status": "proved",
   "theorems": [
    "C43_linear_regression_posterior",
    "C43_scalar_prior_raises"
   ],
   "note": ""
  },
  {
   "property": "C44",
   "status": "proved",
   "theorems": [
    "C44_linear_regression_sequential"
   ],
   "note": ""
  },
  {
   "property": "C45",
   "status": "proved",
   "theorems": [
    "C45_linear_regression_predictive"
   ],
   "note": ""
  },
  {
   "property": "C46",
   "status": "partial",
   "theorems": [
    "C46_known_covariance_posterior",
    "C46_known_precision_posterior",
    "C46_variants_agree",
    "C46_sequential",
    "C46_known_covariance_predictive",
    "C46_known_precision_predictive",
    "C46_custom_inv_refuted",
    "C46_custom_inv_fails"
   ],
   "note": "REFUTED: the last clause (a user-supplied inv is used for every inversion) is false, the inner helper always calls np.linalg.inv (C46_custom_inv_refuted, C46_custom_inv_fails). Posterior, positive definiteness, agreement of the variants, sequential updating and the predictives are proved for every dimension."
  },
  {
   "property": "C47",
   "status": "proved",
   "theorems": [
    "C47_density_proper",
    "C47_cone",
    "C47_known_mean_posterior",
    "C47_sequential"
   ],
   "note": ""
  },
  {
   "property": "C48",
   "status": "proved",
   "theorems": [
    "C48_posterior",
    "C48_np_outer",
    "C48_sequential",
    "C48_predictive",
    "C48_one_dimension",
    "C48_one_dimension_predictive"
   ],
   "note": ""
  },
  {
   "property": "C49",
   "status": "partial",
   "theorems": [
    "C49_last_bounds",
    "C49_never_set",
    "C49_after_set",
    "C49_constructed",
    "C49_slice_refuted",
    "C49_uniform_refuted",
    "C49_dirichlet",
    "C49_dirichlet_labels",
    "C49_dirichlet_family_refuted",
    "C49_dirichlet_list_refuted"
   ],
   "note": "Proved for all histories over any number of objects and names, and for every constructor with number parameters. REFUTED: slicing loses the bounds (C49_slice_refuted); array-valued Uniform and 2-d or list Dirichlet cannot be plotted although their constructors set the bounds."
  },
  {
   "property": "C50",
   "status": "partial",
   "theorems": [
    "C50_integers",
    "C50_overshoot_refuted",
    "C50_grid",
    "C50_sorted",
    "C50_linspace",
    "C50_ticks"
   ],
   "note": "Proved for integer bounds and for continuous grids. REFUTED for fractional discrete bounds: a value beyond the maximum is plotted (C50_overshoot_refuted)."
  },
  {
   "property": "C51",
   "status": "partial",
   "theorems": [
    "C51_conditional_partial",
    "C51_share",
    "C51_curves_refuted",
    "C51_cdf_refuted"
   ],
   "note": "One curve, pmf: proved. REFUTED for several curves (normalised jointly, C51_curves_refuted) and for the conditional cdf (C51_cdf_refuted)."
  },
  {
   "property": "C52",
   "status": "proved",
   "theorems": [
    "C52_single",
    "C52_each",
    "C52_distinct",
    "C52_curves_family",
    "C52_curves_scalars"
   ],
   "note": ""
  },
  {
   "property": "C53",
   "status": "proved",
   "theorems": [
    "C53_exactly_one",
    "C53_normal_needs_nu",
    "C53_predictive_needs_nu"
   ],
   "note": ""
  },
  {
   "property": "C54",
   "status": "proved",
   "theorems": [
    "C54_alias_posterior",
    "C54_alias_predictive",
    "C54_aliases_reject",
    "C54_values"
   ],
   "note": ""
  },
  {
   "property": "C55",
   "status": "partial",
   "theorems": [
    "C55_same_variance_refuted",
    "C55_variance_ratio",
    "C55_variance_law",
    "C55_normal_inverse_gamma_law",
    "C55_normal_gamma_law",
    "C55_normal_inverse_wishart_law",
    "C55_normal_wishart_law"
   ],
   "note": "REFUTED: NormalGamma.sample_variance returns 1/(lam tau), the sampled variance divided by lam, so the two families do not sample the same variance (C55_same_variance_refuted). The exact ratio and the exact laws of all four samplers are proved."
  },
  {
   "property": "C56",
   "status": "partial",
   "theorems": [
    "C56_integer_seed_refuted",
    "C56_integer_seed_reseeds",
    "C56_integer_seed_dependent",
    "C56_integer_seed_collinear",
    "C56_generator_threads",
    "C56_generator_independent"
   ],
   "note": "REFUTED for integer seeds: every rvs call of the method starts again from the same state (C56_integer_seed_reseeds, C56_integer_seed_dependent, C56_integer_seed_collinear). For a generator the draws use one stream in order (C56_generator_threads) and never share a state (C56_generator_independent)."
  },
  {
   "property": "C57",
   "status": "partial",
   "theorems": [
    "C57_beta_geometric_shape",
    "C57_beta_geometric_incompatible",
    "C57_compound_gamma_shape_partial",
    "C57_compound_gamma_incompatible",
    "C57_compound_gamma_shape_refuted",
    "C57_size_zero_refuted",
    "C57_size_zero_is_none"
   ],
   "note": "REFUTED for compound_gamma when the broadcast shape starts with 1 (scipy squeezes it) and for size=0 (taken for None). Holds for beta_geometric otherwise, and for compound_gamma exactly when the first dimension is not 1."
  },
  {
   "property": "C58",
   "status": "proved",
   "theorems": [
    "C58_raises_exactly",
    "C58_returns_the_model"
   ],
   "note": ""
  },
  {
   "property": "C59",
   "status": "proved",
   "theorems": [
    "C59_predictive_is_marginal",
    "C59_default_one_trial",
    "C59_total_mass"
   ],
   "note": ""
  },
  {
   "property": "C60",
   "status": "partial",
   "theorems": [
    "C60_compound_gamma_law",
    "C60_beta_geometric_law",
    "C60_beta_geometric_pmf_refuted"
   ],
   "note": "REFUTED for beta_geometric: rvs has the true beta-geometric law (C60_beta_geometric_law), pmf does not (C60_beta_geometric_pmf_refuted). Proved for compound_gamma."
  },
  {
   "property": "C61",
   "status": "partial",
   "theorems": [
    "C61_shapes_partial",
    "C61_other_covariances",
    "C61_shapes_scalar",
    "C61_one_dimension",
    "C61_one_dimension_wishart_refuted",
    "C61_no_samples_refuted"
   ],
   "note": "Holds for n >= 2 and k >= 1, for n = 1 (NormalInverseGamma, NormalInverseWishart) and for scalar parameters. REFUTED for NormalWishart with n = 1 (LinAlgError) and for k = 0 (ValueError from np.stack)."
  },
  {
   "property": "C62",
   "status": "proved",
   "theorems": [
    "C62_lines",
    "C62_density",
    "C62_mass",
    "C62_covered",
    "C62_slice"
   ],
   "note": ""
  },
  {
   "property": "C63",
   "status": "partial",
   "theorems": [
    "C63_raises",
    "C63_cdf_refuted",
    "C63_list_refuted",
    "C63_matrix_refuted"
   ],
   "note": "REFUTED: BetaGeometric and CompoundGamma inherit plot_cdf but their distribution objects have no cdf (AttributeError, C63_cdf_refuted); Python lists raise TypeError in four fields the library computes with (C63_list_refuted); matrices of parameters with 100 rows are drawn with point i of each curve from row i (C63_matrix_refuted). Proved: the complete list of exceptions for numbers and vectors (C63_raises)."
  },
  {
   "property": "C64",
   "status": "proved",
   "theorems": [
    "C64_available"
   ],
   "note": ""
  },
  {
   "property": "C65",
   "status": "partial",
   "theorems": [
    "C65_counts",
    "C65_draws",
    "C65_beta",
    "C65_von_mises",
    "C65_uniform_refuted",
    "C65_uniform",
    "C65_beta_negative_binomial_refuted"
   ],
   "note": "REFUTED for Uniform with a positive lower end (C65_uniform_refuted: the constructor takes high for the upper end, scipy takes it for the width) and for BetaNegativeBinomial (C65_beta_negative_binomial_refuted: max_value is n though the support is infinite). Proved for Beta, Binomial, BetaBinomial, Hypergeometric, VonMises, and Uniform with low <= 0."
  },
  {
   "property": "C66",
   "status": "partial",
   "theorems": [
    "C66_Beta",
    "C66_Gamma",
    "C66_Exponential",
    "C66_InverseGamma",
    "C66_ScaledInverseChiSquared",
    "C66_Normal",
    "C66_StudentT",
    "C66_Uniform",
    "C66_Pareto",
    "C66_Lomax",
    "C66_Weibull",
    "C66_LogNormal",
    "C66_CompoundGamma",
    "C66_CompoundGamma_computed",
    "C66_CompoundGamma_edge",
    "C66_CompoundGamma_off_support_refuted",
    "C66_VonMises",
    "C66_Poisson",
    "C66_NegativeBinomial",
    "C66_Geometric",
    "C66_BetaNegativeBinomial",
    "C66_Binomial",
    "C66_BetaBinomial",
    "C66_Hypergeometric",
    "C66_BetaGeometric_refuted",
    "C66_BetaGeometric_total",
    "C66_BetaGeometric_off_support_refuted"
   ],
   "note": "REFUTED for BetaGeometric (C66_BetaGeometric_refuted: the masses sum to beta/(alpha+beta)); proved for the other univariate classes. CompoundGamma: on the positive numbers, the pdf itself has no support check. Also REFUTED off the support: CompoundGamma's own pdf is negative or positive between -q and 0, and BetaGeometric's pmf puts the missing mass one place below its support."
  },
  {
   "property": "C67",
   "status": "proved",
   "theorems": [
    "C67_exact_when_representable",
    "C67_counts_are_exact"
   ],
   "note": ""
  },
  {
   "property": "C68",
   "status": "proved",
   "theorems": [
    "C68_roundings",
    "C68_relative_error"
   ],
   "note": ""
  },
  {
   "property": "C69",
   "status": "partial",
   "theorems": [
    "C69_geometric_beta_refuted",
    "C69_normal_known_mean_refuted",
    "C69_normal_refuted",
    "C69_stable_functions"
   ],
   "note": "REFUTED for geometric_beta with one_start (result 0), normal_known_mean and normal (negative scale): C69_geometric_beta_refuted, C69_normal_known_mean_refuted, C69_normal_refuted, each with the exact posterior beside it. Proved for the functions that subtract nothing but inputs (C69_stable_functions)."
  },
  {
   "property": "C70",
   "status": "partial",
   "theorems": [
    "C70_sequential_refuted",
    "C70_whole_numbers_exact",
    "C70_sequential_error"
   ],
   "note": "REFUTED as an exact statement for large parameters (C70_sequential_refuted: two single Poisson events added to 2^53 are lost). Proved: exact for whole numbers with totals up to 2^53 (C70_whole_numbers_exact), and within one rounding per batch otherwise (C70_sequential_error)."
  },
  {
   "property": "C71",
   "status": "proved",
   "theorems": [
    "C71_by_name",
    "C71_keyword_order",
    "C71_results_are_priors",
    "C71_missing_attribute"
   ],
   "note": ""
  },
  {
   "property": "C72",
   "status": "proved",
   "theorems": [
    "C72_texts",
    "C72_ticks"
   ],
   "note": ""
  },
  {
   "property": "C73",
   "status": "partial",
   "theorems": [
    "C73_colours",
    "C73_overlaid",
    "C73_next_plot_refuted",
    "C73_cycle_reference_refuted",
    "C73_binomial_page_refuted"
   ],
   "note": "REFUTED: a plot without color after a plot with color inherits that colour because set_prop_cycle changes the Axes (C73_next_plot_refuted). Proved: curve j has colour j of those given, cyclically (C73_colours). Also REFUTED for colours that refer to the cycle such as color=\"C2\" of docs/examples/binomial.md (C73_cycle_reference_refuted)."
  },
  {
   "property": "C74",
   "status": "proved",
   "theorems": [
    "C74_binomial_beta",
    "C74_bernoulli_beta",
    "C74_negative_binomial_beta",
    "C74_poisson_gamma",
    "C74_gamma_known_shape",
    "C74_normal_known_variance",
    "C74_normal_known_precision",
    "C74_normal_known_mean",
    "C74_normal",
    "C74_multinomial_dirichlet",
    "C74_categorical_dirichlet"
   ],
   "note": ""
  },
  {
   "property": "C75",
   "status": "proved",
   "theorems": [
    "C75_known_covariance",
    "C75_known_precision",
    "C75_known_covariance_predictive",
    "C75_known_precision_predictive",
    "C75_known_mean",
    "C75_regression_on_constant",
    "C75_regression_on_constant_predictive",
    "C75_two_categories",
    "C75_two_categories_density",
    "C75_two_categories_predictive"
   ],
   "note": ""
  },
  {
   "property": "C76",
   "status": "partial",
   "theorems": [
    "C76_geometric",
    "C76_geometric_predictive_refuted",
    "C76_pareto",
    "C76_inverse_gamma",
    "C76_weibull",
    "C76_exponential_refuted",
    "C76_exponential_predictive",
    "C76_gamma_known_rate",
    "C76_hypergeometric",
    "C76_normal_priors"
   ],
   "note": "REFUTED for exponential data (exponential_gamma agrees with gamma_known_shape at shape 1 only with its statistics exchanged, its predictive only with the parameters exchanged) and for the geometric predictive (off by one failure); proved for the other pairs."
  },
  {
   "property": "C77",
   "status": "proved",
   "theorems": [
    "C77_binomial_beta",
    "C77_binomial_beta_mean",
    "C77_bernoulli_beta",
    "C77_bernoulli_beta_mean",
    "C77_negative_binomial_beta",
    "C77_negative_binomial_beta_mean",
    "C77_poisson_gamma",
    "C77_poisson_gamma_mean",
    "C77_gamma_known_shape",
    "C77_gamma_known_shape_mean",
    "C77_normal_known_variance",
    "C77_normal_known_variance_mean",
    "C77_normal_known_precision",
    "C77_normal_known_precision_mean",
    "C77_normal_known_mean",
    "C77_normal_known_mean_mean",
    "C77_normal",
    "C77_multinomial_dirichlet",
    "C77_categorical_dirichlet"
   ],
   "note": ""
  },
  {
   "property": "C78",
   "status": "proved",
   "theorems": [
    "C78_binomial_beta",
    "C78_bernoulli_beta",
    "C78_negative_binomial_beta",
    "C78_poisson_gamma",
    "C78_gamma_known_shape",
    "C78_normal_known_variance",
    "C78_normal_known_precision",
    "C78_normal_known_mean"
   ],
   "note": ""
  },
  {
   "property": "C79",
   "status": "proved",
   "theorems": [
    "C79_known_covariance",
    "C79_known_precision",
    "C79_linear_regression"
   ],
   "note": ""
  },
  {
   "property": "C80",
   "status": "partial",
   "theorems": [
    "C80_mean",
    "C80_mean_rows",
    "C80_one_category_refuted",
    "C80_mean_defined",
    "C80_rows",
    "C80_compromise",
    "C80_consistent",
    "C80_multinomial_mean_calibrated",
    "C80_categorical_mean_calibrated",
    "C80_predictive_mean",
    "C80_rvs",
    "C80_rvs_defined"
   ],
   "note": "REFUTED for one category: the mean of a table of shape (rows, 1) has shape (rows,) because scipy squeezes each row's mean. Everything else is proved, for at least two categories where the shape matters."
  },
  {
   "property": "C81",
   "status": "proved",
   "theorems": [
    "C81_known_covariance",
    "C81_known_precision",
    "C81_linear_regression",
    "C81_multivariate_normal",
    "C81_known_covariance_calibrated",
    "C81_known_precision_calibrated",
    "C81_linear_regression_calibrated",
    "C81_multivariate_normal_calibrated"
   ],
   "note": "Iterated integrals over vectors, over vectors and positive numbers, and over vectors and positive definite matrices; one observation at a time, any number of them."
  },
  {
   "property": "C82",
   "status": "proved",
   "theorems": [
    "C82_MultivariateNormal",
    "C82_MultivariateStudentT",
    "C82_InverseWishart",
    "C82_NormalInverseGamma",
    "C82_NormalInverseWishart",
    "C82_known_covariance_predictive",
    "C82_known_precision_predictive",
    "C82_linear_regression_predictive",
    "C82_multivariate_normal_predictive",
    "C82_known_covariance_means",
    "C82_known_precision_means",
    "C82_linear_regression_means",
    "C82_multivariate_normal_means"
   ],
   "note": "Iterated integrals over vectors and over positive definite matrices; means and covariances for degrees of freedom above the stated thresholds."
  },
  {
   "property": "C83",
   "status": "partial",
   "theorems": [
    "C83_regression_layouts",
    "C83_regression_layouts_refuted",
    "C83_regression_sizes",
    "C83_regression_sizes_refuted",
    "C83_regression_flat",
    "C83_known_covariance_layouts",
    "C83_known_precision_layouts",
    "C83_known_mean_column_refuted",
    "C83_known_mean_single_refuted",
    "C83_multivariate_normal_single_refuted",
    "C83_multivariate_normal_column",
    "C83_np_outer"
   ],
   "note": "REFUTED: linear_regression mixes a column response with a flat prior mean into an n by n array (C83_regression_layouts_refuted), takes a one-coefficient prior for any number of covariates (C83_regression_sizes_refuted); multivariate_normal_known_mean accepts a column mean when N = p; a single flat observation is counted as p observations (C83_known_mean_single_refuted, C83_multivariate_normal_single_refuted). The other theorems give the shapes of every result and the sizes that are rejected, for all sizes and element types."
  },
  {
   "property": "C84",
   "status": "partial",
   "theorems": [
    "C84_multinomial_dirichlet_predictive",
    "C84_categorical_dirichlet_predictive",
    "C84_binomial_beta_concentrates",
    "C84_binomial_beta_predictive",
    "C84_negative_binomial_beta_concentrates",
    "C84_negative_binomial_beta_predictive",
    "C84_geometric_beta_concentrates",
    "C84_geometric_beta_predictive_refuted",
    "C84_geometric_beta_predictive_shifted_partial",
    "C84_poisson_gamma_concentrates",
    "C84_poisson_gamma_predictive",
    "C84_gamma_known_shape_concentrates",
    "C84_inverse_gamma_known_rate_concentrates",
    "C84_gamma_known_shape_predictive",
    "C84_exponential_gamma_refuted",
    "C84_exponential_gamma_partial",
    "C84_weibull_concentrates",
    "C84_pareto_gamma_concentrates",
    "C84_uniform_pareto_concentrates",
    "C84_normal_known_variance_concentrates",
    "C84_normal_known_variance_predictive",
    "C84_normal_known_precision_concentrates",
    "C84_normal_known_precision_predictive",
    "C84_normal_known_mean_concentrates",
    "C84_normal_known_mean_predictive",
    "C84_normal",
    "C84_log_normal"
   ],
   "note": "REFUTED: exponential_gamma settles on the mean instead of the rate (C84_exponential_gamma_refuted, C84_exponential_gamma_partial); the limit of geometric_beta_predictive is the geometric distribution moved down by one (C84_geometric_beta_predictive_refuted, C84_geometric_beta_predictive_shifted_partial). Every other model listed is proved, for all streams of summaries whose averages converge."
  },
  {
   "property": "C85",
   "status": "partial",
   "theorems": [
    "C85_binomial",
    "C85_geometric",
    "C85_poisson",
    "C85_negative_binomial",
    "C85_normal_known_variance",
    "C85_normal_known_precision",
    "C85_normal_known_mean",
    "C85_uniform",
    "C85_exponential",
    "C85_inverse_gamma_known_rate",
    "C85_weibull",
    "C85_normal_gamma",
    "C85_hypergeometric_refuted",
    "C85_hypergeometric_truth",
    "C85_quantiles"
   ],
   "note": "REFUTED: the hypergeometric set-up, marked TODO in the source, leads to posteriors with a negative parameter (C85_hypergeometric_refuted). Every other set-up is proved."
  },
  {
   "property": "C86",
   "status": "partial",
   "theorems": [
    "C86_text_means_the_model",
    "C86_only_the_model",
    "C86_sales_query",
    "C86_float_columns",
    "C86_integer_division_refuted",
    "C86_negative_constant_refuted"
   ],
   "note": "REFUTED in dialects with integer division (C86_integer_division_refuted: odd counts lose a degree of freedom) and for negative constants after a minus sign (C86_negative_constant_refuted). Proved for every function where the text has no two adjacent minus signs: real division, or no integer columns."
  },
  {
   "property": "C87",
   "status": "partial",
   "theorems": [
    "C87_thompson",
    "C87_running_posterior",
    "C87_post_engagement_refuted",
    "C87_post_engagement_repaired",
    "C87_window",
    "C87_window_refuted"
   ],
   "note": "REFUTED for docs/examples/limit.md (C87_window_refuted: the spread of the predicted window count is wrong for every window other than one unit; C87_window gives the exact error) and scripts/post-engagement.py (C87_post_engagement_refuted: always raises). Proved for Thompson sampling and the running posterior."
  },
  {
   "property": "C88",
   "status": "partial",
   "theorems": [
    "C88_binomial_beta",
    "C88_negative_binomial_beta",
    "C88_geometric_beta",
    "C88_poisson_gamma",
    "C88_gamma_known_shape",
    "C88_inverse_gamma_known_rate",
    "C88_pareto_gamma",
    "C88_weibull",
    "C88_normal_known_variance",
    "C88_normal_known_precision",
    "C88_normal_known_mean",
    "C88_exponential_gamma_refuted"
   ],
   "note": "REFUTED for exponential_gamma (C88_exponential_gamma_refuted: its posterior moves up for every pair of data sets for which the true posterior moves down). Proved for the other models."
  },
  {
   "property": "C89",
   "status": "proved",
   "theorems": [
    "C89_prediction_widens",
    "C89_further_is_wider"
   ],
   "note": ""
  },
  {
   "property": "C90",
   "status": "partial",
   "theorems": [
    "C90_one_count",
    "C90_maximum_refuted"
   ],
   "note": "REFUTED for two or more new counts (C90_maximum_refuted: the page gives every event \"maximum <= k\" too small a probability). One count is right (C90_one_count)."
  },
  {
   "property": "C91",
   "status": "proved",
   "theorems": [
    "C91_pareto_gamma",
    "C91_weibull",
    "C91_inverse_gamma",
    "C91_uniform"
   ],
   "note": ""
  },
  {
   "property": "C92",
   "status": "partial",
   "theorems": [
    "C92_prepended",
    "C92_plain_number",
    "C92_vector_refuted"
   ],
   "note": "REFUTED: rvs(n) does not fail for vectors of length n (C92_vector_refuted). The exact condition is C92_plain_number; the fix of the page always works (C92_prepended)."
  },
  {
   "property": "C93",
   "status": "partial",
   "theorems": [
    "C93_order_kept",
    "C93_normal_mean",
    "C93_evidence_lost_refuted"
   ],
   "note": "REFUTED in the last sentence: a success added to Beta(2^53, 1) is lost (C93_evidence_lost_refuted). The directions are kept for every counting function (C93_order_kept) and for the normal mean (C93_normal_mean)."
  },
  {
   "property": "C94",
   "status": "proved",
   "theorems": [
    "C94_coordinates",
    "C94_classical"
   ],
   "note": "Coordinates: C94_coordinates. The flat prior and the classical t laws: C94_classical."
  },
  {
   "property": "C95",
   "status": "partial",
   "theorems": [
    "C95_total",
    "C95_number",
    "C95_number_values",
    "C95_array",
    "C95_sides_refuted",
    "C95_sum",
    "C95_sum_refuted",
    "C95_proper",
    "C95_mistakes_refuted",
    "C95_no_plus"
   ],
   "note": "REFUTED in three places: array * d is an array of instances but d * array one instance with array parameters (C95_sides_refuted; they hold the same distributions, C95_array); sum() of Poissons raises AttributeError because it starts from 0 (C95_sum_refuted; from a Poisson it is right, C95_sum); Poisson * Poisson and Poisson + Exponential are accepted (C95_mistakes_refuted). The rest is proved: C95_total, C95_number, C95_number_values, C95_proper, C95_no_plus."
  },
  {
   "property": "C96",
   "status": "proved",
   "theorems": [
    "C96_quantile",
    "C96_cdf",
    "C96_credible",
    "C96_normal_interval",
    "C96_student_t_interval",
    "C96_normal_interval_narrows",
    "C96_binomial_quantiles",
    "C96_poisson_quantiles",
    "C96_formulas"
   ],
   "note": "For the thirteen univariate continuous dist objects. That scipy's ppf computes the quantile is assumed, as for pdf."
  },
  {
   "property": "C97",
   "status": "partial",
   "theorems": [
    "C97_python_numbers",
    "C97_moderate",
    "C97_no_overflow",
    "C97_modular",
    "C97_modular_in_range",
    "C97_wraps_refuted",
    "C97_out_of_bounds_refuted",
    "C97_mixed_types_refuted",
    "C97_promotion"
   ],
   "note": "REFUTED for large values: counts in np.uint8/np.int8 wrap around (C97_wraps_refuted), a Python parameter outside the type of the data raises (C97_out_of_bounds_refuted), sums of different types give a wrong variance (C97_mixed_types_refuted). Proved: Python numbers of any size (C97_python_numbers), signed numpy integers up to explicit limits (C97_moderate), every call without overflow (C97_no_overflow), integer results of a single type modulo 2^bits (C97_modular, C97_modular_in_range)."
  },
  {
   "property": "C98",
   "status": "proved",
   "theorems": [
    "C98_loop",
    "C98_normal",
    "C98_binomial"
   ],
   "note": "Generic loop by name (C98_loop) and the two programs of the page (C98_normal, C98_binomial). Empty batches are excluded in C98_normal: normal divides by n (see C29)."
  },
  {
   "property": "C99",
   "status": "partial",
   "theorems": [
    "C99_constructor",
    "C99_documented_order",
    "C99_defaults",
    "C99_equality",
    "C99_reflexive",
    "C99_vectors_refuted",
    "C99_list_with_vector",
    "C99_indexed"
   ],
   "note": "REFUTED for array parameters: == raises ValueError for vectors of length two or more, even on an exact copy (C99_vectors_refuted). Proved: the constructors completely (C99_constructor, C99_documented_order), == for numbers, flags, lists and None (C99_equality), o == o always (C99_reflexive), comparison after indexing (C99_indexed)."
  },
  {
   "property": "C100",
   "status": "partial",
   "theorems": [
    "C100_complete",
    "C100_nan",
    "C100_absorbing",
    "C100_null",
    "C100_confined",
    "C100_ignored_refuted",
    "C100_unused",
    "C100_builtin_max_refuted"
   ],
   "note": "REFUTED for three arguments that no parameter uses: n of hypergeometric_beta_binomial, beta of gamma_known_rate, n of von_mises_known_concentration (C100_ignored_refuted, C100_unused says these are all), and for uniform_pareto with Python's max as max_fn (C100_builtin_max_refuted). Proved: propagation of NaN and NULL along the table of flows (C100_nan, C100_absorbing, C100_null), nothing else changes (C100_confined), the table is complete (C100_complete)."
  },
  {
   "property": "C101",
   "status": "partial",
   "theorems": [
    "C101_normal_refuted",
    "C101_gamma_refuted",
    "C101_moments",
    "C101_intended",
    "C101_poisson"
   ],
   "note": "REFUTED for Normal and Gamma: norm * k is the law of k X only if k = 1 (C101_normal_refuted, C101_gamma_refuted); its variance is multiplied by k, not by its square (C101_moments); the page describes Normal(k mu, k sigma) (C101_intended). Proved for Poisson (C101_poisson with C39)."
  },
  {
   "property": "C102",
   "status": "proved",
   "theorems": [
    "C102_known_covariance",
    "C102_known_precision",
    "C102_known_mean",
    "C102_multivariate_normal",
    "C102_linear_regression"
   ],
   "note": "Convergence is entry by entry; the streams are arbitrary sequences of data sets (not assumed nested or random). The known-mean model has no predictive function in the code."
  },
  {
   "property": "C103",
   "status": "proved",
   "theorems": [
    "C103_binomial",
    "C103_bernoulli",
    "C103_bernoulli_reached",
    "C103_multinomial",
    "C103_categorical",
    "C103_categorical_reached",
    "C103_normal_known_variance",
    "C103_normal_known_variance_reached",
    "C103_poisson",
    "C103_poisson_exact",
    "C103_gamma_known_shape",
    "C103_gamma_known_shape_exact",
    "C103_gamma_factor",
    "C103_binomial_any_prior",
    "C103_binomial_any_prior_exact",
    "C103_negative_binomial",
    "C103_negative_binomial_exact",
    "C103_normal_known_mean",
    "C103_normal_known_mean_exact",
    "C103_normal",
    "C103_normal_exact"
   ],
   "note": "Data are integers for the counting models; the loop is the one of C74 (predict, then update with one observation). That the bound is attained is proved for Bernoulli, categorical, normal, Poisson (data not all zero) and gamma observations."
  },
  {
   "property": "C104",
   "status": "proved",
   "theorems": [
    "C104_plotting",
    "C104_vectorized",
    "C104_indexing",
    "C104_binomial_left"
   ],
   "note": "Legends, vertical lines, titles and line styles are not modelled. A vector of exactly one parameter with a callable label is excluded (its label is the printed function, C63). The right Axes of binomial.md raises: C73_binomial_page_refuted."
  },
  {
   "property": "C105",
   "status": "partial",
   "theorems": [
    "C105_array",
    "C105_distribution",
    "C105_unsuitable_unchanged",
    "C105_posterior",
    "C105_broadcast_refuted",
    "C105_lists_kept"
   ],
   "note": "REFUTED for parameters of different shapes (C105_broadcast_refuted): each parameter is indexed by itself, not after broadcasting. Proved in full for parameters that are numbers, flags or arrays of one shape. Lists and arrays inside a tuple (advanced indexing) are not modelled."
  },
  {
   "property": "C106",
   "status": "partial",
   "theorems": [
    "C106_booleans",
    "C106_boolean_data",
    "C106_clashes_needed",
    "C106_wraps",
    "C106_both_refuted",
    "C106_or_refuted"
   ],
   "note": "REFUTED for two booleans that a formula adds or subtracts (C106_both_refuted, C106_or_refuted). Proved for all other patterns (C106_booleans), in particular for boolean data with any prior of numbers except n and x of binomial_beta both boolean (C106_boolean_data). The square of a boolean and the rounding of float16 are not modelled."
  },
  {
   "property": "C107",
   "status": "proved",
   "theorems": [
    "C107_binomial_no_regret",
    "C107_multinomial_no_regret",
    "C107_categorical_no_regret",
    "C107_negative_binomial_no_regret",
    "C107_poisson_no_regret",
    "C107_gamma_known_shape_no_regret",
    "C107_normal_known_mean_no_regret",
    "C107_normal_both_no_regret",
    "C107_normal_no_regret",
    "C107_normal_unbounded"
   ],
   "note": "The loop is the one of C74 and C103. The bounds on the data are sufficient; that a bound is needed is proved for the normal model of known variance (C107_normal_unbounded)."
  },
  {
   "property": "C108",
   "status": "proved",
   "theorems": [
    "C108_normal_inverse_gamma",
    "C108_normal_gamma",
    "C108_normal_inverse_wishart",
    "C108_normal_wishart",
    "C108_stack"
   ],
   "note": "Stated for the model of the samplers (Model/Sampling.v); the random numbers and generator states of scipy are arguments."
  },
  {
   "property": "C109",
   "status": "proved",
   "theorems": [
    "C109_round_trip",
    "C109_any_call",
    "C109_injective"
   ],
   "note": "The text of a number is an argument; arrays as fields are not covered (their text needs numpy names in scope)."
  }
 ]
}