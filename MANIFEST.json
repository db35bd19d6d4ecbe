{
 "claims": [
  {
   "property": "C01",
   "status": "proved",
   "theorems": [
    "C01_discrete_entropy_is_plugin",
    "C01_empty_rejected"
   ],
   "note": ""
  },
  {
   "property": "C02",
   "status": "proved",
   "theorems": [
    "C02_discrete_entropy_bounds"
   ],
   "note": ""
  },
  {
   "property": "C03",
   "status": "proved",
   "theorems": [
    "C03_entropy_ignores_order",
    "C03_entropy_ignores_names"
   ],
   "note": ""
  },
  {
   "property": "C04",
   "status": "proved",
   "theorems": [
    "C04_joint_entropy_of_rows",
    "C04_2d_entropy_of_rows",
    "C04_unequal_lengths_rejected",
    "C04_joint_entropy_bounds",
    "C04_joint_entropy_symmetric"
   ],
   "note": ""
  },
  {
   "property": "C05",
   "status": "proved",
   "theorems": [
    "C05_reduce_codes",
    "C05_tuple_reduces_rows",
    "C05_1d_unchanged",
    "C05_list_rejected"
   ],
   "note": ""
  },
  {
   "property": "C06",
   "status": "proved",
   "theorems": [
    "C06_discrete_local_mean",
    "C06_millermadow_local_mean",
    "C06_discrete_local_defined",
    "C06_zhang_local_mean",
    "C06_grassberger_local_mean"
   ],
   "note": ""
  },
  {
   "property": "C07",
   "status": "partial",
   "theorems": [
    "C07_mi_mm_local_mean",
    "C07_mi_mm_nd_local_mean",
    "C07_cmi_nd_local_mean",
    "C07_mi_local_mean",
    "C07_mi_nd_local_mean",
    "C07_cmi_local_mean",
    "C07_mi_rows",
    "C07_mi_rows_constant_refuted",
    "C07_cmi_any",
    "C07_te_local_mean",
    "C07_cte_local_mean",
    "C07_mm_te_local_mean",
    "C07_mm_cte_local_mean"
   ],
   "note": "Proved for 1-D variables (any number), pairs of 2-D variables, several 2-D variables of which none is constant, CMI with 1-D/2-D variables and any condition, TE/CTE, Miller-Madow. Refuted for three or more 2-D variables of which one is constant: the local values are all 0 while the value is the shared information of the others (C07_mi_rows_constant_refuted; discrete_interaction_information.py 197-246 vs 309-311)."
  },
  {
   "property": "C08",
   "status": "partial",
   "theorems": [
    "C08_entropy_rescales",
    "C08_cmi_rescales",
    "C08_mi_rescales_partial",
    "C08_mi_rescales_refuted",
    "C08_every_entropy",
    "C08_every_combination",
    "C08_ansb_nsb",
    "C08_every_mi_partial",
    "C08_every_mi_local",
    "C08_every_cmi",
    "C08_every_te",
    "C08_every_cte",
    "C08_every_divergence",
    "C08_every_ordinal",
    "C08_every_ordinal_te",
    "C08_kernel",
    "C08_metric",
    "C08_renyi_tsallis",
    "C08_tsallis_has_no_unit",
    "C08_te_rescales",
    "C08_mi_base_below_one"
   ],
   "note": "Holds for every measure, approach, input and base except two one-dimensional variables in discrete, Miller-Madow or ordinal MI with a base in (0,1), where the result is clipped to 0 (C08_mi_base_below_one, C08_mi_rescales_refuted). The C08_every_* theorems are about whole calls: same exception, both not finite, or the value rescaled; C08_kernel, C08_metric and C08_renyi_tsallis add the measures of numeric data; a Tsallis entropy of order other than 1 has no unit (C08_tsallis_has_no_unit)."
  },
  {
   "property": "C09",
   "status": "partial",
   "theorems": [
    "C09_every_entropy",
    "C09_every_combination",
    "C09_every_mi",
    "C09_every_cmi",
    "C09_every_te",
    "C09_every_cte",
    "C09_every_divergence",
    "C09_every_ordinal",
    "C09_every_ordinal_te",
    "C09_kernel",
    "C09_metric",
    "C09_renyi_tsallis",
    "C09_tsallis_ignores_base_refuted",
    "C09_negative_base_rejected",
    "C09_base_one_not_rejected_refuted",
    "C09_base_zero_not_rejected_refuted",
    "C09_negative_base_to_base_refuted",
    "C09_negative_base_symbols",
    "C09_negative_base_divergences",
    "C09_negative_base_ordinal",
    "C09_negative_base_kernel"
   ],
   "note": "The claim as stated is false: base 0 and 1, and negative bases in estimators that divide by log(base), are not rejected with ValueError (refuted theorems). What holds for every measure, input and unusable base is that no number other than 0 is returned (C09_every_*, C09_kernel, C09_metric, C09_renyi_tsallis). A negative base is refused with ValueError whenever the same call in nats gives a number, for the discrete, shrinkage, Bayesian and ordinal estimators (except when that number is 0 because no logarithm is taken) and for every kernel estimator (C09_negative_base_*). Tsallis measures of order other than 1 ignore the base (refuted theorem)."
  },
  {
   "property": "C10",
   "status": "proved",
   "theorems": [
    "C10_mi_is_entropy_difference",
    "C10_mi_rows"
   ],
   "note": ""
  },
  {
   "property": "C11",
   "status": "proved",
   "theorems": [
    "C11_mi_symmetric_bounded",
    "C11_mi_self_is_entropy",
    "C11_mi_rows"
   ],
   "note": ""
  },
  {
   "property": "C12",
   "status": "proved",
   "theorems": [
    "C12_mi_zero_iff_independent",
    "C12_mi_rows"
   ],
   "note": ""
  },
  {
   "property": "C13",
   "status": "partial",
   "theorems": [
    "C13_mi_is_total_correlation_partial",
    "C13_constant_variable_gives_zero",
    "C13_total_correlation_refuted",
    "C13_mi_value",
    "C13_exact_iff",
    "C13_never_below"
   ],
   "note": "Refuted as stated: if one of >=3 variables is constant the code returns 0 although the others may share information (C13_total_correlation_refuted). Without a constant variable the value is characterised for every input: total correlation plus the mean log of what the 64-bit products of marginal counts lose (C13_mi_value); it is the total correlation exactly when no product reaches 2^64 (C13_exact_iff), never below it (C13_never_below)."
  },
  {
   "property": "C14",
   "status": "partial",
   "theorems": [
    "C14_mi_finite_partial",
    "C14_mi_finite_refuted",
    "C14_mi_finite_iff",
    "C14_mi_finite"
   ],
   "note": "Refuted: products of marginal counts are taken in uint64 and wrap to 0 (64 two-valued variables), giving -inf/nan. C14_mi_finite_iff characterises the finite results for every input: one variable is constant, or no product of marginal counts at an occurring sample is 0 modulo 2^64."
  },
  {
   "property": "C15",
   "status": "proved",
   "theorems": [
    "C15_mi_of_joint_variables",
    "C15_mixed_dimensions_rejected"
   ],
   "note": "Holds when all variables are 2-D; mixing 1-D and 2-D arrays raises TypeError (proved)."
  },
  {
   "property": "C16",
   "status": "proved",
   "theorems": [
    "C16_cmi_entropy_identity",
    "C16_cmi_joint_condition",
    "C16_cmi_any",
    "C16_cmi_finite_iff"
   ],
   "note": ""
  },
  {
   "property": "C17",
   "status": "partial",
   "theorems": [
    "C17_cmi_last_form_partial",
    "C17_cmi_first_form_refuted",
    "C17_cmi_two_variables_first_form",
    "C17_cmi_value",
    "C17_exact_iff",
    "C17_never_below",
    "C17_first_form_iff"
   ],
   "note": "Fully characterised for every input (C17_cmi_value: last documented form plus the mean log factor lost to 64-bit wrap-around, NonFinite when a product is 0 mod 2^64, 0 for constant data). The first documented form is returned iff there are two variables or the condition is constant (C17_first_form_iff); it is refuted for >=3 variables (differs by (k-2) H(Z))."
  },
  {
   "property": "C18",
   "status": "proved",
   "theorems": [
    "C18_cmi_symmetric",
    "C18_constant_condition_gives_mi",
    "C18_chain_rule",
    "C18_cmi_any_symmetric",
    "C18_cmi_any_constant",
    "C18_rows_chain_rule"
   ],
   "note": ""
  },
  {
   "property": "C19",
   "status": "proved",
   "theorems": [
    "C19_te_is_conditional_mi",
    "C19_te_multivariate",
    "C19_te_bounds",
    "C19_te_zero_if_determined"
   ],
   "note": ""
  },
  {
   "property": "C20",
   "status": "proved",
   "theorems": [
    "C20_cte_embedding_2d",
    "C20_base_times",
    "C20_row_count",
    "C20_embedding",
    "C20_embedding_2d",
    "C20_cte_embedding"
   ],
   "note": ""
  },
  {
   "property": "C21",
   "status": "proved",
   "theorems": [
    "C21_te_rejects",
    "C21_cte_rejects"
   ],
   "note": ""
  },
  {
   "property": "C22",
   "status": "proved",
   "theorems": [
    "C22_cte_resample",
    "C22_permutation",
    "C22_resample",
    "C22_cte_permutation",
    "C22_both_rejected"
   ],
   "note": ""
  },
  {
   "property": "C23",
   "status": "proved",
   "theorems": [
    "C23_positive",
    "C23_negative",
    "C23_time_stamps",
    "C23_offset_alias",
    "C23_both_rejected"
   ],
   "note": ""
  },
  {
   "property": "C24",
   "status": "proved",
   "theorems": [
    "C24_cte_is_conditional_mi",
    "C24_joint_condition",
    "C24_cte_bounds",
    "C24_prop_time_rejected"
   ],
   "note": ""
  },
  {
   "property": "C25",
   "status": "proved",
   "theorems": [
    "C25_estimators_lawful",
    "C25_mi_from_entropies",
    "C25_cmi_from_entropies",
    "C25_te_from_entropies",
    "C25_cte_from_entropies",
    "C25_discrete_lawful",
    "C25_mi_two_agree",
    "C25_mi_many_agree",
    "C25_te_agree",
    "C25_cte_agree",
    "C25_cmi_agree"
   ],
   "note": ""
  },
  {
   "property": "C26",
   "status": "partial",
   "theorems": [
    "C26_mm_mi_nd_is_entropy_combination",
    "C26_mm_entropy",
    "C26_mm_mi_is_entropy_combination",
    "C26_mm_cmi_is_entropy_combination",
    "C26_mm_cmi_joint_condition_refuted",
    "C26_mm_te_is_entropy_combination",
    "C26_mm_cte_is_entropy_combination"
   ],
   "note": "Consistent for entropy, MI, CMI, TE; Miller-Madow CMI rejects a multi-dimensional condition, unlike the discrete one (refuted theorem)."
  },
  {
   "property": "C27",
   "status": "partial",
   "theorems": [
    "C27_kld_discrete",
    "C27_kld_disjoint",
    "C27_kld_negative_refuted",
    "C27_kld_2d_refuted",
    "C27_kld_mm",
    "C27_kld_mm_self",
    "C27_kld_mm_negative_refuted",
    "C27_kld_bayes",
    "C27_kld_ordinal",
    "C27_kld_ordinal_self_refuted",
    "C27_kld_every_pair",
    "C27_kld_lower_bound",
    "C27_kld_mm_every_pair",
    "C27_kld_bayes_every_pair",
    "C27_kld_bayes_named_prior",
    "C27_kld_bayes_explicit_K"
   ],
   "note": "The value is proved for every pair of nonempty samples (C27_kld_every_pair and the Miller-Madow and Bayes versions); sign and zero claims for p inside the support of q. Refuted: outside the common support the code skips terms and returns negative values (minus the entropy of p for disjoint supports); 2-D arrays are numbered separately; Miller-Madow is negative for equal distributions with different sample sizes."
  },
  {
   "property": "C28",
   "status": "partial",
   "theorems": [
    "C28_jsd_discrete",
    "C28_jsd_symmetric",
    "C28_jsd_rejects",
    "C28_jsd_2d_refuted",
    "C28_jsd_shrink",
    "C28_jsd_bayes",
    "C28_jsd_ordinal",
    "C28_jsd_ordinal_labels_refuted",
    "C28_jsd_ordinal_step_refuted",
    "C28_jsd_bayes_named_prior"
   ],
   "note": "Discrete, shrink and Bayes approaches; any number of arrays. Refuted for 2-D arrays (numbered separately)."
  },
  {
   "property": "C29",
   "status": "proved",
   "theorems": [
    "C29_lehmer_bijection",
    "C29_lehmer_onto",
    "C29_too_long_rejected",
    "C29_limit_sharp"
   ],
   "note": ""
  },
  {
   "property": "C30",
   "status": "proved",
   "theorems": [
    "C30_codes_exact",
    "C30_codes_faithful"
   ],
   "note": ""
  },
  {
   "property": "C31",
   "status": "proved",
   "theorems": [
    "C31_patterns_sort",
    "C31_rejects",
    "C31_monotone_stable",
    "C31_monotone_tie_free",
    "C31_pattern_unique"
   ],
   "note": "Monotone invariance for stable=True and all data, and for the default sort when windows have no ties (the default sort makes no promise on ties)."
  },
  {
   "property": "C32",
   "status": "partial",
   "theorems": [
    "C32_stable_ignored",
    "C32_entropy_of_patterns",
    "C32_fast_paths_tie_free",
    "C32_general_path",
    "C32_stable_ties_refuted",
    "C32_dim3_labels_refuted",
    "C32_local_mean",
    "C32_local_dim1_refuted",
    "C32_monotone_map"
   ],
   "note": "Bounds, general path and local means proved; fast-path agreement proved for windows without ties. Refuted with ties: the dim-2 fast path ignores stable=True; the dim-3 fast path labels the two cyclic patterns the wrong way round; local values for dimension 1 raise TypeError."
  },
  {
   "property": "C33",
   "status": "partial",
   "theorems": [
    "C33_mi_surrogates",
    "C33_te_surrogates",
    "C33_discrete_te_surrogates",
    "C33_cte_not_randomised_refuted",
    "C33_ordinal_mi_not_randomised_refuted",
    "C33_degenerate_test_p_zero"
   ],
   "note": "Proved for MI/CMI classes that read their data and for TE: the i-th test value is the measure of the i-th draw (permutation / bootstrap of the first variable or of the source-history rows). Refuted for every CTE class and for ordinal MI/CMI: the surrogates ignore the draw, all test values equal the observed value, p = 0."
  },
  {
   "property": "C34",
   "status": "partial",
   "theorems": [
    "C34_tests_leave_estimator_unchanged",
    "C34_discrete_mi",
    "C34_discrete_te",
    "C34_interrupted_test_refuted",
    "C34_interrupted_te_test_refuted"
   ],
   "note": "Proved for all uninterrupted histories of calls, for classes whose surrogate evaluations do not raise (discrete MI and TE are such). Refuted when the user interrupts a test: shuffled data / randomisation flags stay in place."
  },
  {
   "property": "C35",
   "status": "proved",
   "theorems": [
    "C35_result_well_formed",
    "C35_requests"
   ],
   "note": "Includes that n_tests = 1 passes validation but always raises ValueError."
  },
  {
   "property": "C36",
   "status": "proved",
   "theorems": [
    "C36_percentile_interpolates",
    "C36_percentile_range",
    "C36_percentile_monotone",
    "C36_percentile_order_free",
    "C36_percentile_rejects",
    "C36_confidence_interval",
    "C36_confidence_interval_rejects",
    "C36_percentile_shares"
   ],
   "note": ""
  },
  {
   "property": "C37",
   "status": "proved",
   "theorems": [
    "C37_get",
    "C37_get_total",
    "C37_set",
    "C37_reset",
    "C37_unit_round_trip",
    "C37_unit_unknown",
    "C37_unit_names",
    "C37_only_types_checked"
   ],
   "note": "All histories of set/set_logarithmic_unit/reset calls; values are ints, bools, floats, strings, None and opaque objects. Only types are checked: non-positive or boolean bases and test counts are accepted."
  },
  {
   "property": "C38",
   "status": "partial",
   "theorems": [
    "C38_explicit_base",
    "C38_default_is_base_at_first_use",
    "C38_first_use_uses_current",
    "C38_entropy_default_is_e",
    "C38_discrete_data_uses_current",
    "C38_unchanged_since_first_use_partial",
    "C38_new_base_refuted"
   ],
   "note": "Refuted as documented: default bases are captured at import time. Proved for all histories: MI/CMI and TE/CTE use the base configured when a measure of their package was first requested, entropies of arrays always use e, explicit bases are always honoured."
  },
  {
   "property": "C39",
   "status": "partial",
   "theorems": [
    "C39_results_stable",
    "C39_computed_once",
    "C39_failure_not_cached",
    "C39_local_array_mean",
    "C39_recalculation_unstable_refuted",
    "C39_global_is_mean",
    "C39_no_mean"
   ],
   "note": "Proved for all histories without explicit calculate() calls, all classes, all interruptions; explicit calculate() recomputes and is unstable for classes that draw noise (refuted theorem)."
  },
  {
   "property": "C40",
   "status": "partial",
   "theorems": [
    "C40_classes",
    "C40_total",
    "C40_missing",
    "C40_case_insensitive",
    "C40_same_approaches",
    "C40_entropy_names_refuted",
    "C40_functions_reject",
    "C40_single_array_refuted",
    "C40_functions_construct",
    "C40_functions_refuse",
    "C40_any_case",
    "C40_documented_names"
   ],
   "note": "All measures, approach names, letter cases. Refuted: the entropy does not know 'ksg' and the other measures do not know the entropy's short names; estimator(x, measure='mi') with a single array looks the approach up case-sensitively and raises KeyError."
  },
  {
   "property": "C41",
   "status": "partial",
   "theorems": [
    "C41_entropy",
    "C41_mutual_information",
    "C41_conditional_mutual_information",
    "C41_transfer_entropy",
    "C41_wrong_arguments",
    "C41_step_size_dropped_refuted",
    "C41_step_size_result_refuted",
    "C41_single_array_refuted",
    "C41_single_array_entropy",
    "C41_no_keyword_twice"
   ],
   "note": "Same class, data and every parameter for all measures, given no TE-only parameter is passed to entropy/MI. Refuted: estimator() swallows step_size etc. for entropy and MI (different result), and turns a one-array (C)MI into an entropy, dropping the condition."
  },
  {
   "property": "C42",
   "status": "partial",
   "theorems": [
    "C42_from_counts_accepts",
    "C42_invariant",
    "C42_from_data",
    "C42_from_counts_same_facts",
    "C42_from_counts_same_entropy",
    "C42_from_counts_same_entropy_all",
    "C42_grassberger_refuted",
    "C42_local_values_refuted",
    "C42_from_probabilities_refuted",
    "C42_zero_count_refuted",
    "C42_repeated_values_refuted",
    "C42_second_object_ignored_refuted",
    "C42_cross_no_local",
    "C42_cross_unsupported"
   ],
   "note": "Invariant, acceptance, and equality of entropies from data and from tallies (all approaches but Grassberger). Refuted: Grassberger raises TypeError on objects built from counts, as do local values; from_probabilities always raises AttributeError; zero counts give nan and repeated values are counted twice; a second DiscreteData argument is ignored."
  },
  {
   "property": "C43",
   "status": "proved",
   "theorems": [
    "C43_shrink_closed_form",
    "C43_shrink_is_distribution",
    "C43_shrink_between"
   ],
   "note": ""
  },
  {
   "property": "C44",
   "status": "partial",
   "theorems": [
    "C44_shrink_local_mean_below",
    "C44_shrink_local_values_refuted",
    "C44_shrink_mi_refuted",
    "C44_shrink_mi_value"
   ],
   "note": "Refuted: the mean of the shrinkage local values is strictly below the shrinkage entropy unless the intensity is 1 (general theorem C44_shrink_local_mean_below), and shrinkage MI combines those means (C44_shrink_mi_value gives its exact value for any number of variables)."
  },
  {
   "property": "C45",
   "status": "partial",
   "theorems": [
    "C45_bayes_closed_form",
    "C45_bayes_is_distribution",
    "C45_bayes_explicit_K",
    "C45_named_priors",
    "C45_unknown_prior_rejected",
    "C45_prior_names_case_insensitive_refuted",
    "C45_prior_any_case"
   ],
   "note": "Distribution and bounds proved for K = observed number of values; an explicit K sums to 1 only when equal to it; 'Min-Max' in any other case than lower is rejected (refuted theorem)."
  },
  {
   "property": "C46",
   "status": "proved",
   "theorems": [
    "C46_zhang_closed_form",
    "C46_zhang_nonneg",
    "C46_zhang_constant"
   ],
   "note": ""
  },
  {
   "property": "C47",
   "status": "proved",
   "theorems": [
    "C47_chao_shen_closed_form",
    "C47_chao_shen_finite_nonneg"
   ],
   "note": ""
  },
  {
   "property": "C48",
   "status": "proved",
   "theorems": [
    "C48_cwj_closed_form",
    "C48_cwj_bounds"
   ],
   "note": ""
  },
  {
   "property": "C49",
   "status": "proved",
   "theorems": [
    "C49_bonachela_closed_form",
    "C49_ansb_closed_form",
    "C49_ansb_positive",
    "C49_grassberger_closed_form",
    "C49_grassberger_local_values"
   ],
   "note": ""
  },
  {
   "property": "C50",
   "status": "proved",
   "theorems": [
    "C50_offset_symbols",
    "C50_offset_numeric",
    "C50_offset_ordinal",
    "C50_offset_pairs_samples",
    "C50_offset_value",
    "C50_offset_three_variables_rejected",
    "C50_offset_none_type_error"
   ],
   "note": ""
  },
  {
   "property": "C51",
   "status": "partial",
   "theorems": [
    "C51_unit_interval",
    "C51_affine_invariant",
    "C51_idempotent",
    "C51_columns",
    "C51_constant_refuted",
    "C51_empty_rejected"
   ],
   "note": "Non-constant columns: proved in full. C51_constant_refuted: a constant column is 0/0 (nan with a warning) rather than any value in [0,1]."
  },
  {
   "property": "C52",
   "status": "proved",
   "theorems": [
    "C52_data_processing",
    "C52_mi_many",
    "C52_mi_rows",
    "C52_cmi_many",
    "C52_entropy_any"
   ],
   "note": ""
  },
  {
   "property": "C53",
   "status": "partial",
   "theorems": [
    "C53_box_density",
    "C53_chunks",
    "C53_parallel_is_sequential",
    "C53_entropy_bounds",
    "C53_single_query_point_refuted",
    "C53_one_point_refuted"
   ],
   "note": "Proved for >=2 query points; a single query point fails: one sample ends in TypeError, and squeezing breaks chunk concatenation (refuted theorems)."
  },
  {
   "property": "C54",
   "status": "partial",
   "theorems": [
    "C54_step_size_no_effect_refuted"
   ],
   "note": "The logged claim is false: refuted by a concrete pair of series."
  },
  {
   "property": "C55",
   "status": "proved",
   "theorems": [
    "C55_counts_only_priors",
    "C55_counts_only"
   ],
   "note": ""
  },
  {
   "property": "C56",
   "status": "partial",
   "theorems": [
    "C56_entropy_nonneg",
    "C56_grassberger_odd",
    "C56_grassberger_negative_refuted"
   ],
   "note": "Proved for eight approaches (ANSB in C49); Grassberger is negative on every constant array of even length (refuted theorem), non-negative when all counts are odd."
  },
  {
   "property": "C57",
   "status": "proved",
   "theorems": [
    "C57_corrections_raise_entropy"
   ],
   "note": ""
  },
  {
   "property": "C58",
   "status": "proved",
   "theorems": [
    "C58_ordinal_mi",
    "C58_ordinal_cmi",
    "C58_ordinal_te",
    "C58_ordinal_cte"
   ],
   "note": ""
  },
  {
   "property": "C59",
   "status": "proved",
   "theorems": [
    "C59_kernel_entropy",
    "C59_kernel_joint_entropy",
    "C59_invariances",
    "C59_joint_at_least_parts"
   ],
   "note": ""
  },
  {
   "property": "C60",
   "status": "proved",
   "theorems": [
    "C60_mi_is_entropy_combination",
    "C60_mi_symmetric",
    "C60_mi_bounds",
    "C60_mi_invariances",
    "C60_can_be_negative",
    "C60_offset"
   ],
   "note": ""
  },
  {
   "property": "C61",
   "status": "proved",
   "theorems": [
    "C61_cmi_is_entropy_combination",
    "C61_cmi_two_variables",
    "C61_multidim_condition_refuted",
    "C61_multidim_variable_refuted"
   ],
   "note": "The stated identity for 1-D variables and condition, and the stated failure for multi-dimensional ones (C61_multidim_*_refuted refute the unrestricted identity)."
  },
  {
   "property": "C62",
   "status": "proved",
   "theorems": [
    "C62_te_is_conditional_mi",
    "C62_cte_is_conditional_mi",
    "C62_prop_time"
   ],
   "note": ""
  },
  {
   "property": "C63",
   "status": "proved",
   "theorems": [
    "C63_gaussian_entropy",
    "C63_bounds",
    "C63_invariances",
    "C63_cross_entropy",
    "C63_constant_rejected"
   ],
   "note": ""
  },
  {
   "property": "C64",
   "status": "proved",
   "theorems": [
    "C64_cross_entropy",
    "C64_self",
    "C64_kld_negative_refuted"
   ],
   "note": "All parts of the statement, including the stated negativity (C64_kld_negative_refuted refutes non-negativity)."
  },
  {
   "property": "C65",
   "status": "proved",
   "theorems": [
    "C65_one_dimensional",
    "C65_symmetric",
    "C65_zero_for_equal",
    "C65_upper_bound",
    "C65_negative_refuted"
   ],
   "note": "All parts of the statement, including the stated negativity (C65_negative_refuted)."
  },
  {
   "property": "C66",
   "status": "proved",
   "theorems": [
    "C66_parameters_rejected",
    "C66_workers_box",
    "C66_workers_gaussian_refuted",
    "C66_every_measure"
   ],
   "note": "All parts of the statement, including the stated gap (C66_workers_gaussian_refuted refutes that workers are always validated)."
  },
  {
   "property": "C67",
   "status": "proved",
   "theorems": [
    "C67_local_values",
    "C67_value",
    "C67_neighbour_distance"
   ],
   "note": ""
  },
  {
   "property": "C68",
   "status": "proved",
   "theorems": [
    "C68_symmetric",
    "C68_distances_only",
    "C68_affine",
    "C68_reorder"
   ],
   "note": ""
  },
  {
   "property": "C69",
   "status": "proved",
   "theorems": [
    "C69_bounds_nonstrict",
    "C69_bounds_strict"
   ],
   "note": ""
  },
  {
   "property": "C70",
   "status": "partial",
   "theorems": [
    "C70_too_many_neighbours_refuted",
    "C70_invalid_rejected",
    "C70_every_measure"
   ],
   "note": "k >= N is accepted and the result ignores the data (refuted); k = 0 is an IndexError, a non-integer k a TypeError, the other invalid values ValueErrors - for MI, CMI, TE and CTE alike, on any data, offset, embedding and noise (C70_every_measure)."
  },
  {
   "property": "C71",
   "status": "proved",
   "theorems": [
    "C71_offset",
    "C71_noise",
    "C71_no_noise_deterministic"
   ],
   "note": ""
  },
  {
   "property": "C72",
   "status": "partial",
   "theorems": [
    "C72_local_values",
    "C72_value",
    "C72_symmetric",
    "C72_constant_condition",
    "C72_three_variables_refuted",
    "C72_condition_noise_refuted",
    "C72_bounds"
   ],
   "note": "refuted parts: with three or more variables a constant condition does not give the mutual information (smaller by (m-2) psi(N)); the noise loop adds N draws to every value of the condition."
  },
  {
   "property": "C73",
   "status": "partial",
   "theorems": [
    "C73_te_is_conditional_mi",
    "C73_cte_is_conditional_mi",
    "C73_prop_time",
    "C73_too_many_neighbours_refuted",
    "C73_noise"
   ],
   "note": "refuted part: k >= number of embedded samples is accepted."
  },
  {
   "property": "C74",
   "status": "proved",
   "theorems": [
    "C74_euclidean",
    "C74_other_norms",
    "C74_scaling"
   ],
   "note": ""
  },
  {
   "property": "C75",
   "status": "partial",
   "theorems": [
    "C75_value",
    "C75_joint_value",
    "C75_coinciding_samples",
    "C75_scaling",
    "C75_scaling_1d",
    "C75_scaling_refuted",
    "C75_variants"
   ],
   "note": "proved for data without k coinciding samples; samples with k coinciding others contribute 0, so the scaling law fails for them (refuted)."
  },
  {
   "property": "C76",
   "status": "partial",
   "theorems": [
    "C76_invalid_rejected",
    "C76_too_many_neighbours_refuted",
    "C76_cross_too_many_refuted"
   ],
   "note": "k >= N is accepted and gives a non-finite result (refuted); everything else is rejected."
  },
  {
   "property": "C77",
   "status": "partial",
   "theorems": [
    "C77_cross_entropy",
    "C77_reference_distance",
    "C77_unequal_sizes_refuted",
    "C77_one_neighbour_refuted",
    "C77_dimension_mismatch",
    "C77_self_divergence_refuted"
   ],
   "note": "Value, existence of the distances and dimension check proved. Refuted: for unequal sizes the sum over N samples is divided by M; k=1 is an IndexError; the self-divergence is not 0 (at most 0)."
  },
  {
   "property": "C78",
   "status": "proved",
   "theorems": [
    "C78_value",
    "C78_joint_value",
    "C78_order_one",
    "C78_order_one_same",
    "C78_tsallis_from_renyi",
    "C78_scaling"
   ],
   "note": "Values for single and joint variables, order 1, Tsallis from Renyi, scaling proved (positive neighbour distances)."
  },
  {
   "property": "C79",
   "status": "partial",
   "theorems": [
    "C79_invalid_rejected",
    "C79_too_many_rejected",
    "C79_cross_too_many_rejected",
    "C79_cross_dimension_rejected",
    "C79_order_k_plus_one_refuted",
    "C79_large_order_refuted",
    "C79_all_coincide",
    "C79_scaling_refuted",
    "C79_cross_value",
    "C79_cross_one_neighbour_refuted"
   ],
   "note": "Rejections and cross values proved. Refuted: order k+1 returns 0 for any data; orders in (k+1,k+2) give nan; with coinciding samples scaling fails; cross-entropy with k=1 is an IndexError."
  },
  {
   "property": "C80",
   "status": "proved",
   "theorems": [
    "C80_mi_value",
    "C80_cmi_value",
    "C80_defined",
    "C80_mi_symmetric",
    "C80_cmi_symmetric",
    "C80_mi_scaling",
    "C80_cmi_scaling",
    "C80_offset",
    "C80_mi_noise",
    "C80_cmi_noise",
    "C80_no_noise_deterministic",
    "C80_order_one_same",
    "C80_distances_only",
    "C80_invalid_rejected",
    "C80_too_many_rejected",
    "C80_mi_nonnegative_refuted",
    "C80_constant_condition_refuted"
   ],
   "note": "Values, symmetry, distances only, scaling, noise, offset, rejection and order one proved. Refuted: non-negativity (unbounded below), and dropping out of a constant condition; conditional values for three or more variables shift under rescaling."
  },
  {
   "property": "C81",
   "status": "proved",
   "theorems": [
    "C81_te_is_conditional_mi",
    "C81_cte_is_conditional_mi",
    "C81_too_many_rejected",
    "C81_cte_too_many_rejected",
    "C81_invalid_rejected",
    "C81_prop_time",
    "C81_noise",
    "C81_order_one_same"
   ],
   "note": "TE and CTE equal CMI of embedded series; prop_time, noise, rejection, order one proved."
  },
  {
   "property": "C82",
   "status": "proved",
   "theorems": [
    "C82_nsb_value",
    "C82_nsb_undefined",
    "C82_nsb_unique",
    "C82_nsb_range",
    "C82_nsb_numerics",
    "C82_nsb_counts_only",
    "C82_nsb_constant",
    "C82_nsb_local",
    "C82_nsb_mi",
    "C82_nsb_mi_K"
   ],
   "note": "Integrals are exact (quad trusted to integrate exactly), digamma/trigamma are the sums of their series, log-gamma is any function with its recurrence; existence of such functions is proved (nsb_lib_ex). Finding: constant data gives nan although its entropy is 0; the code raises each value's factor to the power n_i, which the specification reproduces."
  },
  {
   "property": "C83",
   "status": "proved",
   "theorems": [
    "C83_mi",
    "C83_cmi",
    "C83_te",
    "C83_cte",
    "C83_parameters",
    "C83_ansb_mi_two",
    "C83_ansb_explicit_K"
   ],
   "note": "Stated with 'combination', which includes the undefined case; NSB under the library assumptions of C82."
  },
  {
   "property": "C84",
   "status": "proved",
   "theorems": [
    "C84_mi_relabel",
    "C84_mi_reorder",
    "C84_cmi_relabel",
    "C84_cmi_reorder",
    "C84_te_relabel",
    "C84_cte_relabel",
    "C84_discrete_relabel",
    "C84_discrete_te_relabel",
    "C84_discrete_reorder",
    "C84_discrete_many_relabel",
    "C84_discrete_many_reorder",
    "C84_discrete_mi_relabel_any",
    "C84_discrete_mi_reorder_any",
    "C84_discrete_mi_reorder_any",
    "C84_discrete_cmi_relabel_any",
    "C84_discrete_cmi_reorder_any",
    "C84_discrete_mi_rows_relabel",
    "C84_discrete_mi_rows_reorder",
    "C84_discrete_te_relabel_rows",
    "C84_discrete_cte_relabel_rows",
    "C84_mm_mi_relabel",
    "C84_mm_cmi_relabel",
    "C84_any_example"
   ],
   "note": "Dedicated discrete MI and CMI of any number of variables and samples (also where 64-bit products wrap), MI of 2-D variables, TE/CTE of 1-D and 2-D series (n below 2^32), Miller-Madow MI/CMI/TE/CTE, and the entropy combinations of eight approaches. Order invariance stated for MI and CMI (TE depends on time order)."
  },
  {
   "property": "C85",
   "status": "proved",
   "theorems": [
    "C85_joint_source_chain_rule",
    "C85_joint_source_more",
    "C85_longer_source_history",
    "C85_self_transfer_zero",
    "C85_condition_on_source",
    "C85_condition_on_destination"
   ],
   "note": "Discrete approach, all histories and step sizes in the stated orderings."
  },
  {
   "property": "C86",
   "status": "proved",
   "theorems": [
    "C86_entropy_consistent",
    "C86_discrete_exact",
    "C86_miller_madow_rate",
    "C86_ansb_diverges",
    "C86_ansb_consistent_refuted",
    "C86_mi_consistent"
   ],
   "note": "All parts of the statement, including the stated failure of ansb (C86_ansb_consistent_refuted)."
  },
  {
   "property": "C87",
   "status": "proved",
   "theorems": [
    "C87_spec_det2",
    "C87_spec_quadratic",
    "C87_spec_one_dimension",
    "C87_entropy",
    "C87_joint_entropy",
    "C87_bounds",
    "C87_sample_order",
    "C87_coordinate_order",
    "C87_units",
    "C87_enlarging_keeps_regular",
    "C87_small_units_refuted",
    "C87_cross_entropy",
    "C87_degenerate",
    "C87_no_variance"
   ],
   "note": "Model MGauss.v of kde.py 104-162 and of scipy's gaussian_kde (covariance, Cholesky, triangular solve). numpy.linalg.eig is a parameter assumed to return eigenpairs of the given covariance (for degenerate data: perpendicular unit ones). C87_degenerate and C87_no_variance cover data with weak principal axes. The failure for small units is part of the statement and is proved as C87_small_units_refuted."
  },
  {
   "property": "C88",
   "status": "proved",
   "theorems": [
    "C88_mi",
    "C88_mi_symmetric",
    "C88_mi_units",
    "C88_cmi",
    "C88_te",
    "C88_cte",
    "C88_mi_self"
   ],
   "note": "Same model as C87; C88_cmi for one-dimensional variables (for others the code picks single columns, see C61)."
  },
  {
   "property": "C89",
   "status": "proved",
   "theorems": [
    "C89_fresh_surrogate_per_call",
    "C89_discrete_te",
    "C89_constant_source",
    "C89_unknown_method_rejected",
    "C89_only_transfer_entropies",
    "C89_cte_always_zero_refuted",
    "C89_not_stored_refuted"
   ],
   "note": "Everything in the statement is proved. The two _refuted theorems concern claims outside it: conditional TE objects (source not randomised, the effective value is always 0) and the docstring's 'otherwise returns the stored value' (every call draws again)."
  },
  {
   "property": "C90",
   "status": "proved",
   "theorems": [
    "C90_kernel_mi",
    "C90_kernel_cmi",
    "C90_ksg_mi",
    "C90_ksg_cmi",
    "C90_renyi_tsallis_mi",
    "C90_renyi_tsallis_cmi",
    "C90_kernel_te",
    "C90_ksg_te",
    "C90_renyi_tsallis_te",
    "C90_source_rows",
    "C90_kernel_cte_refuted",
    "C90_ksg_cte_refuted",
    "C90_renyi_tsallis_cte_refuted",
    "C90_kernel_mi_completes",
    "C90_box_kernel_completes",
    "C90_fresh_noise_ksg_mi",
    "C90_fresh_noise_ksg_cmi",
    "C90_fresh_noise_renyi_tsallis_mi",
    "C90_fresh_noise_renyi_tsallis_cmi",
    "C90_fresh_noise_ksg_te",
    "C90_fresh_noise_renyi_tsallis_te",
    "C90_fresh_noise_ksg_cte",
    "C90_fresh_noise_renyi_tsallis_cte"
   ],
   "note": "Everything in the statement is proved; the _refuted theorems show the last sentence (conditional TE tests compare the observed value with itself), against what the documentation promises."
  },
  {
   "property": "C91",
   "status": "partial",
   "theorems": [
    "C91_accepted_arguments",
    "C91_meaning",
    "C91_rejected",
    "C91_constructor",
    "C91_discrete_data_cross_refuted"
   ],
   "note": "Refuted for a DiscreteData object followed by other arguments: they are ignored, so a cross-entropy of two DiscreteData objects is the entropy of the first."
  },
  {
   "property": "C92",
   "status": "proved",
   "theorems": [
    "C92_te_discrete",
    "C92_cte_discrete",
    "C92_te_counts",
    "C92_cte_counts",
    "C92_te_ordinal",
    "C92_cte_ordinal",
    "C92_te_kernel",
    "C92_cte_kernel",
    "C92_te_ksg",
    "C92_cte_ksg",
    "C92_te_renyi_tsallis",
    "C92_cte_renyi_tsallis",
    "C92_off_grid",
    "C92_cte_discrete_2d"
   ],
   "note": "Discrete conditional TE with a 1-D condition in full; with a 2-D condition (reduced to codes first) for the public defaults of prop_time/offset; ordinal TE is modelled after the parent's shift."
  },
  {
   "property": "C93",
   "status": "proved",
   "theorems": [
    "C93_mi_kernel",
    "C93_mi_ksg",
    "C93_mi_renyi_tsallis",
    "C93_cmi_kernel",
    "C93_cmi_ksg",
    "C93_cmi_renyi_tsallis",
    "C93_two_dimensional_rejected",
    "C93_constant_no_number",
    "C93_mi_two_dimensional",
    "C93_cmi_two_dimensional",
    "C93_cmi_third_variable",
    "C93_mi_constant",
    "C93_cmi_constant"
   ],
   "note": ""
  },
  {
   "property": "C94",
   "status": "proved",
   "theorems": [
    "C94_ksg_cmi_distances_only",
    "C94_ksg_cmi_units",
    "C94_ksg_cmi_reorder",
    "C94_ksg_te_units",
    "C94_ksg_cte_units",
    "C94_ksg_te_series",
    "C94_kernel_cmi_units",
    "C94_kernel_te_units",
    "C94_kernel_cte_units",
    "C94_kernel_cmi_reorder",
    "C94_family_te_origin",
    "C94_renyi_te_units"
   ],
   "note": "Proved; renyi units need distinct embedded destination pasts (otherwise C79_scaling_refuted applies)."
  },
  {
   "property": "C95",
   "status": "proved",
   "theorems": [
    "C95_stable_mi",
    "C95_stable_cmi",
    "C95_stable_te",
    "C95_stable_cte",
    "C95_tie_free_mi",
    "C95_tie_free_cmi",
    "C95_tie_free_te",
    "C95_tie_free_cte",
    "C95_tie_free_joint_entropy",
    "C95_tie_free_cross_entropy",
    "C95_tie_free_kld",
    "C95_tie_free_jsd",
    "C95_monotone_entropy",
    "C95_monotone_mi",
    "C95_monotone_cmi",
    "C95_monotone_te",
    "C95_monotone_cte",
    "C95_reversed_entropy",
    "C95_reversed_mi",
    "C95_reversed_cmi"
   ],
   "note": "Increasing maps: unconditional for stable=True (MI/CMI/TE/CTE), tie-free for all measures. Monotone (either direction) and time reversal: value theorems under the C32/C58 validity conditions and no ties."
  },
  {
   "property": "C96",
   "status": "proved",
   "theorems": [
    "C96_kld_difference",
    "C96_kld_unknown",
    "C96_jsd_unsupported",
    "C96_jsd_data_kind",
    "C96_jsd_distributions",
    "C96_jsd_kernel",
    "C96_kld_counts",
    "C96_kld_no_cross",
    "C96_jsd_counts"
   ],
   "note": "Constructors and estimator objects are a parameter; the end-to-end theorems use the count-based environment. A sequence that is neither list nor ndarray is not distinguished from a list there."
  },
  {
   "property": "C97",
   "status": "partial",
   "theorems": [
    "C97_keywords",
    "C97_only_parameters",
    "C97_values",
    "C97_seed",
    "C97_entropy_seed_refuted",
    "C97_metric_noise_unseeded",
    "C97_no_normalize",
    "C97_discrete_data_refuted",
    "C97_api"
   ],
   "note": "Method resolution orders are transcribed by hand. Two negative theorems (_refuted) record where the code takes too few (seed of entropies) or too many (DiscreteData) keywords."
  },
  {
   "property": "C98",
   "status": "proved",
   "theorems": [
    "C98_te_refused_numeric",
    "C98_te_refused_symbols",
    "C98_te_alias_numeric",
    "C98_te_alias_symbols",
    "C98_te_shift_numeric",
    "C98_cte_refused_numeric",
    "C98_cte_refused_symbols",
    "C98_cmi_offset_refused",
    "C98_te_shift_symbols",
    "C98_te_shift_numeric_any"
   ],
   "note": ""
  },
  {
   "property": "C99",
   "status": "partial",
   "theorems": [
    "C99_discrete_value",
    "C99_empty_refused",
    "C99_mm_value",
    "C99_bayes_value",
    "C99_gibbs",
    "C99_equal_distributions",
    "C99_nonneg",
    "C99_gibbs_bayes",
    "C99_reorder",
    "C99_rename",
    "C99_base",
    "C99_disjoint_refuted",
    "C99_ordinal_value",
    "C99_bayes_named_prior",
    "C99_bayes_explicit_K",
    "C99_bayes_named_prior_explicit_K"
   ],
   "note": "C99_disjoint_refuted and C99_below_entropy_refuted show what a user might expect and does not get (0 instead of an infinite value without common support). Joint (2-D) arguments are covered by C27_kld_2d_refuted; Bayes is proved for a numeric alpha and K = None."
  },
  {
   "property": "C100",
   "status": "proved",
   "theorems": [
    "C100_entropy",
    "C100_entropy_1d",
    "C100_one_more",
    "C100_miller_madow",
    "C100_mi",
    "C100_mi_one_variable",
    "C100_cmi",
    "C100_te_source",
    "C100_te_destination",
    "C100_bound_vanishes",
    "C100_bound_sharp",
    "C100_cte",
    "C100_jsd",
    "C100_mi_many",
    "C100_patterns",
    "C100_ordinal_entropy",
    "C100_ordinal_mi",
    "C100_ordinal_te",
    "C100_ordinal_cte"
   ],
   "note": "All values are those of the exact-arithmetic model; MI, CMI, TE, CTE and the ordinal measures need fewer than 2^32 samples as elsewhere (small2), ordinal TE and CTE an embedding_dim of at most 20. The ordinal entropy and MI are compared on two series with one and the same argsort."
  },
  {
   "property": "C101",
   "status": "proved",
   "theorems": [
    "C101_mi_refused_symbols",
    "C101_mi_refused_numeric",
    "C101_mi_refused_ordinal",
    "C101_cmi_refused_symbols",
    "C101_cmi_no_number_numeric",
    "C101_cmi_no_number_ordinal",
    "C101_cmi_ordinal_length_exception"
   ],
   "note": ""
  },
  {
   "property": "C102",
   "status": "proved",
   "theorems": [
    "C102_errors_agree",
    "C102_refused",
    "C102_available",
    "C102_combinations"
   ],
   "note": ""
  },
  {
   "property": "C103",
   "status": "proved",
   "theorems": [
    "C103_pool_bounds",
    "C103_label_chain",
    "C103_label_mi",
    "C103_jsd_is_label_mi"
   ],
   "note": ""
  },
  {
   "property": "C104",
   "status": "proved",
   "theorems": [
    "C104_entropy",
    "C104_kld",
    "C104_jsd"
   ],
   "note": ""
  },
  {
   "property": "C105",
   "status": "proved",
   "theorems": [
    "C105_kld_pinsker",
    "C105_jsd_pinsker",
    "C105_mi_is_kld",
    "C105_mi_pinsker"
   ],
   "note": ""
  },
  {
   "property": "C106",
   "status": "proved",
   "theorems": [
    "C106_entropy_is_best_loss",
    "C106_mi_is_loss_reduction",
    "C106_te_is_loss_reduction",
    "C106_mi_determined",
    "C106_fano"
   ],
   "note": ""
  },
  {
   "property": "C107",
   "status": "proved",
   "theorems": [
    "C107_entropy_float",
    "C107_local_float",
    "C107_order_bitwise",
    "C107_rename_bitwise",
    "C107_rename_close",
    "C107_factor_small"
   ],
   "note": "Model of the rounded evaluation in MFloat.v (round to nearest even, 53 bits, gradual underflow, no overflow); the logarithms and the order of summation are parameters, assumed only to be accurate / to add every element once."
  },
  {
   "property": "C108",
   "status": "proved",
   "theorems": [
    "C108_mutual_information",
    "C108_conditional_mutual_information",
    "C108_transfer_entropy",
    "C108_conditional_transfer_entropy"
   ],
   "note": ""
  },
  {
   "property": "C109",
   "status": "proved",
   "theorems": [
    "C109_mutual_information",
    "C109_mutual_information_offset",
    "C109_many_variables",
    "C109_conditional_mutual_information",
    "C109_transfer_entropy",
    "C109_conditional_transfer_entropy",
    "C109_reorder_bitwise",
    "C109_conditional_reorder_bitwise",
    "C109_factor_small"
   ],
   "note": ""
  },
  {
   "property": "C110",
   "status": "proved",
   "theorems": [
    "C110_entropy",
    "C110_entropy_mm",
    "C110_entropy_zhang",
    "C110_mi",
    "C110_mi_rows",
    "C110_mi_offset",
    "C110_mi_many",
    "C110_cmi",
    "C110_cmi_rows",
    "C110_te",
    "C110_cte",
    "C110_ordinal_entropy",
    "C110_ordinal_mi",
    "C110_ordinal_mi_offset",
    "C110_ordinal_cmi",
    "C110_ordinal_te",
    "C110_ordinal_cte",
    "C110_mi_combination",
    "C110_reorder",
    "C110_mi_mm",
    "C110_cmi_mm",
    "C110_te_mm",
    "C110_entropy_shrink"
   ],
   "note": "Proved pointwise for discrete, Miller-Madow, Zhang and shrinkage entropy, for discrete MI (two 1-D or 2-D variables, offset, three or more variables), CMI (1-D and 2-D condition), TE and CTE, for the ordinal entropy, MI (with offset), CMI, TE and CTE (as pointwise quantities of the ordinal patterns), for Miller-Madow MI, CMI and TE; C110_reorder is the equivariance. C110_mi_many assumes that no variable is constant: a constant variable makes the code return the early value, covered by the global theorems."
  },
  {
   "property": "C111",
   "status": "proved",
   "theorems": [
    "C111_ksg_mi",
    "C111_ksg_cmi",
    "C111_ksg_te",
    "C111_ksg_cte",
    "C111_fam_mi",
    "C111_fam_cmi",
    "C111_fam_te",
    "C111_fam_cte",
    "C111_kl_entropy",
    "C111_kl_cross",
    "C111_numbers_mi",
    "C111_numbers_cmi",
    "C111_numbers_te",
    "C111_numbers_cte",
    "C111_numbers_fam",
    "C111_passed_twice",
    "C111_later_calls",
    "C111_array_unchanged",
    "C111_object_reads_late",
    "C111_normalized_snapshot",
    "C111_example"
   ],
   "note": "Programs on memory (MHeap.v): arrays are views (arbitrary positions) into buffers, += writes in place, asarray and slices alias. For each call: every old buffer is unchanged, and for a noise level >= 0 the result is that of the value models used by the other claims (for a negative level, which numpy refuses when noise is drawn, only the frame is stated). Read-only numpy operations are applied to the values read. Discrete, ordinal and kernel estimators contain no in-place operation on arrays and are not modelled on memory."
  },
  {
   "property": "C112",
   "status": "proved",
   "theorems": [
    "C112_alone",
    "C112_reproducible",
    "C112_generator_as_seed",
    "C112_without_seed",
    "C112_negative_seed",
    "C112_discrete_mi_any_seed",
    "C112_discrete_te_any_seed",
    "C112_ksg_values",
    "C112_renyi_tsallis_values",
    "C112_shared_or_unseeded_refuted"
   ],
   "note": "Model MWorld.v: generators are objects with identity, estimators hold references (default_rng returns a given Generator itself); MObj/MObjC supply the methods. The position of a generator is an index into arbitrary sequences (numpy's next state also depends on the kind of draw). The lack of a guarantee for shared and missing seeds is part of the statement and proved as C112_shared_or_unseeded_refuted."
  },
  {
   "property": "C113",
   "status": "proved",
   "theorems": [
    "C113_entropy",
    "C113_joint_entropy",
    "C113_cross_entropy",
    "C113_mi",
    "C113_cmi",
    "C113_tsallis_units",
    "C113_tsallis_base_refuted",
    "C113_te",
    "C113_cte",
    "C113_coinciding_refuted"
   ],
   "note": "Continuity proved for all six measures (positive k-th neighbour distances), from Bohr-Mollerup: gamma is any log-convex function with the recursion; its existence and uniqueness are proved (C113_gamma_exists). Refuted: Tsallis with a base other than e jumps at order 1; with coinciding samples Renyi diverges near order 1."
  },
  {
   "property": "C114",
   "status": "proved",
   "theorems": [
    "C114_renyi_order",
    "C114_renyi_range",
    "C114_gamma_term_order",
    "C114_equidistant_refuted",
    "C114_order_refuted"
   ],
   "note": "The data part of the Renyi estimate is monotone and bounded by the extreme neighbour distances (all orders, order 1 included). Refuted: the estimate itself is not non-increasing in the order (equidistant samples; two samples, Renyi and Tsallis)."
  },
  {
   "property": "C115",
   "status": "proved",
   "theorems": [
    "C115_entropy",
    "C115_joint_entropy",
    "C115_family_entropy",
    "C115_family_joint_entropy",
    "C115_family_mi",
    "C115_family_cmi",
    "C115_ksg_mi",
    "C115_ksg_cmi",
    "C115_ties_refuted",
    "C115_ksg_te",
    "C115_family_te",
    "C115_ksg_cte",
    "C115_family_cte",
    "C115_noise_entropy",
    "C115_noise_ksg_mi",
    "C115_noise_family_mi",
    "C115_noise_family_cmi",
    "C115_noise_ksg_te",
    "C115_noise_family_te",
    "C115_noise_ties_refuted",
    "C115_noise_ksg_cte",
    "C115_noise_family_cte",
    "C115_noise_ksg_cmi",
    "C115_cross_entropy",
    "C115_family_cross_entropy"
   ],
   "note": "Continuity: C115_entropy, C115_joint_entropy, C115_cross_entropy, C115_family_*. Local constancy of KSG without ties: C115_ksg_* (MI for every norm; CMI, TE, CTE for the maximum norm). Noise: C115_noise_*. The clause about ties is C115_ties_refuted (KSG MI jumps under arbitrarily small changes) and C115_noise_ties_refuted. The hypotheses are met by C115_apart_example, C115_tie_free_example, C115_ref_apart_example. Not covered: KSG CMI/TE/CTE with other norms."
  },
  {
   "property": "C116",
   "status": "proved",
   "theorems": [
    "C116_box_entropy",
    "C116_box_joint_entropy",
    "C116_box_mi",
    "C116_box_cmi",
    "C116_box_te",
    "C116_box_cte",
    "C116_box_cross_entropy",
    "C116_box_kld",
    "C116_box_jsd",
    "C116_gauss_cross_entropy",
    "C116_gauss_entropy",
    "C116_gauss_kld",
    "C116_edge_refuted"
   ],
   "note": "Box kernel: C116_box_* (locally constant without samples on a box edge), C116_edge_refuted gives the jump the statement mentions. Gaussian kernel: C116_gauss_* (one-dimensional). Not covered: multi-dimensional Gaussian kernel (oracle) and multi-dimensional conditional mutual information."
  },
  {
   "property": "C117",
   "status": "proved",
   "theorems": [
    "C117_entropy_consistent",
    "C117_entropy_stream",
    "C117_mi_consistent",
    "C117_mi_discrete",
    "C117_te_discrete",
    "C117_periodic_settles",
    "C117_periodic_entropy",
    "C117_cross_entropy",
    "C117_kld",
    "C117_jsd",
    "C117_cmi_discrete",
    "C117_cte_discrete",
    "C117_periodic_kld",
    "C117_periodic_jsd"
   ],
   "note": "Discrete MI and TE are stated for record lengths whose integer codes do not overflow (small2); the limit itself is over all lengths."
  },
  {
   "property": "C118",
   "status": "proved",
   "theorems": [
    "C118_entropy",
    "C118_joint_entropy",
    "C118_mi_combination",
    "C118_mi",
    "C118_cmi",
    "C118_te",
    "C118_cte",
    "C118_cross_entropy",
    "C118_kld",
    "C118_jsd",
    "C118_too_wide"
   ],
   "note": "Box kernel (the Gaussian kernel never has this property). Pairwise MI: C118_mi; any number of variables of any dimension as the combination of discrete entropies: C118_mi_combination. The condition of CTE and all of CMI one-dimensional; cross-entropy, KLD and JSD for one-dimensional samples (the discrete estimators number 2-D rows separately, see C27/C28). Sample sizes below 2^32 where the discrete cell products need it."
  },
  {
   "property": "C119",
   "status": "proved",
   "theorems": [
    "C119_marginal",
    "C119_density",
    "C119_integral_unique"
   ],
   "note": "Box kernel; integrals are iterated Riemann integrals, one coordinate after the other (C119_integral_unique: the value is determined). The Gaussian kernel is delegated to scipy and only modelled through its formula, its integral is not proved."
  },
  {
   "property": "C120",
   "status": "proved",
   "theorems": [
    "C120_cross_entropy",
    "C120_kld",
    "C120_kld_same",
    "C120_jsd"
   ],
   "note": ""
  },
  {
   "property": "C121",
   "status": "proved",
   "theorems": [
    "C121_variation_metric",
    "C121_variation_mutual_information",
    "C121_rajski_metric"
   ],
   "note": ""
  },
  {
   "property": "C122",
   "status": "proved",
   "theorems": [
    "C122_adding_a_record",
    "C122_diminishing_returns",
    "C122_han",
    "C122_mutual_information_grows"
   ],
   "note": ""
  },
  {
   "property": "C123",
   "status": "proved",
   "theorems": [
    "C123_compensation",
    "C123_pool_convex",
    "C123_pool_is_centroid",
    "C123_jsd_is_mean_kld"
   ],
   "note": ""
  },
  {
   "property": "C124",
   "status": "proved",
   "theorems": [
    "C124_interaction_symmetric",
    "C124_three_records"
   ],
   "note": ""
  }
 ]
}