# Print Assumptions of the 820 property theorems

Generated by `tools/assumptions.py`.

## Closed under the global context (no axioms) (80)

C01_empty_rejected, C05_1d_unchanged, C05_list_rejected, C05_reduce_codes, C05_tuple_reduces_rows, C20_base_times, C20_cte_embedding, C20_cte_embedding_2d, C20_embedding, C20_embedding_2d, C20_row_count, C21_cte_rejects, C21_te_rejects, C22_both_rejected, C22_cte_permutation, C22_cte_resample, C22_permutation, C22_resample, C29_lehmer_bijection, C29_lehmer_onto, C29_limit_sharp, C29_too_long_rejected, C30_codes_exact, C30_codes_faithful, C31_monotone_stable, C31_monotone_tie_free, C31_pattern_unique, C31_patterns_sort, C31_rejects, C37_get, C37_get_total, C37_only_types_checked, C37_reset, C37_set, C37_unit_names, C37_unit_round_trip, C37_unit_unknown, C38_default_is_base_at_first_use, C38_discrete_data_uses_current, C38_entropy_default_is_e, C38_explicit_base, C38_first_use_uses_current, C38_new_base_refuted, C38_unchanged_since_first_use_partial, C40_case_insensitive, C40_classes, C40_entropy_names_refuted, C40_functions_reject, C40_missing, C40_same_approaches, C40_single_array_refuted, C40_total, C41_conditional_mutual_information, C41_entropy, C41_mutual_information, C41_no_keyword_twice, C41_single_array_entropy, C41_single_array_refuted, C41_step_size_dropped_refuted, C41_transfer_entropy, C41_wrong_arguments, C42_cross_no_local, C42_from_counts_accepts, C42_from_probabilities_refuted, C51_empty_rejected, C53_chunks, C53_parallel_is_sequential, C53_single_query_point_refuted, C84_any_example, C90_source_rows, C91_accepted_arguments, C97_api, C97_discrete_data_refuted, C97_entropy_seed_refuted, C97_keywords, C97_metric_noise_unseeded, C97_no_normalize, C97_only_parameters, C97_seed, C97_values

## `ClassicalDedekindReals.sig_forall_dec` (3)

C111_array_unchanged, C96_kld_difference, C96_kld_unknown

## `ClassicalDedekindReals.sig_forall_dec`, `FunctionalExtensionality.functional_extensionality_dep` (58)

C107_factor_small, C109_factor_small, C112_alone, C112_generator_as_seed, C112_negative_seed, C112_reproducible, C112_without_seed, C25_cmi_from_entropies, C25_cte_from_entropies, C25_mi_from_entropies, C25_te_from_entropies, C32_dim3_labels_refuted, C33_cte_not_randomised_refuted, C33_mi_surrogates, C33_ordinal_mi_not_randomised_refuted, C33_te_surrogates, C34_interrupted_te_test_refuted, C34_tests_leave_estimator_unchanged, C35_requests, C36_confidence_interval, C36_confidence_interval_rejects, C36_percentile_interpolates, C36_percentile_monotone, C36_percentile_order_free, C36_percentile_range, C36_percentile_rejects, C36_percentile_shares, C39_computed_once, C39_failure_not_cached, C39_global_is_mean, C39_local_array_mean, C39_no_mean, C39_recalculation_unstable_refuted, C39_results_stable, C42_cross_unsupported, C42_from_counts_same_facts, C42_from_data, C42_invariant, C42_second_object_ignored_refuted, C43_shrink_is_distribution, C51_affine_invariant, C51_columns, C51_constant_refuted, C51_idempotent, C51_unit_interval, C87_enlarging_keeps_regular, C87_spec_det2, C87_spec_quadratic, C89_cte_always_zero_refuted, C89_fresh_surrogate_per_call, C89_only_transfer_entropies, C89_unknown_method_rejected, C91_constructor, C91_meaning, C91_rejected, C92_cte_counts, C92_te_counts, C93_cmi_third_variable

## `ClassicalDedekindReals.sig_forall_dec`, `ClassicalDedekindReals.sig_not_dec`, `FunctionalExtensionality.functional_extensionality_dep` (2)

C33_degenerate_test_p_zero, C35_result_well_formed

## `ClassicalDedekindReals.sig_forall_dec`, `ClassicalDedekindReals.sig_not_dec`, `Classical_Prop.classic`, `FunctionalExtensionality.functional_extensionality_dep` (677)

C01_discrete_entropy_is_plugin, C02_discrete_entropy_bounds, C03_entropy_ignores_names, C03_entropy_ignores_order, C04_2d_entropy_of_rows, C04_joint_entropy_bounds, C04_joint_entropy_of_rows, C04_joint_entropy_symmetric, C04_unequal_lengths_rejected, C06_discrete_local_defined, C06_discrete_local_mean, C06_grassberger_local_mean, C06_millermadow_local_mean, C06_zhang_local_mean, C07_cmi_any, C07_cmi_local_mean, C07_cmi_nd_local_mean, C07_cte_local_mean, C07_mi_local_mean, C07_mi_mm_local_mean, C07_mi_mm_nd_local_mean, C07_mi_nd_local_mean, C07_mi_rows, C07_mi_rows_constant_refuted, C07_mm_cte_local_mean, C07_mm_te_local_mean, C07_te_local_mean, C08_ansb_nsb, C08_cmi_rescales, C08_entropy_rescales, C08_every_cmi, C08_every_combination, C08_every_cte, C08_every_divergence, C08_every_entropy, C08_every_mi_local, C08_every_mi_partial, C08_every_ordinal, C08_every_ordinal_te, C08_every_te, C08_kernel, C08_metric, C08_mi_base_below_one, C08_mi_rescales_partial, C08_mi_rescales_refuted, C08_renyi_tsallis, C08_te_rescales, C08_tsallis_has_no_unit, C09_base_one_not_rejected_refuted, C09_base_zero_not_rejected_refuted, C09_every_cmi, C09_every_combination, C09_every_cte, C09_every_divergence, C09_every_entropy, C09_every_mi, C09_every_ordinal, C09_every_ordinal_te, C09_every_te, C09_kernel, C09_metric, C09_negative_base_rejected, C09_negative_base_to_base_refuted, C09_renyi_tsallis, C09_tsallis_ignores_base_refuted, C100_bound_sharp, C100_bound_vanishes, C100_cmi, C100_entropy, C100_entropy_1d, C100_mi, C100_mi_one_variable, C100_miller_madow, C100_one_more, C100_te_destination, C100_te_source, C101_cmi_no_number_numeric, C101_cmi_no_number_ordinal, C101_cmi_ordinal_length_exception, C101_cmi_refused_symbols, C101_mi_refused_numeric, C101_mi_refused_ordinal, C101_mi_refused_symbols, C102_available, C102_combinations, C102_errors_agree, C102_refused, C103_jsd_is_label_mi, C103_label_chain, C103_label_mi, C103_pool_bounds, C104_entropy, C104_jsd, C104_kld, C105_jsd_pinsker, C105_kld_pinsker, C105_mi_is_kld, C105_mi_pinsker, C106_entropy_is_best_loss, C106_fano, C106_mi_determined, C106_mi_is_loss_reduction, C106_te_is_loss_reduction, C107_entropy_float, C107_local_float, C107_order_bitwise, C107_rename_bitwise, C107_rename_close, C108_conditional_mutual_information, C108_conditional_transfer_entropy, C108_mutual_information, C108_transfer_entropy, C109_conditional_mutual_information, C109_conditional_reorder_bitwise, C109_conditional_transfer_entropy, C109_many_variables, C109_mutual_information, C109_mutual_information_offset, C109_reorder_bitwise, C109_transfer_entropy, C10_mi_is_entropy_difference, C10_mi_rows, C110_cmi, C110_cmi_mm, C110_cmi_rows, C110_cte, C110_entropy, C110_entropy_mm, C110_entropy_shrink, C110_entropy_zhang, C110_mi, C110_mi_combination, C110_mi_many, C110_mi_mm, C110_mi_offset, C110_mi_rows, C110_ordinal_cmi, C110_ordinal_cte, C110_ordinal_entropy, C110_ordinal_mi, C110_ordinal_mi_offset, C110_ordinal_te, C110_reorder, C110_te, C110_te_mm, C111_example, C111_fam_cmi, C111_fam_cte, C111_fam_mi, C111_fam_te, C111_kl_cross, C111_kl_entropy, C111_ksg_cmi, C111_ksg_cte, C111_ksg_mi, C111_ksg_te, C111_later_calls, C111_normalized_snapshot, C111_numbers_cmi, C111_numbers_cte, C111_numbers_fam, C111_numbers_mi, C111_numbers_te, C111_object_reads_late, C111_passed_twice, C112_discrete_mi_any_seed, C112_discrete_te_any_seed, C112_ksg_values, C112_renyi_tsallis_values, C112_shared_or_unseeded_refuted, C113_cmi, C113_coinciding_refuted, C113_cross_entropy, C113_cte, C113_entropy, C113_joint_entropy, C113_mi, C113_te, C113_tsallis_base_refuted, C113_tsallis_units, C114_equidistant_refuted, C114_gamma_term_order, C114_order_refuted, C114_renyi_order, C114_renyi_range, C115_cross_entropy, C115_entropy, C115_family_cmi, C115_family_cross_entropy, C115_family_cte, C115_family_entropy, C115_family_joint_entropy, C115_family_mi, C115_family_te, C115_joint_entropy, C115_ksg_cmi, C115_ksg_cte, C115_ksg_mi, C115_ksg_te, C115_noise_entropy, C115_noise_family_cmi, C115_noise_family_cte, C115_noise_family_mi, C115_noise_family_te, C115_noise_ksg_cmi, C115_noise_ksg_cte, C115_noise_ksg_mi, C115_noise_ksg_te, C115_noise_ties_refuted, C115_ties_refuted, C116_box_cmi, C116_box_cross_entropy, C116_box_cte, C116_box_entropy, C116_box_joint_entropy, C116_box_jsd, C116_box_kld, C116_box_mi, C116_box_te, C116_edge_refuted, C116_gauss_cross_entropy, C116_gauss_entropy, C116_gauss_kld, C11_mi_rows, C11_mi_self_is_entropy, C11_mi_symmetric_bounded, C12_mi_rows, C12_mi_zero_iff_independent, C13_constant_variable_gives_zero, C13_exact_iff, C13_mi_is_total_correlation_partial, C13_mi_value, C13_never_below, C13_total_correlation_refuted, C14_mi_finite, C14_mi_finite_iff, C14_mi_finite_partial, C14_mi_finite_refuted, C15_mi_of_joint_variables, C15_mixed_dimensions_rejected, C16_cmi_any, C16_cmi_entropy_identity, C16_cmi_finite_iff, C16_cmi_joint_condition, C17_cmi_first_form_refuted, C17_cmi_last_form_partial, C17_cmi_two_variables_first_form, C17_cmi_value, C17_exact_iff, C17_first_form_iff, C17_never_below, C18_chain_rule, C18_cmi_any_constant, C18_cmi_any_symmetric, C18_cmi_symmetric, C18_constant_condition_gives_mi, C18_rows_chain_rule, C19_te_bounds, C19_te_is_conditional_mi, C19_te_multivariate, C19_te_zero_if_determined, C23_both_rejected, C23_negative, C23_offset_alias, C23_positive, C23_time_stamps, C24_cte_bounds, C24_cte_is_conditional_mi, C24_joint_condition, C24_prop_time_rejected, C25_cmi_agree, C25_cte_agree, C25_discrete_lawful, C25_estimators_lawful, C25_mi_many_agree, C25_mi_two_agree, C25_te_agree, C26_mm_cmi_is_entropy_combination, C26_mm_cmi_joint_condition_refuted, C26_mm_cte_is_entropy_combination, C26_mm_entropy, C26_mm_mi_is_entropy_combination, C26_mm_mi_nd_is_entropy_combination, C26_mm_te_is_entropy_combination, C27_kld_2d_refuted, C27_kld_bayes, C27_kld_bayes_every_pair, C27_kld_discrete, C27_kld_disjoint, C27_kld_every_pair, C27_kld_lower_bound, C27_kld_mm, C27_kld_mm_every_pair, C27_kld_mm_negative_refuted, C27_kld_mm_self, C27_kld_negative_refuted, C27_kld_ordinal, C27_kld_ordinal_self_refuted, C28_jsd_2d_refuted, C28_jsd_bayes, C28_jsd_discrete, C28_jsd_ordinal, C28_jsd_ordinal_labels_refuted, C28_jsd_ordinal_step_refuted, C28_jsd_rejects, C28_jsd_shrink, C28_jsd_symmetric, C32_entropy_of_patterns, C32_fast_paths_tie_free, C32_general_path, C32_local_dim1_refuted, C32_local_mean, C32_monotone_map, C32_stable_ignored, C32_stable_ties_refuted, C33_discrete_te_surrogates, C34_discrete_mi, C34_discrete_te, C34_interrupted_test_refuted, C41_step_size_result_refuted, C42_from_counts_same_entropy, C42_from_counts_same_entropy_all, C42_grassberger_refuted, C42_local_values_refuted, C42_repeated_values_refuted, C42_zero_count_refuted, C43_shrink_between, C43_shrink_closed_form, C44_shrink_local_mean_below, C44_shrink_local_values_refuted, C44_shrink_mi_refuted, C44_shrink_mi_value, C45_bayes_closed_form, C45_bayes_explicit_K, C45_bayes_is_distribution, C45_named_priors, C45_prior_names_case_insensitive_refuted, C45_unknown_prior_rejected, C46_zhang_closed_form, C46_zhang_constant, C46_zhang_nonneg, C47_chao_shen_closed_form, C47_chao_shen_finite_nonneg, C48_cwj_bounds, C48_cwj_closed_form, C49_ansb_closed_form, C49_ansb_positive, C49_bonachela_closed_form, C49_grassberger_closed_form, C49_grassberger_local_values, C50_offset_none_type_error, C50_offset_numeric, C50_offset_ordinal, C50_offset_pairs_samples, C50_offset_symbols, C50_offset_three_variables_rejected, C50_offset_value, C52_cmi_many, C52_data_processing, C52_entropy_any, C52_mi_many, C52_mi_rows, C53_box_density, C53_entropy_bounds, C53_one_point_refuted, C54_step_size_no_effect_refuted, C55_counts_only, C55_counts_only_priors, C56_entropy_nonneg, C56_grassberger_negative_refuted, C56_grassberger_odd, C57_corrections_raise_entropy, C58_ordinal_cmi, C58_ordinal_cte, C58_ordinal_mi, C58_ordinal_te, C59_invariances, C59_joint_at_least_parts, C59_kernel_entropy, C59_kernel_joint_entropy, C60_can_be_negative, C60_mi_bounds, C60_mi_invariances, C60_mi_is_entropy_combination, C60_mi_symmetric, C60_offset, C61_cmi_is_entropy_combination, C61_cmi_two_variables, C61_multidim_condition_refuted, C61_multidim_variable_refuted, C62_cte_is_conditional_mi, C62_prop_time, C62_te_is_conditional_mi, C63_bounds, C63_constant_rejected, C63_cross_entropy, C63_gaussian_entropy, C63_invariances, C64_cross_entropy, C64_kld_negative_refuted, C64_self, C65_negative_refuted, C65_one_dimensional, C65_symmetric, C65_upper_bound, C65_zero_for_equal, C66_every_measure, C66_parameters_rejected, C66_workers_box, C66_workers_gaussian_refuted, C67_local_values, C67_neighbour_distance, C67_value, C68_affine, C68_distances_only, C68_reorder, C68_symmetric, C69_bounds_nonstrict, C69_bounds_strict, C70_every_measure, C70_invalid_rejected, C70_too_many_neighbours_refuted, C71_no_noise_deterministic, C71_noise, C71_offset, C72_bounds, C72_condition_noise_refuted, C72_constant_condition, C72_local_values, C72_symmetric, C72_three_variables_refuted, C72_value, C73_cte_is_conditional_mi, C73_noise, C73_prop_time, C73_te_is_conditional_mi, C73_too_many_neighbours_refuted, C74_euclidean, C74_other_norms, C74_scaling, C75_coinciding_samples, C75_joint_value, C75_scaling, C75_scaling_1d, C75_scaling_refuted, C75_value, C75_variants, C76_cross_too_many_refuted, C76_invalid_rejected, C76_too_many_neighbours_refuted, C77_cross_entropy, C77_dimension_mismatch, C77_one_neighbour_refuted, C77_reference_distance, C77_self_divergence_refuted, C77_unequal_sizes_refuted, C78_joint_value, C78_order_one, C78_order_one_same, C78_scaling, C78_tsallis_from_renyi, C78_value, C79_all_coincide, C79_cross_dimension_rejected, C79_cross_one_neighbour_refuted, C79_cross_too_many_rejected, C79_cross_value, C79_invalid_rejected, C79_large_order_refuted, C79_order_k_plus_one_refuted, C79_scaling_refuted, C79_too_many_rejected, C80_cmi_noise, C80_cmi_scaling, C80_cmi_symmetric, C80_cmi_value, C80_constant_condition_refuted, C80_defined, C80_distances_only, C80_invalid_rejected, C80_mi_noise, C80_mi_nonnegative_refuted, C80_mi_scaling, C80_mi_symmetric, C80_mi_value, C80_no_noise_deterministic, C80_offset, C80_order_one_same, C80_too_many_rejected, C81_cte_is_conditional_mi, C81_invalid_rejected, C81_noise, C81_order_one_same, C81_prop_time, C81_te_is_conditional_mi, C81_too_many_rejected, C82_nsb_constant, C82_nsb_counts_only, C82_nsb_local, C82_nsb_mi, C82_nsb_mi_K, C82_nsb_numerics, C82_nsb_range, C82_nsb_undefined, C82_nsb_unique, C82_nsb_value, C83_ansb_explicit_K, C83_ansb_mi_two, C83_cmi, C83_cte, C83_mi, C83_parameters, C83_te, C84_cmi_relabel, C84_cmi_reorder, C84_cte_relabel, C84_discrete_cmi_relabel_any, C84_discrete_cmi_reorder_any, C84_discrete_cte_relabel_rows, C84_discrete_many_relabel, C84_discrete_many_reorder, C84_discrete_mi_relabel_any, C84_discrete_mi_reorder_any, C84_discrete_mi_reorder_any, C84_discrete_mi_rows_relabel, C84_discrete_mi_rows_reorder, C84_discrete_relabel, C84_discrete_reorder, C84_discrete_te_relabel, C84_discrete_te_relabel_rows, C84_mi_relabel, C84_mi_reorder, C84_mm_cmi_relabel, C84_mm_mi_relabel, C84_te_relabel, C85_condition_on_destination, C85_condition_on_source, C85_joint_source_chain_rule, C85_joint_source_more, C85_longer_source_history, C85_self_transfer_zero, C86_ansb_consistent_refuted, C86_ansb_diverges, C86_discrete_exact, C86_entropy_consistent, C86_mi_consistent, C86_miller_madow_rate, C87_bounds, C87_coordinate_order, C87_cross_entropy, C87_degenerate, C87_entropy, C87_joint_entropy, C87_no_variance, C87_sample_order, C87_small_units_refuted, C87_spec_one_dimension, C87_units, C88_cmi, C88_cte, C88_mi, C88_mi_self, C88_mi_symmetric, C88_mi_units, C88_te, C89_constant_source, C89_discrete_te, C89_not_stored_refuted, C90_box_kernel_completes, C90_fresh_noise_ksg_cmi, C90_fresh_noise_ksg_cte, C90_fresh_noise_ksg_mi, C90_fresh_noise_ksg_te, C90_fresh_noise_renyi_tsallis_cmi, C90_fresh_noise_renyi_tsallis_cte, C90_fresh_noise_renyi_tsallis_mi, C90_fresh_noise_renyi_tsallis_te, C90_kernel_cmi, C90_kernel_cte_refuted, C90_kernel_mi, C90_kernel_mi_completes, C90_kernel_te, C90_ksg_cmi, C90_ksg_cte_refuted, C90_ksg_mi, C90_ksg_te, C90_renyi_tsallis_cmi, C90_renyi_tsallis_cte_refuted, C90_renyi_tsallis_mi, C90_renyi_tsallis_te, C91_discrete_data_cross_refuted, C92_cte_discrete, C92_cte_discrete_2d, C92_cte_kernel, C92_cte_ksg, C92_cte_ordinal, C92_cte_renyi_tsallis, C92_off_grid, C92_te_discrete, C92_te_kernel, C92_te_ksg, C92_te_ordinal, C92_te_renyi_tsallis, C93_cmi_constant, C93_cmi_kernel, C93_cmi_ksg, C93_cmi_renyi_tsallis, C93_cmi_two_dimensional, C93_constant_no_number, C93_mi_constant, C93_mi_kernel, C93_mi_ksg, C93_mi_renyi_tsallis, C93_mi_two_dimensional, C93_two_dimensional_rejected, C94_family_te_origin, C94_kernel_cmi_reorder, C94_kernel_cmi_units, C94_kernel_cte_units, C94_kernel_te_units, C94_ksg_cmi_distances_only, C94_ksg_cmi_reorder, C94_ksg_cmi_units, C94_ksg_cte_units, C94_ksg_te_series, C94_ksg_te_units, C94_renyi_te_units, C95_monotone_cmi, C95_monotone_cte, C95_monotone_entropy, C95_monotone_mi, C95_monotone_te, C95_reversed_cmi, C95_reversed_entropy, C95_reversed_mi, C95_stable_cmi, C95_stable_cte, C95_stable_mi, C95_stable_te, C95_tie_free_cmi, C95_tie_free_cross_entropy, C95_tie_free_cte, C95_tie_free_joint_entropy, C95_tie_free_jsd, C95_tie_free_kld, C95_tie_free_mi, C95_tie_free_te, C96_jsd_counts, C96_jsd_data_kind, C96_jsd_distributions, C96_jsd_kernel, C96_jsd_unsupported, C96_kld_counts, C96_kld_no_cross, C98_cmi_offset_refused, C98_cte_refused_numeric, C98_cte_refused_symbols, C98_te_alias_numeric, C98_te_alias_symbols, C98_te_refused_numeric, C98_te_refused_symbols, C98_te_shift_numeric, C98_te_shift_numeric_any, C98_te_shift_symbols, C99_base, C99_bayes_value, C99_discrete_value, C99_disjoint_refuted, C99_empty_refused, C99_equal_distributions, C99_gibbs, C99_gibbs_bayes, C99_mm_value, C99_nonneg, C99_ordinal_value, C99_rename, C99_reorder
