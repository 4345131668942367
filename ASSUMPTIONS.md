# What Print Assumptions lists for each theorem

Generated by tools/assumptions.py from the compiled theories. Every axiom below is of the standard
library of Coq 8.16.1.

| Axiom | Theorems |
|---|---|
| `ClassicalDedekindReals.sig_forall_dec` | 394 |
| `ClassicalDedekindReals.sig_not_dec` | 283 |
| `Classical_Prop.classic` | 170 |
| `Epsilon.epsilon_statement` | 172 |
| `FunctionalExtensionality.functional_extensionality_dep` | 380 |

## Closed under the global context

C01_dataset_subset, C01_subset, C01_subset_cols, C01_subset_cols_outcome, C01_subset_in_range, C01_subset_matrix, C01_subset_matrix_in_range, C01_subset_matrix_out_of_range, C01_subset_out_of_range, C01_subset_rows, C01_subset_rows_outcome, C01_subset_signed, C01_subset_signed_out_of_range, C02_indices_complement, C02_indices_from_groups, C02_split, C02_vector_set_difference, C03_get_then_set, C03_set_subset, C03_set_subset_diagonal_in_range, C03_set_subset_diagonal_refuted, C03_set_subset_outcome, C03_set_then_get, C04_rows_then_cols, C04_symmetric_subset, C04_symmetric_subset_outcome, C04_symmetric_subset_symmetric, C05_counts, C05_group_by, C05_keys, C05_partition, C06_apply, C06_combine_indices, C06_get_group, C06_groups, C06_max, C06_min, C07_kfold, C07_kfold_balanced, C07_kfold_groups, C07_kfold_zero, C07_leave_one_out, C08_dataset_filter, C08_filter_map, C08_filter_positions, C08_filter_set, C08_filter_vector, C08_unique_value, C09_create_fold, C09_create_fold_rejects, C09_dataset_size, C09_folds_from_grouper, C09_folds_from_indexer, C09_indexer_round_trip, C09_tests_cover_once, C100_columns, C100_dot_refuted, C100_empty_refuted, C100_exact, C100_reserved_refuted, C100_row, C101_details_empty_refuted, C101_injective, C101_priors, C101_read_back, C10_cv_empty_refuted, C10_cv_marginal, C10_cv_mean, C10_cv_mean_pointwise, C10_cv_scores, C11_all_any, C11_map_at_or, C11_map_difference, C11_map_difference_keys, C11_map_intersect, C11_map_intersect_keys, C11_map_join, C11_map_join_strict, C11_map_join_strict_duplicate, C11_map_join_strict_release, C11_map_keys_values, C11_map_subset, C11_map_subset_sorted, C11_map_symmetric_difference, C11_map_union, C11_map_union_default, C11_vector_contains, C12_apply_completes, C12_apply_is_serial, C12_apply_map_completes, C12_apply_map_is_serial, C12_bounded, C12_exception_waits_refuted, C12_no_deadlock, C12_returned_all_done, C12_shared_memory, C12_started_once, C12_stuck_is_over, C12_thread_count, C13_asymmetric_refuted, C13_cross, C13_cross_completes, C13_cross_is_serial, C13_cross_written_once, C13_mean_vector, C13_symmetric_completes, C13_symmetric_serial, C13_symmetric_threaded, C15_depth, C15_distinct_in_range, C15_every_choice, C15_full_range_refuted, C15_outcomes, C15_random_without_replacement, C15_returns, C16_deduplicate, C17_align_duplicates_refuted, C17_align_features, C17_align_pairs, C17_align_unique, C18_concatenate, C18_concatenate_list, C18_concatenate_then_subset, C18_concatenate_variant, C18_metadata_refuted, C19_add_edge_wf, C19_create_graph_wf, C19_edge_order, C19_forest_sorted, C19_maximum_spanning_forest, C19_minimum_spanning_forest, C19_missing_vertex, C19_order_irrelevant, C20_component, C20_disconnected_refuted, C20_empty, C20_maximum_spanning_tree, C20_minimum_spanning_tree, C20_order_irrelevant, C20_self_loop_refuted, C21_bounded, C21_consensus_distinct, C21_exceeded, C21_fit, C21_invalid_arguments, C21_no_consensus, C21_partition, C21_success, C21_terminates, C22_best_ignored_refuted, C22_equality_is, C22_iteration_equality, C22_reflexivity_refuted, C25_set_all_if_exists, C25_set_if_exists, C25_set_param, C25_set_params, C25_set_params_if_exists, C25_set_prior, C25_set_value, C25_set_values, C25_set_values_if_exists, C25_shared_name_unobservable, C25_union, C26_empty_dataset_refuted, C26_list_columns_refuted, C26_matrix, C26_row, C26_size_mismatch, C26_table, C26_unquoted_refuted, C26_write_row, C26_write_to_csv, C29_random_complement, C33_dense, C33_dense_gzip, C33_thread_pool, C33_variant, C33_variant_rejects, C34_not_square_refuted, C34_round_trip_refuted, C34_sparse, C35_conditional_unique, C35_leave_one_out, C35_positive_definite, C36_gp_marginals_refuted, C36_gp_means, C36_gp_refit, C36_leave_one_group_out, C36_positive_definite, C36_types, C37_measurement_noise_refuted, C37_update, C37_updates, C38_recovers, C38_same_everywhere, C39_agree, C39_subset, C40_less_than_prior, C40_posterior_psd, C40_update_shrinks, C41_affine, C41_interpolates, C41_mean_function, C41_no_data, C41_order_irrelevant, C42_conditional, C42_gaussian_process, C42_leave_one_group_out, C42_types, C43_block_symmetric, C43_block_symmetric_schur, C43_direct_inverse, C43_explained, C43_invertible, C44_blockwise_size, C44_threaded_completes, C49_set_grouper_function, C49_set_inducing_point_strategy, C49_set_inducing_point_strategy_refuted, C50_product_refuted, C50_psd, C50_psd_variants, C54_bilinear, C54_constant_refuted, C54_defined, C54_double_sum, C54_matrix_mean, C54_matrix_product, C54_mean, C54_mean_product_refuted, C54_mean_variant, C54_sparse_product, C54_variants, C55_combination_noise_refuted, C55_double_measurement_refuted, C55_like_unmeasured, C55_measurements, C55_only_measured, C55_scaling_refuted, C62_concatenate, C62_concatenate_sizes, C62_concatenate_two, C62_element, C63_diag_solve_keys, C64_distance_matrix, C66_block_symmetric, C66_dataset, C66_direct_inverse, C66_distribution, C66_fit_model, C66_gp_fit, C66_gp_model, C66_gp_model_rejects, C66_ldlt_equal, C66_ldlt_equal_refuted, C66_linear_combination, C66_model, C66_model_rejects, C66_parameters, C66_ransac_output, C66_sparse_gp_fit, C73_sum, C74_concatenate, C74_concatenate_list, C74_datasets, C74_extract, C74_extract_dataset, C74_partition, C74_round_trip, C74_to_variant, C74_type, C75_common_variance, C75_fit, C75_predict, C75_recovers, C75_regression, C75_regression_recovers, C75_solver_exists, C75_unique, C76_agree, C76_available, C76_direct, C76_empty, C76_get, C76_null, C76_one_method, C77_evaluated_late, C77_named, C77_noisy_temporary_refuted, C77_snapshot_refuted, C77_temporary, C77_update, C77_update_in_place, C78_callbacks, C78_chi_squared, C78_default, C78_functions, C78_outside, C78_sizes, C79_nan_refuted, C79_nugget, C79_polynomial, C79_psd, C79_regression, C79_repeated_refuted, C79_state_space, C80_coordinates, C80_exact, C80_least, C80_operator, C80_recovers, C80_residual, C80_zero_threshold_refuted, C81_common, C81_complex_refuted, C81_default_refuted, C81_dense, C81_dense_safe, C81_matrixR, C81_pattern_refuted, C81_sparse, C81_sparse_safe, C81_spqr, C81_unpacked_refuted, C82_print, C84_dependent, C84_factors, C84_inner_product, C84_sqrt_solve, C84_wide_refuted, C86_elements, C86_elements_any, C86_maybe_string_any, C86_maybe_throws_refuted, C86_string, C86_string_any, C87_sparse, C87_sparse_empty_refuted, C87_sparse_endless, C87_sparse_returns, C88_callbacks, C88_default_failures_refuted, C88_failures_unused, C88_fit, C88_functions, C88_groups, C88_groups_loo, C88_model_agrees, C88_overloads, C88_predict, C88_sizes, C88_total, C88_unknown, C89_all_any, C89_counts, C89_dataset_groups, C89_filter, C89_first_group, C89_first_group_empty_refuted, C89_with, C89_with_grouped, C89_with_sizes, C91_duplicate_refuted, C91_joints, C91_marginal_scores, C91_marginals, C91_mean, C91_mean_by_group, C91_means, C91_scores, C91_scores_agree_refuted, C96_best, C96_calibrated, C96_unique, C96_variance, C97_collapse, C97_split, C97_sufficient

## `ClassicalDedekindReals.sig_forall_dec`

C44_diagonal, C44_difference_shape_refuted, C44_difference_size, C44_product_not_square_refuted, C44_product_size, C44_to_dense, C56_negative, C61_empty, C63_accumulate_keys, C63_empty_refuted, C63_subtract_keys, C63_vertical_stack, C63_vertical_stack_columns, C81_R_refuted

## `ClassicalDedekindReals.sig_forall_dec`, `ClassicalDedekindReals.sig_not_dec`, `Classical_Prop.classic`, `Epsilon.epsilon_statement`, `FunctionalExtensionality.functional_extensionality_dep`

C103_batches, C103_log_likelihood, C103_two_parts, C104_batches, C104_group, C104_groups_refuted, C104_mean_function_refuted, C104_order, C44_log_determinant, C44_solve, C44_sqrt_solve, C45_log_determinant, C46_log_likelihood, C51_angular_refuted, C51_psd_euclidean, C51_psd_radial, C51_psd_scalar, C58_degenerate, C58_dense, C58_diagonal, C58_independent, C58_pdf, C58_singular, C58_singular_refuted, C58_sizes, C59_additive, C59_additive_refuted, C59_entropy_refuted, C59_exactly_when, C59_ordering, C59_singular, C59_value, C60_expected_abs, C60_expected_square, C68_ignores_noise, C68_impossible_parameters, C68_noise_refuted, C68_value, C69_nll_joint, C69_nll_marginal, C69_nll_uncorrelated, C69_sizes, C70_gp_group, C70_kinds, C70_likelihood, C70_likelihood_marginal, C70_noise_counted_twice_refuted, C70_noise_free, C72_prediction, C72_vector, C72_vector_coordinates, C72_vector_sizes, C72_vector_zero, C94_exponential, C94_exponential_nearly, C94_rejected_combinations

## `ClassicalDedekindReals.sig_forall_dec`, `ClassicalDedekindReals.sig_not_dec`, `Classical_Prop.classic`, `FunctionalExtensionality.functional_extensionality_dep`

C23_get, C23_get_after_set, C23_set_after_get, C25_prior_log_likelihood, C27_exact, C27_tunable_values, C28_jitter, C28_sampler, C28_sampler_model, C28_sampler_params, C28_sampler_returns, C28_step, C28_step_rejects, C28_step_returns, C28_step_too_few_refuted, C29_partner, C30_greedy_tune, C30_nan_not_selected, C30_no_worse, C30_queries, C30_queries_infinite, C30_queries_lower, C30_queries_upper, C30_single_query_refuted, C30_step, C31_affine, C31_gradient, C31_lower, C31_near_upper_refuted, C31_stuck_at_upper_refuted, C31_upper, C31_valid, C51_bounded, C51_decreasing, C51_length_scale, C51_zero_vector_refuted, C52_invalid, C52_process_noise, C52_reproduces, C56_bounded, C57_gaussian_differences, C57_gaussian_refuted, C57_improper, C57_log_normal_refuted, C57_log_scale_uniform_refuted, C57_positive_bounds_refuted, C57_positive_gaussian_refuted, C57_support, C57_uniform, C57_uniform_equality_refuted, C60_crps, C60_crps_minimum, C64_angular, C64_angular_triangle_refuted, C64_angular_zero_refuted, C64_size_mismatch, C65_dimension, C65_objective, C65_result, C67_matern, C67_reproduces_refuted, C67_small_requests, C72_accuracy, C72_deviation, C72_deviation_degenerate, C72_deviation_scale, C72_eleven_digits, C72_infinite_refuted, C72_invalid, C72_invalid_dof, C72_invalid_dof_refuted, C72_limits, C72_near_zero, C72_near_zero_refuted, C72_probability, C72_quadrature, C72_specification, C72_zero_dof, C73_coverage, C73_spacing_refuted, C90_angular, C90_angular_nan_refuted, C90_angular_self_refuted, C90_bad_arguments, C90_covariance, C90_euclidean, C90_euclidean_infinite_refuted, C90_euclidean_symmetric, C90_exponential, C90_matern, C90_matern_bounded_refuted, C90_matern_nan_refuted, C90_radial_distance, C90_radial_distance_refuted, C90_squared_exponential, C90_vector, C90_vector_distinct_refuted, C90_vector_overflow_refuted, C90_vector_symmetric, C92_eigen, C92_eigen_empty_refuted, C92_model, C92_model_objective, C92_start_refuted, C92_vector, C92_vector_any, C93_averages_exist, C93_invariant, C93_invariant_bounded, C93_move, C93_nearly_invariant, C95_accuracy_partial, C95_positive, C95_saturates

## `ClassicalDedekindReals.sig_forall_dec`, `ClassicalDedekindReals.sig_not_dec`, `Epsilon.epsilon_statement`, `FunctionalExtensionality.functional_extensionality_dep`

C102_affine, C102_between, C102_no_data, C102_order, C102_overconfident_refuted, C102_update_shrinks, C105_at_inducing, C105_at_inducing_refuted, C105_equal, C105_from_prediction, C105_laws, C105_shift, C105_update, C45_inner_product, C45_inverse_blocks, C45_inverse_diagonal, C45_semidefinite, C45_square_root, C46_agree, C46_posterior, C47_groups, C47_update, C48_from_prediction, C48_mean_function_refuted, C48_prediction, C48_rebase, C48_rebase_refuted, C48_residuals, C60_antithetic, C60_draw, C60_draw_correct_when, C60_draw_refuted, C60_draw_unpivoted, C60_energy, C60_energy_aborts, C60_energy_uncertain, C60_energy_unweighted, C60_energy_weights_refuted, C60_expected_degenerate, C60_variogram, C60_variogram_aborts, C60_variogram_half, C60_variogram_half_refuted, C60_variogram_indefinite, C60_variogram_uncertain, C60_variogram_unweighted, C62_transform_indefinite_refuted, C62_transform_joint, C62_transform_marginal, C69_bias_and_spread, C69_order, C69_rmse, C69_rmse_bounds, C69_rmse_metric, C69_standard_deviation, C69_standard_deviation_laws, C70_rmse, C70_rmse_bound, C70_rmse_refuted, C71_least_cost, C71_location, C71_nan, C71_negative_definite_refuted, C71_positive_part, C71_principal_sqrt, C71_separates, C71_symmetric, C71_triangle, C71_triangle_refuted, C84_create, C84_threshold_large, C84_threshold_positive, C84_threshold_scale, C84_threshold_scale_refuted, C84_threshold_small, C98_limit, C98_mean, C98_variance, C99_dense, C99_dependent_refuted, C99_identity_refuted, C99_invertible, C99_sparse

## `ClassicalDedekindReals.sig_forall_dec`, `ClassicalDedekindReals.sig_not_dec`, `FunctionalExtensionality.functional_extensionality_dep`

C13_symmetric_is_serial, C14_no_blocks_refuted, C14_partition_triangular, C14_tiles, C23_handler, C23_set, C23_set_outcome, C24_forced_is_valid, C24_nan_refuted, C27_last_iteration, C27_reserved_name_refuted, C32_rejects, C32_round_trip, C32_rows, C51_infinite_distance_refuted, C51_value, C56_first_kind, C56_second_kind, C60_crps_degenerate, C64_euclidean, C64_euclidean_value, C64_radial, C66_explained, C66_layout, C66_ldlt, C66_ldlt_l1_norm_refuted, C85_increasing, C85_tracks, C93_acceptance, C93_one_parameter

## `ClassicalDedekindReals.sig_forall_dec`, `Epsilon.epsilon_statement`, `FunctionalExtensionality.functional_extensionality_dep`

C105_size, C106_datasets, C106_distributions, C106_distributions_refuted, C106_division_refuted, C106_features, C106_fit_agrees, C106_predict, C106_solve, C106_update, C106_update_agrees, C45_is_positive_definite, C45_solve, C45_transpositions, C46_fitc, C46_one_group, C62_approximately_equal, C62_approximately_zero, C62_independent, C62_laws, C62_marginal, C62_moments, C62_psd, C62_subset, C62_subset_duplicates_refuted, C71_empty, C87_covariance, C87_covariance_gamma, C87_covariance_pd, C87_covariance_psd, C87_normal, C87_normal_moments, C87_normal_sizes

## `ClassicalDedekindReals.sig_forall_dec`, `FunctionalExtensionality.functional_extensionality_dep`

C101_details, C105_equivalence, C106_not_computed_refuted, C24_clamp, C24_nearest, C24_validity, C25_gp_shared_name_refuted, C25_shared_name_refuted, C28_initial_state, C28_initial_state_diverges_refuted, C28_initial_state_kept, C28_two_finite_refuted, C29_on_line, C29_stretch_range, C31_vector, C44_blockwise, C44_blockwise_threaded, C44_difference, C44_product, C53_bounds, C53_calls, C53_convex, C53_iteration, C53_line, C53_start_refuted, C56_basis, C56_closed_forms, C56_derivative, C57_equality, C61_bounds, C61_order, C61_outside_refuted, C61_supremum, C61_unique, C63_accumulate, C63_diag_solve, C63_inner_product, C63_product, C63_subtract, C64_scalar, C65_mean, C65_mean_of_none, C73_distinct, C73_duplicates_refuted, C73_length_scale, C73_linspace, C73_linspace_other, C73_state_space, C73_uniform, C73_uniform_other, C75_no_data_refuted, C75_variances, C82_first, C82_name_refuted, C82_shape, C82_trace, C82_value, C83_count_refuted, C83_features_refuted, C83_large, C83_small, C89_mean, C89_mean_empty, C92_objective
