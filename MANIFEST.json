{"claims": [
 {"property": "C01", "status": "proved", "theorems": ["C01_dataset_subset", "C01_subset", "C01_subset_out_of_range", "C01_subset_in_range", "C01_subset_signed", "C01_subset_signed_out_of_range", "C01_subset_cols", "C01_subset_cols_outcome", "C01_subset_rows", "C01_subset_rows_outcome", "C01_subset_matrix", "C01_subset_matrix_in_range", "C01_subset_matrix_out_of_range"], "note": ""},
 {"property": "C02", "status": "proved", "theorems": ["C02_indices_complement", "C02_split", "C02_vector_set_difference", "C02_indices_from_groups"], "note": ""},
 {"property": "C03", "status": "proved", "theorems": ["C03_set_subset", "C03_set_subset_outcome", "C03_set_then_get", "C03_get_then_set", "C03_set_subset_diagonal_in_range", "C03_set_subset_diagonal_refuted"], "note": "The dense overloads satisfy the property. The DiagonalMatrix overload asserts against size() = n*n, so an index in [n, n*n) is written out of bounds (C03_set_subset_diagonal_refuted)."},
 {"property": "C04", "status": "proved", "theorems": ["C04_symmetric_subset", "C04_symmetric_subset_outcome", "C04_symmetric_subset_symmetric", "C04_rows_then_cols"], "note": ""},
 {"property": "C05", "status": "proved", "theorems": ["C05_group_by", "C05_keys", "C05_partition", "C05_counts"], "note": ""},
 {"property": "C06", "status": "proved", "theorems": ["C06_groups", "C06_get_group", "C06_combine_indices", "C06_apply", "C06_min", "C06_max"], "note": ""},
 {"property": "C07", "status": "proved", "theorems": ["C07_leave_one_out", "C07_kfold", "C07_kfold_groups", "C07_kfold_balanced", "C07_kfold_zero"], "note": "KFoldGrouper(0) on a non empty dataset is an integer division by zero (C07_kfold_zero)."},
 {"property": "C08", "status": "proved", "theorems": ["C08_dataset_filter", "C08_filter_vector", "C08_filter_set", "C08_filter_map", "C08_filter_positions", "C08_unique_value"], "note": ""},
 {"property": "C09", "status": "proved", "theorems": ["C09_create_fold", "C09_create_fold_rejects", "C09_folds_from_grouper", "C09_tests_cover_once", "C09_folds_from_indexer", "C09_indexer_round_trip", "C09_dataset_size"], "note": ""},
 {"property": "C10", "status": "proved", "theorems": ["C10_cv_mean", "C10_cv_marginal", "C10_cv_mean_pointwise", "C10_cv_scores", "C10_cv_empty_refuted"], "note": "Cross validating an empty dataset dereferences end() of an empty set (C10_cv_empty_refuted)."},
 {"property": "C11", "status": "proved", "theorems": ["C11_map_join", "C11_map_join_strict", "C11_map_join_strict_duplicate", "C11_map_join_strict_release", "C11_map_union", "C11_map_union_default", "C11_map_intersect", "C11_map_difference", "C11_map_symmetric_difference", "C11_map_difference_keys", "C11_map_intersect_keys", "C11_map_subset", "C11_map_subset_sorted", "C11_map_at_or", "C11_map_keys_values", "C11_all_any", "C11_vector_contains"], "note": ""},
 {"property": "C12", "status": "proved", "theorems": ["C12_apply_is_serial", "C12_apply_map_is_serial", "C12_apply_completes", "C12_apply_map_completes", "C12_no_deadlock", "C12_stuck_is_over", "C12_bounded", "C12_started_once", "C12_returned_all_done", "C12_shared_memory", "C12_exception_waits_refuted", "C12_thread_count"], "note": "Thread pool contract (every enqueued task is run once by some worker, futures rethrow) is modelled as a transition system over all schedules; C12_exception_waits_refuted: with a throwing task the caller leaves before the other tasks are done."},
 {"property": "C13", "status": "proved", "theorems": ["C13_cross", "C13_cross_is_serial", "C13_cross_completes", "C13_cross_written_once", "C13_symmetric_serial", "C13_symmetric_threaded", "C13_symmetric_is_serial", "C13_symmetric_completes", "C13_asymmetric_refuted", "C13_mean_vector"], "note": "C13_asymmetric_refuted: with an asymmetric function the threaded matrix differs from the serial one."},
 {"property": "C14", "status": "proved", "theorems": ["C14_partition_triangular", "C14_tiles", "C14_no_blocks_refuted"], "note": "C14_no_blocks_refuted: zero blocks is undefined behaviour. The square root is over the exact reals."},
 {"property": "C15", "status": "proved", "theorems": ["C15_distinct_in_range", "C15_outcomes", "C15_depth", "C15_returns", "C15_every_choice", "C15_random_without_replacement", "C15_full_range_refuted"], "note": "C15_full_range_refuted: the full 64 bit range overflows. Termination is relative to the draws of the random engine."},
 {"property": "C16", "status": "proved", "theorems": ["C16_deduplicate"], "note": ""},
 {"property": "C17", "status": "proved", "theorems": ["C17_align_pairs", "C17_align_features", "C17_align_unique", "C17_align_duplicates_refuted"], "note": "With repeated features every matching pair is emitted, so the output can exceed both inputs (C17_align_duplicates_refuted)."},
 {"property": "C18", "status": "proved", "theorems": ["C18_concatenate", "C18_concatenate_then_subset", "C18_concatenate_list", "C18_concatenate_variant", "C18_metadata_refuted"], "note": "Dataset metadata is dropped by subset and concatenate (C18_metadata_refuted)."},
 {"property": "C19", "status": "proved", "theorems": ["C19_order_irrelevant", "C19_forest_sorted", "C19_edge_order", "C19_minimum_spanning_forest", "C19_maximum_spanning_forest", "C19_create_graph_wf", "C19_add_edge_wf", "C19_missing_vertex"], "note": "std::sort is any function returning a sorted permutation; costs are integers"},
 {"property": "C20", "status": "proved", "theorems": ["C20_maximum_spanning_tree", "C20_minimum_spanning_tree", "C20_component", "C20_empty", "C20_self_loop_refuted", "C20_disconnected_refuted", "C20_order_irrelevant"], "note": "C20_self_loop_refuted, C20_disconnected_refuted: self loops and disconnected graphs."},
 {"property": "C21", "status": "proved", "theorems": ["C21_success", "C21_partition", "C21_consensus_distinct", "C21_no_consensus", "C21_exceeded", "C21_invalid_arguments", "C21_bounded", "C21_terminates", "C21_fit"], "note": "User callbacks are arbitrary functions that return; termination is relative to the draws."},
 {"property": "C22", "status": "proved", "theorems": ["C22_equality_is", "C22_iteration_equality", "C22_best_ignored_refuted", "C22_reflexivity_refuted"], "note": "C22_best_ignored_refuted: == ignores the selected candidate; C22_reflexivity_refuted: NaN scores."},
 {"property": "C23", "status": "proved", "theorems": ["C23_get", "C23_set_outcome", "C23_set", "C23_set_after_get", "C23_get_after_set", "C23_handler"], "note": ""},
 {"property": "C24", "status": "proved", "theorems": ["C24_clamp", "C24_nearest", "C24_forced_is_valid", "C24_validity", "C24_nan_refuted"], "note": "C24_nan_refuted: NaN passes through force_bounds."},
 {"property": "C25", "status": "proved", "theorems": ["C25_set_values", "C25_set_values_if_exists", "C25_set_if_exists", "C25_set_all_if_exists", "C25_prior_log_likelihood", "C25_set_param", "C25_union", "C25_set_value", "C25_set_prior", "C25_set_params", "C25_set_params_if_exists", "C25_shared_name_refuted", "C25_shared_name_unobservable", "C25_gp_shared_name_refuted"], "note": "C25_shared_name_refuted, C25_gp_shared_name_refuted: a name owned by two parts makes set_param unobservable."},
 {"property": "C26", "status": "proved", "theorems": ["C26_write_row", "C26_table", "C26_row", "C26_write_to_csv", "C26_size_mismatch", "C26_matrix", "C26_empty_dataset_refuted", "C26_unquoted_refuted", "C26_list_columns_refuted"], "note": "Holds for non-empty datasets whose names and values contain no commas or newlines. Refuted otherwise: an empty dataset writes nothing, text is not quoted, and list columns shift."},
 {"property": "C27", "status": "proved", "theorems": ["C27_last_iteration", "C27_tunable_values", "C27_exact", "C27_reserved_name_refuted"], "note": "Holds under the printed-number contract (values that print and parse back). Refuted for parameter names equal to the reserved columns; values are rounded to the printed digits."},
 {"property": "C28", "status": "proved", "theorems": ["C28_step", "C28_step_returns", "C28_step_rejects", "C28_step_too_few_refuted", "C28_sampler", "C28_sampler_returns", "C28_sampler_params", "C28_sampler_model", "C28_jitter", "C28_initial_state", "C28_initial_state_kept", "C28_two_finite_refuted", "C28_initial_state_diverges_refuted"], "note": "Every log probability function and random stream. Findings: fewer than two walkers or splits is undefined behaviour, the initial state needs three finite walkers although the message says two, and replacing non-finite walkers may never end."},
 {"property": "C29", "status": "proved", "theorems": ["C29_partner", "C29_stretch_range", "C29_on_line", "C29_random_complement"], "note": "Reals and extended reals instead of doubles."},
 {"property": "C30", "status": "proved", "theorems": ["C30_greedy_tune", "C30_no_worse", "C30_nan_not_selected", "C30_step", "C30_queries", "C30_queries_lower", "C30_queries_upper", "C30_queries_infinite", "C30_single_query_refuted"], "note": "Every objective, including NaN and infinite values. C30_single_query_refuted: with one query in each direction the queries are five ranges away on the wrong side."},
 {"property": "C31", "status": "proved", "theorems": ["C31_vector", "C31_gradient", "C31_valid", "C31_upper", "C31_lower", "C31_affine", "C31_stuck_at_upper_refuted", "C31_near_upper_refuted"], "note": "Forward differences over the reals. Refuted near the upper bound: parameters are clamped before the objective is evaluated, so the step down branch is dead, the entry is 0 at the upper bound for every objective and underestimated within a step of it."},
 {"property": "C32", "status": "proved", "theorems": ["C32_round_trip", "C32_rows", "C32_rejects"], "note": "zstd, gzip and base64 are oracles with lossless round trip contracts; the square root is over the reals. Entries above the diagonal are whatever the destination held."},
 {"property": "C33", "status": "proved", "theorems": ["C33_dense", "C33_dense_gzip", "C33_variant", "C33_variant_rejects", "C33_thread_pool"], "note": "Same oracles. A pool of one thread is loaded as no pool."},
 {"property": "C34", "status": "proved", "theorems": ["C34_sparse", "C34_round_trip_refuted", "C34_not_square_refuted"], "note": "The property is false of the code: C34_sparse characterises what is loaded (the transpose of the first half of the stored entries, or a failed assertion) and C34_round_trip_refuted, C34_not_square_refuted give witnesses."},
 {"property": "C35", "status": "proved", "theorems": ["C35_leave_one_out", "C35_positive_definite", "C35_conditional_unique"], "note": "Exact arithmetic over any field; hypotheses are invertibility, or just positive definiteness of prior covariance + target noise (C35_positive_definite). The LDLT factorization enters as its contract: solve(b) = A^-1 b, inverse_diagonal = diag(A^-1) (the factor-level model is C45)."},
 {"property": "C36", "status": "proved", "theorems": ["C36_leave_one_group_out", "C36_positive_definite", "C36_types", "C36_gp_refit", "C36_gp_means", "C36_gp_marginals_refuted"], "note": "Conditional law for every group and complement; also shown equal to refitting on the remaining data and predicting measurements of the held out features, plus the held out noise. C36_gp_marginals_refuted: the specialised marginals differ from refit-and-predict by that noise, so generic and specialised cross validation disagree on variances."},
 {"property": "C37", "status": "proved", "theorems": ["C37_update", "C37_updates", "C37_measurement_noise_refuted"], "note": "Single and arbitrary sequences of updates. C37_measurement_noise_refuted: with covariance terms that apply to measurements only, update() and refitting differ, because the update does not wrap new features as measurements."},
 {"property": "C38", "status": "proved", "theorems": ["C38_recovers", "C38_same_everywhere"], "note": "Proved for every fit reachable by fit / fit_from_prediction / update in any order."},
 {"property": "C39", "status": "proved", "theorems": ["C39_agree", "C39_subset"], "note": "Subset theorem covers every reachable fit, repeated and reordered features."},
 {"property": "C40", "status": "proved", "theorems": ["C40_posterior_psd", "C40_less_than_prior", "C40_update_shrinks"], "note": "Loewner order statements over any ordered field."},
 {"property": "C41", "status": "proved", "theorems": ["C41_interpolates", "C41_affine", "C41_mean_function", "C41_order_irrelevant", "C41_no_data"], "note": "Interpolation, affine dependence on targets, mean function equivariance, invariance under reordering the data, and the no-data case."},
 {"property": "C42", "status": "proved", "theorems": ["C42_conditional", "C42_types", "C42_gaussian_process", "C42_leave_one_group_out"], "note": "Including equality with GP regression and the relation to leave-one-group-out."},
 {"property": "C43", "status": "proved", "theorems": ["C43_block_symmetric", "C43_block_symmetric_schur", "C43_invertible", "C43_explained", "C43_direct_inverse"], "note": "For any inner representation that solves A, so nested BlockSymmetric are covered; also ExplainedCovariance and DirectInverse."},
 {"property": "C44", "status": "proved", "theorems": ["C44_to_dense", "C44_product", "C44_product_size", "C44_difference", "C44_difference_size", "C44_diagonal", "C44_blockwise", "C44_blockwise_threaded", "C44_threaded_completes", "C44_blockwise_size", "C44_product_not_square_refuted", "C44_difference_shape_refuted", "C44_solve", "C44_sqrt_solve", "C44_log_determinant"], "note": "Serial and threaded (every schedule of the pool machine) solve/sqrt_solve. Findings: product of non-square blocks reads a chunk with b.rows() rows (UB, C44_product_not_square_refuted); operator- compares only element counts (C44_difference_shape_refuted). rcond is not modelled."},
 {"property": "C45", "status": "proved", "theorems": ["C45_transpositions", "C45_square_root", "C45_inner_product", "C45_semidefinite", "C45_solve", "C45_inverse_blocks", "C45_inverse_diagonal", "C45_log_determinant", "C45_is_positive_definite"], "note": "Eigen's LDLT storage is modelled (matrixL, vectorD, transpositions, triangular solves by contract); all results in exact real arithmetic. factors f A is Eigen's contract A = P^T L D L^T P. Solve drops rows with |D| below Eigen's tolerance, so C45_solve requires |D| above it."},
 {"property": "C46", "status": "proved", "theorems": ["C46_posterior", "C46_agree", "C46_log_likelihood", "C46_one_group", "C46_fitc"], "note": "Exact real arithmetic, any inducing points (after the strategy ran), any grouping, any LDLT/QR that satisfies the stated contracts (shown satisfiable by plain_ldlt, plain_qr). Zero mean function; C48 has the general one. The log likelihood needs the pivots above Eigen's solve tolerance. The inducing point strategies are not modelled."},
 {"property": "C47", "status": "proved", "theorems": ["C47_update", "C47_groups"], "note": "Any history of updates, any order and grouping of the observations whose groups do not straddle batches. The rank deficient branch of update is modelled but does not occur under the QR contract."},
 {"property": "C48", "status": "proved", "theorems": ["C48_prediction", "C48_residuals", "C48_from_prediction", "C48_rebase", "C48_mean_function_refuted", "C48_rebase_refuted"], "note": "Settled: C48_prediction gives what is computed for every mean function; the claim itself is false (C48_mean_function_refuted): compute_internal_components copies y before removing the mean. rebase_inducing_points counts the mean function twice (C48_rebase, C48_rebase_refuted)."},
 {"property": "C49", "status": "proved", "theorems": ["C49_set_inducing_point_strategy", "C49_set_inducing_point_strategy_refuted", "C49_set_grouper_function"], "note": "Settled: the setter assigns its argument to itself, so it does nothing (C49_set_inducing_point_strategy, _refuted). set_grouper_function works."},
 {"property": "C50", "status": "proved", "theorems": ["C50_psd", "C50_psd_variants", "C50_product_refuted"], "note": "Proved for every expression tree of leaves, +, *, measurement_only and scaling terms, every list of plain features (objects, measurements, linear combinations of objects or variants, measurements of those) and every list of variants: the matrix of call results is positive semi-definite, if both factors of each product are defined for the same classes. Finding (C50_product_refuted): a factor undefined for a class pair counts as 1 and then products of psd functions need not be psd. Scaling functions need both arguments measured or both not (see C55_scaling_refuted)."},
 {"property": "C51", "status": "proved", "theorems": ["C51_value", "C51_decreasing", "C51_length_scale", "C51_bounded", "C51_infinite_distance_refuted", "C51_zero_vector_refuted", "C51_psd_euclidean", "C51_psd_scalar", "C51_psd_radial", "C51_angular_refuted"], "note": "Exact real arithmetic with infinities and NaN. C51_value characterises every finite argument of the four functions. C51_psd_scalar, C51_psd_euclidean (any dimension) and C51_psd_radial cover all four shapes with no bound on the number of points; the proofs derive positive definiteness of exp(-r), exp(-r^2) and the Matern functions from Cauchy matrices and Schoenberg's argument. C51_angular_refuted: with the angular distance the clamping at 1 - 1e-16 gives matrices that are not positive semidefinite (Exponential is the only shape programs can use with it, the others are rejected by static_asserts); C94 proves what does hold for angles. C51_zero_vector_refuted: a zero vector aborts under the angular distance. C51_infinite_distance_refuted: an infinite distance gives NaN for the Matern functions but 0 for the others."},
 {"property": "C52", "status": "proved", "theorems": ["C52_reproduces", "C52_process_noise", "C52_invalid"], "note": "C52_reproduces: the returned length scale is the unique positive one with the requested process noise, and process_noise_equivalent returns exactly that noise. C52_process_noise covers the four functions; C52_invalid all finite arguments with no solution. The Matern derivation is C67."},
 {"property": "C53", "status": "proved", "theorems": ["C53_bounds", "C53_calls", "C53_iteration", "C53_line", "C53_convex", "C53_start_refuted"], "note": "C53_bounds holds for arbitrary functions, including ones returning NaN or infinities, for a start within the bounds; C53_start_refuted shows that a start outside is returned unchanged when it already satisfies the tolerance. C53_iteration is the complete behaviour for finite functions; C53_line and C53_convex are consequences."},
 {"property": "C54", "status": "proved", "theorems": ["C54_double_sum", "C54_defined", "C54_variants", "C54_bilinear", "C54_matrix_product", "C54_sparse_product", "C54_matrix_mean", "C54_mean", "C54_mean_variant", "C54_mean_product_refuted", "C54_constant_refuted"], "note": "Call results are the double sum over the expansions, definedness characterised for class features and variants; matrix products give M K N^T and M mu, out of range columns are undefined behaviour (None). Findings: C54_constant_refuted (Constant ignores the coefficients of Measurement<LinearCombination<X>> and sums with it drop the other term), C54_mean_product_refuted."},
 {"property": "C55", "status": "proved", "theorems": ["C55_like_unmeasured", "C55_only_measured", "C55_measurements", "C55_scaling_refuted", "C55_combination_noise_refuted", "C55_double_measurement_refuted"], "note": "Full characterisation of calls on objects and measurements. Findings: C55_scaling_refuted (mixed measurement/object calls apply only one scaling factor), C55_combination_noise_refuted (noise of measured linear combinations dropped), C55_double_measurement_refuted."},
 {"property": "C56", "status": "proved", "theorems": ["C56_first_kind", "C56_second_kind", "C56_closed_forms", "C56_derivative", "C56_basis", "C56_negative", "C56_bounded"], "note": "Recursions over the exact reals; the negative orders raise an assertion (Abort) as in the code. C56_derivative is about the derivative of the polynomial function, there is no derivative in the code."},
 {"property": "C57", "status": "proved", "theorems": ["C57_uniform", "C57_improper", "C57_support", "C57_positive_bounds_refuted", "C57_gaussian_differences", "C57_gaussian_refuted", "C57_positive_gaussian_refuted", "C57_log_normal_refuted", "C57_log_scale_uniform_refuted", "C57_equality", "C57_uniform_equality_refuted"], "note": "Densities over exact extended reals. Proved: the uniform density is right everywhere (C57_uniform), the improper priors are 0 on their support, differences of gaussian log densities are right, bounds contain the support except for the positive and positive gaussian priors. The rest of the claim is false of the code: the gaussian normalisation multiplies log(2 pi) by log(sigma^2) (C57_gaussian_refuted), the positive gaussian prior only adds ln 2 to it and does not cut at 0, the log normal prior has half the variance it should, the log scale uniform prior is the plain uniform density, and the positive prior's bounds leave out (0, epsilon)."},
 {"property": "C58", "status": "proved", "theorems": ["C58_pdf", "C58_degenerate", "C58_dense", "C58_diagonal", "C58_independent", "C58_sizes", "C58_singular", "C58_singular_refuted"], "note": "Exact reals, Eigen's LDLT under ldlt_contract with pivots above the tolerance of its solve. C58_singular(_refuted): with a singular covariance of size other than 1 the negative log likelihood is -inf whatever the deviation, with size 1 it is NaN (C58_degenerate)."},
 {"property": "C59", "status": "proved", "theorems": ["C59_value", "C59_exactly_when", "C59_ordering", "C59_singular", "C59_additive", "C59_entropy_refuted", "C59_additive_refuted"], "note": "Settled negatively: C59_exactly_when characterises when the value is the entropy (one dimension or unit determinant), C59_entropy_refuted and C59_additive_refuted give witnesses; C59_ordering is what remains true."},
 {"property": "C60", "status": "proved", "theorems": ["C60_draw", "C60_draw_correct_when", "C60_draw_unpivoted", "C60_draw_refuted", "C60_antithetic", "C60_energy", "C60_energy_unweighted", "C60_energy_uncertain", "C60_energy_aborts", "C60_energy_weights_refuted", "C60_variogram", "C60_variogram_unweighted", "C60_variogram_uncertain", "C60_variogram_aborts", "C60_variogram_half", "C60_variogram_half_refuted", "C60_variogram_indefinite", "C60_expected_abs", "C60_expected_square", "C60_expected_degenerate", "C60_crps", "C60_crps_minimum", "C60_crps_degenerate"], "note": "Settled. Draws: M M^T is P P A (P P)^T, because transpositionsP() is applied where its transpose is needed; right exactly when P P commutes with A, refuted for diag(2,1,3). Energy score: value and non negativity for weights in [0,1] (and none); refuted for larger weights, since the first norm uses sqrt(w) and the second w. Variogram score: value, non negativity; it is half the documented sum over all i, j. Moments and CRPS are the integrals they stand for, given the contract of std::erf, which ErfExample.v shows to be met. Standard deviations of differences strictly between 0 and 1e-16 are excluded for the madogram."},
 {"property": "C61", "status": "proved", "theorems": ["C61_supremum", "C61_unique", "C61_order", "C61_bounds", "C61_empty", "C61_outside_refuted"], "note": "uniform_ks_test equals the supremum over t in [0,1] of the distance between the empirical distribution function and t (the specification is a least upper bound), does not depend on the order of the samples, lies in [1/(2n), 1], and is 0 for no samples. For samples outside [0,1] the value can exceed 1 (C61_outside_refuted)."},
 {"property": "C62", "status": "proved", "theorems": ["C62_moments", "C62_marginal", "C62_subset", "C62_subset_duplicates_refuted", "C62_laws", "C62_independent", "C62_psd", "C62_transform_joint", "C62_transform_marginal", "C62_transform_indefinite_refuted", "C62_approximately_equal", "C62_approximately_zero", "C62_concatenate", "C62_concatenate_sizes", "C62_concatenate_two", "C62_element"], "note": "Moments of sums, differences and scalings entry by entry; marginals and subsets commute with every operation; algebraic laws; positive semidefiniteness is preserved; matrix times joint gives M mu and M C M^T through the LDLT square root (the recorded LDLT contract), matrix times marginal gives its diagonal; approximate comparison is reflexive, symmetric, monotone in epsilon, exact at 0 and purely relative (nothing but zero is close to zero); concatenation writes every entry in order and aborts for inconsistent sizes. Findings: with repeated indices subset does not commute with adding marginal noise (C62_subset_duplicates_refuted); transforming an indefinite covariance does not give M C M^T (C62_transform_indefinite_refuted)."},
 {"property": "C63", "status": "proved", "theorems": ["C63_accumulate", "C63_accumulate_keys", "C63_inner_product", "C63_product", "C63_subtract", "C63_subtract_keys", "C63_diag_solve", "C63_diag_solve_keys", "C63_vertical_stack", "C63_vertical_stack_columns", "C63_empty_refuted"], "note": "Keys that differ are rejected by block_accumulate (assertion), block_subtract and block_diag_solve (assertion or out_of_range). Finding: empty vertical_stack and block_sum read the first element (C63_empty_refuted). block_product cannot be called without naming its unused template parameter; its body is modelled."},
 {"property": "C64", "status": "proved", "theorems": ["C64_scalar", "C64_euclidean", "C64_euclidean_value", "C64_radial", "C64_angular", "C64_size_mismatch", "C64_angular_zero_refuted", "C64_angular_triangle_refuted", "C64_distance_matrix"], "note": "Metric axioms in exact arithmetic. C64_angular characterises angular_distance including both clamps; C64_angular_zero_refuted (NaN for a zero vector) and C64_angular_triangle_refuted (triangle inequality fails by the clamp) are findings. C64_distance_matrix characterises the table for every metric."},
 {"property": "C65", "status": "proved", "theorems": ["C65_objective", "C65_result", "C65_dimension", "C65_mean", "C65_mean_of_none"], "note": "nlopt is an oracle whose contract is to return a point within its bounds. The mean of no metrics is NaN."},
 {"property": "C66", "status": "proved", "theorems": ["C66_model", "C66_model_rejects", "C66_explained", "C66_direct_inverse", "C66_layout", "C66_parameters", "C66_gp_model", "C66_gp_model_rejects", "C66_distribution", "C66_dataset", "C66_ldlt", "C66_ldlt_equal", "C66_ldlt_l1_norm_refuted", "C66_ldlt_equal_refuted", "C66_gp_fit", "C66_sparse_gp_fit", "C66_block_symmetric", "C66_linear_combination", "C66_ransac_output", "C66_fit_model"], "note": "Archives are streams of named values read in order. C66_ldlt_l1_norm_refuted: the l1 norm of a factorization is not saved. C66_ldlt_equal_refuted: comparing an initialized with an uninitialized factorization fails an assertion."},
 {"property": "C67", "status": "proved", "theorems": ["C67_small_requests", "C67_reproduces_refuted", "C67_matern"], "note": "Settled: false as stated. C67_matern is the complete behaviour (outcome, bounds, Newton iteration with exact derivative, out of reach requests); C67_small_requests: requests up to 1/10000 of the prior are reproduced with relative error 2e-12, 50 steps being enough; C67_reproduces_refuted: for both functions, every distance and every prior there is a request for which the solver cycles and returns a length scale 10000 times too long."},
 {"property": "C68", "status": "proved", "theorems": ["C68_value", "C68_ignores_noise", "C68_impossible_parameters", "C68_noise_refuted"], "note": "C68_value gives the value for every dataset; C68_ignores_noise and C68_noise_refuted show that it is not the likelihood of noisy targets, whose covariance is K + diag(noise) in fit."},
 {"property": "C69", "status": "proved", "theorems": ["C69_rmse", "C69_rmse_metric", "C69_rmse_bounds", "C69_standard_deviation", "C69_standard_deviation_laws", "C69_bias_and_spread", "C69_order", "C69_nll_joint", "C69_nll_marginal", "C69_nll_uncorrelated", "C69_sizes"], "note": "Exact real arithmetic. The likelihood theorems use the LDLT contract of DESIGN.md."},
 {"property": "C70", "status": "proved", "theorems": ["C70_likelihood", "C70_likelihood_marginal", "C70_kinds", "C70_gp_group", "C70_noise_free", "C70_noise_counted_twice_refuted", "C70_rmse", "C70_rmse_bound", "C70_rmse_refuted"], "note": "C70_noise_counted_twice_refuted: GP cross validated predictions are the law of the noisy measurements (C36), and the likelihood metric adds the noise of the targets again. C70_rmse / C70_rmse_refuted: LeaveOneOutRMSE averages the root mean square errors of single points, which is the mean absolute error, at most the root mean square error (C70_rmse_bound)."},
 {"property": "C71", "status": "proved", "theorems": ["C71_principal_sqrt", "C71_positive_part", "C71_nan", "C71_empty", "C71_negative_definite_refuted", "C71_least_cost", "C71_symmetric", "C71_separates", "C71_triangle", "C71_location", "C71_triangle_refuted"], "note": "Settled with two refutations. The function returns the squared distance, so the triangle inequality holds for its square root (C71_triangle) and fails for the value (C71_triangle_refuted). The clamp threshold is relative to the smallest positive eigenvalue, so a negative definite matrix has square root zero instead of NaN (C71_negative_definite_refuted). Exact arithmetic; the eigen solver is any function whose result decomposes the two matrices it is called on."},
 {"property": "C72", "status": "proved", "theorems": ["C72_invalid", "C72_invalid_dof", "C72_zero_dof", "C72_limits", "C72_invalid_dof_refuted", "C72_deviation", "C72_deviation_scale", "C72_deviation_degenerate", "C72_quadrature", "C72_specification", "C72_probability", "C72_accuracy", "C72_near_zero", "C72_near_zero_refuted", "C72_eleven_digits", "C72_infinite_refuted", "C72_vector", "C72_vector_coordinates", "C72_vector_zero", "C72_prediction", "C72_vector_sizes"], "note": "C72_accuracy covers every degree of freedom below twenty and every argument from 2 epsilon on. The truncated continued fraction is a quotient of two polynomials (FractionPoly.v); the denominator is shown positive on the whole quadrant by signs of coefficients after substitution (PosPoly.v, FractionBound.v), and the determinant of the two solutions of the recurrence gives the error; above the cut the complement is bounded (GammaTail.v). The 3e-5 is not sharp: the true error is about 3e-7, where the code rounds to 1. Refuted: negative or NaN degrees of freedom still give 0 below epsilon and 1 at infinity (C72_invalid_dof_refuted); incomplete_gamma(a, infinity) is NaN instead of 1 for a < 10 (C72_infinite_refuted); for a small fraction of a degree of freedom the code gives 0 where the true value is above 0.7 (C72_near_zero_refuted). Contracts: std::tgamma and std::lgamma are exact on positive arguments (GammaExample.v shows a function that meets the contract), Eigen::LLT returns a lower triangular L with L L^T = A."},
 {"property": "C73", "status": "proved", "theorems": ["C73_linspace", "C73_linspace_other", "C73_uniform", "C73_uniform_other", "C73_state_space", "C73_length_scale", "C73_coverage", "C73_spacing_refuted", "C73_distinct", "C73_sum", "C73_duplicates_refuted"], "note": "Exact arithmetic. Refuted: the decorrelation promised by the comments (n points have n - 1 gaps), and distinctness of the points for sums, products and constant features; zero inducing points abort in linspace (to_double of size_t underflow) and a zero length scale in safe_cast_to_size_t. Not modelled: representations of different feature types (variants)."},
 {"property": "C74", "status": "proved", "theorems": ["C74_type", "C74_concatenate", "C74_concatenate_list", "C74_datasets", "C74_to_variant", "C74_extract", "C74_extract_dataset", "C74_round_trip", "C74_partition"], "note": "C++ types are numbers; a static type is one of them or a list of alternatives. What does not compile is None. Finding: variants with the same alternatives in a different order cannot be concatenated, and extraction drops the metadata of a dataset (like C18_metadata_refuted)."},
 {"property": "C75", "status": "proved", "theorems": ["C75_solver_exists", "C75_fit", "C75_unique", "C75_recovers", "C75_predict", "C75_regression", "C75_regression_recovers", "C75_variances", "C75_common_variance", "C75_no_data_refuted"], "note": "The Householder QR solver is a contract: it solves the normal equations (C75_solver_exists: satisfiable for every matrix over every real field). C75_no_data_refuted: a fit to no data reads features[0] of an empty vector. Exact arithmetic."},
 {"property": "C76", "status": "proved", "theorems": ["C76_available", "C76_agree", "C76_one_method", "C76_direct", "C76_empty", "C76_get", "C76_null"], "note": "Whether the methods of a particular model agree is a hypothesis (consistent); it holds trivially for one method and is proved of the null model, and of Gaussian processes by C36."},
 {"property": "C77", "status": "proved", "theorems": ["C77_temporary", "C77_named", "C77_evaluated_late", "C77_update", "C77_update_in_place", "C77_noisy_temporary_refuted", "C77_snapshot_refuted"], "note": "C77_noisy_temporary_refuted: model.fit(d).predict_with_measurement_noise(x) keeps references to the destroyed temporary, because unlike predict it has no overload for temporaries. C77_snapshot_refuted: update_in_place changes the answers of predictions made before it."},
 {"property": "C78", "status": "proved", "theorems": ["C78_functions", "C78_callbacks", "C78_sizes", "C78_outside", "C78_default", "C78_chi_squared"], "note": "Composes C42 (conditional law) and C21 (RANSAC). Metrics are arbitrary functions of the distributions; C78_callbacks shows the callback hypotheses can be met for every data set. The functions returned by the strategy capture the metric objects by reference, so they must not outlive the strategy (not modelled)."},
 {"property": "C79", "status": "proved", "theorems": ["C79_psd", "C79_state_space", "C79_nugget", "C79_repeated_refuted", "C79_nan_refuted", "C79_polynomial", "C79_regression"], "note": "C79_repeated_refuted: two equal features leave the matrix singular in spite of the nugget, against the comment in nugget.hpp. C79_nan_refuted: a feature not equal to itself gets no noise. Exact arithmetic."},
 {"property": "C80", "status": "proved", "theorems": ["C80_coordinates", "C80_exact", "C80_recovers", "C80_residual", "C80_least", "C80_operator", "C80_zero_threshold_refuted"], "note": "Exact arithmetic; the eigen decomposition (SelfAdjointEigenSolver) enters as a contract: orthonormal eigenvectors. C80_zero_threshold_refuted: with a threshold of zero a singular matrix gives a result that is not finite."},
 {"property": "C81", "status": "proved", "theorems": ["C81_sparse", "C81_dense", "C81_sparse_safe", "C81_dense_safe", "C81_complex_refuted", "C81_pattern_refuted", "C81_unpacked_refuted", "C81_common", "C81_spqr", "C81_matrixR", "C81_default_refuted", "C81_R_refuted"], "note": "Settled. Findings: loading a complex array overflows the heap (the buffer is allocated for real entries), pattern-only and unpacked matrices are not restored, saving an uncomputed factorization dereferences a null pointer, the cached R is not restored."},
 {"property": "C82", "status": "proved", "theorems": ["C82_trace", "C82_first", "C82_value", "C82_name_refuted", "C82_shape", "C82_print"], "note": "Settled. Finding: the line of a sum or product shows the name of a default constructed one, which differs from get_name when a part has a name that depends on its state."},
 {"property": "C83", "status": "proved", "theorems": ["C83_small", "C83_large", "C83_count_refuted", "C83_features_refuted"], "note": "Settled. Finding: neither count nor the number of features is checked, so asking for more directions than the matrix has is undefined behaviour."},
 {"property": "C84", "status": "proved", "theorems": ["C84_factors", "C84_wide_refuted", "C84_sqrt_solve", "C84_inner_product", "C84_dependent", "C84_threshold_small", "C84_threshold_large", "C84_threshold_positive", "C84_threshold_scale", "C84_threshold_scale_refuted", "C84_create"], "note": "Settled. Findings: get_R and sqrt_solve of a matrix with fewer rows than columns fail an assertion; the threshold of matrices below 300 rows or columns is absolute, so a well conditioned small matrix of small scale has all columns below it and is treated as having rank 0."},
 {"property": "C85", "status": "proved", "theorems": ["C85_tracks", "C85_increasing"], "note": "Settled."},
 {"property": "C86", "status": "proved", "theorems": ["C86_string", "C86_string_any", "C86_maybe_string_any", "C86_elements", "C86_elements_any", "C86_maybe_throws_refuted"], "note": "Settled. Round trips of strings and elements, behaviour on arbitrary input, memory safety. Finding: maybe_decompress into a string throws std::length_error when the frame header claims more than max_size bytes instead of returning false. zstd is a contract."},
 {"property": "C87", "status": "proved", "theorems": ["C87_covariance", "C87_covariance_psd", "C87_covariance_pd", "C87_covariance_gamma", "C87_normal", "C87_normal_moments", "C87_normal_sizes", "C87_sparse", "C87_sparse_returns", "C87_sparse_endless", "C87_sparse_empty_refuted"], "note": "Settled over exact arithmetic. Findings: random_sparse_matrix of zero rows or columns is undefined (empty integer range); with fill > 1 it never returns. Contracts: QR gives an orthogonal Q, LLT gives a square root, engines stay in range."},
 {"property": "C88", "status": "proved", "theorems": ["C88_groups", "C88_groups_loo", "C88_functions", "C88_unknown", "C88_callbacks", "C88_total", "C88_fit", "C88_predict", "C88_sizes", "C88_overloads", "C88_default_failures_refuted", "C88_failures_unused", "C88_model_agrees"], "note": "Any model, metrics and grouping, composed with the loop of C21. Finding C88_default_failures_refuted: the free function and the model disagree on how many candidate sets may be turned down when this is not said. Callbacks that throw (metrics, the sub model) are outside the model; serialization of the fit is C66."},
 {"property": "C89", "status": "proved", "theorems": ["C89_dataset_groups", "C89_with", "C89_with_sizes", "C89_with_grouped", "C89_first_group", "C89_first_group_empty_refuted", "C89_filter", "C89_counts", "C89_mean", "C89_mean_empty", "C89_all_any"], "note": "Complements C05 and C06. first_group of nothing is undefined (C89_first_group_empty_refuted). Exact arithmetic for sum and mean of doubles."},
 {"property": "C90", "status": "proved", "theorems": ["C90_euclidean_symmetric", "C90_euclidean", "C90_euclidean_infinite_refuted", "C90_vector_symmetric", "C90_vector", "C90_vector_distinct_refuted", "C90_vector_overflow_refuted", "C90_radial_distance", "C90_radial_distance_refuted", "C90_angular", "C90_angular_self_refuted", "C90_angular_nan_refuted", "C90_squared_exponential", "C90_exponential", "C90_covariance", "C90_matern", "C90_matern_bounded_refuted", "C90_matern_nan_refuted", "C90_bad_arguments"], "note": "FloatModel uses Flocq's binary64 with round to nearest even and a single NaN. exp, pow(x,2) and acos are quantified over functions meeting the contracts of FloatCovSpec (a correctly rounded exp is shown to meet them); Eigen's sums are any order and bracketing. Findings: infinite features are at distance NaN from themselves; different vectors at distance zero by underflow; norm overflow; radial distance of a vector to itself NaN; angular distance of (1,1) to itself is positive; zero vectors have NaN angles that stop the program; Matern covariances larger than the variance by rounding; Matern covariances NaN when the polynomial factor overflows. Fused multiply-add and extended precision are not modelled. Positive definiteness of rounded matrices is not claimed."},
 {"property": "C91", "status": "proved", "theorems": ["C91_means", "C91_marginals", "C91_joints", "C91_mean", "C91_mean_by_group", "C91_scores", "C91_marginal_scores", "C91_scores_agree_refuted", "C91_duplicate_refuted"], "note": "Proved over any ordered field for every dataset, positive definite covariance and set of groups. Findings: for a metric that reads variances scores(metric, dataset, groups) differs from scores(metric, folds), as only the first adds the noise of held out targets; a group listing an observation twice is accepted by the shortcut and asserted against by folds."},
 {"property": "C92", "status": "proved", "theorems": ["C92_vector", "C92_vector_any", "C92_start_refuted", "C92_objective", "C92_eigen", "C92_eigen_empty_refuted", "C92_model_objective", "C92_model"], "note": "Proved for up to ten variables; for any number the start is some permutation of the values. Findings: with more than ten variables the start is permuted (the names \"10\" and \"2\" are in lexicographic order); an Eigen objective without variables is undefined behaviour."},
 {"property": "C93", "status": "proved", "theorems": ["C93_move", "C93_averages_exist", "C93_acceptance", "C93_nearly_invariant", "C93_invariant_bounded", "C93_invariant", "C93_one_parameter"], "note": "C93_move connects the sampler's model to Metropolis's rule on the line through the partner; the invariance theorems are about that rule with the model's own stretch, by exchanging each stretch with its inverse (substitution in both integrals). C93_one_parameter: with one parameter the line is the whole space, so the target density itself is invariant. Not formalised: for n > 1 the step from all lines through the partner to R^n (polar coordinates), coordinates in which walker and partner coincide (there the code moves by 1e-6 instead, a null event for continuous densities), and the quality of the random engine."},
 {"property": "C94", "status": "proved", "theorems": ["C94_exponential", "C94_exponential_nearly", "C94_rejected_combinations"], "note": "C94_exponential: any number of directions whose pairwise angles the clamping of AngularDistance leaves alone. C94_exponential_nearly: all nonzero directions, with the size of the diagonal that makes up for the clamping. C94_rejected_combinations: for the directions 0, 90, 180, 270 degrees the three shapes guarded by a static_assert have a negative quadratic form, so the static_asserts are necessary, and by C94_exponential the missing one is not. The static_asserts themselves are compile time and not modelled."},
 {"property": "C95", "status": "partial", "theorems": ["C95_accuracy_partial", "C95_positive", "C95_saturates"], "note": "Partial: C95_accuracy_partial reduces the error to that of the best polynomial of degree 99 for the density on the window, plus 1e-10 for the tails; the error of that polynomial is missing, and with it the upper bound 1 (numerically the result exceeds 1 by 4e-13 at a = 500)."},
 {"property": "C96", "status": "proved", "theorems": ["C96_calibrated", "C96_best", "C96_variance", "C96_unique"], "note": "The joint distribution of observations and values has finitely many outcomes, so that expectations are sums; exact arithmetic."},
 {"property": "C97", "status": "proved", "theorems": ["C97_sufficient", "C97_collapse", "C97_split"], "note": "Positive variances and exact arithmetic; a covariance function that is positive semidefinite on the features themselves. Variances of zero with repeated features give a singular matrix and are excluded."},
 {"property": "C98", "status": "proved", "theorems": ["C98_mean", "C98_variance", "C98_limit"], "note": "Explicit bounds for the mean and the variance, and that they vanish with the nugget. The inducing points must include the observed features and the covariance function must not treat measurements specially (both are hypotheses); mean function 0 as in C46, since a mean function is not removed (C48_mean_function_refuted)."},
 {"property": "C99", "status": "proved", "theorems": ["C99_dense", "C99_sparse", "C99_invertible", "C99_dependent_refuted", "C99_identity_refuted"], "note": "C99_dense and C99_sparse say what is learned; C99_invertible that nothing changes for invertible matrices that keep the noise independent; C99_dependent_refuted (covariances of the noise are dropped) and C99_identity_refuted (1 * dataset loses measurement_only noise) are findings."},
 {"property": "C100", "status": "proved", "theorems": ["C100_columns", "C100_exact", "C100_row", "C100_empty_refuted", "C100_dot_refuted", "C100_reserved_refuted"], "note": "C100_columns for every document, C100_exact and C100_row for features with proper names; C100_empty_refuted, C100_dot_refuted and C100_reserved_refuted are findings. cereal and rapidxml are external: the tree is the input."},
 {"property": "C101", "status": "proved", "theorems": ["C101_read_back", "C101_injective", "C101_priors", "C101_details", "C101_details_empty_refuted"], "note": "C101_read_back, C101_injective, C101_priors, C101_details; C101_details_empty_refuted is a finding. Number formatting is a parameter of the model."},
 {"property": "C102", "status": "proved", "theorems": ["C102_between", "C102_update_shrinks", "C102_affine", "C102_order", "C102_no_data", "C102_overconfident_refuted"], "note": "Over the reals, with factorizations that satisfy the recorded contracts of LDLT and QR; positive inducing nugget and positive noise plus measurement nugget. The claim that the approximation is never more certain than the exact process is refuted with two observations of one feature in different groups."},
 {"property": "C103", "status": "proved", "theorems": ["C103_two_parts", "C103_batches", "C103_log_likelihood"], "note": "C103_two_parts and C103_log_likelihood are about negative_log_likelihood and log_likelihood with every pivot above Eigen's tolerance; C103_batches is about the log density that they compute (C58, C68), for any number of updates. Exact real arithmetic."},
 {"property": "C104", "status": "proved", "theorems": ["C104_group", "C104_batches", "C104_order", "C104_mean_function_refuted", "C104_groups_refuted"], "note": "C104_group and C104_batches need a mean function that is 0 and batches of one group; C104_mean_function_refuted and C104_groups_refuted show that both are needed. C104_order holds for any grouping under which the same observations are together. Exact real arithmetic, factorizations by contract (SparseGpSpec.v)."},
 {"property": "C105", "status": "proved", "theorems": ["C105_shift", "C105_laws", "C105_update", "C105_at_inducing", "C105_at_inducing_refuted", "C105_from_prediction", "C105_size", "C105_equal", "C105_equivalence"], "note": "C105_shift, C105_laws and C105_update hold for every fit and any updates. C105_at_inducing gives what the prediction moves by at the inducing points; C105_at_inducing_refuted shows that it is the shift only if that is zero; C105_from_prediction covers fits made from a prediction, where it is. C105_equal and C105_equivalence compare fits with the same number of inducing points (otherwise the features differ). Exact real arithmetic, factorizations by contract (SparseGpSpec.v)."},
 {"property": "C106", "status": "proved", "theorems": ["C106_solve", "C106_predict", "C106_update", "C106_features", "C106_division_refuted", "C106_fit_agrees", "C106_update_agrees", "C106_distributions", "C106_datasets", "C106_distributions_refuted", "C106_not_computed_refuted"], "note": "C106_solve covers all four representations by induction over the nesting of BlockSymmetric; C106_predict and C106_update follow for all fits. C106_fit_agrees and C106_update_agrees connect the fits compared here with those of GpModel.v. C106_distributions_refuted, C106_not_computed_refuted and C106_division_refuted are the cases where operator== aborts, by assertions of Eigen. Entries are reals, so NaN, which is not equal to itself, is not covered; sizes may differ and are compared."}
]}
