{
 "claims": [
  {
   "property": "C01",
   "status": "proved",
   "theorems": [
    "k_fold_partition",
    "k_fold_features_partition"
   ],
   "note": ""
  },
  {
   "property": "C02",
   "status": "proved",
   "theorems": [
    "k_fold_fix_size"
   ],
   "note": ""
  },
  {
   "property": "C03",
   "status": "proved",
   "theorems": [
    "split_index_hierarchy",
    "split_index_hierarchy_max"
   ],
   "note": ""
  },
  {
   "property": "C04",
   "status": "partial",
   "theorems": [
    "split_index_always_returns_refuted",
    "split_index_returns_iff_partial"
   ],
   "note": "refuted: for min_split < len(index) < 2*min_split the function falls off its loop and returns None; the exact condition under which it returns is proved."
  },
  {
   "property": "C05",
   "status": "proved",
   "theorems": [
    "split_predict_pairs",
    "split_predict_never_tests_on_training_data"
   ],
   "note": ""
  },
  {
   "property": "C06",
   "status": "partial",
   "theorems": [
    "compile_split_complete_refuted",
    "compile_split_complete_partial",
    "compile_split_fails_at_multiples"
   ],
   "note": "refuted: subset sizes that are a positive multiple of 999 fail; complete for every other size."
  },
  {
   "property": "C07",
   "status": "proved",
   "theorems": [
    "ga_population_fitness_paired"
   ],
   "note": ""
  },
  {
   "property": "C08",
   "status": "partial",
   "theorems": [
    "ga_best_is_best_ever",
    "ga_best_with_duplicate_removal_partial",
    "ga_best_never_decreases_refuted"
   ],
   "note": "proved in full when no accuracy is set; refuted: with an accuracy, duplicate removal keeps the first of two candidates with equal rounded fitness and can drop the better one (only the rounded best is preserved)."
  },
  {
   "property": "C09",
   "status": "proved",
   "theorems": [
    "population_reduction_keeps_fittest",
    "ga_population_size_constant"
   ],
   "note": ""
  },
  {
   "property": "C10",
   "status": "proved",
   "theorems": [
    "remove_duplicates_first_representatives"
   ],
   "note": ""
  },
  {
   "property": "C11",
   "status": "proved",
   "theorems": [
    "parallel_fitness_equals_serial"
   ],
   "note": ""
  },
  {
   "property": "C12",
   "status": "proved",
   "theorems": [
    "cut_and_splice_genes",
    "random_permutation_flips_one_gene",
    "probability_remove_genes",
    "probability_include_genes"
   ],
   "note": ""
  },
  {
   "property": "C13",
   "status": "partial",
   "theorems": [
    "candidates_respect_dmax_refuted",
    "mutation_respects_dmax_refuted",
    "removal_respects_dmax_partial"
   ],
   "note": "refuted: mating is never checked against dmax and the extra removal after a mutation need not remove enough; only removal is safe."
  },
  {
   "property": "C14",
   "status": "partial",
   "theorems": [
    "initial_population_well_formed_partial",
    "every_feature_can_be_active_refuted"
   ],
   "note": "refuted: with dmax set, features with index >= dmax are never active in the initial population; the rest is proved."
  },
  {
   "property": "C15",
   "status": "partial",
   "theorems": [
    "fitter_more_likely_refuted",
    "selection_prob_open"
   ],
   "note": "refuted in general: the strictly fitter of two candidates always gets the strictly smaller acceptance probability."
  },
  {
   "property": "C16",
   "status": "proved",
   "theorems": [
    "pareto_transform_always_terminates",
    "pareto_ranks_follow_domination",
    "pareto_partially_failed_refuted"
   ],
   "note": "for candidates that evaluated in all objectives or failed in all (what _cross_validate produces); an additional theorem shows that a fitness function returning -inf in a single objective breaks the ranking."
  },
  {
   "property": "C17",
   "status": "partial",
   "theorems": [
    "failed_candidates_never_best_refuted"
   ],
   "note": "refuted in general: failed candidates get rank 0, strictly above every evaluated one."
  },
  {
   "property": "C18",
   "status": "proved",
   "theorems": [
    "no_progress_converges_exactly",
    "stagnation_converges_exactly",
    "search_stops_exactly"
   ],
   "note": ""
  },
  {
   "property": "C66",
   "status": "partial",
   "theorems": [
    "pareto_search_improves_refuted",
    "pareto_selection_keeps_nondominated_refuted"
   ],
   "note": "refuted in general: a full population of rank -1 is never changed by offspring that evaluate."
  },
  {
   "property": "C67",
   "status": "proved",
   "theorems": [
    "fitness_is_mean_over_folds",
    "fitness_is_k_fold_cross_validation",
    "fitness_ignores_inactive_features"
   ],
   "note": ""
  },
  {
   "property": "C68",
   "status": "partial",
   "theorems": [
    "candidates_have_a_feature_refuted",
    "remove_include_keep_a_feature_partial"
   ],
   "note": "refuted: flipping the only active gene gives an empty candidate; removal and inclusion are safe."
  },
  {
   "property": "C19",
   "status": "proved",
   "theorems": [
    "greedy_elimination_faithful",
    "importance_elimination_faithful"
   ],
   "note": "for number-valued predict (list-valued: see C69); also proved for importance_elimination."
  },
  {
   "property": "C20",
   "status": "proved",
   "theorems": [
    "greedy_elimination_crash_resume"
   ],
   "note": "crash points between saves; each process may use any worker schedule; the result is that of an uninterrupted run on the folds of the first process that saved. Crashes inside a save: see C70."
  },
  {
   "property": "C21",
   "status": "partial",
   "theorems": [
    "greedy_elimination_schedule_independent",
    "importance_elimination_schedule_independent",
    "importance_metadata_schedule_refuted"
   ],
   "note": "features, scores and survivors are schedule independent; refuted for the extra values reported by importance_elimination."
  },
  {
   "property": "C22",
   "status": "partial",
   "theorems": [
    "importance_metadata_attribution_refuted",
    "importance_metadata_partial"
   ],
   "note": "refuted: row g carries the extra values of the g-th remaining feature, not of the eliminated one."
  },
  {
   "property": "C23",
   "status": "proved",
   "theorems": [
    "feature_invariance_spec",
    "feature_randomize_spec",
    "feature_shuffle_spec"
   ],
   "note": "the caller's matrices are not arguments that the model returns, because the code copies before assigning."
  },
  {
   "property": "C69",
   "status": "partial",
   "theorems": [
    "greedy_elimination_list_result_refuted"
   ],
   "note": "refuted in general: every run with at least one round raises."
  },
  {
   "property": "C70",
   "status": "partial",
   "theorems": [
    "greedy_elimination_crash_during_save_refuted",
    "greedy_elimination_crash_resume"
   ],
   "note": "refuted: the save truncates the file first; a crash inside the write makes every later run fail. All other crash points are safe."
  },
  {
   "property": "C24",
   "status": "proved",
   "theorems": [
    "acquisition_keeps_partition",
    "acquisition_refuses_bad_start"
   ],
   "note": ""
  },
  {
   "property": "C25",
   "status": "partial",
   "theorems": [
    "serial_ensemble_shares_subset_refuted",
    "serial_ensemble_default_subset_partial"
   ],
   "note": "refuted in general: the caller's list is extended in place, and every later serial run is empty; independent when no initial subset is given."
  },
  {
   "property": "C26",
   "status": "proved",
   "theorems": [
    "acquire_returns_best"
   ],
   "note": ""
  },
  {
   "property": "C27",
   "status": "partial",
   "theorems": [
    "ei_respects_objective",
    "pi_respects_objective",
    "ucb_min_respects_objective_partial",
    "ucb_max_respects_objective_refuted",
    "optimistic_max_respects_objective_partial",
    "optimistic_min_respects_objective_refuted",
    "proximity_prefers_closer",
    "probability_density_prefers_closer"
   ],
   "note": "refuted for UCB with objective 'max' and for optimistic under 'min'; proved for EI, PI, UCB 'min', optimistic 'max', proximity and probability_density."
  },
  {
   "property": "C71",
   "status": "partial",
   "theorems": [
    "rank_float_objective_refuted"
   ],
   "note": "refuted in general: UCB, EI and PI return None."
  },
  {
   "property": "C72",
   "status": "partial",
   "theorems": [
    "classify_ignores_classes_refuted"
   ],
   "note": "refuted in general: classify equals rank for every classifier."
  },
  {
   "property": "C28",
   "status": "proved",
   "theorems": [
    "query_after_any_history",
    "columns_after_any_history",
    "update_changes_no_other_cell"
   ],
   "note": "Histories that overwrite the uuid column itself are excluded."
  },
  {
   "property": "C29",
   "status": "proved",
   "theorems": [
    "fingerprint_is_first_written",
    "stored_value_is_final"
   ],
   "note": ""
  },
  {
   "property": "C30",
   "status": "partial",
   "theorems": [
    "get_fingerprints_ignores_request_order",
    "get_fingerprints_request_order_refuted",
    "get_fingerprints_single_id_refuted",
    "get_fingerprints_missing_value_refuted",
    "get_fingerprints_sorted_partial",
    "requested_parameters"
   ],
   "note": "refuted in general: row order ignores the request, one id fails, missing values are broadcast or shift rows; proved for two or more ids in increasing order with complete values."
  },
  {
   "property": "C73",
   "status": "partial",
   "theorems": [
    "fill_ignores_names_refuted",
    "fill_depends_only_on_name_count",
    "fill_in_table_order_partial"
   ],
   "note": "refuted in general: the names are ignored; proved for names in table order."
  },
  {
   "property": "C74",
   "status": "proved",
   "theorems": [
    "successful_calls_survive_crash"
   ],
   "note": ""
  },
  {
   "property": "C75",
   "status": "partial",
   "theorems": [
    "failed_fill_leaves_rows_refuted",
    "failed_fill_keeps_old_rows_partial"
   ],
   "note": "refuted in general: rows before the malformed one stay; old rows are never altered."
  },
  {
   "property": "C76",
   "status": "proved",
   "theorems": [
    "with_block_saves_all",
    "crash_keeps_prefix"
   ],
   "note": ""
  },
  {
   "property": "C77",
   "status": "partial",
   "theorems": [
    "default_symbol_refuted",
    "default_symbol_partial"
   ],
   "note": "refuted on an empty table and when the text is taken; proved otherwise."
  },
  {
   "property": "C31",
   "status": "partial",
   "theorems": [
    "rescale_inverts_partial",
    "test_rows_scaled_like_training",
    "rescale_constant_refuted"
   ],
   "note": "refuted for constant targets: the scaled values are not finite and do not come back; proved for all other targets and for the features."
  },
  {
   "property": "C32",
   "status": "proved",
   "theorems": [
    "standardize_statistics",
    "normalize_statistics",
    "min_max_statistics",
    "unit_length_rows"
   ],
   "note": "exact real arithmetic; both for statistics of the training data and of train and test together."
  },
  {
   "property": "C33",
   "status": "proved",
   "theorems": [
    "clean_variance_aligned",
    "clean_variance_removes_constant",
    "clean_skewness_aligned",
    "clean_infinite_aligned"
   ],
   "note": "max_impute_fraction = 0 (the default)."
  },
  {
   "property": "C34",
   "status": "partial",
   "theorems": [
    "remove_outliers_keeps_within_one_mad",
    "remove_outliers_dev_one_partial",
    "remove_outliers_ignores_dev_refuted",
    "remove_outliers_removes_constant_refuted"
   ],
   "note": "refuted: dev has no effect and constant targets are all removed; proved: what is kept (strictly within one scaled deviation, features aligned), and the claim for dev = 1 when no target sits on the boundary."
  },
  {
   "property": "C35",
   "status": "proved",
   "theorems": [
    "transform_repeats_process",
    "transform_rowwise",
    "transform_needs_process"
   ],
   "note": ""
  },
  {
   "property": "C40",
   "status": "partial",
   "theorems": [
    "holdout_rows_partition_partial",
    "holdout_targets_refuted"
   ],
   "note": "refuted for targets: they are not shuffled and the two parts are exchanged; rows are partitioned."
  },
  {
   "property": "C78",
   "status": "partial",
   "theorems": [
    "clean_infinite_respects_mask",
    "clean_variance_ignores_mask_refuted",
    "clean_masks_have_no_effect_refuted"
   ],
   "note": "refuted for clean_variance and clean_skewness, which ignore mask; proved for clean_infinite."
  },
  {
   "property": "C79",
   "status": "partial",
   "theorems": [
    "all_features_eliminated_refuted",
    "process_raises_only_for_no_rows"
   ],
   "note": "refuted in general: the check counts rows; process never raises AssertionError for data with rows and matching widths."
  },
  {
   "property": "C80",
   "status": "partial",
   "theorems": [
    "processed_data_finite_partial",
    "processed_data_finite_refuted"
   ],
   "note": "refuted when a target is not finite; proved when all targets are finite."
  },
  {
   "property": "C81",
   "status": "partial",
   "theorems": [
    "scaling_changes_caller_arrays_refuted",
    "scaling_keeps_caller_arrays_partial"
   ],
   "note": "refuted for statistics containing a zero; proved otherwise."
  },
  {
   "property": "C36",
   "status": "partial",
   "theorems": [
    "products_match_labels",
    "quotient_columns_partial",
    "zero_denominator_partial",
    "quotient_labels_refuted"
   ],
   "note": "refuted for quotients: no quotient column carries its own label and the last m columns are zero; products proved."
  },
  {
   "property": "C37",
   "status": "partial",
   "theorems": [
    "positive_features_complete",
    "positive_strings_same_monomials",
    "positive_features_degree_zero_refuted"
   ],
   "note": "refuted only for N = 0, where exclude is ignored; proved for every N >= 1, values and label strings."
  },
  {
   "property": "C38",
   "status": "partial",
   "theorems": [
    "pca_first_component_partial",
    "pca_duplicates_first_refuted"
   ],
   "note": "refuted for k >= 2: every column of the projection is the first eigenvector; proved for k = 1."
  },
  {
   "property": "C82",
   "status": "proved",
   "theorems": [
    "transforms_are_defined"
   ],
   "note": ""
  },
  {
   "property": "C83",
   "status": "partial",
   "theorems": [
    "ablog_changes_input_refuted",
    "ablog_second_call_differs_refuted"
   ],
   "note": "refuted: the shifted columns are written into the argument."
  },
  {
   "property": "C84",
   "status": "partial",
   "theorems": [
    "generate_features_complete_partial",
    "generate_features_negative_refuted",
    "generate_features_zero_refuted",
    "generate_inverse_refuted"
   ],
   "note": "refuted for inputs with zero or negative features and for max_num = 0; proved for positive features and degrees at least 1."
  },
  {
   "property": "C85",
   "status": "partial",
   "theorems": [
    "zero_denominator_partial",
    "zero_denominator_refuted"
   ],
   "note": "refuted for 0/0, which gives NaN; proved for a non-zero numerator."
  },
  {
   "property": "C86",
   "status": "proved",
   "theorems": [
    "powers_match_labels",
    "logs_match_labels"
   ],
   "note": ""
  },
  {
   "property": "C87",
   "status": "proved",
   "theorems": [
    "pca_variance_sums_to_100"
   ],
   "note": "the eigenvalues are an arbitrary list of non-negative numbers, not all zero."
  },
  {
   "property": "C39",
   "status": "proved",
   "theorems": [
    "elimination_keeps_same_columns",
    "screening_keeps_same_columns"
   ],
   "note": "the random check needs ten or more features (C89)."
  },
  {
   "property": "C65",
   "status": "proved",
   "theorems": [
    "feature_select_ranks"
   ],
   "note": ""
  },
  {
   "property": "C88",
   "status": "proved",
   "theorems": [
    "screening_beats_random"
   ],
   "note": ""
  },
  {
   "property": "C89",
   "status": "partial",
   "theorems": [
    "random_check_few_features_refuted",
    "screening_keeps_same_columns",
    "iterative_screen_partitions"
   ],
   "note": "refuted for fewer than ten features, where AssertionError is always raised; never fails with ten or more."
  },
  {
   "property": "C90",
   "status": "proved",
   "theorems": [
    "iterative_screen_partitions"
   ],
   "note": "assumes that the fitted model has one coefficient per column."
  },
  {
   "property": "C91",
   "status": "partial",
   "theorems": [
    "iteration_accepts_best_refuted",
    "iteration_accepts_best_partial"
   ],
   "note": "refuted: positions in the column order are looked up in the correlation order; proved when the two orders agree."
  },
  {
   "property": "C92",
   "status": "partial",
   "theorems": [
    "response_not_orthogonal_refuted",
    "response_uses_last_only_refuted",
    "response_orthogonal_partial"
   ],
   "note": "refuted for more than one accepted feature and for features whose norm is not 1; proved for one accepted feature of norm 1."
  },
  {
   "property": "C93",
   "status": "partial",
   "theorems": [
    "correlation_swapped",
    "correlation_choice_refuted"
   ],
   "note": "refuted for every choice: pearson uses spearmanr, the other two use pearsonr."
  },
  {
   "property": "C41",
   "status": "partial",
   "theorems": [
    "hyperparameters_round_trip_partial",
    "multi_kernel_shifts_refuted",
    "quadratic_degree_array_refuted",
    "quadratic_values_read_partial"
   ],
   "note": "refuted: constant_multi and noise_multi kernels do not advance the position, so kernels behind them receive their values; a quadratic degree becomes an array. Proved for lists without quadratic kernels whose multi kernels come last."
  },
  {
   "property": "C42",
   "status": "proved",
   "theorems": [
    "covariance_positive_semidefinite",
    "covariance_positive_definite"
   ],
   "note": ""
  },
  {
   "property": "C94",
   "status": "proved",
   "theorems": [
    "bounds_match_hyperparameters"
   ],
   "note": "user supplied bounds are assumed to have the right number for the kernel they are given with."
  },
  {
   "property": "C95",
   "status": "proved",
   "theorems": [
    "kernel_scaling_round_trip"
   ],
   "note": ""
  },
  {
   "property": "C96",
   "status": "partial",
   "theorems": [
    "scaling_preserves_covariance_partial",
    "laplacian_scaling_refuted"
   ],
   "note": "refuted for laplacian kernels, whose widths are not scaled; proved for constant and gaussian kernels with one width per feature."
  },
  {
   "property": "C97",
   "status": "partial",
   "theorems": [
    "quadratic_one_feature_partial",
    "quadratic_degree_ignored_refuted"
   ],
   "note": "refuted for two or more features: the second slope is used as degree, the degree and further slopes are ignored; proved for one feature."
  },
  {
   "property": "C98",
   "status": "partial",
   "theorems": [
    "no_scaling_is_one_partial",
    "no_scaling_logscale_refuted"
   ],
   "note": "refuted with log-scaled hyperparameters, where the prefactor is e; proved otherwise."
  },
  {
   "property": "C99",
   "status": "partial",
   "theorems": [
    "accepted_kernels_evaluate_partial",
    "accepted_kernel_fails_refuted"
   ],
   "note": "refuted for 'user' kernels and for constant_multi without gradients; proved for constant, gaussian, laplacian, quadratic and linear kernels without gradients."
  },
  {
   "property": "C100",
   "status": "partial",
   "theorems": [
    "nonpositive_width_rejected_partial",
    "negative_constant_accepted_refuted"
   ],
   "note": "refuted: a negative constant is accepted; gaussian widths that are not positive are rejected."
  },
  {
   "property": "C101",
   "status": "proved",
   "theorems": [
    "covariance_entrywise"
   ],
   "note": ""
  },
  {
   "property": "C102",
   "status": "partial",
   "theorems": [
    "kernels_combine_left_to_right",
    "leading_multiplication_zero_refuted"
   ],
   "note": "the combination from left to right holds; refuted: a leading kernel labelled multiplication makes the covariance zero."
  },
  {
   "property": "C43",
   "status": "proved",
   "theorems": [
    "predictive_variance_bounds",
    "more_data_less_uncertainty",
    "oracles_exist"
   ],
   "note": "scale_data=False; np.linalg.inv is assumed to return inverses."
  },
  {
   "property": "C44",
   "status": "proved",
   "theorems": [
    "training_order_irrelevant"
   ],
   "note": "np.linalg.inv and cho_factor are assumed to return inverses and Cholesky factors."
  },
  {
   "property": "C46",
   "status": "partial",
   "theorems": [
    "uncertainty_methods_agree_partial",
    "uncertainty_methods_scaled_partial",
    "uncertainty_methods_differ_refuted",
    "update_is_retraining_partial",
    "update_default_scale_refuted",
    "quadratic_update_fails_refuted",
    "stale_covariance_refuted",
    "update_features_only_refuted"
   ],
   "note": "refuted: predict_uncertainty does not scale the test features when scale_data is set; update_data defaults to scale_optimizer=False whatever the model uses; update_gp without targets keeps the old inverse covariance; a model with a quadratic kernel cannot be updated. Proved without scaled data, and for updates with features and targets and the scale_optimizer of the model."
  },
  {
   "property": "C103",
   "status": "proved",
   "theorems": [
    "prediction_is_posterior_mean"
   ],
   "note": ""
  },
  {
   "property": "C104",
   "status": "proved",
   "theorems": [
    "predictions_pointwise"
   ],
   "note": ""
  },
  {
   "property": "C105",
   "status": "proved",
   "theorems": [
    "update_history"
   ],
   "note": "for updates that pass the scale_optimizer setting of the model; what happens with the default is C46."
  },
  {
   "property": "C50",
   "status": "proved",
   "theorems": [
    "get_error_lengths",
    "error_statistics",
    "error_metrics_consistent"
   ],
   "note": "without the logarithmic metric."
  },
  {
   "property": "C106",
   "status": "proved",
   "theorems": [
    "scale_data_is_manual_scaling"
   ],
   "note": ""
  },
  {
   "property": "C107",
   "status": "proved",
   "theorems": [
    "target_units_equivariance"
   ],
   "note": ""
  },
  {
   "property": "C108",
   "status": "proved",
   "theorems": [
    "feature_units_invariance"
   ],
   "note": "constant features excluded: their unit factor is not removed."
  },
  {
   "property": "C109",
   "status": "proved",
   "theorems": [
    "prediction_linear_in_targets"
   ],
   "note": ""
  },
  {
   "property": "C110",
   "status": "proved",
   "theorems": [
    "zero_noise_interpolates",
    "training_prediction_matches"
   ],
   "note": ""
  },
  {
   "property": "C111",
   "status": "partial",
   "theorems": [
    "uncertainty_with_noise_partial",
    "uncertainty_with_log_noise_refuted"
   ],
   "note": "refuted when hyperparameters are logarithmic: the raw logarithm is added and may be negative; proved for plain non-negative noise without scaled data."
  },
  {
   "property": "C112",
   "status": "proved",
   "theorems": [
    "percentiles_ordered",
    "reported_percentiles"
   ],
   "note": ""
  },
  {
   "property": "C113",
   "status": "proved",
   "theorems": [
    "insensitive_error",
    "error_symmetric"
   ],
   "note": ""
  },
  {
   "property": "C114",
   "status": "partial",
   "theorems": [
    "cost_ignores_hyperparameters_refuted"
   ],
   "note": "refuted: the covariance used for the prediction includes the noise, so predictions equal the targets and the loss is zero for all hyperparameters."
  },
  {
   "property": "C115",
   "status": "proved",
   "theorems": [
    "optimized_model_consistent"
   ],
   "note": "every kernel list, with and without scaled data; with quadratic kernels the optimization raises, so it never returns a model (C46)."
  },
  {
   "property": "C116",
   "status": "partial",
   "theorems": [
    "fixed_basis_reproduces_partial",
    "fixed_basis_scaled_refuted"
   ],
   "note": "refuted with scale_data: the contribution of the basis is not scaled back; proved without."
  },
  {
   "property": "C45",
   "status": "partial",
   "theorems": [
    "gradient_blocks_are_derivatives_partial",
    "gaussian_branches_agree",
    "linear_gradient_block_refuted",
    "linear_gradient_blocks_partial",
    "linear_gradient_covariance_refuted",
    "product_gradient_block_refuted",
    "other_kernels_reject_gradients"
   ],
   "note": "refuted: the linear kernel fills the block of mixed second derivatives with ones, which makes the matrix indefinite; kernels combined by multiplication multiply the derivative blocks entry by entry; quadratic and laplacian kernels raise with gradients. Proved for sums of gaussian and constant kernels over all features, any dimension, both implementations."
  },
  {
   "property": "C117",
   "status": "proved",
   "theorems": [
    "gradient_covariance_positive_definite",
    "gradient_training_succeeds"
   ],
   "note": ""
  },
  {
   "property": "C118",
   "status": "proved",
   "theorems": [
    "gradients_reproduced",
    "gradient_prediction_is_posterior_mean"
   ],
   "note": "np.linalg.inv is assumed to return inverses."
  },
  {
   "property": "C47",
   "status": "partial",
   "theorems": [
    "noise_gradient_refuted",
    "noise_gradient_wrong",
    "scaled_constant_gradient_refuted",
    "log_space_gradient_refuted",
    "laplacian_gradient_stale_refuted",
    "laplacian_gradient_unbound",
    "features_gradient_refuted",
    "likelihood_gradient",
    "covariance_derivatives"
   ],
   "note": "refuted: the noise entry is the derivative in the square of the noise; constants with scaling, log-space hyperparameters, laplacian kernels without scaling and kernels restricted to features get wrong entries or an error. The remaining cases are proved in likelihood_gradient (C119)."
  },
  {
   "property": "C119",
   "status": "proved",
   "theorems": [
    "likelihood_gradient",
    "covariance_derivatives"
   ],
   "note": "Cholesky factorization and solution are oracles with their usual contracts."
  },
  {
   "property": "C120",
   "status": "proved",
   "theorems": [
    "likelihood_formula"
   ],
   "note": "log det is the sum of the logarithms of the Schur complements; cholesky_glogdet relates it to the factor"
  },
  {
   "property": "C121",
   "status": "proved",
   "theorems": [
    "product_jacobian_refused",
    "gradient_data_jacobian_refused"
   ],
   "note": ""
  },
  {
   "property": "C48",
   "status": "partial",
   "theorems": [
    "saved_kernels_all_return",
    "saved_without_kernels",
    "saved_kernels_keep_order_partial",
    "saved_kernels_reordered_refuted",
    "hdf5_round_trip_partial",
    "hdf5_scaled_model_partial",
    "hdf5_scaled_model_refuted",
    "hdf5_scale_optimizer_refuted",
    "hdf5_gradient_model_refuted",
    "hdf5_bounds_refuted",
    "hdf5_single_refuted",
    "hdf5_order_matters_refuted"
   ],
   "note": "refuted: with eleven or more kernels the groups are read in the byte order of their names, so the eleventh comes back third; models with scaled data or scale_optimizer come back as different models; models trained with gradients cannot be read and models with kernel bounds cannot be written; a 'single' dimension kernel comes back with one parameter per feature. Proved: every kernel comes back once for any number of kernels; for plain models with at most ten kernels the model that is read equals the one written. Pickle files are not modelled."
  },
  {
   "property": "C49",
   "status": "partial",
   "theorems": [
    "ridge_minimises",
    "ridge_history_partial",
    "ridge_second_call_mixes",
    "ridge_stale_features_refuted",
    "ridge_supplied_regularization_refuted"
   ],
   "note": "refuted: a supplied regularization is always an error, and a second call on the same object with other features silently uses the decomposition of the first (general form: ridge_second_call_mixes). Proved: the coefficients of RR are the unique minimiser on a fresh object and in every history where features stay the same or the previous call had featselect_featvar."
  },
  {
   "property": "C122",
   "status": "proved",
   "theorems": [
    "ridge_leave_one_out",
    "ridge_leave_one_out_defined"
   ],
   "note": "numpy's thin decomposition is an assumption with an explicit contract, met by the case beside the theorem."
  },
  {
   "property": "C123",
   "status": "proved",
   "theorems": [
    "ridge_search_minimises"
   ],
   "note": "For every estimate; the bootstrap estimate itself is not modelled."
  },
  {
   "property": "C124",
   "status": "proved",
   "theorems": [
    "ridge_predictions"
   ],
   "note": ""
  },
  {
   "property": "C51",
   "status": "proved",
   "theorems": [
    "forces_are_minus_gradient",
    "potentials_total"
   ],
   "note": "All coordinates of all atoms; the four parameter lists of MullerBrown are arbitrary."
  },
  {
   "property": "C125",
   "status": "proved",
   "theorems": [
    "noise_scales"
   ],
   "note": ""
  },
  {
   "property": "C52",
   "status": "partial",
   "theorems": [
    "mask_is_free_coordinates_partial",
    "mask_overlapping_constraints_refuted",
    "mask_two_directions_refuted",
    "apply_mask_rows",
    "unmask_writes",
    "mask_round_trip",
    "surrogate_forces",
    "surrogate_force_is_slope"
   ],
   "note": "refuted: with several constraints on one atom of which one fixes only some directions, a coordinate may be listed twice or be wrongly kept (mask_overlapping_constraints_refuted, mask_two_directions_refuted). Proved when the constraints do not overlap; masking and writing back are proved lossless for every mask."
  },
  {
   "property": "C53",
   "status": "proved",
   "theorems": [
    "mlmin_run_consistent",
    "mlmin_data_consistent",
    "mlneb_run_consistent",
    "mlneb_data_consistent",
    "mlneb_start"
   ],
   "note": "The Gaussian process and the optimisation on the surrogate are an arbitrary oracle."
  },
  {
   "property": "C54",
   "status": "proved",
   "theorems": [
    "mlmin_start",
    "mlmin_restart_resumes"
   ],
   "note": ""
  },
  {
   "property": "C55",
   "status": "partial",
   "theorems": [
    "extra_point_is_interior_partial",
    "extra_point_three_images_refuted",
    "acquisition_as_documented_partial",
    "acq5_alternation_refuted",
    "passes_acquire_interior"
   ],
   "note": "refuted: with three images and a higher final state the extra point is the final end point; acq_5 never alternates as its comment says (it equals acq_2). The other cases are proved."
  },
  {
   "property": "C126",
   "status": "partial",
   "theorems": [
    "list_atoms_at_start_partial",
    "list_atoms_after_step_refuted"
   ],
   "note": "refuted: after one iteration the first element of list_atoms is the same object as the last. It holds right after the start."
  },
  {
   "property": "C127",
   "status": "partial",
   "theorems": [
    "neb_previous_calculations_refuted",
    "neb_previous_calculations_used_partial"
   ],
   "note": "refuted: the end points are dropped from the training data and the previous calculations are not written to evaluated_structures.traj. The training data are exactly the previous calculations."
  },
  {
   "property": "C128",
   "status": "partial",
   "theorems": [
    "neb_max_forces_not_recorded_refuted",
    "mlmin_data_consistent"
   ],
   "note": "refuted: no entry is added in the main loop of MLNEB. For MLMin it holds (mlmin_data_consistent)."
  },
  {
   "property": "C129",
   "status": "partial",
   "theorems": [
    "sequential_number_of_images_refuted",
    "number_of_images_kept_partial"
   ],
   "note": "refuted: a sequential run that uses up its steps leaves three images. It holds without sequential or on convergence."
  },
  {
   "property": "C130",
   "status": "partial",
   "theorems": [
    "default_spring_constant_refuted"
   ],
   "note": "refuted: sqrt((n-1)/d) and sqrt(n-1)/d."
  },
  {
   "property": "C131",
   "status": "proved",
   "theorems": [
    "fmax_is_largest_force",
    "convergence_of_last_structure",
    "neb_force_of_last_structure"
   ],
   "note": ""
  },
  {
   "property": "C132",
   "status": "proved",
   "theorems": [
    "mlmin_acquires_best",
    "mlmin_walk_stops"
   ],
   "note": ""
  },
  {
   "property": "C133",
   "status": "proved",
   "theorems": [
    "neb_path_at_start"
   ],
   "note": ""
  },
  {
   "property": "C56",
   "status": "partial",
   "theorems": [
    "learning_curve_sizes_refuted",
    "learning_curve_runs_partial",
    "learning_curve_nested_partial",
    "learning_curve_zero_step"
   ],
   "note": "refuted: the first run uses all rows and the second one step rows, whatever min_data is (train[-0:]). Proved: number and order of the runs, features and targets are cut in the same way, and all runs but the first are nested and grow by step."
  },
  {
   "property": "C134",
   "status": "partial",
   "theorems": [
    "learning_curve_parallel_order_refuted",
    "learning_curve_parallel_partial"
   ],
   "note": "refuted: the results come in the order of completion. They are a permutation of the serial ones."
  },
  {
   "property": "C135",
   "status": "partial",
   "theorems": [
    "hierarchy_errors_refuted",
    "hierarchy_errors_partial"
   ],
   "note": "refuted: all rows of a subset but its first one use the coefficients of the very first subset of the run. Proved for the first subset and for the first row of every other one. Feature selection is not modelled."
  },
  {
   "property": "C136",
   "status": "proved",
   "theorems": [
    "prediction_error_is_rmse",
    "prediction_error_units"
   ],
   "note": ""
  },
  {
   "property": "C137",
   "status": "proved",
   "theorems": [
    "scaling_data_reuse",
    "given_target_scale_kept"
   ],
   "note": ""
  },
  {
   "property": "C138",
   "status": "partial",
   "theorems": [
    "global_scaling_refuted",
    "global_scaling_partial"
   ],
   "note": "refuted: with standardization the features are returned unscaled, and with normalization and fewer features than columns it fails. Proved for normalization with all features."
  },
  {
   "property": "C139",
   "status": "partial",
   "theorems": [
    "statistics_refuted",
    "statistics_per_level_partial"
   ],
   "note": "refuted: sizes not in increasing order are mixed, and leading sizes of at most one are dropped. Proved for results ordered by level with two neighbouring sizes per level and a gap of more than two between levels."
  },
  {
   "property": "C140",
   "status": "proved",
   "theorems": [
    "transform_output_means"
   ],
   "note": ""
  },
  {
   "property": "C141",
   "status": "proved",
   "theorems": [
    "lasso_selection_sets",
    "lasso_selection_first",
    "interval_window"
   ],
   "note": ""
  },
  {
   "property": "C57",
   "status": "proved",
   "theorems": [
    "get_unique_drawn",
    "get_train_drawn",
    "test_and_training_disjoint"
   ],
   "note": "The shuffle is an arbitrary permutation."
  },
  {
   "property": "C58",
   "status": "partial",
   "theorems": [
    "catmap_minimum_refuted",
    "catmap_default_fails_refuted",
    "catmap_states_partial"
   ],
   "note": "refuted: the maximum is kept, and without uncertainties (the default) the function fails. Proved: each state of the input gets the energy, uncertainty and id of one of its structures, one with the largest energy, and other states are untouched."
  },
  {
   "property": "C59",
   "status": "proved",
   "theorems": [
    "neighbor_list_of_matrix",
    "neighbor_list_symmetric",
    "neighbor_list_asymmetric"
   ],
   "note": "For integer matrices; a square matrix that is not symmetric is rejected."
  },
  {
   "property": "C60",
   "status": "partial",
   "theorems": [
    "neighbor_shell",
    "neighbor_shell_symmetric_refuted",
    "neighbor_shell_symmetric_partial",
    "all_neighbor_shells",
    "neighborlist_refuses"
   ],
   "note": "refuted: with elements of different radii and default buffers there are distances where the shell of (i, j) is 1 and of (j, i) is 0. Proved: symmetric for equal buffers; zero diagonal; every pair is in exactly one shell or beyond the last (cutoffs up to 10000), and with 'full' in exactly one."
  },
  {
   "property": "C64",
   "status": "proved",
   "theorems": [
    "penalty_close_value",
    "penalty_far_value",
    "penalty_nonnegative",
    "penalty_of_duplicate"
   ],
   "note": ""
  },
  {
   "property": "C142",
   "status": "proved",
   "theorems": [
    "graph_round_trip"
   ],
   "note": ""
  },
  {
   "property": "C143",
   "status": "proved",
   "theorems": [
    "catmap_states_distinct"
   ],
   "note": ""
  },
  {
   "property": "C61",
   "status": "partial",
   "theorems": [
    "composition_counts",
    "bag_elements_counts",
    "bag_edges_counts",
    "bag_edges_order_independent",
    "bag_element_cn_counts",
    "bag_edges_unsorted_types_refuted"
   ],
   "note": "refuted: with element types given by the user in another than increasing order bag_edges loses bonds (bag_edges_unsorted_types_refuted). Everything is proved for increasing types, which normalize_features produces, and order independence for all types."
  },
  {
   "property": "C62",
   "status": "partial",
   "theorems": [
    "return_vec_rows",
    "return_vec_schedule_independent",
    "return_vec_empty_refuted",
    "return_vec_errors_refuted"
   ],
   "note": "refuted: an empty list of structures gives an empty matrix with one process and IndexError with several, and errors of fingerprint functions become IndexError. Rows, columns and names are proved for non-empty lists."
  },
  {
   "property": "C144",
   "status": "proved",
   "theorems": [
    "normalize_features_spec"
   ],
   "note": ""
  },
  {
   "property": "C145",
   "status": "proved",
   "theorems": [
    "bag_edges_cn_counts",
    "bag_edges_cn_order_independent"
   ],
   "note": ""
  },
  {
   "property": "C146",
   "status": "proved",
   "theorems": [
    "return_vec_schedule_independent"
   ],
   "note": ""
  },
  {
   "property": "C147",
   "status": "proved",
   "theorems": [
    "atomic_pairs_rows"
   ],
   "note": ""
  },
  {
   "property": "C148",
   "status": "partial",
   "theorems": [
    "default_fragment_refuted",
    "default_fingerprinters_partial"
   ],
   "note": "refuted: 'fragment' fails with AttributeError, because a missing comma joins two names. Proved for the other names."
  },
  {
   "property": "C149",
   "status": "proved",
   "theorems": [
    "list_params_labels",
    "list_params_empty",
    "list_params_succeeds",
    "default_params_last"
   ],
   "note": ""
  },
  {
   "property": "C150",
   "status": "partial",
   "theorems": [
    "list_params_order_refuted",
    "list_params_succeeds"
   ],
   "note": "refuted: a plain parameter named after a special one (block, econf, ionenergies, oxistates) makes the call fail; with the special parameters last it succeeds for every table entry that can be read."
  },
  {
   "property": "C151",
   "status": "proved",
   "theorems": [
    "property_features",
    "property_features_order",
    "property_features_empty",
    "surf_ligands_counts",
    "reduce_spec"
   ],
   "note": ""
  },
  {
   "property": "C152",
   "status": "partial",
   "theorems": [
    "bulk_names_refuted",
    "bulk_names_partial",
    "slab_names_distinct"
   ],
   "note": "refuted: bulk_average and bulk_std share a name. Names within each function and of the slab functions are distinct."
  },
  {
   "property": "C153",
   "status": "partial",
   "theorems": [
    "n_outer_counts_partial",
    "n_outer_first_period_refuted"
   ],
   "note": "refuted: hydrogen and helium, written without a noble gas core, get zero electrons. Proved for configurations with a core."
  },
  {
   "property": "C154",
   "status": "partial",
   "theorems": [
    "formula_coefficients_refuted",
    "formula_without_coefficients_partial",
    "formula_one_coefficient_partial",
    "formula_unknown_symbol_refuted"
   ],
   "note": "refuted: coefficients of a formula with several coefficients are assigned to other elements. Correct without coefficients or with a single one on the first or second element; a single one later raises IndexError."
  },
  {
   "property": "C155",
   "status": "proved",
   "theorems": [
    "get_radius_first",
    "default_radius_value",
    "default_radius_light"
   ],
   "note": ""
  },
  {
   "property": "C63",
   "status": "partial",
   "theorems": [
    "element_mean_refuted",
    "element_sums"
   ],
   "note": "refuted: the mean is the sum divided by the number of element types with a value plus two (2/3 instead of 1 for a hydrogen molecule with value 1). The sums are right."
  },
  {
   "property": "C156",
   "status": "proved",
   "theorems": [
    "element_sums"
   ],
   "note": ""
  },
  {
   "property": "C157",
   "status": "proved",
   "theorems": [
    "eigenspectrum_features",
    "coulomb_matrix"
   ],
   "note": "Eigenvalues are those of an oracle for np.linalg.eigvals whose spectrum does not change under simultaneous permutation of rows and columns."
  },
  {
   "property": "C158",
   "status": "partial",
   "theorems": [
    "distance_vec_layout",
    "distance_reciprocal_refuted",
    "distance_planar_refuted"
   ],
   "note": "refuted: the value is the reciprocal of the mean distance, and pairs that agree in one coordinate are left out."
  },
  {
   "property": "C159",
   "status": "proved",
   "theorems": [
    "neighbor_sum_features",
    "neighbor_features_order"
   ],
   "note": ""
  },
  {
   "property": "C160",
   "status": "partial",
   "theorems": [
    "neighbor_mean_refuted",
    "neighbor_features_order"
   ],
   "note": "refuted: the sums are divided by the padded length."
  },
  {
   "property": "C161",
   "status": "proved",
   "theorems": [
    "autocorrelation_features",
    "autocorrelation_pairs",
    "autocorrelation_order"
   ],
   "note": ""
  },
  {
   "property": "C162",
   "status": "partial",
   "theorems": [
    "convolution_refuted",
    "convolution_first_atoms_partial"
   ],
   "note": "refuted: the first factor is the value of the first atoms of the structure instead of those of the subset. Right where these agree."
  },
  {
   "property": "C163",
   "status": "partial",
   "theorems": [
    "nearestneighbour_diagonal_refuted",
    "nearestneighbour_partial"
   ],
   "note": "refuted: an atom counts as its own neighbour, so values between atoms of one element are one too large. Right for different elements."
  },
  {
   "property": "C164",
   "status": "partial",
   "theorems": [
    "bond_count_length_refuted",
    "bond_count_features",
    "bond_count_entries",
    "bond_count_order"
   ],
   "note": "refuted: the length depends on the number of elements in the structure. The counts are right."
  },
  {
   "property": "C165",
   "status": "proved",
   "theorems": [
    "generalized_cn_counts",
    "generalized_cn_order"
   ],
   "note": ""
  },
  {
   "property": "C166",
   "status": "partial",
   "theorems": [
    "gcn_site_refuted",
    "gcn_ads_refuted"
   ],
   "note": "refuted: gcn_site is the generalized coordination number divided once more by the number of neighbours; gcn_ads1 uses the entry of the connectivity matrix as an atom index and keeps only the last chemisorbed atom, so it depends on the order of atoms."
  },
  {
   "property": "C167",
   "status": "partial",
   "theorems": [
    "bag_cn_refuted"
   ],
   "note": "refuted: the values are stored at index N instead of N - 3, so that the feature named count_Nnn counts atoms of coordination number N - 3; an IndexError is raised for 28 or more. The counts themselves are proved."
  },
  {
   "property": "C168",
   "status": "proved",
   "theorems": [
    "bag_atoms_ads_counts"
   ],
   "note": ""
  },
  {
   "property": "C169",
   "status": "proved",
   "theorems": [
    "fragment_counts"
   ],
   "note": ""
  },
  {
   "property": "C170",
   "status": "proved",
   "theorems": [
    "strain_values"
   ],
   "note": ""
  },
  {
   "property": "C171",
   "status": "proved",
   "theorems": [
    "bag_edges_ads_counts",
    "bag_edges_ads_order"
   ],
   "note": ""
  },
  {
   "property": "C172",
   "status": "partial",
   "theorems": [
    "bag_edges_chemi_refuted"
   ],
   "note": "refuted: the assignment goes to a copy of the matrix, so that bonds within the slab are counted as well."
  },
  {
   "property": "C173",
   "status": "partial",
   "theorems": [
    "bag_edges_all_refuted"
   ],
   "note": "refuted: rows of the adsorbate atoms are compared with atom indices, and the upper triangle of a rectangular array is returned; bonds are lost. Proved: as many values as names."
  },
  {
   "property": "C174",
   "status": "proved",
   "theorems": [
    "en_difference_chemi_sum"
   ],
   "note": ""
  },
  {
   "property": "C175",
   "status": "partial",
   "theorems": [
    "en_difference_ads_refuted",
    "en_difference_active_refuted"
   ],
   "note": "refuted: bonds within the adsorbate are counted twice; the exact values are proved."
  },
  {
   "property": "C176",
   "status": "proved",
   "theorems": [
    "formal_charges_conserved",
    "formal_charges_order"
   ],
   "note": ""
  },
  {
   "property": "C177",
   "status": "proved",
   "theorems": [
    "formal_charge_features"
   ],
   "note": ""
  },
  {
   "property": "C178",
   "status": "partial",
   "theorems": [
    "util_charges_partial",
    "util_charges_refuted"
   ],
   "note": "refuted: an anion with a single bond takes only q/|q| from its neighbour, and without anions the call fails with an UnboundLocalError. Proved for anions with at least two bonds."
  },
  {
   "property": "C179",
   "status": "proved",
   "theorems": [
    "autogen_partition"
   ],
   "note": "Atomic layers come from an arbitrary function (ase get_layers)."
  },
  {
   "property": "C180",
   "status": "partial",
   "theorems": [
    "autogen_supplied_refuted",
    "autogen_partition"
   ],
   "note": "refuted: only the sizes are compared, so that an atom may be in both groups and another one in none. If at most one group is supplied the result is a partition."
  },
  {
   "property": "C181",
   "status": "proved",
   "theorems": [
    "autogen_site_atoms"
   ],
   "note": ""
  },
  {
   "property": "C182",
   "status": "partial",
   "theorems": [
    "autogen_no_adsorbate_refuted",
    "autogen_no_layers_refuted",
    "autogen_site_atoms"
   ],
   "note": "refuted: an image without adsorbate is returned without the other groups, and without tags, constraint and number of layers every image with an adsorbate fails with NotImplementedError."
  },
  {
   "property": "C183",
   "status": "partial",
   "theorems": [
    "termination_info_refuted",
    "termination_info_exchanges"
   ],
   "note": "refuted: the lists are unpacked in another order than they are returned, so termination and subsurface atoms are exchanged in every case."
  },
  {
   "property": "C184",
   "status": "proved",
   "theorems": [
    "layers_by_tags",
    "layers_by_constraint",
    "layers_need_slab",
    "layers_by_number"
   ],
   "note": ""
  },
  {
   "property": "C185",
   "status": "partial",
   "theorems": [
    "layers_with_adsorbate_refuted",
    "layers_by_constraint",
    "layers_by_number"
   ],
   "note": "refuted when layers are determined by height; holds with a constraint."
  },
  {
   "property": "C186",
   "status": "partial",
   "theorems": [
    "adsorbate_composition_refuted",
    "adsorbate_by_formula",
    "adsorbate_by_tags",
    "adsorbate_by_height",
    "adsorbate_by_layers",
    "adsorbate_by_symbol",
    "adsorbate_by_last",
    "adsorbate_by_bonds"
   ],
   "note": "refuted for identification by connectivity: the final check compares the results of sort, which are None, and atoms may be listed twice. Identification by composition, tags, height and layers is proved."
  },
  {
   "property": "C187",
   "status": "proved",
   "theorems": [
    "reconstructions_found",
    "reconstruction_sizes"
   ],
   "note": "Sizes other than one; numpy stretches matrices with a single entry."
  },
  {
   "property": "C188",
   "status": "proved",
   "theorems": [
    "cations_and_anions"
   ],
   "note": ""
  },
  {
   "property": "C189",
   "status": "proved",
   "theorems": [
    "connection_matrix_entries"
   ],
   "note": ""
  },
  {
   "property": "C190",
   "status": "partial",
   "theorems": [
    "shells_cover",
    "shell_boundary_refuted"
   ],
   "note": "refuted for distances exactly on a boundary, which are in no shell; all others are in exactly one."
  },
  {
   "property": "C191",
   "status": "partial",
   "theorems": [
    "connection_dict_entries",
    "connection_dict_first_shell",
    "connection_dict_shell_refuted"
   ],
   "note": "refuted: the requested shell is not passed on, atoms without neighbours have no entry and without any neighbours the call fails. The lists of the first shell are right."
  },
  {
   "property": "C192",
   "status": "proved",
   "theorems": [
    "features_order",
    "feature_count",
    "feature_blocks",
    "row_totals"
   ],
   "note": "Values are exact reals and properties have a value for every element; the order of elements is that of Python's set."
  },
  {
   "property": "C193",
   "status": "partial",
   "theorems": [
    "bond_features_refuted",
    "feature_blocks"
   ],
   "note": "refuted: the feature for bonds within an element counts all neighbours of its atoms, the features for pairs of elements count bonds with all other elements, and the generalized coordination number is the square of the coordination number over twelve."
  },
  {
   "property": "C194",
   "status": "proved",
   "theorems": [
    "random_genes_distinct",
    "number_of_combinations"
   ],
   "note": "The shuffles are arbitrary permutations."
  },
  {
   "property": "C195",
   "status": "proved",
   "theorems": [
    "chromosomes_valid"
   ],
   "note": ""
  },
  {
   "property": "C196",
   "status": "partial",
   "theorems": [
    "first_offspring_refuted",
    "offspring_features"
   ],
   "note": "refuted: member i is mated with member 2 i, so that the first offspring is always a copy of the best member. The columns of all offspring are characterised."
  },
  {
   "property": "C197",
   "status": "proved",
   "theorems": [
    "crossover_scores"
   ],
   "note": ""
  },
  {
   "property": "C198",
   "status": "partial",
   "theorems": [
    "stale_scores_refuted",
    "mutation_keeps_scores_refuted",
    "crossover_scores"
   ],
   "note": "refuted: a mutation changes the list in the population and keeps the old score; the reported maximum may belong to no member. Without mutations the scores are right."
  },
  {
   "property": "C199",
   "status": "proved",
   "theorems": [
    "best_fitness_kept"
   ],
   "note": ""
  },
  {
   "property": "C200",
   "status": "partial",
   "theorems": [
    "crossover_fails_refuted",
    "crossover_succeeds"
   ],
   "note": "refuted: mates are at position 2 i, so that the call fails with IndexError if the number of offspring is about half the population or more. Success is proved otherwise."
  },
  {
   "property": "C201",
   "status": "partial",
   "theorems": [
    "weights_lowered_refuted",
    "weights_lowered"
   ],
   "note": "refuted for negative scores: the weights are multiplied by a negative number. Proved for scores between zero and one."
  },
  {
   "property": "C202",
   "status": "proved",
   "theorems": [
    "homogeneity_meaning"
   ],
   "note": ""
  },
  {
   "property": "C203",
   "status": "proved",
   "theorems": [
    "frequencies_meaning"
   ],
   "note": ""
  },
  {
   "property": "C204",
   "status": "partial",
   "theorems": [
    "frequencies_missing_refuted",
    "frequencies_meaning"
   ],
   "note": "refuted: columns above the largest one that occurs are not reported."
  },
  {
   "property": "C205",
   "status": "partial",
   "theorems": [
    "shared_combinations_refuted",
    "random_genes_distinct"
   ],
   "note": "refuted: the lists are shared with the population and changed by mutations. Proved for the first call."
  },
  {
   "property": "C206",
   "status": "proved",
   "theorems": [
    "stoichiometry_counts"
   ],
   "note": ""
  },
  {
   "property": "C207",
   "status": "proved",
   "theorems": [
    "is_oxide_sound"
   ],
   "note": ""
  },
  {
   "property": "C208",
   "status": "partial",
   "theorems": [
    "is_oxide_order_refuted",
    "is_oxide_binary_refuted",
    "is_oxide_binary"
   ],
   "note": "refuted: the answer depends on the order of a set of strings. Proved: the exact answer for each of the two orders."
  },
  {
   "property": "C209",
   "status": "proved",
   "theorems": [
    "slab_layers_partition"
   ],
   "note": ""
  },
  {
   "property": "C210",
   "status": "partial",
   "theorems": [
    "slab_layers_oxide_refuted",
    "slab_layers_two_atoms_refuted",
    "slab_layers_partition"
   ],
   "note": "refuted: the oxygen atoms of an oxide are in no layer, and two atoms at different heights give an error. Proved for slabs that are not taken for oxides."
  },
  {
   "property": "C211",
   "status": "partial",
   "theorems": [
    "is_metal_refuted",
    "is_metal_sound",
    "is_metal_complete"
   ],
   "note": "refuted: some metals are missing from the list. Proved: no nonmetal is in it, and all other elements up to nobelium are."
  },
  {
   "property": "C212",
   "status": "proved",
   "theorems": [
    "site_features_rows",
    "site_row_labels"
   ],
   "note": ""
  },
  {
   "property": "C213",
   "status": "partial",
   "theorems": [
    "missing_energy_refuted",
    "second_element_refuted",
    "site_features_rows"
   ],
   "note": "refuted: a missing stability becomes zero and missing second element columns copy those of the first."
  },
  {
   "property": "C214",
   "status": "proved",
   "theorems": [
    "cohesive_energy_value",
    "cohesive_energy_errors"
   ],
   "note": ""
  },
  {
   "property": "C215",
   "status": "proved",
   "theorems": [
    "site_stability_identity"
   ],
   "note": ""
  },
  {
   "property": "C216",
   "status": "proved",
   "theorems": [
    "unique_sites_all"
   ],
   "note": ""
  },
  {
   "property": "C217",
   "status": "proved",
   "theorems": [
    "select_random_valid"
   ],
   "note": ""
  },
  {
   "property": "C218",
   "status": "partial",
   "theorems": [
    "select_random_duplicates_refuted",
    "select_random_valid"
   ],
   "note": "refuted: sites are drawn with replacement."
  },
  {
   "property": "C219",
   "status": "partial",
   "theorems": [
    "selected_references_refuted",
    "update_references"
   ],
   "note": "refuted: materials of selected sites use the default references. Proved: after the update of materials, sites with energies use the given ones."
  },
  {
   "property": "C220",
   "status": "partial",
   "theorems": [
    "cached_features_refuted",
    "refresh_rows"
   ],
   "note": "refuted: a table computed before is returned. Proved: after refresh it describes the present sites."
  },
  {
   "property": "C221",
   "status": "proved",
   "theorems": [
    "refresh_rows"
   ],
   "note": ""
  },
  {
   "property": "C222",
   "status": "partial",
   "theorems": [
    "remove_outlier_two_refuted",
    "remove_outlier_last_refuted",
    "remove_outlier_normalized_refuted",
    "remove_outlier_one"
   ],
   "note": "refuted: with two outliers another site is removed or the call fails, and the normalised table is unchanged. Proved for one outlier."
  },
  {
   "property": "C223",
   "status": "proved",
   "theorems": [
    "get_site_index_found"
   ],
   "note": ""
  },
  {
   "property": "C224",
   "status": "proved",
   "theorems": [
    "traj_indices"
   ],
   "note": ""
  },
  {
   "property": "C225",
   "status": "partial",
   "theorems": [
    "traj_indices_refuted",
    "traj_indices"
   ],
   "note": "refuted: after a replacing call two materials may have the same number. Proved for extending calls from the start."
  },
  {
   "property": "C226",
   "status": "proved",
   "theorems": [
    "site_feature_values"
   ],
   "note": ""
  },
  {
   "property": "C227",
   "status": "proved",
   "theorems": [
    "site_angles_range"
   ],
   "note": ""
  },
  {
   "property": "C228",
   "status": "partial",
   "theorems": [
    "isolated_site_refuted",
    "isolated_site"
   ],
   "note": "refuted: one selected site without neighbours prevents the table. Proved: exactly isolated sites fail in the site features."
  },
  {
   "property": "C229",
   "status": "proved",
   "theorems": [
    "update_site_file_energies"
   ],
   "note": ""
  },
  {
   "property": "C230",
   "status": "partial",
   "theorems": [
    "update_site_file_refuted",
    "update_site_file_energies"
   ],
   "note": "refuted: the stored energy of the material is dropped, and the references are reset."
  },
  {
   "property": "C231",
   "status": "proved",
   "theorems": [
    "features_of_all_sites_rows",
    "all_rows_order"
   ],
   "note": ""
  },
  {
   "property": "C232",
   "status": "partial",
   "theorems": [
    "features_of_all_sites_refuted",
    "features_of_all_sites_rows"
   ],
   "note": "refuted: the last column of a later image with more elements is lost and the material number occurs twice. Proved for images with the same columns."
  },
  {
   "property": "C233",
   "status": "proved",
   "theorems": [
    "system_features_order"
   ],
   "note": ""
  },
  {
   "property": "C234",
   "status": "partial",
   "theorems": [
    "element_order_refuted",
    "system_features_order"
   ],
   "note": "refuted: the columns per element follow the order of a set. Proved for the features that do not refer to one element."
  },
  {
   "property": "C235",
   "status": "proved",
   "theorems": [
    "clusters_partition"
   ],
   "note": ""
  },
  {
   "property": "C236",
   "status": "partial",
   "theorems": [
    "cluster_optional_refuted",
    "clusters_partition"
   ],
   "note": "refuted: without test data or test targets the call raises TypeError, without training targets ValueError. Proved with all data given."
  },
  {
   "property": "C237",
   "status": "partial",
   "theorems": [
    "acquisition_cluster_refuted"
   ],
   "note": "refuted: cluster_features is called with the unknown keyword k_means, so that the call always raises TypeError."
  },
  {
   "property": "C238",
   "status": "proved",
   "theorems": [
    "sammons_error_value",
    "sammons_error_zero_iff",
    "sammons_error_units"
   ],
   "note": ""
  },
  {
   "property": "C239",
   "status": "partial",
   "theorems": [
    "sammons_error_coincident_refuted",
    "sammons_error_value"
   ],
   "note": "refuted: coincident points that are apart in the reduced set give infinity, and if all points coincide the error is NaN. Proved otherwise."
  },
  {
   "property": "C240",
   "status": "proved",
   "theorems": [
    "pair_distribution_counts",
    "pair_deviation_counts"
   ],
   "note": ""
  },
  {
   "property": "C241",
   "status": "partial",
   "theorems": [
    "positions_refuted"
   ],
   "note": "refuted: the half width is computed from one bin too many, all positions are below the centres."
  },
  {
   "property": "C242",
   "status": "partial",
   "theorems": [
    "mic_ignored_refuted",
    "pair_distribution_counts"
   ],
   "note": "refuted: mic is ignored, minimum images are always used."
  },
  {
   "property": "C243",
   "status": "partial",
   "theorems": [
    "absent_element_refuted",
    "pair_distribution_counts"
   ],
   "note": "refuted: images without the element count as images without neighbours."
  },
  {
   "property": "C244",
   "status": "partial",
   "theorems": [
    "self_pair_refuted",
    "pair_deviation_counts"
   ],
   "note": "refuted: with small radii each atom is counted as its own neighbour in the default range."
  },
  {
   "property": "C245",
   "status": "proved",
   "theorems": [
    "target_correlation_raw"
   ],
   "note": ""
  },
  {
   "property": "C246",
   "status": "proved",
   "theorems": [
    "split_round_trip",
    "write_split_outcome",
    "k_fold_split_round_trip"
   ],
   "note": ""
  },
  {
   "property": "C247",
   "status": "partial",
   "theorems": [
    "write_split_no_targets_refuted",
    "split_empty_fold_refuted",
    "k_fold_split_round_trip"
   ],
   "note": "refuted: json without targets raises TypeError; an empty fold loses its number of columns in json. Proved for targets and at least as many rows as folds."
  },
  {
   "property": "C248",
   "status": "proved",
   "theorems": [
    "saved_generation"
   ],
   "note": ""
  },
  {
   "property": "C249",
   "status": "partial",
   "theorems": [
    "interrupted_save_refuted",
    "saved_generation"
   ],
   "note": "refuted: the file is truncated before it is written, an interruption in between leaves nothing readable. Proved between saves."
  },
  {
   "property": "C250",
   "status": "partial",
   "theorems": [
    "hierarchy_load_refuted",
    "hierarchy_load_literal"
   ],
   "note": "refuted: load_split compares the format by identity, a string made at run time is accepted for writing but not for loading. Proved for literals."
  },
  {
   "property": "C251",
   "status": "proved",
   "theorems": [
    "todb_subset"
   ],
   "note": ""
  },
  {
   "property": "C252",
   "status": "partial",
   "theorems": [
    "todb_twice_refuted",
    "todb_subset"
   ],
   "note": "refuted: the data are appended under new ids, each sample is there twice. Proved for a new database."
  },
  {
   "property": "C253",
   "status": "proved",
   "theorems": [
    "global_data"
   ],
   "note": ""
  },
  {
   "property": "C254",
   "status": "partial",
   "theorems": [
    "backward_selection_nested_partial",
    "backward_selection_runs_partial",
    "backward_selection_floats_refuted",
    "selection_beyond_features_refuted"
   ],
   "note": "refuted: numpy 1.19 and later refuses the array of float positions, and more features than there are may be asked for. Proved for a numpy that accepts them and selections of at most the number of features; it runs for gaussian kernels."
  },
  {
   "property": "C255",
   "status": "partial",
   "theorems": [
    "second_selection_reduced_refuted",
    "backward_selection_nested_partial"
   ],
   "note": "refuted: the object keeps only the features of the last step. The first call is as in C254."
  },
  {
   "property": "C256",
   "status": "proved",
   "theorems": [
    "sensitivities_nonnegative"
   ],
   "note": ""
  },
  {
   "property": "C257",
   "status": "partial",
   "theorems": [
    "sensitivity_not_derivative_refuted",
    "sensitivities_nonnegative"
   ],
   "note": "refuted: the covariance between training points is used in place of that with the test points."
  },
  {
   "property": "C258",
   "status": "partial",
   "theorems": [
    "general_gp_units_partial",
    "units_drop_feature_refuted"
   ],
   "note": "refuted in general: the cleaner drops columns by an absolute threshold. Proved when it keeps the same columns."
  },
  {
   "property": "C259",
   "status": "partial",
   "theorems": [
    "dimension_all_refuted",
    "smooth_general_posterior"
   ],
   "note": "refuted: 'all' is rejected. 'single' and 'features' work with the smooth kernel."
  },
  {
   "property": "C260",
   "status": "partial",
   "theorems": [
    "default_kernel_refuted",
    "smooth_general_posterior"
   ],
   "note": "refuted: the degree of the quadratic kernel becomes an array and the optimization cannot start (numpy 1.24 and later refuses the ragged list). The smooth kernel works."
  },
  {
   "property": "C261",
   "status": "proved",
   "theorems": [
    "smooth_general_posterior"
   ],
   "note": ""
  },
  {
   "property": "C262",
   "status": "proved",
   "theorems": [
    "bootstrap_estimate"
   ],
   "note": "for any singular value decomposition that meets numpy's contract; reals for floats"
  },
  {
   "property": "C263",
   "status": "proved",
   "theorems": [
    "bootstrap_search"
   ],
   "note": "needs every point to be left out by some sample, see C264"
  },
  {
   "property": "C264",
   "status": "partial",
   "theorems": [
    "bootstrap_uncovered_refuted",
    "bootstrap_one_sample_refuted",
    "bootstrap_search"
   ],
   "note": "refuted: if some point is in every sample (always so for one training point) every error is nan and the smallest value of the grid is returned whatever the data are; one sample is an error. It holds when the samples leave out each point (bootstrap_search)"
  },
  {
   "property": "C265",
   "status": "partial",
   "theorems": [
    "bootstrap_reproducible",
    "bootstrap_reseeds_refuted"
   ],
   "note": "refuted in part: the samples are reproducible, but the global generator is reseeded, so what the caller draws later is the same for all earlier states"
  },
  {
   "property": "C266",
   "status": "partial",
   "theorems": [
    "regularization_consistent",
    "regularization_given_refuted"
   ],
   "note": "refuted in part: holds without given coefficients; given coefficients are ignored and nothing is returned"
  },
  {
   "property": "C267",
   "status": "proved",
   "theorems": [
    "loocv_list_values"
   ],
   "note": ""
  },
  {
   "property": "C268",
   "status": "proved",
   "theorems": [
    "ase_to_catlearn_rows"
   ],
   "note": ""
  },
  {
   "property": "C269",
   "status": "partial",
   "theorems": [
    "ase_to_catlearn_last_refuted",
    "ase_to_catlearn_single_refuted",
    "ase_to_catlearn_mixed_refuted",
    "ase_to_catlearn_rows"
   ],
   "note": "refuted: 'last_image' is the second structure, one structure is an error, and structures of other sizes are accepted with mixed rows if their total size fits. The first structure is right (ase_to_catlearn_rows)"
  },
  {
   "property": "C270",
   "status": "proved",
   "theorems": [
    "array_to_ase_inverse",
    "array_to_atoms_inverse"
   ],
   "note": ""
  },
  {
   "property": "C271",
   "status": "proved",
   "theorems": [
    "eval_point_data"
   ],
   "note": "the calculator is a function of the positions"
  },
  {
   "property": "C272",
   "status": "partial",
   "theorems": [
    "get_forces_point_refuted",
    "eval_point_data"
   ],
   "note": "refuted: the argument is ignored, the forces are those of the structure evaluated last; right when that is the point (eval_point_data)"
  },
  {
   "property": "C273",
   "status": "partial",
   "theorems": [
    "training_energies_mixed_refuted",
    "force_consistent_default_refuted",
    "training_energies_same"
   ],
   "note": "refuted: with force_consistent=True the energies of the initial structures are extrapolated ones and those of evaluated points force-consistent; by default (None) ASE returns the extrapolated energy. Without it all energies are of one kind"
  },
  {
   "property": "C274",
   "status": "proved",
   "theorems": [
    "train_gp_shift",
    "train_gp_targets"
   ],
   "note": ""
  },
  {
   "property": "C275",
   "status": "partial",
   "theorems": [
    "train_gp_width_refuted",
    "train_gp_width_partial"
   ],
   "note": "refuted: for paths shorter than 0.2 the width is below the lower bound, and below 0.1 the bounds are empty; holds from 0.2 on"
  },
  {
   "property": "C276",
   "status": "proved",
   "theorems": [
    "path_results"
   ],
   "note": ""
  },
  {
   "property": "C277",
   "status": "partial",
   "theorems": [
    "path_endpoints_refuted",
    "path_results"
   ],
   "note": "refuted: the end points have the predicted uncertainty in the file and zero in the images. The interior images agree (path_results)"
  },
  {
   "property": "C278",
   "status": "proved",
   "theorems": [
    "report_rows"
   ],
   "note": ""
  },
  {
   "property": "C279",
   "status": "partial",
   "theorems": [
    "report_barriers",
    "report_first_barriers_refuted"
   ],
   "note": "refuted: the first pass of a run from previous calculations reports zero; proved from step two on"
  },
  {
   "property": "C280",
   "status": "partial",
   "theorems": [
    "starting_paths",
    "starting_path_sequential_refuted",
    "sequential_start_refuted",
    "run_after_convergence_refuted"
   ],
   "note": "refuted for sequential runs and after convergence; proved while all paths have the same number of images"
  },
  {
   "property": "C281",
   "status": "proved",
   "theorems": [
    "features_varied"
   ],
   "note": ""
  },
  {
   "property": "C282",
   "status": "partial",
   "theorems": [
    "varying_features_returns_refuted",
    "varying_features_none"
   ],
   "note": "refuted: np.vstack is called without arguments at the end of the first level, so with any selected set the call never returns; with none the empty lists are returned"
  },
  {
   "property": "C283",
   "status": "proved",
   "theorems": [
    "fixed_features_curve",
    "fixed_features_none"
   ],
   "note": ""
  },
  {
   "property": "C284",
   "status": "partial",
   "theorems": [
    "default_limit_refuted",
    "local_scaling_refuted",
    "fixed_features_missing_refuted",
    "fixed_features_curve"
   ],
   "note": "refuted: the default select_limit=None cannot be indexed, without global scaling names are not bound, and a number of features that was not selected is a KeyError. With global scaling, limits and a selected number it works"
  },
  {
   "property": "C285",
   "status": "partial",
   "theorems": [
    "selection_from_training_refuted",
    "fixed_features_curve"
   ],
   "note": "refuted: the features come from the subset 1_1 for all training subsets. What is used is given by fixed_features_curve"
  },
  {
   "property": "C286",
   "status": "proved",
   "theorems": [
    "feature_frequency_source"
   ],
   "note": ""
  },
  {
   "property": "C287",
   "status": "proved",
   "theorems": [
    "refinement_sound",
    "refinement_largest"
   ],
   "note": "reals for floats"
  },
  {
   "property": "C288",
   "status": "proved",
   "theorems": [
    "evolution_statistics"
   ],
   "note": ""
  },
  {
   "property": "C289",
   "status": "proved",
   "theorems": [
    "attached_values"
   ],
   "note": ""
  },
  {
   "property": "C290",
   "status": "partial",
   "theorems": [
    "neighborlist_stale_refuted",
    "neighborlist_current",
    "base_dtype"
   ],
   "note": "refuted: the first list is attached to the structure and returned again after every later change. Proved when no list is attached."
  },
  {
   "property": "C291",
   "status": "partial",
   "theorems": [
    "graph_cutoffs_refuted",
    "graph_cutoffs"
   ],
   "note": "refuted: an attached neighbour list is used whatever the cutoffs. Proved when none is attached."
  },
  {
   "property": "C292",
   "status": "proved",
   "theorems": [
    "images_connectivity_spec"
   ],
   "note": ""
  },
  {
   "property": "C293",
   "status": "partial",
   "theorems": [
    "connectivity_stale_refuted",
    "images_connectivity_spec"
   ],
   "note": "refuted: an attached matrix is kept when the structure changes. Proved for structures without a matrix."
  },
  {
   "property": "C294",
   "status": "proved",
   "theorems": [
    "pair_distances_current"
   ],
   "note": ""
  },
  {
   "property": "C295",
   "status": "proved",
   "theorems": [
    "labels_checked"
   ],
   "note": ""
  },
  {
   "property": "C296",
   "status": "proved",
   "theorems": [
    "ase_neighborlist_counts",
    "ase_neighborlist_symmetric"
   ],
   "note": "ASE's NeighborList (bothways, no self interaction, no skin) is modelled; the order in which it returns neighbours is arbitrary."
  },
  {
   "property": "C297",
   "status": "proved",
   "theorems": [
    "graph_edges"
   ],
   "note": ""
  },
  {
   "property": "C298",
   "status": "proved",
   "theorems": [
    "connectivity_entries"
   ],
   "note": ""
  },
  {
   "property": "C299",
   "status": "partial",
   "theorems": [
    "connectivity_multiple_refuted",
    "connectivity_attached_refuted",
    "connectivity_entries"
   ],
   "note": "refuted: several images count as one, an attached list leads to NameError, missing cutoffs to TypeError. With cutoffs the entries are characterised."
  },
  {
   "property": "C300",
   "status": "partial",
   "theorems": [
    "rate_control_refuted"
   ],
   "note": "refuted: a state name has eight parts and six are expected, so the query fails for every state of a landscape."
  },
  {
   "property": "C301",
   "status": "proved",
   "theorems": [
    "particle_vectors"
   ],
   "note": "The distributions, connections and radial distribution functions of ASAP are parameters."
  },
  {
   "property": "C302",
   "status": "partial",
   "theorems": [
    "particle_types_refuted",
    "distribution_changes_structure_refuted",
    "rdf_lengths_refuted",
    "particle_vectors"
   ],
   "note": "refuted: the types of the first structure are kept for all later ones, distribution_vec centres the structure it is given, and the length of rdf_vec depends on the elements of the structure."
  },
  {
   "property": "C303",
   "status": "proved",
   "theorems": [
    "penalties_fall"
   ],
   "note": ""
  },
  {
   "property": "C304",
   "status": "proved",
   "theorems": [
    "line_search_selects",
    "line_search_fails_iff"
   ],
   "note": "The LASSO fits are parameters, one per step of the grid."
  },
  {
   "property": "C305",
   "status": "proved",
   "theorems": [
    "selection_is_ranked"
   ],
   "note": "The coefficients returned by the fits are parameters."
  },
  {
   "property": "C306",
   "status": "partial",
   "theorems": [
    "default_size_refuted",
    "selection_is_ranked"
   ],
   "note": "refuted: with the default size every feature is both accepted and rejected."
  },
  {
   "property": "C307",
   "status": "partial",
   "theorems": [
    "fit_error_reported_refuted"
   ],
   "note": "refuted: the entry is an empty list, or None after a line search, because get_error has no key 'average'."
  },
  {
   "property": "C308",
   "status": "proved",
   "theorems": [
    "catapp_elements",
    "catapp_both_elements",
    "catapp_site"
   ],
   "note": ""
  },
  {
   "property": "C309",
   "status": "partial",
   "theorems": [
    "catapp_second_refuted",
    "catapp_elements"
   ],
   "note": "refuted: the second element is the rarest of the others. With at most two elements both are described."
  },
  {
   "property": "C310",
   "status": "partial",
   "theorems": [
    "catapp_order_refuted",
    "catapp_order_partial"
   ],
   "note": "refuted for equally common elements; proved when no two elements are equally common."
  },
  {
   "property": "C311",
   "status": "partial",
   "theorems": [
    "catapp_concentration_refuted",
    "catapp_concentration_partial"
   ],
   "note": "refuted: any character 3 in the termination gives code 3. Proved for terminations without it, with more than two elements refused."
  },
  {
   "property": "C312",
   "status": "proved",
   "theorems": [
    "catapp_names_distinct",
    "catapp_fingerprint"
   ],
   "note": "The table of element data and the parsing of formulas are parameters."
  },
  {
   "property": "C313",
   "status": "proved",
   "theorems": [
    "reference_atoms"
   ],
   "note": "Distances are parameters."
  },
  {
   "property": "C314",
   "status": "partial",
   "theorems": [
    "reference_composition_refuted",
    "reference_check_refuted",
    "reference_composition_partial"
   ],
   "note": "refuted: the final check never fires; H2 atoms are returned twice and a missing element is not noticed. Proved for adsorbates whose elements are distinct and present."
  },
  {
   "property": "C315",
   "status": "proved",
   "theorems": [
    "fitness_value"
   ],
   "note": "The smooth optimisation of hyperparameters and the clock are parameters."
  },
  {
   "property": "C316",
   "status": "proved",
   "theorems": [
    "fitness_feature_units"
   ],
   "note": ""
  },
  {
   "property": "C317",
   "status": "proved",
   "theorems": [
    "fitness_target_units"
   ],
   "note": ""
  },
  {
   "property": "C318",
   "status": "proved",
   "theorems": [
    "sqe_covariance"
   ],
   "note": "scipy's seuclidean distance is taken by its definition."
  },
  {
   "property": "C319",
   "status": "partial",
   "theorems": [
    "sqe_is_gaussian_refuted",
    "sqe_covariance"
   ],
   "note": "refuted: it is exp(-d/2) of the distance, not of its square. What it computes is C318."
  },
  {
   "property": "C320",
   "status": "partial",
   "theorems": [
    "scaled_sqe_refuted"
   ],
   "note": "refuted: every call fails, because the slice bound len(theta) / 2 is a float."
  },
  {
   "property": "C321",
   "status": "partial",
   "theorems": [
    "aa_covariance_refuted",
    "aa_covariance_partial"
   ],
   "note": "refuted for small l, e.g. l = 1/4 and c = 2. Proved when c*l >= 1 for every c."
  },
  {
   "property": "C322",
   "status": "partial",
   "theorems": [
    "aa_parameters_refuted",
    "aa_normalised_refuted"
   ],
   "note": "refuted: n is read as a second number of categories, and the weights are divided by c - l instead of c - 1."
  },
  {
   "property": "C323",
   "status": "proved",
   "theorems": [
    "hyperparameters_round_trip"
   ],
   "note": "Kernels without nested kernels and with a full feature range, as in the theorem's hypotheses."
  },
  {
   "property": "C324",
   "status": "proved",
   "theorems": [
    "hash_order"
   ],
   "note": "For Python 2. Wrapping, numpy's text of floats and the digest are parameters."
  },
  {
   "property": "C325",
   "status": "partial",
   "theorems": [
    "hash_elements_refuted",
    "hash_elements_partial"
   ],
   "note": "refuted: atomic numbers are joined without separator, so [1, 11] and [11, 1] collide. Proved for atomic numbers of two digits and at most 1000 atoms."
  },
  {
   "property": "C326",
   "status": "partial",
   "theorems": [
    "hash_rounding_refuted",
    "hash_rounding_partial",
    "rounding_is_nearest"
   ],
   "note": "refuted: atoms are sorted before rounding. Proved when no two atoms share their rounded height."
  },
  {
   "property": "C327",
   "status": "partial",
   "theorems": [
    "hash_large_refuted"
   ],
   "note": "refuted: numpy abbreviates arrays of more than 1000 entries, so only the first and last atoms count."
  },
  {
   "property": "C328",
   "status": "partial",
   "theorems": [
    "hash_python3_refuted",
    "hash_argument_refuted",
    "hash_argument"
   ],
   "note": "refuted: Python 3 refuses to digest text, and the structure is wrapped in place."
  },
  {
   "property": "C329",
   "status": "partial",
   "theorems": [
    "proto_formula_refuted",
    "proto_formula_partial"
   ],
   "note": "refuted: every digit 1 is removed, so 12 becomes 2. Proved for multiplicities that are 1 or contain no digit 1."
  },
  {
   "property": "C330",
   "status": "partial",
   "theorems": [
    "proto_sites_refuted",
    "proto_sites_partial"
   ],
   "note": "refuted: under Python 3 every call fails, keys() cannot be sorted in place. Under Python 2 the sites are listed in alphabetic order."
  },
  {
   "property": "C331",
   "status": "proved",
   "theorems": [
    "proto_rows",
    "proto_repeated",
    "proto_formula_refused"
   ],
   "note": ""
  },
  {
   "property": "C332",
   "status": "proved",
   "theorems": [
    "proto_fingerprints"
   ],
   "note": "Magpie is a parameter."
  },
  {
   "property": "C333",
   "status": "proved",
   "theorems": [
    "magpie_stale",
    "magpie_failed"
   ],
   "note": "Magpie is a parameter that changes the files of the directory."
  },
  {
   "property": "C334",
   "status": "proved",
   "theorems": [
    "voro_files"
   ],
   "note": ""
  },
  {
   "property": "C335",
   "status": "partial",
   "theorems": [
    "voro_fingerprints_refuted",
    "voro_fingerprints_partial"
   ],
   "note": "refuted: a structure that Magpie skips shifts the later rows and the id is dropped. Proved when Magpie reports every structure."
  },
  {
   "property": "C336",
   "status": "proved",
   "theorems": [
    "database_images",
    "database_ids"
   ],
   "note": ""
  },
  {
   "property": "C337",
   "status": "proved",
   "theorems": [
    "stored_features"
   ],
   "note": ""
  },
  {
   "property": "C338",
   "status": "partial",
   "theorems": [
    "catapp_name_refuted",
    "catapp_name_partial"
   ],
   "note": "refuted: surface and facet are joined without separator, so Pt2 with facet 11 and Pt with facet 211 share a name; proved for facets of the same length and adsorbates without a star."
  },
  {
   "property": "C339",
   "status": "proved",
   "theorems": [
    "mass_order"
   ],
   "note": "Real arithmetic."
  },
  {
   "property": "C340",
   "status": "proved",
   "theorems": [
    "ads_types",
    "ads_types_order"
   ],
   "note": ""
  },
  {
   "property": "C341",
   "status": "partial",
   "theorems": [
    "site_trajectories_refuted",
    "site_trajectories_partial"
   ],
   "note": "refuted: an existing directory of a material keeps its old material file, also when two data sets with the same numbering are written together; proved for folders without these directories and sites distinct by material and index."
  },
  {
   "property": "C342",
   "status": "partial",
   "theorems": [
    "reference_energies_refuted",
    "reference_energies_partial",
    "reference_files"
   ],
   "note": "refuted: with two files of one formula the last listed one wins; proved for distinct formulas."
  },
  {
   "property": "C343",
   "status": "proved",
   "theorems": [
    "dataset_round_trip"
   ],
   "note": "Cells are real numbers or missing."
  },
  {
   "property": "C344",
   "status": "proved",
   "theorems": [
    "emt_stability"
   ],
   "note": "EMT energies are a parameter."
  },
  {
   "property": "C345",
   "status": "partial",
   "theorems": [
    "default_dimensions",
    "default_dimensions_refuted"
   ],
   "note": "refuted: with two or three data points the default step is not smaller than the size, with fewer it cannot be computed; proved exactly for four and more."
  },
  {
   "property": "C346",
   "status": "proved",
   "theorems": [
    "given_dimensions"
   ],
   "note": ""
  },
  {
   "property": "C347",
   "status": "proved",
   "theorems": [
    "projection",
    "projection_components"
   ],
   "note": "The scikit-learn estimators are a parameter that transforms row by row."
  },
  {
   "property": "C348",
   "status": "proved",
   "theorems": [
    "composition_names"
   ],
   "note": "Symbols are non-empty texts without digits."
  },
  {
   "property": "C349",
   "status": "partial",
   "theorems": [
    "composition_names_refuted",
    "composition_names"
   ],
   "note": "refuted: the elements are listed in the order of a set of strings; names of one composition may differ, names of different compositions do."
  },
  {
   "property": "C350",
   "status": "proved",
   "theorems": [
    "default_lengthscales"
   ],
   "note": ""
  },
  {
   "property": "C351",
   "status": "proved",
   "theorems": [
    "fitted_screen"
   ],
   "note": ""
  },
  {
   "property": "C352",
   "status": "partial",
   "theorems": [
    "lasso_screen_fails_refuted",
    "fitted_screen"
   ],
   "note": "refuted: with fewer non-zero coefficients than the step at every penalty the ordering is never assigned and the call raises (UnboundLocalError, a NameError); when every fit has enough, the ranking is complete."
  },
  {
   "property": "C353",
   "status": "proved",
   "theorems": [
    "convoluted_features"
   ],
   "note": ""
  },
  {
   "property": "C354",
   "status": "proved",
   "theorems": [
    "conv_bulk_labels"
   ],
   "note": ""
  },
  {
   "property": "C355",
   "status": "partial",
   "theorems": [
    "conv_term_labels_refuted"
   ],
   "note": "refuted: name 53 is dft_term_modulus_term_conv_1 instead of dft_bulk_modulus_term_conv_1; all others agree."
  },
  {
   "property": "C356",
   "status": "partial",
   "theorems": [
    "conv_params_refuted",
    "convoluted_features"
   ],
   "note": "refuted: the names are fixed; with a number of values other than that of the defaults every call fails, with the defaults in another order values stand under the names of other properties. The values themselves follow the properties asked for."
  },
  {
   "property": "C357",
   "status": "partial",
   "theorems": [
    "bulk_labels_refuted",
    "bulk_labels_partial"
   ],
   "note": "refuted: en_gordy (average and standard deviation) and atomic_radius (standard deviation) lack the suffix; all other names agree."
  },
  {
   "property": "C358",
   "status": "partial",
   "theorems": [
    "bulk_modulus_refuted"
   ],
   "note": "refuted: the property asked for is dft_std_modulus, which the table of elements does not have; the sum is always 0, average and standard deviation always missing."
  },
  {
   "property": "C359",
   "status": "partial",
   "theorems": [
    "bulk_extra_params_refuted"
   ],
   "note": "refuted: the names are fixed at 46, the number of values is 15 plus that of the extra properties."
  },
  {
   "property": "C360",
   "status": "proved",
   "theorems": [
    "noise_multi_is_noise",
    "noise_multi_is_regularization"
   ],
   "note": ""
  },
  {
   "property": "C361",
   "status": "partial",
   "theorems": [
    "constant_multi_accepted_refuted",
    "constant_multi_semidefinite"
   ],
   "note": "refuted: constants 1, 2, 1 are accepted and give a negative variance; the covariance is positive semidefinite exactly when the outer constants are not negative and the square of the middle one is at most their product."
  },
  {
   "property": "C362",
   "status": "proved",
   "theorems": [
    "operation_on_own_model",
    "other_lists_do_not_matter"
   ],
   "note": "histories over a store of numbered kernel lists; exceptions end a history"
  },
  {
   "property": "C363",
   "status": "partial",
   "theorems": [
    "optimizing_one_changes_the_other_refuted",
    "shared_list_same_features"
   ],
   "note": "refuted: the kernel dictionaries are changed in place and shared, so that optimizing one model changes the predictions of the other; without optimization the models are those of separate copies (for equal numbers of features)"
  },
  {
   "property": "C364",
   "status": "partial",
   "theorems": [
    "reuse_for_other_features_refuted",
    "shared_list_same_features",
    "shared_list_single_dimension"
   ],
   "note": "refuted: a scalar width is replaced by a list in the caller's dictionary, which later models with another number of features refuse; the claim holds for equal numbers of features and for kernels that do not depend on it (no quadratic kernels)"
  },
  {
   "property": "C365",
   "status": "proved",
   "theorems": [
    "surrogate_always_trained"
   ],
   "note": "linear algebra routines as oracles that succeed on symmetric positive definite matrices; optimisers that stay within bounds"
  },
  {
   "property": "C366",
   "status": "proved",
   "theorems": [
    "surrogate_hyperparameters",
    "fixed_kernel_never_changes"
   ],
   "note": "run_passes is the pass-by-pass specification; start and limits are the tables of values and bounds"
  },
  {
   "property": "C367",
   "status": "proved",
   "theorems": [
    "surrogate_shift_invariant"
   ],
   "note": ""
  },
  {
   "property": "C368",
   "status": "partial",
   "theorems": [
    "documented_sqe_opt_refuted",
    "documented_fixed_sqe_refuted",
    "unknown_kernel_stops",
    "surrogate_hyperparameters"
   ],
   "note": "refuted: SQE_opt is not implemented and ends with a NameError (with two or more structures), and SQE is optimised with six or more structures; SQE_fixed is the undocumented name of the fixed kernel"
  },
  {
   "property": "C369",
   "status": "partial",
   "theorems": [
    "failed_optimisation_refuted",
    "surrogate_hyperparameters"
   ],
   "note": "refuted: the saved list is the list of the model itself, whose dictionaries are overwritten, so that a failing optimisation replaces the saved hyperparameters; surrogate_hyperparameters says exactly which ones are used"
  },
  {
   "property": "C370",
   "status": "proved",
   "theorems": [
    "path_surrogate_trained",
    "coincident_path_stops"
   ],
   "note": "linear algebra routines as oracles that succeed on symmetric positive definite matrices; optimisers that stay within bounds"
  },
  {
   "property": "C371",
   "status": "proved",
   "theorems": [
    "path_shift_invariant"
   ],
   "note": ""
  },
  {
   "property": "C372",
   "status": "proved",
   "theorems": [
    "path_surface"
   ],
   "note": "derivatives in the sense of Coquelicot's is_derive"
  },
  {
   "property": "C373",
   "status": "proved",
   "theorems": [
    "path_surface"
   ],
   "note": "same theorem, flat_far_away is its second part"
  },
  {
   "property": "C374",
   "status": "proved",
   "theorems": [
    "minimum_surface"
   ],
   "note": ""
  },
  {
   "property": "C375",
   "status": "proved",
   "theorems": [
    "search_stops_exactly"
   ],
   "note": "single objective; offspring are an arbitrary function of the state"
  },
  {
   "property": "C376",
   "status": "proved",
   "theorems": [
    "feature_origin_irrelevant"
   ],
   "note": "without data scaling; np.linalg.inv and cho_factor as sound oracles"
  },
  {
   "property": "C377",
   "status": "proved",
   "theorems": [
    "rotation_irrelevant"
   ],
   "note": "without data scaling; np.linalg.inv and cho_factor as sound oracles"
  },
  {
   "property": "C378",
   "status": "proved",
   "theorems": [
    "feature_order_irrelevant"
   ],
   "note": "without data scaling; np.linalg.inv and cho_factor as sound oracles"
  },
  {
   "property": "C379",
   "status": "proved",
   "theorems": [
    "covariance_formula"
   ],
   "note": "kernels as prepare_kernels leaves them"
  },
  {
   "property": "C380",
   "status": "proved",
   "theorems": [
    "ridge_tradeoff"
   ],
   "note": "fresh objects; np.linalg.svd as an oracle with its contract"
  },
  {
   "property": "C381",
   "status": "proved",
   "theorems": [
    "ridge_row_order"
   ],
   "note": "fresh objects; np.linalg.svd as an oracle with its contract"
  },
  {
   "property": "C382",
   "status": "proved",
   "theorems": [
    "test_covariance_is_training_covariance"
   ],
   "note": "whenever both covariances are returned; any kernels, also those no set-up has checked"
  },
  {
   "property": "C383",
   "status": "proved",
   "theorems": [
    "rank_scores"
   ],
   "note": ""
  },
  {
   "property": "C384",
   "status": "proved",
   "theorems": [
    "ei_pi_are_integrals"
   ],
   "note": "scipy.stats.norm as its mathematical definition"
  },
  {
   "property": "C385",
   "status": "proved",
   "theorems": [
    "adsorbate_by_bonds",
    "adsorbate_by_tags"
   ],
   "note": ""
  },
  {
   "property": "C386",
   "status": "proved",
   "theorems": [
    "prediction_is_best_tradeoff"
   ],
   "note": "scale_data=False; kernel lists with scalings that keep the covariance positive semidefinite, as in C42"
  },
  {
   "property": "C387",
   "status": "proved",
   "theorems": [
    "ridge_is_linear_gp"
   ],
   "note": "fresh ridge object; np.linalg.svd, inv and cho_factor as oracles with their contracts"
  },
  {
   "property": "C388",
   "status": "proved",
   "theorems": [
    "prediction_is_best_linear"
   ],
   "note": "scale_data=False; kernel lists with scalings that keep the covariance positive semidefinite, as in C42"
  },
  {
   "property": "C389",
   "status": "proved",
   "theorems": [
    "predicted_data_change_nothing"
   ],
   "note": "scale_data=False"
  },
  {
   "property": "C390",
   "status": "proved",
   "theorems": [
    "more_noise_worse_fit"
   ],
   "note": "scale_data=False; kernel lists with scalings that keep the covariance positive semidefinite, as in C42"
  },
  {
   "property": "C391",
   "status": "proved",
   "theorems": [
    "fit_changes_less_than_targets"
   ],
   "note": "scale_data=False; kernel lists with scalings that keep the covariance positive semidefinite, as in C42"
  },
  {
   "property": "C392",
   "status": "proved",
   "theorems": [
    "uncertainty_bounds_error"
   ],
   "note": "scale_data=False; kernel lists with scalings that keep the covariance positive semidefinite, as in C42"
  },
  {
   "property": "C393",
   "status": "proved",
   "theorems": [
    "similar_points_similar_predictions"
   ],
   "note": "scale_data=False; kernel lists with scalings that keep the covariance positive semidefinite, as in C42"
  },
  {
   "property": "C394",
   "status": "proved",
   "theorems": [
    "repeated_data_divide_noise"
   ],
   "note": "scale_data=False"
  },
  {
   "property": "C395",
   "status": "proved",
   "theorems": [
    "site_tables_kept"
   ],
   "note": ""
  },
  {
   "property": "C396",
   "status": "proved",
   "theorems": [
    "log_error_is_rms",
    "log_error_below_rmse",
    "log_error_cut"
   ],
   "note": ""
  },
  {
   "property": "C397",
   "status": "partial",
   "theorems": [
    "log_error_every_sample_refuted",
    "log_error_no_average",
    "log_error_is_rms"
   ],
   "note": "refuted: samples with a target below -1 are left out of the average; a target of -1 makes it infinite. Proved for targets above -1 (log_error_is_rms)."
  },
  {
   "property": "C398",
   "status": "proved",
   "theorems": [
    "scaled_targets",
    "centred_targets",
    "equal_targets_undefined"
   ],
   "note": ""
  },
  {
   "property": "C399",
   "status": "proved",
   "theorems": [
    "extend_keeps_sites"
   ],
   "note": ""
  },
  {
   "property": "C400",
   "status": "proved",
   "theorems": [
    "one_more_observation"
   ],
   "note": "scale_data=False; kernel lists with scalings that keep the covariance positive semidefinite, as in C42"
  },
  {
   "property": "C401",
   "status": "proved",
   "theorems": [
    "likelihood_of_next",
    "likelihood_of_first",
    "likelihood_chain"
   ],
   "note": ""
  },
  {
   "property": "C402",
   "status": "proved",
   "theorems": [
    "processed_columns_standard"
   ],
   "note": "finite targets; with other targets the columns need not be finite (C80)"
  },
  {
   "property": "C403",
   "status": "partial",
   "theorems": [
    "separate_python3_refuted",
    "separate_lists",
    "separate_short"
   ],
   "note": "refuted: under Python 3 the number of combinations is a float and every call raises TypeError (separate_python3_refuted); under Python 2 the property holds in full (separate_lists, separate_short)"
  },
  {
   "property": "C404",
   "status": "proved",
   "theorems": [
    "leave_one_out"
   ],
   "note": ""
  },
  {
   "property": "C405",
   "status": "proved",
   "theorems": [
    "far_from_data"
   ],
   "note": ""
  },
  {
   "property": "C406",
   "status": "proved",
   "theorems": [
    "far_from_scaled_data"
   ],
   "note": ""
  },
  {
   "property": "C407",
   "status": "proved",
   "theorems": [
    "repeated_measurements_average"
   ],
   "note": ""
  },
  {
   "property": "C408",
   "status": "proved",
   "theorems": [
    "signal_to_noise",
    "gaussian_signal_to_noise"
   ],
   "note": ""
  },
  {
   "property": "C409",
   "status": "proved",
   "theorems": [
    "unused_features_irrelevant"
   ],
   "note": ""
  },
  {
   "property": "C410",
   "status": "proved",
   "theorems": [
    "constant_kernel_shrinks_mean"
   ],
   "note": ""
  },
  {
   "property": "C411",
   "status": "proved",
   "theorems": [
    "images_of_distance"
   ],
   "note": ""
  },
  {
   "property": "C412",
   "status": "proved",
   "theorems": [
    "structures_of_one_size",
    "end_energies_kept"
   ],
   "note": ""
  },
  {
   "property": "C413",
   "status": "proved",
   "theorems": [
    "regularization_bounds_used",
    "update_needs_features"
   ],
   "note": ""
  },
  {
   "property": "C414",
   "status": "proved",
   "theorems": [
    "gaussian_product"
   ],
   "note": ""
  },
  {
   "property": "C415",
   "status": "proved",
   "theorems": [
    "kernel_order_irrelevant",
    "factor_order_irrelevant"
   ],
   "note": ""
  },
  {
   "property": "C416",
   "status": "proved",
   "theorems": [
    "scalings_add",
    "constant_factor_is_scaling"
   ],
   "note": ""
  }
 ]
}