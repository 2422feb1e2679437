{
 "claims": [
  {
   "property": "C01",
   "status": "proved",
   "theorems": [
    "C01_direct_order_is_permutation",
    "C01_direct_order_without_prior_knowledge"
   ],
   "note": "Order is a permutation of 0..n-1 for every score outcome (NaN included); without prior knowledge fit always returns."
  },
  {
   "property": "C02",
   "status": "proved",
   "theorems": [
    "C02_direct_adjacency_acyclic",
    "C02_direct_rows_are_regressions"
   ],
   "note": ""
  },
  {
   "property": "C03",
   "status": "proved",
   "theorems": [
    "C03_prior_knowledge_respected",
    "C03_no_path_entries_are_zero"
   ],
   "note": ""
  },
  {
   "property": "C04",
   "status": "proved",
   "theorems": [
    "C04_strong_fit_iff_orderable",
    "C04_contradiction_raises_value_error",
    "C04_wrong_shape"
   ],
   "note": ""
  },
  {
   "property": "C05",
   "status": "partial",
   "theorems": [
    "C05_satisfiable_prior_knowledge_accepted_refuted",
    "C05_satisfiable_prior_knowledge_accepted_partial"
   ],
   "note": "Refuted: three cyclic one-way 'no path' entries are satisfied by the empty graph but raise ValueError. Proved when every 'no path' entry is mutual or the reverse is a path entry."
  },
  {
   "property": "C06",
   "status": "partial",
   "theorems": [
    "C06_mutual_paths_rejected_partial",
    "C06_cyclic_paths_diagnosed_refuted"
   ],
   "note": "Refuted for cycles of length >= 3 of path entries (fit still fails, but with numpy's argmax error); exact characterisation of what is diagnosed proved."
  },
  {
   "property": "C07",
   "status": "proved",
   "theorems": [
    "C07_make_prior_knowledge_entries",
    "C07_make_prior_knowledge_succeeds_iff_in_range"
   ],
   "note": ""
  },
  {
   "property": "C08",
   "status": "proved",
   "theorems": [
    "C08_exogenous_and_sink_end_to_end"
   ],
   "note": ""
  },
  {
   "property": "C09",
   "status": "partial",
   "theorems": [
    "C09_soft_prior_knowledge_never_fails_refuted",
    "C09_soft_prior_knowledge_partial",
    "C09_soft_candidates"
   ],
   "note": "Refuted: mutual path entries make soft mode raise. Proved when path entries are acyclic."
  },
  {
   "property": "C10",
   "status": "proved",
   "theorems": [
    "C10_refit_depends_only_on_settings_and_data",
    "C10_object_fit_is_direct_fit"
   ],
   "note": ""
  },
  {
   "property": "C11",
   "status": "proved",
   "theorems": [
    "C11_multi_group_shared_order",
    "C11_group_order_irrelevant",
    "C11_wrong_prior_knowledge_shape"
   ],
   "note": ""
  },
  {
   "property": "C12",
   "status": "proved",
   "theorems": [
    "C12_order_search_exact"
   ],
   "note": ""
  },
  {
   "property": "C13",
   "status": "proved",
   "theorems": [
    "C13_order_always_found",
    "C13_fit_succeeds",
    "C13_estimate_has_zero_diagonal"
   ],
   "note": "Holds for any position list (ties included) once the diagonal is zero."
  },
  {
   "property": "C14",
   "status": "partial",
   "theorems": [
    "C14_single_column_refuted"
   ],
   "note": "Refuted: with one column the search is never run, the order is None and fit raises TypeError. C13 is the positive part (n >= 2)."
  },
  {
   "property": "C15",
   "status": "proved",
   "theorems": [
    "C15_find_all_paths_exact"
   ],
   "note": ""
  },
  {
   "property": "C16",
   "status": "proved",
   "theorems": [
    "C16_find_all_paths_terminates"
   ],
   "note": "Bound of 2^(n*n+2) turns proved sufficient for every matrix."
  },
  {
   "property": "C17",
   "status": "partial",
   "theorems": [
    "C17_cycles_reported_refuted",
    "C17_cycles_reported_partial"
   ],
   "note": "Refuted for cycles through the start node (aliased adjacency list). Proved, with exactness, when no cycle avoiding `to` returns to the start."
  },
  {
   "property": "C18",
   "status": "proved",
   "theorems": [
    "C18_total_effect_is_inverse_entry",
    "C18_inverse_exists",
    "C18_discrete_variables_rejected"
   ],
   "note": "NaN entries count as absent edges, as in the code."
  },
  {
   "property": "C19",
   "status": "partial",
   "theorems": [
    "C19_identical_endpoints_refuted",
    "C19_identical_endpoints_partial"
   ],
   "note": "Refuted: find_all_paths with equal endpoints is always an IndexError. calculate_total_effect rejects cleanly."
  },
  {
   "property": "C20",
   "status": "proved",
   "theorems": [
    "C20_direction_counts",
    "C20_direction_counts_by_sign",
    "C20_signs_partition_counts",
    "C20_truncation_keeps_the_top",
    "C20_invalid_arguments_rejected"
   ],
   "note": ""
  },
  {
   "property": "C21",
   "status": "proved",
   "theorems": [
    "C21_graph_counts"
   ],
   "note": ""
  },
  {
   "property": "C22",
   "status": "proved",
   "theorems": [
    "C22_probabilities_are_frequencies",
    "C22_antitone_in_the_threshold",
    "C22_agrees_with_direction_counts"
   ],
   "note": "Block shapes with nc a multiple of nr; other shapes are outside the library's use."
  },
  {
   "property": "C23",
   "status": "partial",
   "theorems": [
    "C23_effect_uses_threshold_refuted",
    "C23_total_effect_table_partial",
    "C23_median_of_counted_effects_partial"
   ],
   "note": "Refuted: the probability honours the threshold but the effect is the median of all non-zero effects. Proved: exact contents of the table, and the claim when no non-zero effect is at or below the threshold."
  },
  {
   "property": "C24",
   "status": "proved",
   "theorems": [
    "C24_bootstrap_paths",
    "C24_path_key_decodes"
   ],
   "note": ""
  },
  {
   "property": "C25",
   "status": "proved",
   "theorems": [
    "C25_bootstrap_effects_agree",
    "C25_direct_lingam_bootstrap"
   ],
   "note": ""
  },
  {
   "property": "C26",
   "status": "partial",
   "theorems": [
    "C26_bootstrap_preserves_fit_refuted",
    "C26_bootstrap_leaves_last_fit_partial",
    "C26_rejected_call_changes_nothing_partial"
   ],
   "note": "Refuted: bootstrap refits the same object, which ends up fitted to the last resample (proved)."
  },
  {
   "property": "C27",
   "status": "proved",
   "theorems": [
    "C27_causal_effect_order",
    "C27_large_coefficients_point_forward"
   ],
   "note": ""
  },
  {
   "property": "C28",
   "status": "proved",
   "theorems": [
    "C28_do_means",
    "C28_observed_means_are_fixed",
    "C28_shift_by_total_effect",
    "C28_effects_of_linear_predictor"
   ],
   "note": "The linear-predictor formula for estimate_effects_on_prediction is proved as well."
  },
  {
   "property": "C29",
   "status": "partial",
   "theorems": [
    "C29_desired_output_is_reached_partial",
    "C29_independent_of_visiting_order_partial",
    "C29_every_run_can_finish_partial",
    "C29_cancelling_row_refuted"
   ],
   "note": "Refuted for matrices with a cancelling non-zero row (row sum 0): such a variable is treated as a root. Proved for all other acyclic matrices, for every schedule of random draws; every unfinished run can still be completed."
  },
  {
   "property": "C30",
   "status": "proved",
   "theorems": [
    "C30_ancestor_search_terminates",
    "C30_fit_always_returns"
   ],
   "note": ""
  },
  {
   "property": "C31",
   "status": "proved",
   "theorems": [
    "C31_ancestor_sets",
    "C31_adjacency_shape"
   ],
   "note": ""
  },
  {
   "property": "C32",
   "status": "partial",
   "theorems": [
    "C32_ancestors_within_sound_relation_partial",
    "C32_cyclic_ancestors_refuted"
   ],
   "note": "Refuted: the pairwise tests can produce a 3-cycle of ancestors. Proved: if accepted sink tests are right about some acyclic relation, ancestors and the directed part of the matrix stay inside it."
  },
  {
   "property": "C33",
   "status": "partial",
   "theorems": [
    "C33_only_the_last_group_counts_refuted",
    "C33_hsic_decision_order_independent_partial",
    "C33_fcorr_decision_partial",
    "C33_fcorr_needs_a_group",
    "C33_hsic_decision",
    "C33_hsic_infinite"
   ],
   "note": "Refuted: the F-correlation of the last data set alone decides. Proved: the HSIC variant does not depend on the order of the data sets."
  },
  {
   "property": "C34",
   "status": "proved",
   "theorems": [
    "C34_fit_always_returns",
    "C34_search_terminates",
    "C34_prior_knowledge_respected"
   ],
   "note": ""
  },
  {
   "property": "C35",
   "status": "proved",
   "theorems": [
    "C35_adjacency_shape"
   ],
   "note": ""
  },
  {
   "property": "C36",
   "status": "proved",
   "theorems": [
    "C36_resit_result_shape",
    "C36_resit_acyclic"
   ],
   "note": "Any regressor and any test outcome (oracles); exact model of the loops."
  },
  {
   "property": "C37",
   "status": "partial",
   "theorems": [
    "C37_every_later_variable_keeps_a_parent_refuted",
    "C37_independent_variables_get_edges_refuted",
    "C37_all_tests_accept_one_parent_partial"
   ],
   "note": "Refuted: a lone remaining parent is never tested, so every variable but the first keeps a parent. Proved: if all tests accept, exactly one parent remains."
  },
  {
   "property": "C38",
   "status": "proved",
   "theorems": [
    "C38_parce_order_structure",
    "C38_parce_outcomes",
    "C38_parce_succeeds"
   ],
   "note": "Any statistics, both independence measures, any prior knowledge. NaN-characterisation assumes regressions return numbers. Also: termination, possible exceptions, success for positive p-values and satisfiable prior knowledge."
  },
  {
   "property": "C39",
   "status": "partial",
   "theorems": [
    "C39_all_p_values_zero_accepts_column_order_refuted",
    "C39_positive_rejections_give_one_block_partial"
   ],
   "note": "Refuted for p-values that are exactly 0 (three or more variables): the column order is returned as the causal order. Proved for positive p-values."
  },
  {
   "property": "C40",
   "status": "proved",
   "theorems": [
    "C40_highdim_order_and_triangular",
    "C40_regression_choice"
   ],
   "note": "Any (finite) statistics."
  },
  {
   "property": "C41",
   "status": "partial",
   "theorems": [
    "C41_only_first_conditioning_set_refuted",
    "C41_order_differs_from_full_minimum_refuted",
    "C41_loop_without_early_return_is_minimum",
    "C41_full_minimum_up_to_J_plus_2_partial"
   ],
   "note": "Refuted: the return statement is inside the loop over conditioning sets. Proved to coincide with the full minimum for n <= J+2 variables."
  },
  {
   "property": "C42",
   "status": "proved",
   "theorems": [
    "C42_fitted_object",
    "C42_residuals_and_structural_form"
   ],
   "note": "Estimated coefficients: assumes the external VAR estimator's residuals are those of its coefficients (trend='n')."
  },
  {
   "property": "C43",
   "status": "proved",
   "theorems": [
    "C43_pruning_alignment"
   ],
   "note": "VARLiNGAM. VARMALiNGAM's pruning is C75 (refuted)."
  },
  {
   "property": "C44",
   "status": "partial",
   "theorems": [
    "C44_refit_ignores_estimation_refuted",
    "C44_refit_uses_new_data_refuted",
    "C44_given_coefficients_partial"
   ],
   "note": "Refuted: a second fit reuses the stored AR coefficients (proved for all estimators). Proved: history independence when the coefficients are given and lags is their number."
  },
  {
   "property": "C45",
   "status": "partial",
   "theorems": [
    "C45_lagged_effects_refuted",
    "C45_lagged_effects_partial"
   ],
   "note": "Refuted: paths through lagged variables are not counted. Proved: the result is the entry of (I-B0)^-1 B_lag."
  },
  {
   "property": "C46",
   "status": "proved",
   "theorems": [
    "C46_unrolled_graph",
    "C46_get_paths_searches_it"
   ],
   "note": ""
  },
  {
   "property": "C47",
   "status": "partial",
   "theorems": [
    "C47_omega_refuted",
    "C47_omega_partial"
   ],
   "note": "Refuted: the inverse is passed as np.dot's output argument. Proved: Omega_j = (I-Psi_0) Theta_j, which is the claimed matrix iff Theta_j Psi_0 = 0."
  },
  {
   "property": "C48",
   "status": "partial",
   "theorems": [
    "C48_every_lag_is_lag_one_refuted",
    "C48_varma_effect_lag_refuted",
    "C48_varma_effect_lag_partial"
   ],
   "note": "Refuted: every non-zero lag is treated as lag 1. Proved for lags 0 and 1."
  },
  {
   "property": "C49",
   "status": "partial",
   "theorems": [
    "C49_too_few_coefficients",
    "C49_given_coefficients_refuted",
    "C49_given_coefficients_partial"
   ],
   "note": "Refuted for every q >= 1 and every series with at least max(p,q)+2 rows. Proved for prune=False and q = 0 (shape behaviour)."
  },
  {
   "property": "C50",
   "status": "partial",
   "theorems": [
    "C50_actual_lags_partial",
    "C50_one_lag_partial",
    "C50_lag_axis_refuted",
    "C50_prior_knowledge_partial",
    "C50_prior_knowledge_refuted",
    "C50_residuals_partial"
   ],
   "note": "Refuted for n_lags >= 2 (both branches): the lag axis is stored in reverse. Proved: the actual equation (matrix at tau belongs to time t-(n_lags+1-tau)) for all sizes, and the documented one for n_lags = 1."
  },
  {
   "property": "C51",
   "status": "partial",
   "theorems": [
    "C51_default_start_refuted",
    "C51_start_partial"
   ],
   "note": "Refuted: TypeError for every estimator and data when n_lags >= 2 with the default start_from_t. Proved: success and the exact set of computed pairs when start_from_t >= n_lags."
  },
  {
   "property": "C52",
   "status": "proved",
   "theorems": [
    "C52_replay",
    "C52_train_accepts",
    "C52_training_set"
   ],
   "note": ""
  },
  {
   "property": "C53",
   "status": "proved",
   "theorems": [
    "C53_equations",
    "C53_locality"
   ],
   "note": "Edges are the non-zero entries of the graph; parents are the entries with |x| > 1e-8."
  },
  {
   "property": "C54",
   "status": "proved",
   "theorems": [
    "C54_lagged_columns",
    "C54_parents"
   ],
   "note": ""
  },
  {
   "property": "C55",
   "status": "proved",
   "theorems": [
    "C55_h_characterises_acyclicity"
   ],
   "note": "For d >= 1 variables."
  },
  {
   "property": "C56",
   "status": "partial",
   "theorems": [
    "C56_tolerance_implies_acyclic_refuted",
    "C56_fit_returns_cycle_refuted",
    "C56_safe_tolerance_partial",
    "C56_defaults_up_to_three_partial"
   ],
   "note": "Refuted on four variables (also through fit); proved for tolerances up to (w_threshold^2/d)^d, which covers the defaults for d <= 3."
  },
  {
   "property": "C57",
   "status": "partial",
   "theorems": [
    "C57_refit_refuted",
    "C57_refit_partial"
   ],
   "note": "Refuted: the loss type set by the local search persists. Proved: global-only fits leave the object unchanged and every full fit leaves the same state."
  },
  {
   "property": "C58",
   "status": "proved",
   "theorems": [
    "C58_centred",
    "C58_statistic_is_hsic",
    "C58_symmetric"
   ],
   "note": "Also: the statistic equals (1/n) tr(K H L H), and the p-value is symmetric too."
  },
  {
   "property": "C59",
   "status": "partial",
   "theorems": [
    "C59_imputed_exactly_where_missing",
    "C59_order_accepted_iff_permutation_partial",
    "C59_order_accepted_iff_permutation_refuted"
   ],
   "note": "First half proved. Second half proved for one-dimensional orders; refuted for two-dimensional arrays, which pass the check."
  },
  {
   "property": "C60",
   "status": "partial",
   "theorems": [
    "C60_shortest_distance_refuted",
    "C60_shortest_distance_partial"
   ],
   "note": "Refuted when the weights of a variable's parents cancel in the row sum (the variable is then reported as a root). Proved, with max_distance, when no row with parents sums to nearly zero."
  },
  {
   "property": "C61",
   "status": "proved",
   "theorems": [
    "C61_exogenous_variables_exact",
    "C61_sink_variables_exact",
    "C61_queries_sorted"
   ],
   "note": ""
  },
  {
   "property": "C62",
   "status": "proved",
   "theorems": [
    "C62_error_p_values_symmetric"
   ],
   "note": ""
  },
  {
   "property": "C63",
   "status": "partial",
   "theorems": [
    "C63_adjusts_for_parents_refuted",
    "C63_adjusts_for_parents_partial"
   ],
   "note": "Refuted for weighted graphs (only entries equal to 1 count as parents). Proved for 0/1 matrices. The part about all graphs of a bootstrap result is C98."
  },
  {
   "property": "C64",
   "status": "partial",
   "theorems": [
    "C64_replay_refuted",
    "C64_replay_partial"
   ],
   "note": "Refuted without adjustments, with further columns and with repeated row labels; proved otherwise, for every pair of fitted models."
  },
  {
   "property": "C65",
   "status": "proved",
   "theorems": [
    "C65_markov_blanket",
    "C65_sparsity_choice"
   ],
   "note": "Markov blanket, symmetry and penalised choice."
  },
  {
   "property": "C66",
   "status": "partial",
   "theorems": [
    "C66_no_directed_path_partial",
    "C66_no_directed_path_refuted"
   ],
   "note": "Refuted for mutual 'no path' entries (a third variable in between); proved for one-way entries."
  },
  {
   "property": "C67",
   "status": "partial",
   "theorems": [
    "C67_answers_use_the_first_requested_fit_partial",
    "C67_refitted_model_is_ignored_refuted"
   ],
   "note": "Refuted: the model is copied at the first request and later refits are ignored (proved for all histories)."
  },
  {
   "property": "C68",
   "status": "partial",
   "theorems": [
    "C68_confounded_source_gives_no_effects_refuted",
    "C68_bootstrap_stores_zero_refuted",
    "C68_one_effect_per_group_partial",
    "C68_rcd_effect",
    "C68_bootstrap_effects_partial"
   ],
   "note": "Refuted: a confounded source makes the method return an empty list, and the bootstrap stores 0 instead of NaN. Proved for unconfounded sources."
  },
  {
   "property": "C69",
   "status": "partial",
   "theorems": [
    "C69_search_stops_before_the_fixpoint_refuted"
   ],
   "note": "Refuted: a subset is skipped while its common ancestors are unchanged although the exclusion rule would now single out one sink."
  },
  {
   "property": "C70",
   "status": "partial",
   "theorems": [
    "C70_indirect_cause_refuted"
   ],
   "note": "Refuted: only the direct edge is excluded (C34); indirect paths can appear."
  },
  {
   "property": "C71",
   "status": "partial",
   "theorems": [
    "C71_cyclic_graph_refuted"
   ],
   "note": "Refuted: only 2-cycles are excluded (C35); a 3-cycle can be returned."
  },
  {
   "property": "C72",
   "status": "proved",
   "theorems": [
    "C72_cyclic_constraints",
    "C72_parce_respects_prior_knowledge"
   ],
   "note": "For every outcome of the tests."
  },
  {
   "property": "C73",
   "status": "partial",
   "theorems": [
    "C73_sink_tested_against_all_remaining_refuted"
   ],
   "note": "Refuted: with prior knowledge candidates are only tested against the other candidates."
  },
  {
   "property": "C74",
   "status": "partial",
   "theorems": [
    "C74_failed_refit_leaves_stale_matrix_refuted"
   ],
   "note": "Refuted: fit resets a misspelt attribute, so adjacency_matrix_ keeps the old matrix."
  },
  {
   "property": "C75",
   "status": "partial",
   "theorems": [
    "C75_lagged_columns_wrap_refuted",
    "C75_lagged_columns_partial"
   ],
   "note": "Refuted: np.roll wraps the first p rows. Proved for rows t >= p."
  },
  {
   "property": "C76",
   "status": "proved",
   "theorems": [
    "C76_bootstrap_series"
   ],
   "note": ""
  },
  {
   "property": "C77",
   "status": "partial",
   "theorems": [
    "C77_residuals_of_original_fit_refuted",
    "C77_first_sample_partial"
   ],
   "note": "Refuted from the second sample on; proved for the first sample."
  },
  {
   "property": "C78",
   "status": "partial",
   "theorems": [
    "C78_bootstrap_history_refuted",
    "C78_given_coefficients_partial"
   ],
   "note": "Refuted; proved when coefficients are given and lags is their number."
  },
  {
   "property": "C79",
   "status": "partial",
   "theorems": [
    "C79_given_lag_order_refuted",
    "C79_lag_order_partial"
   ],
   "note": "Refuted when there are more matrices than lags (ValueError); otherwise proved to succeed."
  },
  {
   "property": "C80",
   "status": "proved",
   "theorems": [
    "C80_varma_residuals"
   ],
   "note": ""
  },
  {
   "property": "C81",
   "status": "proved",
   "theorems": [
    "C81_prior_knowledge_blocks"
   ],
   "note": ""
  },
  {
   "property": "C82",
   "status": "proved",
   "theorems": [
    "C82_orders_with_prior_knowledge"
   ],
   "note": ""
  },
  {
   "property": "C83",
   "status": "partial",
   "theorems": [
    "C83_total_effect2",
    "C83_reversed_lags_refuted"
   ],
   "note": "Proved: the value is the entry of the inverse of the matrix unrolled from adjacency_matrices_. Refuted: because of C50 that matrix is not the law of the data for n_lags >= 2."
  },
  {
   "property": "C84",
   "status": "partial",
   "theorems": [
    "C84_series_unchanged_partial",
    "C84_series_refuted"
   ],
   "note": "Proved without changes; refuted after a change of the errors (lagged columns keep the training data)."
  },
  {
   "property": "C85",
   "status": "partial",
   "theorems": [
    "C85_list_exog_refuted",
    "C85_array_exog_partial"
   ],
   "note": "Refuted for lists (AttributeError after passing the check); proved for arrays."
  },
  {
   "property": "C86",
   "status": "partial",
   "theorems": [
    "C86_run_before_train_refuted"
   ],
   "note": "Refuted: AttributeError, because the attribute is never initialised."
  },
  {
   "property": "C87",
   "status": "proved",
   "theorems": [
    "C87_shuffle_permutes_rows"
   ],
   "note": ""
  },
  {
   "property": "C88",
   "status": "partial",
   "theorems": [
    "C88_returns_an_optimum_refuted",
    "C88_returns_an_optimum_partial",
    "C88_result_entries_partial",
    "C88_not_nearly_zero_partial"
   ],
   "note": "Refuted (max_iter = 1 and an optimum at zero returns a random draw). Proved whenever the loop is left by a break; otherwise the result is an optimum or a random draw."
  },
  {
   "property": "C89",
   "status": "proved",
   "theorems": [
    "C89_local_search",
    "C89_stages"
   ],
   "note": "The acceptance test, the reversals, deletions and additions are modelled; the loss is an arbitrary function."
  },
  {
   "property": "C90",
   "status": "partial",
   "theorems": [
    "C90_every_rho_max_refuted",
    "C90_fit_terminates_partial"
   ],
   "note": "Refuted for rho_max <= 1 (TypeError); proved for rho_max > 1."
  },
  {
   "property": "C91",
   "status": "partial",
   "theorems": [
    "C91_row_order_partial",
    "C91_row_order_refuted"
   ],
   "note": "Proved for at most 100 samples; refuted for 101 (bandwidth from the first 100 rows only)."
  },
  {
   "property": "C92",
   "status": "proved",
   "theorems": [
    "C92_affine_invariance"
   ],
   "note": ""
  },
  {
   "property": "C93",
   "status": "partial",
   "theorems": [
    "C93_p_value_refuted",
    "C93_statistic_partial"
   ],
   "note": "Refuted: ZeroDivisionError for n <= 3, NaN p-value for n = 4 and 5. Proved from n = 4 on: the statistic is a number exactly when neither sample is constant on its first 100 rows."
  },
  {
   "property": "C94",
   "status": "partial",
   "theorems": [
    "C94_one_matrix_per_repetition_refuted",
    "C94_matrix_shapes_partial"
   ],
   "note": "Refuted: the number of matrices is not compared with the number of repetitions. Proved: p x p, finite, same leading shape in all iterations."
  },
  {
   "property": "C95",
   "status": "partial",
   "theorems": [
    "C95_imputed_values_partial",
    "C95_observed_values_kept_refuted",
    "C95_observed_values_kept_partial"
   ],
   "note": "Refuted for imputers in general; proved for the default imputer."
  },
  {
   "property": "C96",
   "status": "partial",
   "theorems": [
    "C96_default_imputer_refuted",
    "C96_default_imputer_partial"
   ],
   "note": "Refuted for draws in which a variable is never observed (sklearn's imputer drops the column); proved otherwise."
  },
  {
   "property": "C97",
   "status": "proved",
   "theorems": [
    "C97_every_variable_once"
   ],
   "note": "For matrices in which no row with parents sums to nearly zero; see C60 for the others."
  },
  {
   "property": "C98",
   "status": "partial",
   "theorems": [
    "C98_every_resample_used_refuted",
    "C98_every_resample_used_partial"
   ],
   "note": "Refuted for results without resampled indices (only the first matrix is used); proved for results with them."
  },
  {
   "property": "C99",
   "status": "partial",
   "theorems": [
    "C99_row_labels_irrelevant_refuted",
    "C99_row_labels_irrelevant_partial"
   ],
   "note": "Refuted: labels are used as positions. Proved for labels that are a permutation of the positions."
  },
  {
   "property": "C100",
   "status": "partial",
   "theorems": [
    "C100_endogenous_intervention_refuted",
    "C100_endogenous_intervention_partial"
   ],
   "note": "Refuted for adjustment variables; proved for cause and effect."
  },
  {
   "property": "C101",
   "status": "proved",
   "theorems": [
    "C101_intervention_semantics"
   ],
   "note": "With at least one adjustment and no further columns (see C64)."
  },
  {
   "property": "C102",
   "status": "partial",
   "theorems": [
    "C102_missing_model_reported_refuted",
    "C102_missing_model_reported_partial"
   ],
   "note": "Refuted: the check never fires, TypeError in the first fold. Proved: what happens to every configuration."
  },
  {
   "property": "C103",
   "status": "partial",
   "theorems": [
    "C103_best_score_refuted",
    "C103_best_score_partial"
   ],
   "note": "Refuted with NaN scores; proved for score lists without NaN."
  },
  {
   "property": "C104",
   "status": "proved",
   "theorems": [
    "C104_mb_size"
   ],
   "note": ""
  },
  {
   "property": "C105",
   "status": "proved",
   "theorems": [
    "C105_order_is_causal",
    "C105_order_is_causal_without_knowledge",
    "C105_kernel_measure",
    "C105_pairwise_measure"
   ],
   "note": "Exact arithmetic; the measure is a parameter with the stated property, derived from conditions on the mutual information for both measures. Soft prior knowledge is excluded (see C09)."
  },
  {
   "property": "C106",
   "status": "proved",
   "theorems": [
    "C106_coefficients_recovered"
   ],
   "note": "The adaptive lasso is idealised to least squares (exact_regression)."
  },
  {
   "property": "C107",
   "status": "proved",
   "theorems": [
    "C107_total_effect_exact",
    "C107_unknown_variable_rejected"
   ],
   "note": "LinearRegression is modelled by its normal equations."
  },
  {
   "property": "C108",
   "status": "proved",
   "theorems": [
    "C108_fit_then_effect"
   ],
   "note": "Composition."
  },
  {
   "property": "C109",
   "status": "proved",
   "theorems": [
    "C109_ica_estimate_exact",
    "C109_ica_fit_correct"
   ],
   "note": "FastICA and linear_sum_assignment are parameters with the stated properties."
  },
  {
   "property": "C110",
   "status": "proved",
   "theorems": [
    "C110_search_exact",
    "C110_smaller_sets_first"
   ],
   "note": "The GAM regressions and tests are parameters; set iteration order is an arbitrary permutation."
  },
  {
   "property": "C111",
   "status": "proved",
   "theorems": [
    "C111_gamma_approximation",
    "C111_bandwidth"
   ],
   "note": "exp, sqrt and the gamma cdf are parameters; exact arithmetic."
  },
  {
   "property": "C112",
   "status": "proved",
   "theorems": [
    "C112_hsic_search_exact",
    "C112_fcorr_search_exact"
   ],
   "note": "Finite statistics, p-values not exactly 0 (C39 covers the zero case); prior knowledge, if given, orderable (C38 covers the exceptions)."
  },
  {
   "property": "C113",
   "status": "proved",
   "theorems": [
    "C113_hsic_positions_are_sound",
    "C113_fcorr_positions_are_sound",
    "C113_hsic_correct",
    "C113_fcorr_correct"
   ],
   "note": "Without prior knowledge (C73 shows that soundness fails with it); the adaptive lasso is idealised to least squares for the matrix."
  },
  {
   "property": "C114",
   "status": "proved",
   "theorems": [
    "C114_search_exact",
    "C114_pairs_recorded"
   ],
   "note": "Exact characterisation of the search plus completeness for pairs."
  },
  {
   "property": "C115",
   "status": "proved",
   "theorems": [
    "C115_rcd_effect",
    "C115_parce_effect",
    "C115_parce_effect_by_paths",
    "C115_parce_absent_variable",
    "C115_multi_group_effects",
    "C115_multi_group_unknown_variable",
    "C115_multi_group_bootstrap"
   ],
   "note": "Regression and path versions; NaN and warning behaviour; multi-group bootstrap."
  },
  {
   "property": "C116",
   "status": "proved",
   "theorems": [
    "C116_base_p_values",
    "C116_nan_p_values",
    "C116_var_p_values",
    "C116_tested_columns_are_the_errors"
   ],
   "note": "Symmetry, diagonal, NaN pattern and identity of the tested columns."
  },
  {
   "property": "C117",
   "status": "proved",
   "theorems": [
    "C117_imputer_checked",
    "C117_discovery_checked",
    "C117_run_checked"
   ],
   "note": "Equivalence with an independent description of valid outputs (Props_Checks.v)."
  },
  {
   "property": "C118",
   "status": "proved",
   "theorems": [
    "C118_root_distances",
    "C118_total_effect_arguments",
    "C118_paths_source",
    "C118_probabilities",
    "C118_visualisation_rows",
    "C118_generator_fit",
    "C118_generator_dictionaries",
    "C118_intervention_predictor",
    "C118_var_paths",
    "C118_varma_given",
    "C118_longitudinal_effect",
    "C118_longitudinal_nan",
    "C118_simulator_arguments",
    "C118_simulator_cyclic"
   ],
   "note": "One theorem per function; negative indices are outside the model (Props_Checks2.v)."
  },
  {
   "property": "C119",
   "status": "proved",
   "theorems": [
    "C119_rounds"
   ],
   "note": "Which subset of a conditioning set is visited first is left open because Python set order is unspecified; the statistic values come from explicit function parameters."
  },
  {
   "property": "C120",
   "status": "proved",
   "theorems": [
    "C120_direction_counts",
    "C120_direction_counts_by_sign",
    "C120_truncation",
    "C120_errors"
   ],
   "note": "direction counts of every time point, by sign, truncation and errors"
  },
  {
   "property": "C121",
   "status": "proved",
   "theorems": [
    "C121_graph_counts"
   ],
   "note": "graph counts of every time point"
  },
  {
   "property": "C122",
   "status": "partial",
   "theorems": [
    "C122_probabilities",
    "C122_total_effects_partial",
    "C122_effect_uses_threshold_refuted"
   ],
   "note": "probabilities and the list of total effects proved; the median is taken over all samples with a non-zero effect and ignores the threshold (C122_effect_uses_threshold_refuted)"
  },
  {
   "property": "C123",
   "status": "proved",
   "theorems": [
    "C123_paths",
    "C123_errors"
   ],
   "note": "paths of the unrolled graphs; acyclic instantaneous graphs assumed (those of a fit are)"
  },
  {
   "property": "C124",
   "status": "partial",
   "theorems": [
    "C124_regression_partial",
    "C124_adjusts_for_parents_refuted",
    "C124_no_order"
   ],
   "note": "columns of the regression characterised; for two or more lags they are not the parents' columns because the lags are stored reversed (C124_adjusts_for_parents_refuted, see C50)"
  },
  {
   "property": "C125",
   "status": "partial",
   "theorems": [
    "C125_p_values_partial",
    "C125_prior_knowledge_refuted"
   ],
   "note": "proved after a fit without prior knowledge; with prior knowledge the residuals are never set and the method raises AttributeError (C125_prior_knowledge_refuted)"
  },
  {
   "property": "C126",
   "status": "partial",
   "theorems": [
    "C126_edges",
    "C126_unknown_partial",
    "C126_unknown_refuted",
    "C126_nodes",
    "C126_prediction"
   ],
   "note": "Proved: nodes, edges, path and cycle marks, prediction edges, and the double-headed arrows for NaN entries on or below the diagonal. Refuted (C126_unknown_refuted): NaN entries above the diagonal only are not drawn. Numbers are labels, not formatted text."
  },
  {
   "property": "C127",
   "status": "partial",
   "theorems": [
    "C127_valid_arguments_partial",
    "C127_argument_errors",
    "C127_path_range_refuted",
    "C127_wide_matrix_refuted",
    "C127_limit_refuted"
   ],
   "note": "Proved: valid arguments give a drawing; the documented errors. Refuted: a path end equal to the number of variables passes the check and fails inside networkx (C127_path_range_refuted), a non-square matrix with default names raises IndexError (C127_wide_matrix_refuted), coefficients equal to lower_limit are dropped although the documentation excludes only smaller ones (C127_limit_refuted)."
  },
  {
   "property": "C128",
   "status": "partial",
   "theorems": [
    "C128_clusters",
    "C128_edges",
    "C128_heights",
    "C128_valid_arguments_partial",
    "C128_unknown_refuted",
    "C128_path_nodes_refuted",
    "C128_isolated_target_refuted"
   ],
   "note": "Proved: clusters, heights, edges, valid arguments. Refuted: NaN entries are rejected although double-headed arrows are documented (C128_unknown_refuted), path nodes are never coloured because an index is compared with names (C128_path_nodes_refuted), a target without edges is drawn twice (C128_isolated_target_refuted)."
  },
  {
   "property": "C129",
   "status": "proved",
   "theorems": [
    "C129_directions",
    "C129_errors",
    "C129_dags"
   ],
   "note": "Percentages are rational numbers; the rounding to one decimal is not modelled."
  },
  {
   "property": "C130",
   "status": "partial",
   "theorems": [
    "C130_residuals_partial",
    "C130_idempotent",
    "C130_errors",
    "C130_negative_index_refuted"
   ],
   "note": "Proved for indices 0 <= i < n_features: residuals, idempotence, errors. Refuted (C130_negative_index_refuted): with a negative index the regressed feature itself counts as one of the other columns and is replaced by zeros."
  },
  {
   "property": "C131",
   "status": "proved",
   "theorems": [
    "C131_selection_and_refit",
    "C131_errors",
    "C131_recovers_adjacency",
    "C131_direct_lingam_correct"
   ],
   "note": "Standardisation, power and LassoLars are arbitrary functions; the regression is any exact least-squares procedure (one exists: gram_fits). The condition that the selection keeps the true parents is a hypothesis of the recovery theorems."
  },
  {
   "property": "C132",
   "status": "partial",
   "theorems": [
    "C132_description",
    "C132_latents_distinct",
    "C132_errors",
    "C132_ordinal_refuted"
   ],
   "note": "Proved for non-negative is_ordinal. Refuted (C132_ordinal_refuted): flags of both signs that sum to zero are ignored. The formatting of a number is an arbitrary function; semopy is an arbitrary function of the text."
  },
  {
   "property": "C133",
   "status": "proved",
   "theorems": [
    "C133_constructor",
    "C133_fit_always_returns",
    "C133_result",
    "C133_search_exact"
   ],
   "note": "The independence tests, -2 log and the chi-square survival function are arbitrary functions."
  },
  {
   "property": "C134",
   "status": "proved",
   "theorems": [
    "C134_fcorr_every_data_set",
    "C134_hsic_fisher",
    "C134_hsic_zero",
    "C134_hsic_monotone",
    "C134_data_set_order_irrelevant",
    "C134_copies_fcorr"
   ],
   "note": "The copies theorem is for F-correlation with non-negative values."
  },
  {
   "property": "C135",
   "status": "partial",
   "theorems": [
    "C135_returns_partial",
    "C135_rho_max_refuted",
    "C135_no_self_loops",
    "C135_acyclic_partial",
    "C135_default_safe_partial",
    "C135_five_factors_refuted",
    "C135_rho_limit_refuted"
   ],
   "note": "Proved for rho_max > 1; the acyclicity theorem has the tolerance condition. Refuted: rho_max <= 1 gives a TypeError (C135_rho_max_refuted); with the default constants a cycle through five factors passes the tolerance (C135_five_factors_refuted); when rho reaches rho_max a cyclic matrix is returned (C135_rho_limit_refuted). The defaults are safe for up to four factors (C135_default_safe_partial)."
  },
  {
   "property": "C136",
   "status": "proved",
   "theorems": [
    "C136_scores_exact",
    "C136_scale_too_small"
   ],
   "note": "cfa and the matrix inversion are parameters; the theorem assumes that the inversion gives the inverse of the Gram matrix."
  },
  {
   "property": "C137",
   "status": "partial",
   "theorems": [
    "C137_documented_scale_refuted",
    "C137_fit_partial",
    "C137_no_limit_refuted",
    "C137_acyclic",
    "C137_third_domain_refuted"
   ],
   "note": "Proved for a scale array with two rows and at least two domains. Refuted: the documented scale of shape (1, n) never works (C137_documented_scale_refuted); a likelihood that never settles ends in an IndexError after 9999 rounds (C137_no_limit_refuted); the third and later domains never influence the matching (C137_third_domain_refuted). A round is an arbitrary function that does not raise."
  },
  {
   "property": "C138",
   "status": "partial",
   "theorems": [
    "C138_last_run",
    "C138_best_run_refuted",
    "C138_no_iterations",
    "C138_restarts"
   ],
   "note": "What holds: the matrix comes from the last run (C138_last_run). Refuted: not from the best one (C138_best_run_refuted). max_iter = 0 leaves it undefined."
  },
  {
   "property": "C139",
   "status": "proved",
   "theorems": [
    "C139_shared_order_is_causal_in_every_group",
    "C139_fit_then_effects",
    "C139_common_order_needed"
   ],
   "note": "soft prior knowledge is not covered by the correctness statement"
  },
  {
   "property": "C140",
   "status": "proved",
   "theorems": [
    "C140_var_fit_recovers_the_model",
    "C140_residuals_follow_the_instantaneous_model"
   ],
   "note": "the statsmodels autoregression and the adaptive lasso are parameters assumed to solve their normal equations"
  },
  {
   "property": "C141",
   "status": "proved",
   "theorems": [
    "C141_longitudinal_fit_recovers_the_model",
    "C141_one_lag"
   ],
   "note": "the linear regression and the adaptive lasso are parameters assumed to solve their normal equations; the reversed order of the lag blocks for two or more lags is the finding of C50"
  },
  {
   "property": "C142",
   "status": "proved",
   "theorems": [
    "C142_rcd_recovers_model"
   ],
   "note": "the regression, Pearson, Shapiro-Wilk and HSIC/F-correlation tests are parameters with ideal answers on combinations of the errors (Darmois-Skitovich)"
  },
  {
   "property": "C143",
   "status": "partial",
   "theorems": [
    "C143_pairs_sound_with_hidden_partial",
    "C143_hidden_confounder_refuted",
    "C143_three_explanatory_refuted"
   ],
   "note": "proved for max_explanatory_num = 1 with any hidden variables; refuted for the default 2 with one hidden variable (hidden q causes a and b, a causes i: b is recorded as ancestor of i) and for 3 without hidden variables (0->1, 0->2, 0->3, 4->2, 4->3: variables 2 and 3 are recorded as ancestors of 1)"
  },
  {
   "property": "C144",
   "status": "proved",
   "theorems": [
    "C144_fcorr_positions_sound_with_hidden",
    "C144_hsic_positions_sound_with_hidden",
    "C144_fcorr_rows_exact_with_hidden",
    "C144_hsic_rows_exact_with_hidden",
    "C144_fcorr_block_is_confounded",
    "C144_hsic_block_is_confounded"
   ],
   "note": "HSIC, F-correlation, chi-square tail and regression are parameters with ideal answers on combinations of the errors; prior knowledge is not used"
  },
  {
   "property": "C145",
   "status": "proved",
   "theorems": [
    "C145_fcorr_recovers_model",
    "C145_hsic_recovers_model"
   ],
   "note": "as C144"
  },
  {
   "property": "C146",
   "status": "proved",
   "theorems": [
    "C146_loss_gradient",
    "C146_acyclicity_gradient",
    "C146_objective_gradient",
    "C146_losses_accepted"
   ],
   "note": "over the real numbers; rounding and overflow of exp and cosh are not modelled"
  },
  {
   "property": "C147",
   "status": "partial",
   "theorems": [
    "C147_logistic_gradient",
    "C147_mixed_continuous_gradient",
    "C147_objective_gradient",
    "C147_laplace_refuted",
    "C147_mixed_discrete_refuted",
    "C147_mixed_entries_refuted",
    "C147_poisson_refuted",
    "C147_mixed_dag_gradient_of_another_function"
   ],
   "note": "logistic and mixed with continuous variables proved; refuted for laplace, mixed with discrete variables and poisson: genuine defects of the code"
  },
  {
   "property": "C148",
   "status": "partial",
   "theorems": [
    "C148_logistic_likelihood",
    "C148_laplace_likelihood",
    "C148_mixed_continuous_likelihood",
    "C148_mixed_discrete_refuted",
    "C148_mixed_unbounded_refuted",
    "C148_poisson_refuted"
   ],
   "note": "logistic, laplace and mixed with continuous variables proved; refuted for mixed with discrete variables and poisson: genuine defects of the code"
  },
  {
   "property": "C149",
   "status": "partial",
   "theorems": [
    "C149_loss_refuted",
    "C149_gradient_refuted"
   ],
   "note": "refuted: genuine defects of the code; laplace with an invertible product never raises"
  },
  {
   "property": "C150",
   "status": "proved",
   "theorems": [
    "C150_gram_matrices_semidefinite",
    "C150_statistic_nonnegative",
    "C150_statistic_bounded_by_self_statistics"
   ],
   "note": "over the real numbers with the true exponential"
  },
  {
   "property": "C151",
   "status": "proved",
   "theorems": [
    "C151_statistic_zero_iff_independent",
    "C151_continuous_zero_iff_constant",
    "C151_widths_do_not_matter"
   ],
   "note": "over the real numbers with the true exponential"
  },
  {
   "property": "C152",
   "status": "proved",
   "theorems": [
    "C152_null_mean",
    "C152_null_variance"
   ],
   "note": "over the real numbers with the true exponential; the gamma tail itself is outside the model"
  },
  {
   "property": "C153",
   "status": "proved",
   "theorems": [
    "C153_incomplete_cholesky",
    "C153_greedy_and_needed",
    "C153_exact_without_tolerance"
   ],
   "note": "over the real numbers with the true exponential"
  },
  {
   "property": "C154",
   "status": "proved",
   "theorems": [
    "C154_value",
    "C154_zero",
    "C154_canonical_unique"
   ],
   "note": "over the real numbers; argsort, eigh and eigsh are parameters with specifications, and routines that meet these are constructed"
  },
  {
   "property": "C155",
   "status": "proved",
   "theorems": [
    "C155_symmetric",
    "C155_affine",
    "C155_errors",
    "C155_otherwise_eigsh"
   ],
   "note": "over the real numbers; constant samples become NaN and are rejected by eigh, modelled as ValueError"
  },
  {
   "property": "C156",
   "status": "proved",
   "theorems": [
    "C156_decomposition",
    "C156_weights_irrelevant",
    "C156_discrete_root_maximum_likelihood",
    "C156_discrete_root_sign"
   ],
   "note": "over the real numbers; logistic, Poisson and linear regressions are parameters"
  },
  {
   "property": "C157",
   "status": "proved",
   "theorems": [
    "C157_laplace_likelihood",
    "C157_laplace_is_density",
    "C157_code_density_mass",
    "C157_units",
    "C157_undefined"
   ],
   "note": "over the real numbers"
  },
  {
   "property": "C158",
   "status": "partial",
   "theorems": [
    "C158_more_parents_fit_better_refuted",
    "C158_comparison_partial"
   ],
   "note": "the statement is false of the code: coefficients are fitted by least squares and judged by a Laplace likelihood; a counterexample with four samples is proved, and what decides comparisons is proved"
  },
  {
   "property": "C159",
   "status": "partial",
   "theorems": [
    "C159_term_partial",
    "C159_loglikelihood_refuted",
    "C159_better_fit_scores_lower_refuted",
    "C159_useless_parent_refuted",
    "C159_factorial_of_nearest_integer"
   ],
   "note": "the statement is false of the code: the term is proved to be minus the log-likelihood of the regression on the last parent alone without intercept, hence positive, decreasing in the fit, and a column of zeros is always accepted as a first parent"
  },
  {
   "property": "C160",
   "status": "proved",
   "theorems": [
    "C160_units_pwling",
    "C160_units_kernel"
   ],
   "note": "over the real numbers; for the kernel measure the sum of the logarithms of singular values is a parameter that does not depend on the order of rows and columns"
  },
  {
   "property": "C161",
   "status": "proved",
   "theorems": [
    "C161_samples_pwling",
    "C161_reordered_and_repeated",
    "C161_samples_kernel"
   ],
   "note": "over the real numbers"
  },
  {
   "property": "C162",
   "status": "proved",
   "theorems": [
    "C162_adjacency_units"
   ],
   "note": "over the real numbers; LinearRegression returns a least squares fit, LassoLarsIC is a parameter that respects signs"
  },
  {
   "property": "C163",
   "status": "proved",
   "theorems": [
    "C163_relabelling",
    "C163_no_ties_is_the_run"
   ],
   "note": "over the real numbers, default measure, no ties in the run"
  },
  {
   "property": "C164",
   "status": "proved",
   "theorems": [
    "C164_two_variables",
    "C164_antisymmetric",
    "C164_pwling_formula",
    "C164_kernel_formula"
   ],
   "note": "over the real numbers"
  },
  {
   "property": "C165",
   "status": "proved",
   "theorems": [
    "C165_nan_exactly_when_related",
    "C165_order_of_columns",
    "C165_constant_column",
    "C165_constant_column_kernel"
   ],
   "note": "over the real numbers: a column with zero variance divides by exactly zero"
  },
  {
   "property": "C166",
   "status": "proved",
   "theorems": [
    "C166_first_two",
    "C166_two_variables"
   ],
   "note": "in exact rational arithmetic"
  },
  {
   "property": "C167",
   "status": "partial",
   "theorems": [
    "C167_causal_order_refuted",
    "C167_repaired_partial"
   ],
   "note": "refuted with four variables: the variable placed last is regressed out of the others and its statistic is then recomputed, so it becomes zero and a true cause is dropped from later conditioning sets; proved for the loop with that and the early return repaired, for every number of variables"
  },
  {
   "property": "C168",
   "status": "partial",
   "theorems": [
    "C168_large_numbers_refuted",
    "C168_common_factor_partial"
   ],
   "note": "refuted: statistics are capped at 100000, so for large numbers the order becomes that of the columns; proved as long as no statistic reaches the cap"
  },
  {
   "property": "C169",
   "status": "partial",
   "theorems": [
    "C169_unit_of_one_column_refuted",
    "C169_origin_refuted",
    "C169_exact_sample_partial"
   ],
   "note": "refuted: for two columns with non-zero statistics either order is obtained by choosing the unit of one column, and adding a constant reverses a correct order; proved for the first two variables of exact samples"
  },
  {
   "property": "C170",
   "status": "partial",
   "theorems": [
    "C170_degree_two_refuted",
    "C170_degree_one_refuted",
    "C170_other_degrees_partial"
   ],
   "note": "refuted: K = 2 makes every statistic zero, and so does K = 1 with centred columns, hence the order is that of the columns; every K >= 3 uses the data"
  },
  {
   "property": "C171",
   "status": "proved",
   "theorems": [
    "C171_rows",
    "C171_permuted_rows",
    "C171_repeated_rows"
   ],
   "note": "in exact rational arithmetic"
  },
  {
   "property": "C172",
   "status": "partial",
   "theorems": [
    "C172_every_order_in_some_units_refuted",
    "C172_exact_partial"
   ],
   "note": "refuted: for every unmixing matrix without zeros and every order there are units in which the order found is that one; proved for exact unmixing matrices of acyclic models, where the order is a causal order in all units"
  },
  {
   "property": "C173",
   "status": "proved",
   "theorems": [
    "C173_signs_and_order_of_components",
    "C173_same_fit"
   ],
   "note": ""
  },
  {
   "property": "C174",
   "status": "proved",
   "theorems": [
    "C174_rcd_units"
   ],
   "note": "coefficients for columns none of which is an affine function of the others; exact rational arithmetic"
  },
  {
   "property": "C175",
   "status": "partial",
   "theorems": [
    "C175_sign_of_a_variable_refuted",
    "C175_never_negative_partial",
    "C175_positive_units_partial",
    "C175_minimiser_in_positive_units_partial"
   ],
   "note": "refuted: the width used for the residual is the combination of the widths of the columns, so for all data there are coefficients at which it is zero and the objective NaN, while with one column negated it is a number at the corresponding point; proved: never negative, and the same values and minimisers in all units with positive factors"
  },
  {
   "property": "C176",
   "status": "proved",
   "theorems": [
    "C176_parce_units"
   ],
   "note": "without prior knowledge; exact rational arithmetic"
  },
  {
   "property": "C177",
   "status": "partial",
   "theorems": [
    "C177_positive",
    "C177_zero_when_independent_refuted",
    "C177_centred_measures_dependence",
    "C177_centred_prefers_the_cause",
    "C177_order_with_independent_noise_refuted"
   ],
   "note": "refuted: the Gram matrices are not centred, so the quantity is positive for every sample, and on four rows with exactly independent noise the effect is put first; proved: never negative, and with centred matrices it is zero exactly for independent samples and prefers the cause"
  },
  {
   "property": "C178",
   "status": "partial",
   "theorems": [
    "C178_order_with_independent_noise_refuted",
    "C178_two_valued_right"
   ],
   "note": "refuted by 36 rows (cause and noise with values -3,-1,0,0,1,3 and coefficient 1) for which the effect is put first; proved for cause and noise with two equally frequent values each, any coefficient and any number of rows"
  },
  {
   "property": "C179",
   "status": "proved",
   "theorems": [
    "C179_order_is_causal"
   ],
   "note": "the regressor and the two outputs of the test are functions that meet the stated contracts; functions that meet them are constructed in the examples"
  },
  {
   "property": "C180",
   "status": "partial",
   "theorems": [
    "C180_independent_causes_refuted",
    "C180_direct_causes_refuted",
    "C180_two_variables_right",
    "C180_removed_by_test"
   ],
   "note": "refuted: the pruning step compares the residual with the remaining predictors only, so for every effect that is a sum of functions of independent causes all but one of the causes are removed and the remaining one is reported as a cause of all the others, whatever the functions; also on eight explicit rows; proved for two variables"
  },
  {
   "property": "C181",
   "status": "partial",
   "theorems": [
    "C181_score_meaning",
    "C181_opposite_predictions_refuted",
    "C181_empty_graph_correlation",
    "C181_leave_one_out_refuted",
    "C181_empty_graph_chosen_refuted",
    "C181_mean_of_columns"
   ],
   "note": "refuted: the score depends on the squared correlation only, reversed predictions score the same; the mean prediction of an empty graph is negatively correlated with the truth in every cross validation with equal folds (minus the root of the share of the variance between folds), it has an infinite score with leave-one-out and is then chosen over every configuration with a finite score; proved: when the score is undefined, infinite, zero, never negative"
  },
  {
   "property": "C182",
   "status": "partial",
   "theorems": [
    "C182_one_is_two_refuted",
    "C182_more_than_the_maximum_refuted"
   ],
   "note": "refuted: the values 1 and 2 always give the same result, and with the value 1 a variable gets two direct causes; proved: the sets tested at once have at most max(2, value) members, the child included (C110, C110_smaller_sets_first)"
  },
  {
   "property": "C183",
   "status": "partial",
   "theorems": [
    "C183_independent_causes_right",
    "C183_triangle_refuted",
    "C183_no_answer"
   ],
   "note": "proved for one effect of any number of independent causes (whatever num_explanatory_vals); refuted for x -> y -> z with x -> z: sets that contain an identified pair are never tested, so both pairs with z are reported as hidden, for every exact regressor and test and every num_explanatory_vals"
  },
  {
   "property": "C184",
   "status": "proved",
   "theorems": [
    "C184_agreement",
    "C184_union",
    "C184_data_checks"
   ],
   "note": "on data over the reals with the true entropy approximation, NaN included, with and without prior knowledge"
  },
  {
   "property": "C185",
   "status": "proved",
   "theorems": [
    "C185_order_of_data_sets",
    "C185_units",
    "C185_matrices_units"
   ],
   "note": "on data over the reals; the matrices under the contracts of C162 for the regressions"
  },
  {
   "property": "C186",
   "status": "partial",
   "theorems": [
    "C186_units",
    "C186_origin_refuted"
   ],
   "note": "proved for changes of units with the same origins (lag search, pruning and prior knowledge included); refuted for changes of origin: the VAR model is fitted without a constant term (trend=\"n\"), so values around a level without any dependence on the past get the autoregressive coefficient level^2/(level^2+1)"
  },
  {
   "property": "C187",
   "status": "partial",
   "theorems": [
    "C187_error_recursion",
    "C187_exact_start",
    "C187_no_moving_average",
    "C187_moving_average_refuted",
    "C187_not_reproducible_refuted"
   ],
   "note": "refuted when there is a moving average part: the first residuals are random draws from numpy's global generator and their error is passed on by the moving average recursion, for one variable as (-theta)^t; proved: that recursion in general, exactness without moving average part or with the right start values"
  },
  {
   "property": "C188",
   "status": "partial",
   "theorems": [
    "C188_links_refuted",
    "C188_local_optimum_refuted",
    "C188_directions_partial"
   ],
   "note": "refuted: with at most d-1 edges no link is ever removed, with two variables none is added, and at most one link is added in all, whatever the score; a concrete run that can be improved by one more edge; proved: no acyclic graph obtained by reversing edges of the first phase's result scores better than the result"
  },
  {
   "property": "C189",
   "status": "partial",
   "theorems": [
    "C189_means",
    "C189_effects",
    "C189_intervention_partial",
    "C189_intervention_refuted",
    "C189_acceptance_refuted"
   ],
   "note": "proved: the propagated means follow the units, the effects on the prediction are the same for every predictor (up and down exchanged where a scale is turned round), and the optimal intervention follows the units where no row of coefficients cancels; refuted: a row that cancels in one unit and not in another gives a different intervention, and a cycle of small coefficients is accepted in one unit and rejected in another"
  },
  {
   "property": "C190",
   "status": "partial",
   "theorems": [
    "C190_plain_names",
    "C190_lag_names",
    "C190_by_position_partial",
    "C190_replay_partial",
    "C190_like_labels_refuted",
    "C190_like_parents_refuted",
    "C190_integer_labels_refuted"
   ],
   "note": "proved: arrays and text labels give distinct names (for time series at all lags, even with brackets in the labels), and with distinct names the program on names computes what the program on positions (C52-C54) computes; refuted: the labels 1 and \"1\" collide, so the replay returns the first column twice or fails, and a time series with an integer label is always a TypeError"
  },
  {
   "property": "C191",
   "status": "partial",
   "theorems": [
    "C191_list_partial",
    "C191_time_series_list_partial",
    "C191_time_series_array_refuted",
    "C191_array_not_list_refuted",
    "C191_wrong_length"
   ],
   "note": "proved for lists of flags, and for arrays with plain data; refuted for arrays with time series, where the flags are read as positions 0 and n_lags+1"
  },
  {
   "property": "C192",
   "status": "partial",
   "theorems": [
    "C192_recovers_models",
    "C192_fisher_joins_tests",
    "C192_fcorr_refuted"
   ],
   "note": "proved whenever the joint decisions are ideal, which Fisher's method over decisive p-values gives (independence='hsic'); refuted for independence='fcorr', where only the last group decides and an ancestor whose effect cancels there is lost"
  },
  {
   "property": "C193",
   "status": "proved",
   "theorems": [
    "C193_units",
    "C193_trend",
    "C193_equations"
   ],
   "note": "without prior knowledge; LinearRegression as any least squares fit with intercept, LassoLarsIC as in C162; time points may have different units"
  },
  {
   "property": "C194",
   "status": "proved",
   "theorems": [
    "C194_causes_right"
   ],
   "note": "independence='hsic' without prior knowledge; regressions exact (SpecCam), tests decisive (p-value 0 or 1), Fisher's method computed by the model"
  },
  {
   "property": "C195",
   "status": "partial",
   "theorems": [
    "C195_infinite_score_refuted",
    "C195_equal_predictions",
    "C195_null_ignores_match",
    "C195_p_value_is_a_proportion"
   ],
   "note": "refuted when the best score is infinite or NaN: then no other configuration is ever chosen (t_obs is inf or NaN and no trial exceeds it). Proved for equal predictions with a finite score: of two opposite series of draws at least one selects a configuration that is at most as large, unless more than 1 - 2 thr of the trials tie. Also proved: the trials do not depend on which prediction belongs to which row"
  },
  {
   "property": "C196",
   "status": "partial",
   "theorems": [
    "C196_regression",
    "C196_two_classes",
    "C196_labels_minus_one_one",
    "C196_labels_zero_one_refuted",
    "C196_more_classes_refuted",
    "C196_no_method"
   ],
   "note": "proved for regression models and for two classes labelled -1 and 1; for labels a, b the change of the expected label is reported times 2/|b-a|, so refuted for labels 0 and 1 (twice the change of the probability); refuted for classifiers with one class or more than two: ValueError"
  },
  {
   "property": "C197",
   "status": "partial",
   "theorems": [
    "C197_smallest_criterion",
    "C197_no_number_refuted",
    "C197_order_zero_refuted",
    "C197_fixed_order",
    "C197_single_array_ignored_refuted",
    "C197_second_search_refuted",
    "C197_second_fit_refuted"
   ],
   "note": "proved for an object that has no coefficients yet (first minimum, coefficients and residuals of that order); refuted: AttributeError when no criterion value is a number or order is (0, 0); a second fit searches only up to the order chosen before, or re-estimates nothing at all; a single given array is ignored"
  },
  {
   "property": "C198",
   "status": "partial",
   "theorems": [
    "C198_samples",
    "C198_object_afterwards_refuted",
    "C198_ignores_criterion_refuted",
    "C198_pure_orders_refuted",
    "C198_after_fit_refuted",
    "C198_residuals_drift_refuted"
   ],
   "note": "proved for a new object with p, q >= 1: one entry per sample, each series follows the recursion with the fitted coefficients, criterion and order restored; refuted: errors of later samples are drawn from the previous sample's residuals, the object keeps the last sample's coefficients, the order of the criterion is ignored, TypeError for orders (p, 0) and (0, q), ValueError after fit when pruning"
  },
  {
   "property": "C199",
   "status": "proved",
   "theorems": [
    "C199_coefficients",
    "C199_keeps_order"
   ],
   "note": "the regressors are shifted cyclically (np.roll), as stated in the theorem"
  },
  {
   "property": "C200",
   "status": "partial",
   "theorems": [
    "C200_effect",
    "C200_unknown",
    "C200_boundary_refuted"
   ],
   "note": "proved for series continued cyclically (np.roll), all lags; refuted for ordinary series: the end of the series is used as the past of its beginning, so that a doubling series yields -5/14 instead of 2"
  },
  {
   "property": "C201",
   "status": "partial",
   "theorems": [
    "C201_effect_now",
    "C201_lag_ignored_refuted",
    "C201_lagged_parents_refuted",
    "C201_rows",
    "C201_differs_refuted"
   ],
   "note": "proved for lag 0; refuted for lags: every positive lag is treated as lag 1, and the parents at the last lags are replaced by errors or by zeros; differs from VARLiNGAM on the same model and data"
  },
  {
   "property": "C202",
   "status": "partial",
   "theorems": [
    "C202_new_coefficients_partial",
    "C202_same_coefficients_refuted",
    "C202_without_parents"
   ],
   "note": "proved: the exact effect of new coefficients, which includes the loss of the trained intercept; refuted that a model's own coefficients reproduce the data: the variable moves by minus the intercept"
  },
  {
   "property": "C203",
   "status": "proved",
   "theorems": [
    "C203_accepts",
    "C203_meaning",
    "C203_first_complaint",
    "C203_coefficients"
   ],
   "note": "acceptance is an equivalence with the documented conditions; exceptions of check_array for coefficients and errors are passed on as given"
  },
  {
   "property": "C204",
   "status": "proved",
   "theorems": [
    "C204_failed_training",
    "C204_history",
    "C204_new_training",
    "C204_run",
    "C204_open_entries",
    "C204_train",
    "C204_train_series"
   ],
   "note": "training with classifiers or user models adds the checks of C203; the training of the models themselves is an oracle that does not raise"
  },
  {
   "property": "C205",
   "status": "partial",
   "theorems": [
    "C205_pairs_sound_with_hidden_partial",
    "C205_hidden_confounder_refuted"
   ],
   "note": "proved for max_explanatory_num=1; refuted for the default of 2: with a hidden common cause a false ancestor is recorded although every test decides correctly"
  },
  {
   "property": "C206",
   "status": "partial",
   "theorems": [
    "C206_common_unit_partial",
    "C206_two_variables",
    "C206_unit_of_the_target",
    "C206_single_unit_refuted"
   ],
   "note": "proved for a common unit with individual origins, for individual units with two variables, and for the unit of the target of each regression; refuted for individual units with three variables: several predictors share one kernel width, so doubling one variable can change the order"
  },
  {
   "property": "C207",
   "status": "partial",
   "theorems": [
    "C207_blocks_raise",
    "C207_up_to_two_partial",
    "C207_three_or_more",
    "C207_no_effect",
    "C207_several_data_sets",
    "C207_every_number_refuted"
   ],
   "note": "proved for num_explanatory_vals of one and two; refuted from three on: f_correlation raises ValueError for every block of two or more columns, so the fit either raises (exact condition proved) or returns the answer of two"
  },
  {
   "property": "C208",
   "status": "proved",
   "theorems": [
    "C208_own_units_default",
    "C208_common_unit",
    "C208_several_data_sets",
    "C208_rows"
   ],
   "note": "kernel widths scale with the unit, so every p-value is unchanged; with at most two explanatory variables only single columns are tested, which allows individual units"
  },
  {
   "property": "C209",
   "status": "partial",
   "theorems": [
    "C209_floats",
    "C209_kernel",
    "C209_first_variable_partial",
    "C209_two_variables_partial",
    "C209_all_variables_partial",
    "C209_small_residuals",
    "C209_whole_residuals_partial",
    "C209_same_numbers_refuted"
   ],
   "note": "refuted: residuals are written into a copy with the dtype of X and lose their decimals, so a table of eight rows of -1, 0, 1 has different orders as integers and as floats; whenever the residuals of one variable on the first are smaller than 1, the rest of the order is the order of the columns; proved: the first variable, tables with at most two variables, the kernel measure and runs with whole residuals are not affected, and the result is an order of all variables"
  },
  {
   "property": "C210",
   "status": "partial",
   "theorems": [
    "C210_cut_off_partial",
    "C210_whole_residuals_partial",
    "C210_uncorrelated_refuted"
   ],
   "note": "refuted: the residuals are written back into an integer array and lose their decimals, so the columns need not have mean zero nor be uncorrelated with the removed feature; proved: coefficients and removed columns are the same as for floats, every entry differs by less than one and is no larger, and whole residuals are kept"
  },
  {
   "property": "C211",
   "status": "partial",
   "theorems": [
    "C211_effects_count_paths_partial",
    "C211_effects_agree_refuted"
   ],
   "note": "Refuted: in every resample with at least two variables the inherited bootstrap records, for the first variable of the order, a positive total effect on every other variable. Proved instead: the bootstrap never fails, and the number recorded for i <- j is exactly the number of directed paths from j to i in the zero-one graph of that resample."
  },
  {
   "property": "C212",
   "status": "partial",
   "theorems": [
    "C212_floats",
    "C212_no_common_ancestor_partial",
    "C212_two_variables_partial",
    "C212_whole_residuals_partial",
    "C212_small_residuals_partial",
    "C212_same_numbers_refuted"
   ],
   "note": "Refuted: the residuals are written into np.zeros_like(X) and lose their decimals. For a linear model of four observed variables with zero-one errors, ideal tests and default settings, the float table gives the model (C142) and the integer table misses an ancestor, reports a confounded pair that does not exist and a coefficient 2 instead of 1. Proved: floats are not affected; same result for two variables, whenever no two variables have a recorded ancestor in common, and when all residuals are whole; with residuals below one the search runs as if all conditioned variables were Gaussian."
  },
  {
   "property": "C213",
   "status": "partial",
   "theorems": [
    "C213_reduced_form",
    "C213_given_coefficients_partial",
    "C213_estimated_coefficients_partial",
    "C213_moving_average_refuted"
   ],
   "note": "Refuted for Omega: np.dot is given the inverse as its output array, so Omega_k (I - Psi_0) is returned instead of Omega_k; for x0_t = e0_t + e1_(t-1), x1_t = x0_t + x0_(t-1) + e1_t an effect -1 of e0_(t-1) on x0_t is reported that does not exist. Proved: the causal order and all Psi matrices are right, and Omega_k is right exactly when Omega_k Psi_0 = 0, both for given coefficients (with the innovations as start values or no moving average, see C187) and for estimated ones; without pruning, the causal order also with pruning of estimated coefficients."
  },
  {
   "property": "C214",
   "status": "partial",
   "theorems": [
    "C214_floats",
    "C214_two_variables_partial",
    "C214_whole_residuals_partial",
    "C214_small_residuals_partial",
    "C214_chain_refuted"
   ],
   "note": "Refuted: Y is a copy of X, so residuals stored in an integer table are cut off; on the chain x0 -> x1 -> x2 with errors 0 or 1 and exact regressions and tests the integer table gives x0 -> x1, x0 -> x2 and a hidden common cause of x1 and x2, the float table the chain. Proved: the results agree for two variables, and whenever the residuals of the regressions in the search are whole; if all residuals are below one in size, no variable gets more than max(2, num_explanatory_vals) - 1 parents from an integer table."
  },
  {
   "property": "C215",
   "status": "proved",
   "theorems": [
    "C215_two_variables",
    "C215_no_false_alarm"
   ],
   "note": "Exact regressions (SpecCam) and p-values above alpha exactly for independent samples (SpecResit) are hypotheses, shown to be satisfiable."
  },
  {
   "property": "C216",
   "status": "partial",
   "theorems": [
    "C216_smallest_criterion",
    "C216_fixed_lag",
    "C216_no_number_refuted",
    "C216_bootstrap_maximal_lag_refuted"
   ],
   "note": "Refuted: bootstrap of an object that was not fitted switches the criterion off and uses the maximal lag throughout; fit raises AttributeError when no lag has a number as its criterion. Proved: fit uses the lag with the smallest criterion, or lags without a criterion (first fit of an object; later ones keep the coefficients, see C44)."
  },
  {
   "property": "C217",
   "status": "partial",
   "theorems": [
    "C217_failed_fit",
    "C217_rejected_bootstrap",
    "C217_successful_bootstrap",
    "C217_failed_bootstrap_refuted",
    "C217_failed_bootstrap_partial",
    "C217_later_fit_refuted",
    "C217_negative_sampling_refuted"
   ],
   "note": "Refuted: bootstrap sets the criterion to None and restores it only when it succeeds, so later fits do not choose the lag any more; a negative n_sampling is noticed after the fit, whose coefficients then stay. Proved: a failed fit changes no setting and leaves no stale result; a bootstrap with rejected data changes nothing; otherwise a failed bootstrap (n_sampling not negative) loses only the criterion."
  },
  {
   "property": "C218",
   "status": "partial",
   "theorems": [
    "C218_centred_partial",
    "C218_constant_partial",
    "C218_method_refuted",
    "C218_intercept_refuted"
   ],
   "note": "The factors are right when all variables have mean zero (C218_centred_partial) or when the other variables span the constant (C218_constant_partial); otherwise not: two uncorrelated variables with mean 2 get 25/9 instead of 1 (C218_intercept_refuted). Called on an object the method raises TypeError, because it lacks self (C218_method_refuted)."
  },
  {
   "property": "C219",
   "status": "partial",
   "theorems": [
    "C219_returned",
    "C219_failed_search",
    "C219_history",
    "C219_history_partial",
    "C219_short_data_refuted",
    "C219_contradiction_refuted"
   ],
   "note": "True after a call that returns (C219_returned), after one that fails before the order is known (C219_failed_search), and always if the adaptive lasso never raises (C219_history_partial). Otherwise the object has the order of one data set and the matrix of another (C219_history); with the contract of LassoLarsIC this happens for every data set with at most as many rows as variables (C219_short_data_refuted), and order and matrix can contradict each other (C219_contradiction_refuted)."
  },
  {
   "property": "C220",
   "status": "partial",
   "theorems": [
    "C220_returned",
    "C220_failed_refuted",
    "C220_failed_search",
    "C220_p_values_partial",
    "C220_more_data_sets_refuted"
   ],
   "note": "True after a fit that returns (C220_returned) and for queries with as many data sets as were fitted (C220_p_values_partial). A fit that fails at the k-th data set leaves the new order with k matrices, and effects are reported for k data sets only (C220_failed_refuted); p-values of further data sets are all zero, which reads as dependence (C220_more_data_sets_refuted)."
  },
  {
   "property": "C221",
   "status": "partial",
   "theorems": [
    "C221_replay_partial",
    "C221_shared_refuted",
    "C221_two_generators_refuted"
   ],
   "note": "Proved if the two estimators are different objects and no later call of fit is given them (C221_replay_partial). The estimators are trained in place, not cloned: one object for both models makes every generate raise ValueError (C221_shared_refuted), and a second generator that is given the same estimators changes what the first one generates (C221_two_generators_refuted)."
  },
  {
   "property": "C222",
   "status": "partial",
   "theorems": [
    "C222_kept_partial",
    "C222_first_query_refuted",
    "C222_array",
    "C222_alias_refuted",
    "C222_mixed_object_refuted"
   ],
   "note": "From the first query on, for LiNGAM objects and lists (C222_kept_partial). The first query reads the LiNGAM object as it is then (C222_first_query_refuted). A numpy array is not copied, so later assignments are combined with the old order (C222_array) and the effects reported solve neither model (C222_alias_refuted). A LiNGAM object left by a failed fit (C219) makes an effect disappear (C222_mixed_object_refuted)."
  },
  {
   "property": "C223",
   "status": "partial",
   "theorems": [
    "C223_accepted",
    "C223_exceptions",
    "C223_values",
    "C223_rejected_first",
    "C223_missing_model_refuted"
   ],
   "note": "Accepted configurations and exceptions are exactly described (C223_accepted, C223_exceptions, C223_values, C223_rejected_first). A missing model is not rejected, because the defaults contain the key: the configurations before it are evaluated and then None is called, a TypeError (C223_missing_model_refuted)."
  },
  {
   "property": "C224",
   "status": "partial",
   "theorems": [
    "C224_successful_fit",
    "C224_failed_fit",
    "C224_not_fitted",
    "C224_old_index_refuted"
   ],
   "note": "True after a successful fit (C224_successful_fit) and for objects never fitted successfully (C224_not_fitted). A failed fit keeps the old answers (C224_failed_fit), whose index can lie outside the new list (C224_old_index_refuted)."
  },
  {
   "property": "C225",
   "status": "partial",
   "theorems": [
    "C225_generated_values",
    "C225_continuous_effect",
    "C225_continuous_cause",
    "C225_categorical_replay_refuted",
    "C225_adjustments",
    "C225_bad_dictionaries"
   ],
   "note": "Values: C225_generated_values. A continuous effect is returned whenever the cause is (C225_continuous_effect), a continuous cause with adjustments of any type too (C225_continuous_cause). A categorical variable is drawn anew, so the data are not returned (C225_categorical_replay_refuted)."
  },
  {
   "property": "C226",
   "status": "partial",
   "theorems": [
    "C226_continuous",
    "C226_categorical_refuted",
    "C226_replaced_model_refuted"
   ],
   "note": "Holds for continuous variables (C226_continuous). For categorical variables the values given in interv_exog are overwritten and have no influence (C226_categorical_refuted), and a replaced model receives NaN as error (C226_replaced_model_refuted)."
  },
  {
   "property": "C227",
   "status": "partial",
   "theorems": [
    "C227_continuous",
    "C227_categorical_refuted"
   ],
   "note": "Holds for a continuous cause (C227_continuous). Setting a categorical cause saves its draws, so the effect is drawn with other random numbers (C227_categorical_refuted)."
  },
  {
   "property": "C228",
   "status": "partial",
   "theorems": [
    "C228_accepted",
    "C228_rejected",
    "C228_cause_model_dropped_refuted"
   ],
   "note": "Acceptance and rejection: C228_accepted, C228_rejected. Without adjustments an accepted estimator of the cause is silently dropped and generate() raises AttributeError (C228_cause_model_dropped_refuted)."
  },
  {
   "property": "C229",
   "status": "partial",
   "theorems": [
    "C229_lines",
    "C229_repeated_position_refuted",
    "C229_default_positions",
    "C229_constant_cause_refuted"
   ],
   "note": "Distinct positions and percentiles: C229_lines. The default positions are distinct exactly if the cause is not constant (C229_default_positions). A repeated position raises ValueError (C229_repeated_position_refuted), hence also a constant cause with default positions (C229_constant_cause_refuted)."
  },
  {
   "property": "C230",
   "status": "partial",
   "theorems": [
    "C230_counts",
    "C230_missing_class_refuted"
   ],
   "note": "One value per run that contains the class, in the order of the runs (C230_counts). A resample without the class is left out instead of counting as zero (C230_missing_class_refuted)."
  },
  {
   "property": "C231",
   "status": "partial",
   "theorems": [
    "C231_accepted",
    "C231_nested_lists_refuted",
    "C231_percentiles",
    "C231_tuple_refuted"
   ],
   "note": "Exactly what is accepted: C231_accepted, C231_percentiles. Nested lists raise AttributeError (C231_nested_lists_refuted), a tuple of percentiles TypeError (C231_tuple_refuted)."
  },
  {
   "property": "C232",
   "status": "partial",
   "theorems": [
    "C232_failed_fit",
    "C232_rejected_bootstrap",
    "C232_successful_bootstrap",
    "C232_failed_bootstrap_refuted",
    "C232_same_outcome",
    "C232_later_fit_refuted",
    "C232_bootstrap_after_fit_refuted"
   ],
   "note": "A failed fit keeps the settings (C232_failed_fit), rejected data change nothing (C232_rejected_bootstrap), a successful bootstrap restores the criterion (C232_successful_bootstrap); outcomes agree with the model of successful calls (C232_same_outcome). A failed bootstrap leaves criterion=None, wherever it fails (C232_failed_bootstrap_refuted): after the TypeError of a pure AR or MA order every later fit skips the order search (C232_later_fit_refuted), and bootstrap after a pruned fit raises ValueError and loses the results (C232_bootstrap_after_fit_refuted)."
  },
  {
   "property": "C233",
   "status": "partial",
   "theorems": [
    "C233_results",
    "C233_successful_fit",
    "C233_short_list",
    "C233_p_values",
    "C233_uninitialised_refuted",
    "C233_fewer_times_refuted",
    "C233_other_rows_refuted",
    "C233_bootstrap",
    "C233_bootstrap_replaces_fit_refuted"
   ],
   "note": "Matrices, orders and residuals: C233_results, C233_successful_fit, C233_short_list; p-values after a successful fit: C233_p_values; resamples: C233_bootstrap. A failed fit overwrites the remembered shape: with more time points the p-values of the additional times are tests on uninitialised memory (C233_uninitialised_refuted), with fewer they raise IndexError (C233_fewer_times_refuted), with another number of rows p-values and total effects of the fitted model raise ValueError (C233_other_rows_refuted). bootstrap replaces the fitted model by that of the last resample (C233_bootstrap_replaces_fit_refuted)."
  },
  {
   "property": "C234",
   "status": "partial",
   "theorems": [
    "C234_fit",
    "C234_queries",
    "C234_no_matrix_refuted",
    "C234_bootstrap_refuted",
    "C234_unfitted",
    "C234_unknown_variable",
    "C234_single_variable_bootstrap"
   ],
   "note": "Orders, and queries with estimate_adj_mat=True: C234_fit, C234_queries. With estimate_adj_mat=False total effects and p-values raise TypeError after any number of fits (C234_no_matrix_refuted) and bootstrap raises ValueError for two or more variables (C234_bootstrap_refuted). Unfitted objects: C234_unfitted."
  },
  {
   "property": "C235",
   "status": "partial",
   "theorems": [
    "C235_acyclic_estimates_give_a_result_partial",
    "C235_bad_number_of_samplings",
    "C235_first_failing_fit",
    "C235_bootstrap_completes_when_its_fits_do_refuted"
   ],
   "note": "Proved when every estimate is acyclic (C235_acyclic_estimates_give_a_result_partial). Not true in general: the ancestor sets may form a circle of three, and then bootstrap raises ValueError although every fit succeeds (C235_bootstrap_completes_when_its_fits_do_refuted). Also C235_bad_number_of_samplings, C235_first_failing_fit."
  },
  {
   "property": "C236",
   "status": "partial",
   "theorems": [
    "C236_total_effects",
    "C236_p_values",
    "C236_surplus_data_sets_refuted",
    "C236_errors"
   ],
   "note": "Proved for as many data sets as at fit: C236_total_effects, C236_p_values; exceptions: C236_errors. Not true for longer lists: surplus data sets are ignored, with p-values all zero and a shorter list of effects (C236_surplus_data_sets_refuted)."
  },
  {
   "property": "C237",
   "status": "partial",
   "theorems": [
    "C237_bootstrap_partial",
    "C237_unknown_order_recorded_as_zero_refuted",
    "C237_errors"
   ],
   "note": "Proved for all pairs of which at most one has unknown order (C237_bootstrap_partial, C237_errors). Two variables of unknown order have the effect NaN in the query and zero in the result of bootstrap (C237_unknown_order_recorded_as_zero_refuted)."
  },
  {
   "property": "C238",
   "status": "partial",
   "theorems": [
    "C238_single_repeat_refuted",
    "C238_result",
    "C238_defaults_partial",
    "C238_contradictory_prior_knowledge",
    "C238_errors"
   ],
   "note": "Proved for at least two repeats, bootstrap samples with an observed value of each variable and prior knowledge that can be obeyed (C238_defaults_partial, C238_result); prior knowledge no order obeys is rejected (C238_contradictory_prior_knowledge) and every failure is a ValueError (C238_errors). n_repeats=1 passes the argument check and always ends in ValueError, since the default discovery model wants two data sets (C238_single_repeat_refuted)."
  },
  {
   "property": "C239",
   "status": "partial",
   "theorems": [
    "C239_bootstrap_partial",
    "C239_errors",
    "C239_bootstrap_completes_when_its_fits_do_refuted"
   ],
   "note": "Proved for estimates without directed circles (C239_bootstrap_partial, C239_errors). The ancestor sets may form a circle of three (C31 excludes circles of two); then every fit succeeds and bootstrap raises ValueError (C239_bootstrap_completes_when_its_fits_do_refuted; the answers of the tests are given, not computed from data)."
  }
 ]
}