{
 "claims": [
  {
   "property": "C01",
   "status": "proved",
   "theorems": [
    "C01_name_find_sound_complete",
    "C01_exact_match_preferred",
    "C01_exact_match_refuted"
   ],
   "note": "Sound/complete proved for every buildable name set; exact-match preference proved up to 12 characters and refuted for long names (hash collision of case variants)."
  },
  {
   "property": "C02",
   "status": "proved",
   "theorems": [
    "C02_name_add",
    "C02_name_stack",
    "C02_name_stack_vector",
    "C02_name_copy",
    "C02_copy_title_refuted"
   ],
   "note": "All proved except that a NULL title becomes \"(null)\" (refuted)."
  },
  {
   "property": "C03",
   "status": "proved",
   "theorems": [
    "C03_lookup_after_removals",
    "C03_stale_hash_refuted",
    "C03_transpose_overread_refuted"
   ],
   "note": ""
  },
  {
   "property": "C04",
   "status": "proved",
   "theorems": [
    "C04_data_copy",
    "C04_self_link",
    "C04_vector_name_refuted",
    "C04_error_flag_refuted"
   ],
   "note": ""
  },
  {
   "property": "C05",
   "status": "proved",
   "theorems": [
    "C05_memcpy_matching",
    "C05_memcpy_errors",
    "C05_text_mismatch_refuted"
   ],
   "note": ""
  },
  {
   "property": "C06",
   "status": "proved",
   "theorems": [
    "C06_vector_stack",
    "C06_matrix_stack",
    "C06_matrix_stack_mismatch",
    "C06_matrix_stack_null"
   ],
   "note": "Flat-memory model, in place and not."
  },
  {
   "property": "C07",
   "status": "proved",
   "theorems": [
    "C07_row_stack",
    "C07_column_stack",
    "C07_stack_null",
    "C07_text_mismatch",
    "C07_matrix_mismatch_refuted",
    "C07_column_names_refuted",
    "C07_text_alignment_refuted"
   ],
   "note": ""
  },
  {
   "property": "C08",
   "status": "proved",
   "theorems": [
    "C08_row_split",
    "C08_row_split_ends",
    "C08_row_split_restack",
    "C08_column_split",
    "C08_column_split_restack",
    "C08_vector_past_end_refuted",
    "C08_capital_R_refuted",
    "C08_short_text_names_refuted"
   ],
   "note": ""
  },
  {
   "property": "C09",
   "status": "proved",
   "theorems": [
    "C09_rm_rows",
    "C09_partial_names_refuted",
    "C09_ragged_refuted"
   ],
   "note": ""
  },
  {
   "property": "C10",
   "status": "proved",
   "theorems": [
    "C10_rm_columns",
    "C10_prune_columns",
    "C10_unnamed_columns_refuted"
   ],
   "note": ""
  },
  {
   "property": "C11",
   "status": "proved",
   "theorems": [
    "C11_listwise_delete",
    "C11_ragged_refuted"
   ],
   "note": ""
  },
  {
   "property": "C12",
   "status": "proved",
   "theorems": [
    "C12_set_then_get",
    "C12_get_reads_place",
    "C12_unknown_name",
    "C12_by_name",
    "C12_out_of_bounds_set_unchanged",
    "C12_out_of_bounds_code_refuted",
    "C12_out_of_bounds_get_refuted"
   ],
   "note": ""
  },
  {
   "property": "C13",
   "status": "proved",
   "theorems": [
    "C13_holds_pairs",
    "C13_get_by_key"
   ],
   "note": "By induction over the additions."
  },
  {
   "property": "C14",
   "status": "proved",
   "theorems": [
    "C14_matrix_realloc_retains",
    "C14_realloc_view_refused",
    "C14_realloc_to_zero_height_refuted",
    "C14_vector_realloc_retains"
   ],
   "note": "Height 0 with widening is refuted (counter wrap, UB)."
  },
  {
   "property": "C15",
   "status": "proved",
   "theorems": [
    "C15_text_alloc",
    "C15_text_alloc_overrun_refuted",
    "C15_text_alloc_zero",
    "C15_text_set",
    "C15_text_history_safe"
   ],
   "note": "Adding rows while dropping columns is refuted (heap overrun)."
  },
  {
   "property": "C16",
   "status": "proved",
   "theorems": [
    "C16_data_transpose",
    "C16_transpose_twice",
    "C16_percent_refuted",
    "C16_text_transpose_inplace",
    "C16_text_transpose_twice"
   ],
   "note": ""
  },
  {
   "property": "C17",
   "status": "proved",
   "theorems": [
    "C17_get_page",
    "C17_add_page",
    "C17_rm_page",
    "C17_untitled_page_refuted",
    "C17_add_then_remove"
   ],
   "note": ""
  },
  {
   "property": "C18",
   "status": "proved",
   "theorems": [
    "C18_row_views",
    "C18_row_names_refuted",
    "C18_column_views",
    "C18_column_view_past_end"
   ],
   "note": ""
  },
  {
   "property": "C19",
   "status": "proved",
   "theorems": [
    "C19_pack_lists_all",
    "C19_pack_first_page",
    "C19_pack_wrong_size",
    "C19_roundtrip",
    "C19_info_page_lost_refuted",
    "C19_text_page_refuted",
    "C19_info_first_refuted",
    "C19_info_pages"
   ],
   "note": ""
  },
  {
   "property": "C20",
   "status": "proved",
   "theorems": [
    "C20_one_key",
    "C20_many_keys",
    "C20_names_lost_refuted",
    "C20_name_lookup_refuted",
    "C20_descending_refuted",
    "C20_case_refuted",
    "C20_key_order",
    "C20_equal_rank_refuted",
    "C20_first_page_only",
    "C20_default_keys",
    "C20_default_sort"
   ],
   "note": ""
  },
  {
   "property": "C21",
   "status": "proved",
   "theorems": [
    "C21_any_schedule",
    "C21_loop_finishes",
    "C21_map_scalars",
    "C21_map_scalars_inplace",
    "C21_map_all_pages",
    "C21_map_all_pages_inplace",
    "C21_map_rows",
    "C21_map_columns",
    "C21_map_rows_inplace",
    "C21_map_data_rows",
    "C21_map_data_rows_inplace",
    "C21_map_sum",
    "C21_map_sum_all_pages",
    "C21_map_sum_rows",
    "C21_vector_map",
    "C21_matrix_map",
    "C21_matrix_map_all",
    "C21_matrix_apply",
    "C21_map_sum_garbage_refuted",
    "C21_map_sum_no_matrix_refuted",
    "C21_index_orientation_refuted",
    "C21_inplace_short_vector_refuted",
    "C21_void_all_pages_refuted",
    "C21_column_names_refuted"
   ],
   "note": "Threaded loop modelled as an arbitrary interleaving of chunk steps; sums over uninitialised entries, index orientation and several option combinations refuted."
  },
  {
   "property": "C22",
   "status": "proved",
   "theorems": [
    "C22_compress_keeps_first_rows",
    "C22_total_weight_conserved",
    "C22_one_row",
    "C22_ragged_text_refuted"
   ],
   "note": "Rectangular data; ragged text refuted."
  },
  {
   "property": "C23",
   "status": "proved",
   "theorems": [
    "C23_draw_follows_weights",
    "C23_zero_weight_never_drawn",
    "C23_draw_zero",
    "C23_zero_weight_drawn_refuted",
    "C23_bad_density",
    "C23_unweighted_last_row_refuted",
    "C23_draw_output",
    "C23_vector_and_matrix_refuted"
   ],
   "note": "Doubles as reals. Unweighted draws, exact-zero uniform and vector+matrix output refuted."
  },
  {
   "property": "C24",
   "status": "proved",
   "theorems": [
    "C24_cdf_first_and_absent",
    "C24_cdf_computes_double_sum",
    "C24_cdf_exceeds_one_refuted",
    "C24_unweighted_cdf_below_one_refuted",
    "C24_probabilities",
    "C24_probabilities_multiply"
   ],
   "note": "Doubles as reals. p proved; the cdf statement is refuted (double summation) and what it computes is proved instead."
  },
  {
   "property": "C25",
   "status": "proved",
   "theorems": [
    "C25_registry_is_a_map",
    "C25_library_tables_told_apart",
    "C25_second_add_ignored",
    "C25_drop_reads_outside_refuted",
    "C25_hash_collision_refuted"
   ],
   "note": ""
  },
  {
   "property": "C26",
   "status": "proved",
   "theorems": [
    "C26_settings_are_a_map",
    "C26_model_copy",
    "C26_library_groups_usable",
    "C26_hash_collision_refuted",
    "C26_long_name_copy_refuted"
   ],
   "note": ""
  },
  {
   "property": "C27",
   "status": "proved",
   "theorems": [
    "C27_line",
    "C27_last_line",
    "C27_total",
    "C27_comment_at_end_refuted",
    "C27_byte_255_refuted",
    "C27_doubled_quote_refuted",
    "C27_trailing_tab_refuted",
    "C27_quoted_empty_refuted"
   ],
   "note": ""
  },
  {
   "property": "C28",
   "status": "proved",
   "theorems": [
    "C28_fixed",
    "C28_long_line_refuted"
   ],
   "note": ""
  },
  {
   "property": "C29",
   "status": "proved",
   "theorems": [
    "C29_header",
    "C29_no_header",
    "C29_db",
    "C29_single_unterminated_refuted",
    "C29_no_data_refuted",
    "C29_short_line_refuted",
    "C29_long_line_refuted",
    "C29_db_unterminated_refuted"
   ],
   "note": ""
  },
  {
   "property": "C30",
   "status": "proved",
   "theorems": [
    "C30_percentiles",
    "C30_coverage",
    "C30_average",
    "C30_average_coverage_refuted"
   ],
   "note": ""
  },
  {
   "property": "C31",
   "status": "proved",
   "theorems": [
    "C31_compress",
    "C31_expand",
    "C31_listed",
    "C31_compress_expand",
    "C31_expand_compress",
    "C31_vector_counts_refuted",
    "C31_min_bins_refuted"
   ],
   "note": ""
  },
  {
   "property": "C32",
   "status": "proved",
   "theorems": [
    "C32_search_found",
    "C32_search_absent",
    "C32_search_absent_refuted",
    "C32_crosstab",
    "C32_failures",
    "C32_name_column_refuted",
    "C32_query_error_refuted",
    "C32_to_db",
    "C32_roundtrip",
    "C32_unnamed_refuted"
   ],
   "note": ""
  },
  {
   "property": "C33",
   "status": "proved",
   "theorems": [
    "C33_matrix_matrix",
    "C33_vector_matrix",
    "C33_matrix_vector",
    "C33_vector_vector",
    "C33_mismatch",
    "C33_no_part",
    "C33_associative",
    "C33_transpose",
    "C33_vector_mismatch_refuted"
   ],
   "note": ""
  },
  {
   "property": "C34",
   "status": "proved",
   "theorems": [
    "C34_mean",
    "C34_weighted_mean",
    "C34_replicate_mean",
    "C34_replicate_var",
    "C34_replicate_cov",
    "C34_replicate_skew",
    "C34_replicate_kurtosis",
    "C34_var",
    "C34_cov",
    "C34_skew_pop",
    "C34_kurtosis_pop",
    "C34_var_nonneg",
    "C34_weighted_var_nonneg",
    "C34_cov_sym",
    "C34_cov_diag",
    "C34_correlation",
    "C34_bad_sizes",
    "C34_covariance_matrix",
    "C34_correlation_matrix",
    "C34_matrix_sum",
    "C34_matrix_mean",
    "C34_matrix_mean_and_var",
    "C34_vector_sum",
    "C34_unit_weights_refuted",
    "C34_column"
   ],
   "note": ""
  },
  {
   "property": "C35",
   "status": "proved",
   "theorems": [
    "C35_values",
    "C35_metric",
    "C35_triangle",
    "C35_lp_special",
    "C35_default_zero",
    "C35_bad_input",
    "C35_manhattan_sum_refuted",
    "C35_small_norm_refuted"
   ],
   "note": ""
  },
  {
   "property": "C36",
   "status": "proved",
   "theorems": [
    "C36_p",
    "C36_p_zero",
    "C36_r",
    "C36_m",
    "C36_s",
    "C36_s_const",
    "C36_r_const"
   ],
   "note": ""
  },
  {
   "property": "C37",
   "status": "proved",
   "theorems": [
    "C37_mapsum",
    "C37_beta_bernoulli",
    "C37_gamma_exponential",
    "C37_gamma_poisson",
    "C37_normal_normal",
    "C37_normal_observation",
    "C37_beta_binomial",
    "C37_beta_binomial_params",
    "C37_sequential",
    "C37_wide_refuted",
    "C37_vector_refuted"
   ],
   "note": ""
  },
  {
   "property": "C38",
   "status": "proved",
   "theorems": [
    "C38_leave_one_out",
    "C38_covariance",
    "C38_scale_refuted"
   ],
   "note": ""
  },
  {
   "property": "C39",
   "status": "proved",
   "theorems": [
    "C39_run",
    "C39_terminates",
    "C39_burnin_refuted",
    "C39_error_refuted",
    "C39_nan_refuted",
    "C39_draw"
   ],
   "note": ""
  },
  {
   "property": "C40",
   "status": "proved",
   "theorems": [
    "C40_layout",
    "C40_contents",
    "C40_info_refuted"
   ],
   "note": ""
  },
  {
   "property": "C41",
   "status": "proved",
   "theorems": [
    "C41_draw",
    "C41_scaling",
    "C41_loglik",
    "C41_code_refuted",
    "C41_copy_refuted",
    "C41_free_refuted"
   ],
   "note": ""
  },
  {
   "property": "C42",
   "status": "proved",
   "theorems": [
    "C42_value",
    "C42_split",
    "C42_draw",
    "C42_many",
    "C42_wide_refuted",
    "C42_null_refuted",
    "C42_one_refuted",
    "C42_size_refuted"
   ],
   "note": ""
  },
  {
   "property": "C43",
   "status": "proved",
   "theorems": [
    "C43_unpack",
    "C43_history",
    "C43_pack",
    "C43_none",
    "C43_pages_refuted"
   ],
   "note": ""
  },
  {
   "property": "C44",
   "status": "proved",
   "theorems": [
    "C44_paste",
    "C44_nothing",
    "C44_prune",
    "C44_sense_refuted",
    "C44_separator_refuted"
   ],
   "note": ""
  },
  {
   "property": "C45",
   "status": "proved",
   "theorems": [
    "C45_history",
    "C45_threads",
    "C45_threads_uniform",
    "C45_race_refuted"
   ],
   "note": ""
  },
  {
   "property": "C46",
   "status": "proved",
   "theorems": [
    "C46_stable",
    "C46_seeds",
    "C46_negative_refuted",
    "C46_seed_refuted",
    "C46_race_refuted",
    "C46_threads"
   ],
   "note": ""
  },
  {
   "property": "C47",
   "status": "proved",
   "theorems": [
    "C47_shape",
    "C47_given",
    "C47_own",
    "C47_page",
    "C47_constant_refuted",
    "C47_close_refuted",
    "C47_rounding_refuted"
   ],
   "note": ""
  },
  {
   "property": "C48",
   "status": "proved",
   "theorems": [
    "C48_average",
    "C48_other",
    "C48_even_refuted",
    "C48_wide_refuted"
   ],
   "note": ""
  },
  {
   "property": "C49",
   "status": "proved",
   "theorems": [
    "C49_shapes",
    "C49_idempotent",
    "C49_kept",
    "C49_onesize_refuted"
   ],
   "note": ""
  },
  {
   "property": "C50",
   "status": "proved",
   "theorems": [
    "C50_error_set",
    "C50_letter_refuted",
    "C50_stopif",
    "C50_halt_refuted",
    "C50_silent_refuted"
   ],
   "note": ""
  },
  {
   "property": "C51",
   "status": "proved",
   "theorems": [
    "C51_var_unbiased",
    "C51_skew_unbiased",
    "C51_defined",
    "C51_kurtosis_refuted"
   ],
   "note": ""
  },
  {
   "property": "C52",
   "status": "proved",
   "theorems": [
    "C52_shannon",
    "C52_scale",
    "C52_bounds",
    "C52_uniform",
    "C52_negative",
    "C52_negative_zero_sum_refuted",
    "C52_empty"
   ],
   "note": ""
  },
  {
   "property": "C53",
   "status": "proved",
   "theorems": [
    "C53_summarize",
    "C53_no_matrix"
   ],
   "note": ""
  },
  {
   "property": "C54",
   "status": "proved",
   "theorems": [
    "C54_data_fill",
    "C54_vector_fill",
    "C54_text_fill",
    "C54_few_strings_refuted",
    "C54_heights_differ"
   ],
   "note": ""
  },
  {
   "property": "C55",
   "status": "proved",
   "theorems": [
    "C55_bounded",
    "C55_boundary_refuted"
   ],
   "note": ""
  },
  {
   "property": "C56",
   "status": "proved",
   "theorems": [
    "C56_resample",
    "C56_ignore_nans",
    "C56_plain",
    "C56_first_nan_refuted",
    "C56_nan_row_refuted"
   ],
   "note": ""
  },
  {
   "property": "C57",
   "status": "proved",
   "theorems": [
    "C57_normal",
    "C57_lognormal",
    "C57_exponential",
    "C57_poisson",
    "C57_gamma",
    "C57_beta",
    "C57_yule",
    "C57_poisson_vector_refuted",
    "C57_gamma_zero_refuted"
   ],
   "note": ""
  },
  {
   "property": "C58",
   "status": "proved",
   "theorems": [
    "C58_exponential",
    "C58_poisson",
    "C58_bernoulli",
    "C58_normal_mean",
    "C58_normal_matrix",
    "C58_normal_vector_refuted",
    "C58_exponential_refuted"
   ],
   "note": ""
  },
  {
   "property": "C59",
   "status": "proved",
   "theorems": [
    "C59_likelihood",
    "C59_estimate",
    "C59_cdf"
   ],
   "note": ""
  },
  {
   "property": "C60",
   "status": "proved",
   "theorems": [
    "C60_substrings",
    "C60_count",
    "C60_columns",
    "C60_empty_match_refuted"
   ],
   "note": ""
  },
  {
   "property": "C61",
   "status": "proved",
   "theorems": [
    "C61_moments",
    "C61_unique",
    "C61_range",
    "C61_variance_refuted"
   ],
   "note": ""
  },
  {
   "property": "C62",
   "status": "proved",
   "theorems": [
    "C62_rows",
    "C62_schedule",
    "C62_errors_refuted"
   ],
   "note": ""
  },
  {
   "property": "C63",
   "status": "proved",
   "theorems": [
    "C63_fit",
    "C63_impossible",
    "C63_distance",
    "C63_distance_two",
    "C63_self_refuted"
   ],
   "note": ""
  },
  {
   "property": "C64",
   "status": "proved",
   "theorems": [
    "C64_paths",
    "C64_attained",
    "C64_symmetric"
   ],
   "note": ""
  },
  {
   "property": "C65",
   "status": "proved",
   "theorems": [
    "C65_multiply",
    "C65_power",
    "C65_distribution"
   ],
   "note": ""
  },
  {
   "property": "C66",
   "status": "proved",
   "theorems": [
    "C66_vector",
    "C66_text",
    "C66_only_one",
    "C66_only_one_text",
    "C66_empty_refuted"
   ],
   "note": ""
  },
  {
   "property": "C67",
   "status": "proved",
   "theorems": [
    "C67_dummies_text",
    "C67_dummies_text_known",
    "C67_dummies_num",
    "C67_factors_text",
    "C67_factors_num",
    "C67_factors_space",
    "C67_titles",
    "C67_append",
    "C67_remove",
    "C67_insert",
    "C67_dummies_vector_refuted",
    "C67_percent_refuted",
    "C67_new_category_refuted",
    "C67_new_number_refuted",
    "C67_new_number_dummy_refuted",
    "C67_insert_last_refuted",
    "C67_insert_names_refuted",
    "C67_remove_refuted",
    "C67_title_collision_refuted",
    "C67_space_refuted"
   ],
   "note": ""
  },
  {
   "property": "C68",
   "status": "proved",
   "theorems": [
    "C68_r_squared",
    "C68_range",
    "C68_weighted",
    "C68_weights_scale_refuted",
    "C68_adjusted_refuted"
   ],
   "note": ""
  },
  {
   "property": "C69",
   "status": "proved",
   "theorems": [
    "C69_variance",
    "C69_var_vector",
    "C69_skew",
    "C69_kurtosis",
    "C69_small",
    "C69_nulls",
    "C69_order",
    "C69_null_refuted",
    "C69_kurtosis_refuted"
   ],
   "note": ""
  },
  {
   "property": "C70",
   "status": "proved",
   "theorems": [
    "C70_data",
    "C70_empty",
    "C70_fail",
    "C70_names_only",
    "C70_vector",
    "C70_vector_empty",
    "C70_float",
    "C70_text",
    "C70_text_empty",
    "C70_null_name_refuted",
    "C70_vector_refuted",
    "C70_text_refuted",
    "C70_text_names_refuted"
   ],
   "note": ""
  },
  {
   "property": "C71",
   "status": "proved",
   "theorems": [
    "C71_mixed",
    "C71_empty",
    "C71_dimension",
    "C71_more_columns_refuted",
    "C71_fewer_columns_refuted",
    "C71_two_names_refuted"
   ],
   "note": ""
  },
  {
   "property": "C72",
   "status": "proved",
   "theorems": [
    "C72_create",
    "C72_append",
    "C72_mismatch",
    "C72_round_trip",
    "C72_same",
    "C72_matrix",
    "C72_empty_name_refuted",
    "C72_row_names_refuted",
    "C72_text_names_refuted"
   ],
   "note": ""
  },
  {
   "property": "C73",
   "status": "proved",
   "theorems": [
    "C73_terminates",
    "C73_log_linear",
    "C73_last_margin",
    "C73_converged",
    "C73_fixed_point",
    "C73_one_contrast",
    "C73_error",
    "C73_false_alarm_refuted",
    "C73_silent_refuted",
    "C73_unmet_refuted",
    "C73_nan_refuted",
    "C73_no_variable_refuted"
   ],
   "note": ""
  },
  {
   "property": "C74",
   "status": "proved",
   "theorems": [
    "C74_closest",
    "C74_likelihood",
    "C74_no_cell_lost",
    "C74_unique"
   ],
   "note": ""
  },
  {
   "property": "C75",
   "status": "proved",
   "theorems": [
    "C75_least_squares",
    "C75_parameters_only",
    "C75_reports",
    "C75_exact",
    "C75_data_and_names",
    "C75_shuffle",
    "C75_shuffle_refuted_empty_name",
    "C75_refuted_covariance_only",
    "C75_refuted_default_parts",
    "C75_refuted_singular",
    "C75_refuted_residual_sign",
    "C75_refuted_weighted_page"
   ],
   "note": ""
  },
  {
   "property": "C76",
   "status": "proved",
   "theorems": [
    "C76_log_likelihood",
    "C76_log_likelihood_plain",
    "C76_unprepared",
    "C76_score",
    "C76_predict",
    "C76_predict_unprepared",
    "C76_tests",
    "C76_refuted_copy",
    "C76_refuted_score_sign"
   ],
   "note": ""
  },
  {
   "property": "C77",
   "status": "proved",
   "theorems": [
    "C77_substitution",
    "C77_by_name",
    "C77_estimate",
    "C77_exact",
    "C77_weights",
    "C77_refuted_no_instruments",
    "C77_refuted_weights"
   ],
   "note": ""
  },
  {
   "property": "C78",
   "status": "proved",
   "theorems": [
    "C78_t_test",
    "C78_swap",
    "C78_affine",
    "C78_paired",
    "C78_paired_lengths",
    "C78_refuted_statistic",
    "C78_refuted_paired"
   ],
   "note": ""
  },
  {
   "property": "C79",
   "status": "proved",
   "theorems": [
    "C79_independence",
    "C79_zero",
    "C79_transpose",
    "C79_null",
    "C79_refuted_single",
    "C79_refuted_total"
   ],
   "note": ""
  },
  {
   "property": "C80",
   "status": "proved",
   "theorems": [
    "C80_one_way",
    "C80_two_way",
    "C80_refuted_groups",
    "C80_refuted_p"
   ],
   "note": ""
  },
  {
   "property": "C81",
   "status": "proved",
   "theorems": [
    "C81_f_test",
    "C81_sign",
    "C81_default",
    "C81_errors",
    "C81_refuted_df",
    "C81_refuted_width",
    "C81_refuted_reuse",
    "C81_reuse"
   ],
   "note": ""
  },
  {
   "property": "C82",
   "status": "proved",
   "theorems": [
    "C82_tails",
    "C82_complement",
    "C82_two_tails",
    "C82_defaults",
    "C82_missing",
    "C82_case",
    "C82_refuted_null",
    "C82_refuted_normal",
    "C82_refuted_lognormal",
    "C82_refuted_zero",
    "C82_refuted_uniform"
   ],
   "note": ""
  },
  {
   "property": "C83",
   "status": "proved",
   "theorems": [
    "C83_met",
    "C83_one",
    "C83_two",
    "C83_default",
    "C83_refuted_margin",
    "C83_refuted_length",
    "C83_refuted_history",
    "C83_refuted_margin_default"
   ],
   "note": ""
  },
  {
   "property": "C84",
   "status": "proved",
   "theorems": [
    "C84_safe",
    "C84_share",
    "C84_monotone",
    "C84_kept",
    "C84_copy",
    "C84_same",
    "C84_refuted_stale",
    "C84_refuted_leak"
   ],
   "note": ""
  },
  {
   "property": "C85",
   "status": "proved",
   "theorems": [
    "C85_likelihood",
    "C85_prediction",
    "C85_concave",
    "C85_refuted_unlisted",
    "C85_refuted_draw"
   ],
   "note": ""
  },
  {
   "property": "C86",
   "status": "proved",
   "theorems": [
    "C86_likelihood",
    "C86_score",
    "C86_refuted_columns",
    "C86_refuted_formula"
   ],
   "note": ""
  },
  {
   "property": "C87",
   "status": "proved",
   "theorems": [
    "C87_score",
    "C87_predict",
    "C87_refuted_predict",
    "C87_print",
    "C87_refuted_update"
   ],
   "note": ""
  },
  {
   "property": "C88",
   "status": "proved",
   "theorems": [
    "C88_terminates",
    "C88_status",
    "C88_refuted_simplex",
    "C88_refuted_freed",
    "C88_default_method",
    "C88_refuted_documented",
    "C88_refuted_first_iteration"
   ],
   "note": ""
  },
  {
   "property": "C89",
   "status": "proved",
   "theorems": [
    "C89_reported",
    "C89_criteria",
    "C89_path",
    "C89_refuted_twice",
    "C89_refuted_matrix",
    "C89_refuted_elsewhere",
    "C89_withdrawn"
   ],
   "note": ""
  },
  {
   "property": "C90",
   "status": "proved",
   "theorems": [
    "C90_bounded",
    "C90_greater",
    "C90_choice",
    "C90_start",
    "C90_refuted_start",
    "C90_history",
    "C90_refuted_default",
    "C90_refuted_loop",
    "C90_refuted_again",
    "C90_fresh_copy"
   ],
   "note": ""
  },
  {
   "property": "C91",
   "status": "proved",
   "theorems": [
    "C91_consistent",
    "C91_exact",
    "C91_refuted_moved",
    "C91_refuted_drift",
    "C91_refuted_penalty"
   ],
   "note": ""
  },
  {
   "property": "C92",
   "status": "proved",
   "theorems": [
    "C92_symmetric",
    "C92_quadratic",
    "C92_score",
    "C92_covariance",
    "C92_refuted_estimate",
    "C92_refuted_place"
   ],
   "note": ""
  },
  {
   "property": "C93",
   "status": "proved",
   "theorems": [
    "C93_distance",
    "C93_sorted",
    "C93_bound",
    "C93_refuted"
   ],
   "note": ""
  },
  {
   "property": "C94",
   "status": "proved",
   "theorems": [
    "C94_best",
    "C94_path",
    "C94_constraint",
    "C94_reported",
    "C94_terminates",
    "C94_refuted_nan",
    "C94_refuted_signal"
   ],
   "note": ""
  },
  {
   "property": "C95",
   "status": "proved",
   "theorems": [
    "C95_order",
    "C95_ends",
    "C95_refuted_recorded",
    "C95_refuted_unbounded"
   ],
   "note": ""
  },
  {
   "property": "C96",
   "status": "proved",
   "theorems": [
    "C96_one",
    "C96_refuted"
   ],
   "note": ""
  },
  {
   "property": "C97",
   "status": "proved",
   "theorems": [
    "C97_new",
    "C97_prep",
    "C97_unpack",
    "C97_refuted_empty",
    "C97_refuted_shared",
    "C97_refuted_free"
   ],
   "note": ""
  },
  {
   "property": "C98",
   "status": "proved",
   "theorems": [
    "C98_value",
    "C98_next",
    "C98_equal",
    "C98_refuted_one",
    "C98_refuted_zero"
   ],
   "note": ""
  },
  {
   "property": "C99",
   "status": "proved",
   "theorems": [
    "C99_met",
    "C99_penalty",
    "C99_refuted",
    "C99_refuted_missing"
   ],
   "note": ""
  },
  {
   "property": "C100",
   "status": "proved",
   "theorems": [
    "C100_cdf",
    "C100_is_cdf",
    "C100_draw",
    "C100_refuted_stale",
    "C100_refuted_moved"
   ],
   "note": ""
  },
  {
   "property": "C101",
   "status": "proved",
   "theorems": [
    "C101_value",
    "C101_gibbs",
    "C101_self",
    "C101_refuted_repeated",
    "C101_refuted_unsynced",
    "C101_draws"
   ],
   "note": ""
  },
  {
   "property": "C102",
   "status": "proved",
   "theorems": [
    "C102_density",
    "C102_default_set"
   ],
   "note": ""
  },
  {
   "property": "C103",
   "status": "proved",
   "theorems": [
    "C103_cdf",
    "C103_is_cdf",
    "C103_mass",
    "C103_integral"
   ],
   "note": ""
  },
  {
   "property": "C104",
   "status": "proved",
   "theorems": [
    "C104_history",
    "C104_threads",
    "C104_refuted_draws",
    "C104_refuted_kernel_kept"
   ],
   "note": ""
  },
  {
   "property": "C105",
   "status": "proved",
   "theorems": [
    "C105_draw",
    "C105_refuted_last"
   ],
   "note": ""
  },
  {
   "property": "C106",
   "status": "proved",
   "theorems": [
    "C106_freed_once",
    "C106_refuted_copy",
    "C106_refuted_reestimate"
   ],
   "note": ""
  },
  {
   "property": "C107",
   "status": "proved",
   "theorems": [
    "C107_value",
    "C107_two_bins",
    "C107_refuted_n2"
   ],
   "note": ""
  },
  {
   "property": "C108",
   "status": "proved",
   "theorems": [
    "C108_shares",
    "C108_mle",
    "C108_covariance",
    "C108_refuted_dsize"
   ],
   "note": ""
  },
  {
   "property": "C109",
   "status": "proved",
   "theorems": [
    "C109_multinomial",
    "C109_two_bins",
    "C109_refuted_whole",
    "C109_rows",
    "C109_refuted_overrun",
    "C109_refuted_successes",
    "C109_serial",
    "C109_refuted_threads"
   ],
   "note": ""
  },
  {
   "property": "C110",
   "status": "proved",
   "theorems": [
    "C110_rows",
    "C110_wide",
    "C110_existing",
    "C110_refuted_long",
    "C110_refuted_row_names",
    "C110_refuted_short",
    "C110_refuted_command",
    "C110_refuted_name",
    "C110_refuted_nan"
   ],
   "note": ""
  },
  {
   "property": "C111",
   "status": "proved",
   "theorems": [
    "C111_answer",
    "C111_asking",
    "C111_removal",
    "C111_absent",
    "C111_refuted_case",
    "C111_refuted_temp"
   ],
   "note": ""
  },
  {
   "property": "C112",
   "status": "proved",
   "theorems": [
    "C112_read_back",
    "C112_refuted_visible_delimiter",
    "C112_refuted_named_weights",
    "C112_refuted_title",
    "C112_refuted_longer_vector",
    "C112_refuted_null_name_column",
    "C112_refuted_name_column",
    "C112_refuted_large",
    "C112_refuted_small"
   ],
   "note": ""
  },
  {
   "property": "C113",
   "status": "proved",
   "theorems": [
    "C113_stream",
    "C113_file",
    "C113_file_pages",
    "C113_append_keeps",
    "C113_table",
    "C113_refuted_overwritten",
    "C113_refuted_reversed",
    "C113_refuted_default_append",
    "C113_refuted_cannot_open",
    "C113_refuted_pipe_closed",
    "C113_refuted_table_pages"
   ],
   "note": ""
  },
  {
   "property": "C114",
   "status": "proved",
   "theorems": [
    "C114_impute",
    "C114_complete",
    "C114_nothing",
    "C114_default",
    "C114_own",
    "C114_predict_complete",
    "C114_predict",
    "C114_predict_null",
    "C114_refuted_pages",
    "C114_refuted_penalty",
    "C114_objective"
   ],
   "note": ""
  },
  {
   "property": "C115",
   "status": "proved",
   "theorems": [
    "C115_set_up",
    "C115_bad_settings",
    "C115_envelope",
    "C115_points",
    "C115_no_violation",
    "C115_not_concave"
   ],
   "note": ""
  },
  {
   "property": "C116",
   "status": "proved",
   "theorems": [
    "C116_rounds",
    "C116_mass",
    "C116_proposal",
    "C116_rejection",
    "C116_metropolis",
    "C116_chain_moves",
    "C116_draws",
    "C116_no_underflow",
    "C116_refuted_written"
   ],
   "note": ""
  },
  {
   "property": "C117",
   "status": "proved",
   "theorems": [
    "C117_likelihood",
    "C117_total",
    "C117_round",
    "C117_cover",
    "C117_draw",
    "C117_error",
    "C117_refuted_overflow"
   ],
   "note": ""
  },
  {
   "property": "C118",
   "status": "proved",
   "theorems": [
    "C118_given",
    "C118_chance",
    "C118_mixture",
    "C118_zero",
    "C118_refuted_overflow",
    "C118_refuted_unchecked"
   ],
   "note": ""
  },
  {
   "property": "C119",
   "status": "proved",
   "theorems": [
    "C119_dispatch",
    "C119_likelihood",
    "C119_interval",
    "C119_lognormal",
    "C119_example",
    "C119_refuted_example"
   ],
   "note": ""
  },
  {
   "property": "C120",
   "status": "proved",
   "theorems": [
    "C120_defined",
    "C120_shared",
    "C120_keeps",
    "C120_refuted_second",
    "C120_refuted_copy",
    "C120_refuted_group"
   ],
   "note": ""
  },
  {
   "property": "C121",
   "status": "proved",
   "theorems": [
    "C121_likelihood",
    "C121_score",
    "C121_beta",
    "C121_refuted_small"
   ],
   "note": ""
  },
  {
   "property": "C122",
   "status": "proved",
   "theorems": [
    "C122_draw",
    "C122_volume",
    "C122_onto",
    "C122_rows",
    "C122_independent",
    "C122_degenerate",
    "C122_refuted_asymmetric"
   ],
   "note": ""
  },
  {
   "property": "C123",
   "status": "proved",
   "theorems": [
    "C123_estimate",
    "C123_matrix",
    "C123_mean",
    "C123_few",
    "C123_distribution",
    "C123_cells",
    "C123_refuted_matrix",
    "C123_refuted_parts",
    "C123_refuted_again"
   ],
   "note": ""
  },
  {
   "property": "C124",
   "status": "proved",
   "theorems": [
    "C124_centred",
    "C124_components",
    "C124_best",
    "C124_whole",
    "C124_refuted_constant",
    "C124_refuted_dims"
   ],
   "note": ""
  },
  {
   "property": "C125",
   "status": "proved",
   "theorems": [
    "C125_all",
    "C125_one",
    "C125_stochastic",
    "C125_refuted_sd",
    "C125_refuted_size",
    "C125_refuted_draws"
   ],
   "note": ""
  },
  {
   "property": "C126",
   "status": "proved",
   "theorems": [
    "C126_moments",
    "C126_expected_draw",
    "C126_lognormal_vector",
    "C126_lognormal_matrix",
    "C126_information",
    "C126_page",
    "C126_estimate",
    "C126_predict",
    "C126_normal_cdf",
    "C126_lognormal_cdf",
    "C126_draws",
    "C126_refuted_both",
    "C126_refuted_page",
    "C126_refuted_predict",
    "C126_refuted_lognormal"
   ],
   "note": ""
  },
  {
   "property": "C127",
   "status": "proved",
   "theorems": [
    "C127_gamma",
    "C127_beta",
    "C127_gamma_cdf",
    "C127_beta_cdf",
    "C127_exponential_cdf",
    "C127_bernoulli",
    "C127_beta_draw",
    "C127_refuted_beta",
    "C127_refuted_gamma",
    "C127_refuted_page"
   ],
   "note": ""
  },
  {
   "property": "C128",
   "status": "proved",
   "theorems": [
    "C128_definite",
    "C128_none",
    "C128_refuted_semidefinite",
    "C128_repair",
    "C128_refuted_trace",
    "C128_refuted_changed"
   ],
   "note": ""
  },
  {
   "property": "C129",
   "status": "proved",
   "theorems": [
    "C129_nan",
    "C129_value",
    "C129_positive",
    "C129_refuted_even",
    "C129_refuted_large"
   ],
   "note": ""
  },
  {
   "property": "C130",
   "status": "proved",
   "theorems": [
    "C130_default",
    "C130_pmf",
    "C130_normal",
    "C130_refuted_pmf"
   ],
   "note": ""
  },
  {
   "property": "C131",
   "status": "proved",
   "theorems": [
    "C131_exponential",
    "C131_poisson",
    "C131_poisson_support",
    "C131_uniform",
    "C131_bernoulli",
    "C131_refuted_exponential",
    "C131_refuted_poisson",
    "C131_refuted_bernoulli"
   ],
   "note": ""
  }
 ]
}