{
 "claims": [
  {
   "property": "C01",
   "status": "proved",
   "theorems": [
    "C01_shapes",
    "C01_shapes_extended"
   ],
   "note": ""
  },
  {
   "property": "C02",
   "status": "proved",
   "theorems": [
    "C02_filter_is_by_hand",
    "C02_filter_raises_as_by_hand",
    "C02_extended_filter_is_by_hand"
   ],
   "note": ""
  },
  {
   "property": "C03",
   "status": "proved",
   "theorems": [
    "C03_causality",
    "C03_causality_extended",
    "C03_prefix",
    "C03_prefix_extended"
   ],
   "note": ""
  },
  {
   "property": "C04",
   "status": "proved",
   "theorems": [
    "C04_split_anywhere",
    "C04_split_at_last_row",
    "C04_split_anywhere_extended",
    "C04_split_at_last_row_extended"
   ],
   "note": ""
  },
  {
   "property": "C05",
   "status": "proved",
   "theorems": [
    "C05_zero_rows",
    "C05_zero_rows_extended",
    "C05_surplus_ignored",
    "C05_surplus_ignored_extended"
   ],
   "note": ""
  },
  {
   "property": "C06",
   "status": "proved",
   "theorems": [
    "C06_append_only",
    "C06_append_only_extended"
   ],
   "note": ""
  },
  {
   "property": "C07",
   "status": "proved",
   "theorems": [
    "C07_no_interference",
    "C07_no_interference_extended",
    "C07_history",
    "C07_history_extended"
   ],
   "note": ""
  },
  {
   "property": "C08",
   "status": "proved",
   "theorems": [
    "C08_filter",
    "C08_smooth"
   ],
   "note": ""
  },
  {
   "property": "C09",
   "status": "proved",
   "theorems": [
    "C09_predict",
    "C09_none_is_nan_control",
    "C09_none_is_nan_matrix"
   ],
   "note": ""
  },
  {
   "property": "C10",
   "status": "proved",
   "theorems": [
    "C10_U_none",
    "C10_B_none",
    "C10_U_none_filter",
    "C10_integer_Z",
    "C10_integer_Z_refuted",
    "C10_integer_A_refuted"
   ],
   "note": ""
  },
  {
   "property": "C11",
   "status": "proved",
   "theorems": [
    "C11_Bk_none_raises",
    "C11_uk_none"
   ],
   "note": ""
  },
  {
   "property": "C12",
   "status": "proved",
   "theorems": [
    "C12_float_R",
    "C12_float_R_extended"
   ],
   "note": ""
  },
  {
   "property": "C13",
   "status": "proved",
   "theorems": [
    "C13_is_nan_all",
    "C13_integer",
    "C13_empty",
    "C13_none"
   ],
   "note": ""
  },
  {
   "property": "C14",
   "status": "proved",
   "theorems": [
    "C14_given",
    "C14_none"
   ],
   "note": ""
  },
  {
   "property": "C15",
   "status": "proved",
   "theorems": [
    "C15_smooth_last",
    "C15_smooth_last_extended",
    "C15_one_observation",
    "C15_one_observation_extended",
    "C15_gains"
   ],
   "note": ""
  },
  {
   "property": "C16",
   "status": "proved",
   "theorems": [
    "C16_empty",
    "C16_empty_extended",
    "C16_short",
    "C16_short_extended",
    "C16_only"
   ],
   "note": ""
  },
  {
   "property": "C17",
   "status": "proved",
   "theorems": [
    "C17_linear"
   ],
   "note": ""
  },
  {
   "property": "C18",
   "status": "proved",
   "theorems": [
    "C18_column_raises",
    "C18_column_raises_smooth",
    "C18_one_by_one"
   ],
   "note": ""
  },
  {
   "property": "C19",
   "status": "proved",
   "theorems": [
    "C19_filter_points",
    "C19_smooth_points",
    "C19_control_none"
   ],
   "note": ""
  },
  {
   "property": "C20",
   "status": "proved",
   "theorems": [
    "C20_nan_filter",
    "C20_nan_smooth",
    "C20_cov_clean",
    "C20_binary64"
   ],
   "note": ""
  },
  {
   "property": "C21",
   "status": "proved",
   "theorems": [
    "C21_init",
    "C21_init_control",
    "C21_init_extended",
    "C21_init_extended_raises",
    "C21_init_raises",
    "C21_wrong_size"
   ],
   "note": ""
  },
  {
   "property": "C22",
   "status": "proved",
   "theorems": [
    "C22_filter_computes_the_textbook_step",
    "C22_smooth_computes_the_textbook_step",
    "C22_update_computes_the_textbook_correction"
   ],
   "note": ""
  },
  {
   "property": "C23",
   "status": "proved",
   "theorems": [
    "C23_filter_fails_iff_singular",
    "C23_filter_fails_at_the_first_singular_step",
    "C23_no_failure_with_noisy_sensors",
    "C23_smooth_fails_iff_singular",
    "C23_no_smooth_failure"
   ],
   "note": ""
  },
  {
   "property": "C24",
   "status": "proved",
   "theorems": [
    "C24_covariances_are_psd",
    "C24_covariances_are_pd"
   ],
   "note": ""
  },
  {
   "property": "C25",
   "status": "proved",
   "theorems": [
    "C25_filter_update_does_not_increase_uncertainty",
    "C25_update_does_not_increase_uncertainty"
   ],
   "note": ""
  },
  {
   "property": "C26",
   "status": "proved",
   "theorems": [
    "C26_gain_is_optimal",
    "C26_update_gain_is_optimal"
   ],
   "note": ""
  },
  {
   "property": "C27",
   "status": "proved",
   "theorems": [
    "C27_update_is_the_least_squares_estimate",
    "C27_update_minimises_the_misfit"
   ],
   "note": ""
  },
  {
   "property": "C28",
   "status": "proved",
   "theorems": [
    "C28_filter",
    "C28_smooth",
    "C28_returns"
   ],
   "note": ""
  },
  {
   "property": "C29",
   "status": "proved",
   "theorems": [
    "C29_best_linear"
   ],
   "note": ""
  },
  {
   "property": "C30",
   "status": "proved",
   "theorems": [
    "C30_information_form"
   ],
   "note": ""
  },
  {
   "property": "C31",
   "status": "proved",
   "theorems": [
    "C31_superposition",
    "C31_superposition_smooth"
   ],
   "note": ""
  },
  {
   "property": "C32",
   "status": "proved",
   "theorems": [
    "C32_change_of_coordinates",
    "C32_change_of_coordinates_smooth"
   ],
   "note": ""
  },
  {
   "property": "C33",
   "status": "proved",
   "theorems": [
    "C33_change_of_sensor_units",
    "C33_change_of_sensor_units_smooth"
   ],
   "note": ""
  },
  {
   "property": "C34",
   "status": "proved",
   "theorems": [
    "C34_only_noise_ratios_matter",
    "C34_only_noise_ratios_matter_smooth"
   ],
   "note": ""
  },
  {
   "property": "C35",
   "status": "proved",
   "theorems": [
    "C35_noise_free_trajectory_is_tracked",
    "C35_noise_free_trajectory_is_tracked_smooth"
   ],
   "note": ""
  },
  {
   "property": "C36",
   "status": "proved",
   "theorems": [
    "C36_smoothing_does_not_increase_uncertainty"
   ],
   "note": ""
  },
  {
   "property": "C37",
   "status": "proved",
   "theorems": [
    "C37_covariances_are_monotone"
   ],
   "note": ""
  },
  {
   "property": "C38",
   "status": "proved",
   "theorems": [
    "C38_joint_equals_one_after_the_other",
    "C38_either_order"
   ],
   "note": ""
  },
  {
   "property": "C39",
   "status": "proved",
   "theorems": [
    "C39_constant_level"
   ],
   "note": ""
  },
  {
   "property": "C40",
   "status": "proved",
   "theorems": [
    "C40_number_acts_as_full_matrix",
    "C40_a_number_is_not_a_multiple_of_the_identity"
   ],
   "note": ""
  },
  {
   "property": "C41",
   "status": "proved",
   "theorems": [
    "C41_certain_states_ignore_the_data"
   ],
   "note": ""
  },
  {
   "property": "C42",
   "status": "proved",
   "theorems": [
    "C42_post_fit_residual",
    "C42_perfect_sensors_are_believed"
   ],
   "note": ""
  },
  {
   "property": "C43",
   "status": "proved",
   "theorems": [
    "C43_gain_and_variance",
    "C43_never_negative",
    "C43_never_raises",
    "C43_variance_never_increases",
    "C43_update"
   ],
   "note": ""
  },
  {
   "property": "C44",
   "status": "proved",
   "theorems": [
    "C44_not_symmetric",
    "C44_negative_variance"
   ],
   "note": ""
  },
  {
   "property": "C45",
   "status": "proved",
   "theorems": [
    "C45_filter",
    "C45_smooth",
    "C45_filter_extended",
    "C45_smooth_extended"
   ],
   "note": ""
  },
  {
   "property": "C46",
   "status": "proved",
   "theorems": [
    "C46_smooth_best_linear"
   ],
   "note": ""
  },
  {
   "property": "C47",
   "status": "proved",
   "theorems": [
    "C47_filter_computes_the_textbook_step",
    "C47_smooth_computes_the_textbook_step",
    "C47_update_computes_the_textbook_correction"
   ],
   "note": ""
  },
  {
   "property": "C48",
   "status": "proved",
   "theorems": [
    "C48_filter_of_the_linearisation",
    "C48_smoother_of_the_linearisation"
   ],
   "note": ""
  },
  {
   "property": "C49",
   "status": "proved",
   "theorems": [
    "C49_covariances_are_psd_and_never_increase",
    "C49_gain_is_optimal",
    "C49_smoothing_never_increases_uncertainty"
   ],
   "note": ""
  },
  {
   "property": "C50",
   "status": "proved",
   "theorems": [
    "C50_filter_fails_only_on_a_singular_innovation",
    "C50_no_failure_with_noisy_sensors",
    "C50_no_smooth_failure_with_noisy_dynamics"
   ],
   "note": ""
  },
  {
   "property": "C51",
   "status": "proved",
   "theorems": [
    "C51_covariances_are_those_of_the_jacobians"
   ],
   "note": ""
  },
  {
   "property": "C52",
   "status": "proved",
   "theorems": [
    "C52_noise_free_trajectory_is_followed"
   ],
   "note": ""
  },
  {
   "property": "C53",
   "status": "proved",
   "theorems": [
    "C53_standard",
    "C53_extended",
    "C53_constructor",
    "C53_constructor_extended",
    "C53_history",
    "C53_history_extended"
   ],
   "note": ""
  },
  {
   "property": "C54",
   "status": "proved",
   "theorems": [
    "C54_standard",
    "C54_extended",
    "C54_history",
    "C54_history_extended"
   ],
   "note": ""
  },
  {
   "property": "C55",
   "status": "proved",
   "theorems": [
    "C55_standard",
    "C55_extended",
    "C55_history",
    "C55_history_extended",
    "C55_sharing"
   ],
   "note": ""
  },
  {
   "property": "C56",
   "status": "proved",
   "theorems": [
    "C56_standard",
    "C56_extended"
   ],
   "note": ""
  },
  {
   "property": "C57",
   "status": "proved",
   "theorems": [
    "C57_standard",
    "C57_extended",
    "C57_untouched"
   ],
   "note": ""
  },
  {
   "property": "C58",
   "status": "proved",
   "theorems": [
    "C58_writing_callable"
   ],
   "note": ""
  },
  {
   "property": "C59",
   "status": "proved",
   "theorems": [
    "C59_import_raises",
    "C59_import_without_git"
   ],
   "note": ""
  },
  {
   "property": "C60",
   "status": "proved",
   "theorems": [
    "C60_parent_directory",
    "C60_source_root",
    "C60_directories"
   ],
   "note": ""
  },
  {
   "property": "C61",
   "status": "proved",
   "theorems": [
    "C61_tagged",
    "C61_untagged",
    "C61_commits_counted",
    "C61_unreadable",
    "C61_date"
   ],
   "note": ""
  },
  {
   "property": "C62",
   "status": "proved",
   "theorems": [
    "C62_smallest_tag",
    "C62_order_irrelevant"
   ],
   "note": ""
  },
  {
   "property": "C63",
   "status": "proved",
   "theorems": [
    "C63_description_unique",
    "C63_describe_long"
   ],
   "note": ""
  },
  {
   "property": "C64",
   "status": "proved",
   "theorems": [
    "C64_unknown_style",
    "C64_known_style",
    "C64_release",
    "C64_branch",
    "C64_which_branch",
    "C64_one_plus",
    "C64_pre_post",
    "C64_pre_post_negative"
   ],
   "note": ""
  },
  {
   "property": "C65",
   "status": "proved",
   "theorems": [
    "C65_builds_differ",
    "C65_tags_differ"
   ],
   "note": ""
  },
  {
   "property": "C66",
   "status": "proved",
   "theorems": [
    "C66_filter_from_matrices_to_arrays",
    "C66_filter_without_control",
    "C66_smooth_from_matrices_to_arrays",
    "C66_smooth_without_control"
   ],
   "note": ""
  },
  {
   "property": "C67",
   "status": "proved",
   "theorems": [
    "C67_filter_from_functions_to_arrays",
    "C67_filter_without_control",
    "C67_smooth_from_functions_to_arrays",
    "C67_smooth_without_control",
    "C67_linear_functions_give_the_standard_answers"
   ],
   "note": ""
  },
  {
   "property": "C68",
   "status": "proved",
   "theorems": [
    "C68_integers_as_floats",
    "C68_filter_and_smooth",
    "C68_constructor_raises",
    "C68_exact_arithmetic",
    "C68_doubles",
    "C68_overflow_refuted"
   ],
   "note": ""
  },
  {
   "property": "C69",
   "status": "proved",
   "theorems": [
    "C69_smooth_suffix",
    "C69_smooth_suffix_extended",
    "C69_checkpoint",
    "C69_checkpoint_extended"
   ],
   "note": ""
  },
  {
   "property": "C70",
   "status": "proved",
   "theorems": [
    "C70_more_data_never_hurts"
   ],
   "note": ""
  },
  {
   "property": "C71",
   "status": "proved",
   "theorems": [
    "C71_blind_step",
    "C71_blind_readings_do_not_matter",
    "C71_blind_readings_do_not_matter_smooth"
   ],
   "note": ""
  },
  {
   "property": "C72",
   "status": "proved",
   "theorems": [
    "C72_together_runs_iff_both_run",
    "C72_together_or_separately",
    "C72_together_or_separately_smooth"
   ],
   "note": ""
  },
  {
   "property": "C73",
   "status": "proved",
   "theorems": [
    "C73_uncertainty_goes_one_way",
    "C73_steady_state_stays",
    "C73_steady_state_bounds"
   ],
   "note": ""
  },
  {
   "property": "C74",
   "status": "proved",
   "theorems": [
    "C74_prediction_best_linear"
   ],
   "note": ""
  },
  {
   "property": "C75",
   "status": "proved",
   "theorems": [
    "C75_innovations_white",
    "C75_normalised_innovation_squared",
    "C75_normalised_error_squared"
   ],
   "note": ""
  },
  {
   "property": "C76",
   "status": "proved",
   "theorems": [
    "C76_filter_in_other_units",
    "C76_smooth_in_other_units",
    "C76_only_noise_ratios_matter"
   ],
   "note": ""
  },
  {
   "property": "C77",
   "status": "proved",
   "theorems": [
    "C77_together_or_separately",
    "C77_together_or_separately_smooth"
   ],
   "note": ""
  },
  {
   "property": "C78",
   "status": "proved",
   "theorems": [
    "C78_predict_computes_the_textbook_prediction",
    "C78_predict_computes_the_textbook_prediction_extended"
   ],
   "note": ""
  },
  {
   "property": "C79",
   "status": "proved",
   "theorems": [
    "C79_forecast_iterates_the_model",
    "C79_forecast_best_linear"
   ],
   "note": ""
  },
  {
   "property": "C80",
   "status": "proved",
   "theorems": [
    "C80_filter_error_bound",
    "C80_smooth_error_bound",
    "C80_filter_any_trajectory",
    "C80_smooth_any_trajectory",
    "C80_filter_bound_attained",
    "C80_smooth_bound_attained"
   ],
   "note": ""
  },
  {
   "property": "C81",
   "status": "proved",
   "theorems": [
    "C81_filter_conservative",
    "C81_smooth_conservative"
   ],
   "note": ""
  },
  {
   "property": "C82",
   "status": "proved",
   "theorems": [
    "C82_filter_unbiased",
    "C82_smooth_unbiased"
   ],
   "note": ""
  },
  {
   "property": "C83",
   "status": "proved",
   "theorems": [
    "C83_poorer_sensors_never_help",
    "C83_poorer_sensors_never_help_smooth"
   ],
   "note": ""
  },
  {
   "property": "C84",
   "status": "proved",
   "theorems": [
    "C84_random_experiment"
   ],
   "note": ""
  },
  {
   "property": "C85",
   "status": "proved",
   "theorems": [
    "C85_filter_sensitivity",
    "C85_smooth_sensitivity",
    "C85_filter_any_two_runs",
    "C85_smooth_any_two_runs"
   ],
   "note": ""
  },
  {
   "property": "C86",
   "status": "proved",
   "theorems": [
    "C86_extended_error_bound",
    "C86_extended_smooth_error_bound"
   ],
   "note": ""
  },
  {
   "property": "C87",
   "status": "proved",
   "theorems": [
    "C87_alone",
    "C87_any_schedule",
    "C87_progress",
    "C87_alone_extended",
    "C87_any_schedule_extended",
    "C87_progress_extended"
   ],
   "note": ""
  },
  {
   "property": "C88",
   "status": "proved",
   "theorems": [
    "C88_filter_reads_its_parameters_once",
    "C88_smooth_reads_some_parameters_once",
    "C88_extended_filter_reads_its_parameters_once",
    "C88_extended_smooth_reads_some_parameters_once"
   ],
   "note": ""
  },
  {
   "property": "C89",
   "status": "proved",
   "theorems": [
    "C89_differences_fade",
    "C89_initial_state_fades",
    "C89_initial_state_is_forgotten"
   ],
   "note": ""
  },
  {
   "property": "C90",
   "status": "proved",
   "theorems": [
    "C90_extended_filter_is_least_squares",
    "C90_extended_smoother_is_least_squares",
    "C90_update_is_a_gauss_newton_step"
   ],
   "note": ""
  },
  {
   "property": "C91",
   "status": "proved",
   "theorems": [
    "C91_more_data_never_hurts_extended",
    "C91_blind_step_extended",
    "C91_blind_readings_do_not_matter_extended"
   ],
   "note": ""
  },
  {
   "property": "C92",
   "status": "proved",
   "theorems": [
    "C92_lines_of_a_file",
    "C92_line_ends",
    "C92_regular_expression",
    "C92_keywords_found",
    "C92_keywords_missing",
    "C92_reading_is_importing"
   ],
   "note": ""
  },
  {
   "property": "C93",
   "status": "proved",
   "theorems": [
    "C93_variance_error",
    "C93_at_most_linear",
    "C93_stable_bounded",
    "C93_gain_error"
   ],
   "note": ""
  },
  {
   "property": "C94",
   "status": "proved",
   "theorems": [
    "C94_state_error",
    "C94_stable_bounded"
   ],
   "note": ""
  },
  {
   "property": "C95",
   "status": "proved",
   "theorems": [
    "C95_initial_covariance_fades",
    "C95_differences_fade",
    "C95_initial_covariance_is_forgotten",
    "C95_steady_state_is_approached"
   ],
   "note": ""
  },
  {
   "property": "C96",
   "status": "proved",
   "theorems": [
    "C96_filter",
    "C96_prediction",
    "C96_smooth"
   ],
   "note": ""
  },
  {
   "property": "C97",
   "status": "proved",
   "theorems": [
    "C97_filter_calls_the_overridden",
    "C97_filter_raises_as_the_overridden",
    "C97_smooth_calls_the_overridden",
    "C97_adjusting_is_preprocessing",
    "C97_nothing_overridden",
    "C97_missing_observations",
    "C97_joseph_form"
   ],
   "note": ""
  },
  {
   "property": "C98",
   "status": "proved",
   "theorems": [
    "C98_elimination",
    "C98_same_program",
    "C98_exact_numbers",
    "C98_exact_numbers_extended"
   ],
   "note": ""
  },
  {
   "property": "C99",
   "status": "proved",
   "theorems": [
    "C99_zero_signs",
    "C99_zero_signs_extended"
   ],
   "note": ""
  },
  {
   "property": "C100",
   "status": "proved",
   "theorems": [
    "C100_filter_calls_the_overridden",
    "C100_filter_raises_as_the_overridden",
    "C100_smooth_calls_the_overridden",
    "C100_nothing_overridden"
   ],
   "note": ""
  },
  {
   "property": "C101",
   "status": "proved",
   "theorems": [
    "C101_filter_calls",
    "C101_smooth_calls",
    "C101_counting_functions"
   ],
   "note": ""
  },
  {
   "property": "C102",
   "status": "proved",
   "theorems": [
    "C102_higher_readings_higher_estimates",
    "C102_higher_readings_higher_smoothed",
    "C102_changes_stay_in_range",
    "C102_smoothed_changes_stay_in_range",
    "C102_estimates_stay_in_range",
    "C102_smoothed_stay_in_range"
   ],
   "note": ""
  },
  {
   "property": "C103",
   "status": "proved",
   "theorems": [
    "C103_mirrored",
    "C103_mirrored_extended"
   ],
   "note": ""
  },
  {
   "property": "C104",
   "status": "proved",
   "theorems": [
    "C104_regular_expression",
    "C104_read_back",
    "C104_imported",
    "C104_rebuilt",
    "C104_any_number_of_times"
   ],
   "note": ""
  },
  {
   "property": "C105",
   "status": "proved",
   "theorems": [
    "C105_setup_is_import",
    "C105_installed"
   ],
   "note": ""
  },
  {
   "property": "C106",
   "status": "proved",
   "theorems": [
    "C106_only_two_sums_matter",
    "C106_order_of_readings",
    "C106_averaging",
    "C106_smoothed_rows_are_the_last"
   ],
   "note": ""
  },
  {
   "property": "C107",
   "status": "proved",
   "theorems": [
    "C107_from_above",
    "C107_from_below",
    "C107_converges"
   ],
   "note": ""
  },
  {
   "property": "C108",
   "status": "proved",
   "theorems": [
    "C108_units",
    "C108_units_extended",
    "C108_doubles",
    "C108_units_double"
   ],
   "note": ""
  },
  {
   "property": "C109",
   "status": "proved",
   "theorems": [
    "C109_bounds",
    "C109_bounds_extended",
    "C109_fraction",
    "C109_every_double"
   ],
   "note": ""
  },
  {
   "property": "C110",
   "status": "proved",
   "theorems": [
    "C110_market_beta",
    "C110_moving_average",
    "C110_pendulum",
    "C110_pendulum_smoothing",
    "C110_constant_velocity",
    "C110_jacobians"
   ],
   "note": ""
  },
  {
   "property": "C111",
   "status": "proved",
   "theorems": [
    "C111_every_covariance",
    "C111_filter",
    "C111_smooth",
    "C111_any_rank",
    "C111_filter_extended",
    "C111_smooth_extended",
    "C111_constant_velocity",
    "C111_no_noise"
   ],
   "note": ""
  }
 ]
}