# Print Assumptions, theorem by theorem

Generated by tools/assumptions.py. Theorems are grouped by the list that
Print Assumptions gives. Every name listed belongs to Coq's standard library
(its real numbers, used through Flocq, and a choice operator). There is no axiom of this development.

## 325 theorems: closed under the global context

Theorems: `C01_shapes`, `C01_shapes_extended`, `C02_filter_is_by_hand`, `C02_filter_raises_as_by_hand`, `C02_extended_filter_is_by_hand`, `C03_causality`, `C03_causality_extended`, `C03_prefix`, `C03_prefix_extended`, `C04_split_anywhere`, `C04_split_at_last_row`, `C04_split_anywhere_extended`, `C04_split_at_last_row_extended`, `C05_zero_rows`, `C05_zero_rows_extended`, `C05_surplus_ignored`, `C05_surplus_ignored_extended`, `C06_append_only`, `C06_append_only_extended`, `C07_no_interference`, `C07_no_interference_extended`, `C07_history`, `C07_history_extended`, `C08_filter`, `C08_smooth`, `C09_predict`, `C09_none_is_nan_control`, `C09_none_is_nan_matrix`, `C10_U_none`, `C10_B_none`, `C10_U_none_filter`, `C10_integer_Z`, `C10_integer_Z_refuted`, `C10_integer_A_refuted`, `C11_Bk_none_raises`, `C11_uk_none`, `C12_float_R`, `C12_float_R_extended`, `C13_is_nan_all`, `C13_integer`, `C13_empty`, `C13_none`, `C14_given`, `C14_none`, `C15_smooth_last`, `C15_smooth_last_extended`, `C15_one_observation`, `C15_one_observation_extended`, `C15_gains`, `C16_empty`, `C16_empty_extended`, `C16_short`, `C16_short_extended`, `C16_only`, `C17_linear`, `C18_column_raises`, `C18_column_raises_smooth`, `C18_one_by_one`, `C19_filter_points`, `C19_smooth_points`, `C19_control_none`, `C20_nan_filter`, `C20_nan_smooth`, `C20_cov_clean`, `C20_binary64`, `C21_init`, `C21_init_control`, `C21_init_extended`, `C21_init_extended_raises`, `C21_init_raises`, `C21_wrong_size`, `C22_filter_computes_the_textbook_step`, `C22_smooth_computes_the_textbook_step`, `C22_update_computes_the_textbook_correction`, `C23_filter_fails_iff_singular`, `C23_filter_fails_at_the_first_singular_step`, `C23_no_failure_with_noisy_sensors`, `C23_smooth_fails_iff_singular`, `C23_no_smooth_failure`, `C24_covariances_are_psd`, `C24_covariances_are_pd`, `C25_filter_update_does_not_increase_uncertainty`, `C25_update_does_not_increase_uncertainty`, `C26_gain_is_optimal`, `C26_update_gain_is_optimal`, `C27_update_is_the_least_squares_estimate`, `C27_update_minimises_the_misfit`, `C28_filter`, `C28_smooth`, `C28_returns`, `C29_best_linear`, `C30_information_form`, `C31_superposition`, `C31_superposition_smooth`, `C32_change_of_coordinates`, `C32_change_of_coordinates_smooth`, `C33_change_of_sensor_units`, `C33_change_of_sensor_units_smooth`, `C34_only_noise_ratios_matter`, `C34_only_noise_ratios_matter_smooth`, `C35_noise_free_trajectory_is_tracked`, `C35_noise_free_trajectory_is_tracked_smooth`, `C36_smoothing_does_not_increase_uncertainty`, `C37_covariances_are_monotone`, `C38_joint_equals_one_after_the_other`, `C38_either_order`, `C39_constant_level`, `C40_number_acts_as_full_matrix`, `C40_a_number_is_not_a_multiple_of_the_identity`, `C41_certain_states_ignore_the_data`, `C42_post_fit_residual`, `C42_perfect_sensors_are_believed`, `C44_not_symmetric`, `C44_negative_variance`, `C45_filter`, `C45_smooth`, `C45_filter_extended`, `C45_smooth_extended`, `C46_smooth_best_linear`, `C47_filter_computes_the_textbook_step`, `C47_smooth_computes_the_textbook_step`, `C47_update_computes_the_textbook_correction`, `C48_filter_of_the_linearisation`, `C48_smoother_of_the_linearisation`, `C49_covariances_are_psd_and_never_increase`, `C49_gain_is_optimal`, `C49_smoothing_never_increases_uncertainty`, `C50_filter_fails_only_on_a_singular_innovation`, `C50_no_failure_with_noisy_sensors`, `C50_no_smooth_failure_with_noisy_dynamics`, `C51_covariances_are_those_of_the_jacobians`, `C52_noise_free_trajectory_is_followed`, `C53_standard`, `C53_extended`, `C53_constructor`, `C53_constructor_extended`, `C53_history`, `C53_history_extended`, `C54_standard`, `C54_extended`, `C54_history`, `C54_history_extended`, `C55_standard`, `C55_extended`, `C55_history`, `C55_history_extended`, `C55_sharing`, `C56_standard`, `C56_extended`, `C57_standard`, `C57_extended`, `C57_untouched`, `C58_writing_callable`, `C59_import_raises`, `C59_import_without_git`, `C60_parent_directory`, `C60_source_root`, `C60_directories`, `C61_tagged`, `C61_untagged`, `C61_commits_counted`, `C61_unreadable`, `C61_date`, `C62_smallest_tag`, `C62_order_irrelevant`, `C63_description_unique`, `C63_describe_long`, `C64_unknown_style`, `C64_known_style`, `C64_release`, `C64_branch`, `C64_which_branch`, `C64_one_plus`, `C64_pre_post`, `C64_pre_post_negative`, `C65_builds_differ`, `C65_tags_differ`, `C66_filter_from_matrices_to_arrays`, `C66_filter_without_control`, `C66_smooth_from_matrices_to_arrays`, `C66_smooth_without_control`, `C67_filter_from_functions_to_arrays`, `C67_filter_without_control`, `C67_smooth_from_functions_to_arrays`, `C67_smooth_without_control`, `C67_linear_functions_give_the_standard_answers`, `C68_integers_as_floats`, `C68_filter_and_smooth`, `C68_constructor_raises`, `C68_exact_arithmetic`, `C68_overflow_refuted`, `C69_smooth_suffix`, `C69_smooth_suffix_extended`, `C69_checkpoint`, `C69_checkpoint_extended`, `C70_more_data_never_hurts`, `C71_blind_step`, `C71_blind_readings_do_not_matter`, `C71_blind_readings_do_not_matter_smooth`, `C72_together_runs_iff_both_run`, `C72_together_or_separately`, `C72_together_or_separately_smooth`, `C73_uncertainty_goes_one_way`, `C73_steady_state_stays`, `C73_steady_state_bounds`, `C74_prediction_best_linear`, `C75_innovations_white`, `C75_normalised_innovation_squared`, `C75_normalised_error_squared`, `C76_filter_in_other_units`, `C76_smooth_in_other_units`, `C76_only_noise_ratios_matter`, `C77_together_or_separately`, `C77_together_or_separately_smooth`, `C78_predict_computes_the_textbook_prediction`, `C78_predict_computes_the_textbook_prediction_extended`, `C79_forecast_iterates_the_model`, `C79_forecast_best_linear`, `C80_filter_error_bound`, `C80_smooth_error_bound`, `C80_filter_any_trajectory`, `C80_smooth_any_trajectory`, `C80_filter_bound_attained`, `C80_smooth_bound_attained`, `C81_filter_conservative`, `C81_smooth_conservative`, `C82_filter_unbiased`, `C82_smooth_unbiased`, `C83_poorer_sensors_never_help`, `C83_poorer_sensors_never_help_smooth`, `C84_random_experiment`, `C85_filter_sensitivity`, `C85_smooth_sensitivity`, `C85_filter_any_two_runs`, `C85_smooth_any_two_runs`, `C86_extended_error_bound`, `C86_extended_smooth_error_bound`, `C87_alone`, `C87_any_schedule`, `C87_progress`, `C87_alone_extended`, `C87_any_schedule_extended`, `C87_progress_extended`, `C88_filter_reads_its_parameters_once`, `C88_smooth_reads_some_parameters_once`, `C88_extended_filter_reads_its_parameters_once`, `C88_extended_smooth_reads_some_parameters_once`, `C89_differences_fade`, `C89_initial_state_fades`, `C89_initial_state_is_forgotten`, `C90_extended_filter_is_least_squares`, `C90_extended_smoother_is_least_squares`, `C90_update_is_a_gauss_newton_step`, `C91_more_data_never_hurts_extended`, `C91_blind_step_extended`, `C91_blind_readings_do_not_matter_extended`, `C92_lines_of_a_file`, `C92_line_ends`, `C92_regular_expression`, `C92_keywords_found`, `C92_keywords_missing`, `C92_reading_is_importing`, `C95_initial_covariance_fades`, `C95_differences_fade`, `C95_initial_covariance_is_forgotten`, `C95_steady_state_is_approached`, `C97_filter_calls_the_overridden`, `C97_filter_raises_as_the_overridden`, `C97_smooth_calls_the_overridden`, `C97_adjusting_is_preprocessing`, `C97_nothing_overridden`, `C97_missing_observations`, `C97_joseph_form`, `C98_elimination`, `C98_same_program`, `C98_exact_numbers`, `C98_exact_numbers_extended`, `C99_zero_signs`, `C99_zero_signs_extended`, `C100_filter_calls_the_overridden`, `C100_filter_raises_as_the_overridden`, `C100_smooth_calls_the_overridden`, `C100_nothing_overridden`, `C101_filter_calls`, `C101_smooth_calls`, `C101_counting_functions`, `C102_higher_readings_higher_estimates`, `C102_higher_readings_higher_smoothed`, `C102_changes_stay_in_range`, `C102_smoothed_changes_stay_in_range`, `C102_estimates_stay_in_range`, `C102_smoothed_stay_in_range`, `C103_mirrored`, `C103_mirrored_extended`, `C104_regular_expression`, `C104_read_back`, `C104_imported`, `C104_rebuilt`, `C104_any_number_of_times`, `C105_setup_is_import`, `C105_installed`, `C106_only_two_sums_matter`, `C106_order_of_readings`, `C106_averaging`, `C106_smoothed_rows_are_the_last`, `C107_from_above`, `C107_from_below`, `C107_converges`, `C109_bounds`, `C109_bounds_extended`, `C109_fraction`, `C109_every_double`, `C110_market_beta`, `C110_moving_average`, `C110_pendulum`, `C110_pendulum_smoothing`, `C110_constant_velocity`, `C111_every_covariance`, `C111_filter`, `C111_smooth`, `C111_any_rank`, `C111_filter_extended`, `C111_smooth_extended`, `C111_constant_velocity`, `C111_no_noise`


## 16 theorems: 4 constants

Theorems: `C43_gain_and_variance`, `C43_never_negative`, `C43_never_raises`, `C43_variance_never_increases`, `C43_update`, `C68_doubles`, `C93_variance_error`, `C93_at_most_linear`, `C93_stable_bounded`, `C93_gain_error`, `C94_state_error`, `C94_stable_bounded`, `C108_units`, `C108_units_extended`, `C108_doubles`, `C108_units_double`

Listed: `ClassicalDedekindReals.sig_forall_dec`, `ClassicalDedekindReals.sig_not_dec`, `Classical_Prop.classic`, `FunctionalExtensionality.functional_extensionality_dep`

## 4 theorems: 5 constants

Theorems: `C96_filter`, `C96_prediction`, `C96_smooth`, `C110_jacobians`

Listed: `ClassicalDedekindReals.sig_forall_dec`, `ClassicalDedekindReals.sig_not_dec`, `ClassicalEpsilon.constructive_indefinite_description`, `Classical_Prop.classic`, `FunctionalExtensionality.functional_extensionality_dep`
