# What Print Assumptions lists for each property theorem

Generated by tools/assumptions.py; 559 theorems.  Theorems with the same list are grouped.

## 141 theorems: Closed under the global context

C01_run_is_adapt_loop, C02_run_arrays, C02_first_row, C02_final_weights_in_history_refuted, C03_chunked, C04_causality, C05_realtime_loop, C05_realtime_loop_OCNLMS_refuted, C06_predict_pure, C06_predict_insertion, C06_predict_pure_OCNLMS_refuted, C07_sizes, C07_predict_total, C07_adapt_total, C07_run_total, C08_length_mismatch, C08_empty, C08_wrong_width, C08_ragged, C08_adapt_wrong_width, C08_rejected_run_breaks_Benveniste, C08_adapt_length1_AP_refuted, C08_adapt_length1_OCNLMS_refuted, C09_pretrained_run, C09_output_lengths, C09_no_training_data, C09_no_test_data, C10_C12_new_filter, C10_size_minus_one, C10_rejected_weights, C10_accepted, C10_RLS_eps_zero, C10_init_weights_method, C11_get_filter, C11_unknown_name, C11_registry_complete, C11_factory, C11_filter_data, C11_filter_data_ignores_n, C12_type_error, C12_documented_FilterLMS_n_refuted, C20_zero_rate_VSLMS_refuted, C23_memory_window, C23_run_feeds_all, C23_update, C26_shape, C26_memory, C26_even_slots_never_written, C26_odd_memory_holds_last_inputs, C26_targets_stored_refuted, C28_reuse_is_safe, C28_disciplined_is_safe, C28_returned_history_stable, C28_weights_array_is_live, C28_reuse_refuted, C31_two_series_or_error, C31_length_mismatch, C31_scalar_second, C31_sentinel, C31_dispatch, C34_lengths, C36_windows, C36_too_short, C36_rejected, C36_recoverable, C44_inference_keeps_parameters, C44_predict, C44_run, C44_test, C44_training_ignores_inference, C47_train, C48_shapes_preserved, C48_step_succeeds, C48_rejects, C48_other_exceptions, C48_wrong_width, C48_width_one_accepted, C48_update_before_predict, C51_others_refuted, C51_LMF_refuted, C52_warm_start, C52_warm_start_refuted, C60_prediction, C60_never_recovers, C60_one_bad_sample, C60_run_poisoned, C62_LE_online, C62_ELBND_online, C62_ESE_online, C62_LE_one_late, C62_ESE_one_late, C62_ELBND_prompt, C62_sharp, C67_train_in_rounds, C67_train_in_batches, C71_clear_memory, C71_clear_memory_elsewhere, C71_new_weights, C74_mirror, C75_AP_order_zero, C75_OCNLMS_mem_zero, C75_init_weights, C80_input, C80_one_bad_sample, C80_forever, C80_train, C81_predict, C81_update, C81_train, C82_reuse_is_safe, C82_hands_off, C82_one_output, C82_written_output_is_used, C85_accepted, C85_rejected, C85_rejected_too_late, C85_before_predict, C87_learning_entropy, C95_touches_no_weight, C95_memoryless, C95_adapt, C95_rejected, C95_OCNLMS_number, C95_one_wrong_call_kills, C95_Ang_one_weight, C95_own_loop, C95_own_loop_LMS, C99_multiscale, C99_direct, C99_ELBND, C99_ESE, C99_no_alarm, C104_float_arrays, C104_unaffected, C104_affected, C105_float_arrays, C111_gap_refuted, C111_silent_sample_refuted, C111_leading_OCNLMS_refuted, C113_sign_sign_refuted, C127_signs_refuted

## 3 theorems: 

- `ClassicalDedekindReals.sig_forall_dec`
- `FunctionalExtensionality.functional_extensionality_dep`

C76_orthogonal, C97_data_are_exciting, C120_nobody_guarantees_more

## 4 theorems: 

- `ClassicalDedekindReals.sig_forall_dec`
- `ClassicalDedekindReals.sig_not_dec`
- `FunctionalExtensionality.functional_extensionality_dep`

C66_step_determined, C86_auto_rates, C100_same_target, C123_gain

## 351 theorems: 

- `ClassicalDedekindReals.sig_forall_dec`
- `ClassicalDedekindReals.sig_not_dec`
- `Classical_Prop.classic`
- `FunctionalExtensionality.functional_extensionality_dep`

C13_LMS_a_posteriori, C13_LMS_step_iff, C13_LMS_run, C14_NLMS_a_posteriori, C14_NLMS_step, C14_NLMS_run, C14_NLMS_energy, C15_LMF_a_posteriori, C15_LMF_run, C15_NLMF_a_posteriori, C15_NLMF_run, C15_LMF_cubic, C16_SSLMS_step, C16_SSLMS_run, C16_NSSLMS_step, C16_NSSLMS_drift, C17_Llncosh_robust, C17_Llncosh_run, C18_GMCC_bound, C18_GMCC_alpha2, C18_GMCC_alpha2_is_LMS_refuted, C18_GMCC_alpha2_robust, C18_GMCC_alpha2_run, C19_perfect_model_is_fixed_point, C20_zero_rate_freezes, C20_RLS_zero_rate, C21_least_squares, C21_inverse_correlation, C21_never_worse_than_start, C22_GNGD_ro0_is_NLMS, C22_VSLMS_ro0_is_LMS, C24_projection, C24_minimal_change, C24_error_factor, C24_errors_shrink, C24_never_away, C24_never_away_run, C24_unregularised_start_refuted, C25_order1_is_NLMS, C26_mean_halved, C26_odd_memory_mean, C26_offset_forgotten_refuted, C27_sign_symmetry, C27_homogeneous, C29_LMS, C29_LMF, C29_Llncosh, C29_GMCC, C29_normalised, C30_rotation_NSSLMS_refuted, C30_permutation, C30_rotation, C30_rotation_sign_refuted, C32_values, C32_nonneg_and_zero, C32_symmetric, C32_translation, C32_scaling, C32_triangle, C32_MSE_triangle_refuted, C33_ordering, C33_logSE, C34_standardize_back_inverse, C34_C35_default_roundtrip, C35_zscore, C35_idempotent, C35_unit_invariance, C37_covariance, C37_components, C37_rejected, C37_all_columns_rejected, C37_single_column, C37_shape, C37_variances, C37_maximal_variance, C37_total_variance, C38_scatter, C38_class_order, C38_discriminants, C38_rejected, C38_fisher, C39_values, C39_bounds, C39_last_is_zero, C39_unknown_function, C39_LMS, C40_direct, C40_differences_only, C40_shift_invariance, C40_early_shift_refuted, C40_C41_negative_order, C41_fraction, C41_range, C41_alpha_order, C41_alpha_monotone, C41_shift_invariance, C41_array_rejected, C41_scalar_rejected, C42_k_largest, C42_log10log10_overflow, C42_log10log10, C42_unknown_method, C42_documented_30_percent, C43_window_too_large, C43_length, C43_zero_below_threshold, C43_bounds, C43_value, C43_unknown_method, C43_total, C45_sigmoid_range, C45_tanh_formula, C45_tanh_range, C45_derivative, C46_output_layer, C46_last_hidden_layer_one_output, C46_last_hidden_layer_many_outputs, C46_deeper_layers_refuted, C46_many_outputs_refuted, C47_mse_omits_last, C47_mse_refuted, C49_Mathews, C49_GNGD, C49_Benveniste_sensitivity, C49_Benveniste_Ang_gradient_refuted, C50_only_weight_error_matters, C51_GMCC_Llncosh_refuted, C51_superposition, C53_LMS_robust, C53_NLMS_robust, C54_LMS, C54_NLMS, C54_LMF, C54_NLMF, C54_Llncosh, C55_RLS_error_bound, C55_RLS_exponential, C55_RLS_growing_window, C56_NLMS_minimal_disturbance, C56_NLMS_projection, C56_NLMS_orthogonal, C57_change_of_units, C58_AP_never_raises, C58_AP_identifies, C59_LMS_tracking, C59_NLMS_tracking, C61_NLMS, C61_LMS, C61_sinusoid, C63_PCA_moved, C63_PCA_reordered, C63_LDA_moved, C63_LDA_reordered, C63_LDA_renamed, C64_pieces, C64_logSE_pieces, C64_between, C64_reordered, C64_best_constant, C64_standardized, C65_recursion_determines, C65_run_follows_the_recursion, C66_learning_step, C68_renaming, C68_twins, C69_fixed_points, C69_output_bound, C70_small_steps_help, C70_deeper_refuted, C72_mean_weights, C72_error_energy, C72_no_better, C72_near_optimal, C72_mean_convergence, C73_errors_add_up, C73_error_shrinks, C73_total_error, C76_most_variance, C76_best_approximation, C76_distances, C77_best_feature, C77_uncorrelated, C77_rank, C83_LE_multiscale, C83_LE_direct, C83_ELBND, C83_ESE, C83_units_of_the_data, C83_names_of_the_inputs, C84_Mathews, C84_Ang, C84_Benveniste, C84_GNGD, C84_step_size_diverges, C84_GNGD_diverges, C86_rejected, C86_network, C87_ELBND, C87_pot, C87_ESE, C87_PCA, C87_LDA, C88_exact, C90_error_left, C90_forgotten_direction, C90_unseen_direction, C92_LMS_NLMS, C92_LMF_NLMF, C92_SSLMS_NSSLMS, C92_Llncosh, C92_GMCC, C97_constant_modulus, C97_one_weight, C97_diverges, C97_every_step_size, C97_quiet_input, C97_NLMS_on_the_same_data, C98_outlier, C98_far_away, C98_stuck, C98_identifies, C100_LMS_mean_convergence, C100_is_LMS, C100_mean_weights, C100_error_energy, C100_no_better, C100_mean_convergence, C100_biased, C100_hypotheses, C101_RLS_exact, C101_RLS_averages, C101_RLS_consistent, C101_RLS_forgetting_floor, C101_LMS_floor, C101_NLMS_floor, C101_others_never, C102_RLS_order, C102_RLS_epochs, C102_RLS_forgetting_order, C102_swap, C103_bounded, C103_constant, C103_resonance, C104_no_overflow, C104_normalised_run, C104_NLMS_repeated, C104_RLS_doubles, C105_MSE, C105_MSE_long, C105_RMSE, C105_logSE, C105_MAE_signed, C105_MAE_unsigned, C105_MSE_negative, C106_distance, C106_tracking, C106_switch, C106_no_forgetting, C106_lag, C107_epochs, C107_consistent, C107_unique, C107_pretrained, C107_not_least_squares, C107_small_step, C108_update, C108_disturbed, C108_bounded, C108_tracking, C109_unlimited, C109_unlimited_RLS, C109_unlimited_OCNLMS, C109_unlimited_AP, C109_limited, C109_Llncosh, C109_GMCC, C109_Llncosh_noise, C110_continuous, C110_sign_jump, C110_GMCC_alpha1_jump, C110_GMCC_alpha_below_1, C110_Llncosh_LMS, C110_GMCC_LMS, C110_NLMS_LMS, C111_silent_sample, C111_inserted, C111_leading, C111_AP_quiet, C112_dead_input, C113_never_learned, C113_no_influence, C113_twins, C115_never_learned, C115_never_used, C115_special_inputs, C115_train, C115_dead_input_left_out, C115_auto_refuted, C116_sensitivity, C116_training_continuous, C118_LMS_tracking, C118_LMS_start_forgotten, C118_NLMS_tracking, C118_NLMS_start_forgotten, C118_unbounded_without, C120_every_class, C120_LMS_optimal, C120_NLMS_optimal, C120_RLS_guarantee, C120_RLS_gain_four, C120_no_guarantee, C122_regret, C122_log, C122_log_needed, C122_forgetting, C123_notch, C123_hum_removed, C123_tone, C123_offset, C124_LMS, C124_NLMS, C124_tuned, C124_needed, C125_categories, C125_decouple, C125_interleaving, C125_average, C125_RLS, C125_RLS_mean, C125_steps, C125_RLS_not_separate, C126_proportional, C126_copy, C126_SSLMS, C127_sign_flips, C127_SSLMS, C127_NLMS, C127_NLMS_is_normalised_LMS, C127_LMS, C127_RLS, C128_LMS_NLMS, C128_NLMS, C128_constant_length, C128_RLS, C128_LMS_no_step, C129_balance, C129_balance_signs, C129_mean_error, C129_RLS, C129_level, C129_median

## 2 theorems: 

- `PrimFloat.abs`
- `PrimFloat.add`
- `PrimFloat.div`
- `PrimFloat.eqb`
- `PrimFloat.float`
- `PrimFloat.frshiftexp`
- `PrimFloat.leb`
- `PrimFloat.ltb`
- `PrimFloat.mul`
- `PrimFloat.normfr_mantissa`
- `PrimFloat.of_uint63`
- `PrimFloat.opp`
- `PrimFloat.sqrt`
- `PrimFloat.sub`
- `PrimInt63.eqb`
- `PrimInt63.int`
- `PrimInt63.land`
- `PrimInt63.lor`
- `PrimInt63.lsl`
- `PrimInt63.lsr`
- `PrimInt63.sub`

C34_float_roundtrip_refuted, C42_float_35_percent_refuted

## 1 theorems: 

- `PrimFloat.abs`
- `PrimFloat.add`
- `PrimFloat.div`
- `PrimFloat.eqb`
- `PrimFloat.float`
- `PrimFloat.frshiftexp`
- `PrimFloat.ldshiftexp`
- `PrimFloat.leb`
- `PrimFloat.ltb`
- `PrimFloat.mul`
- `PrimFloat.normfr_mantissa`
- `PrimFloat.of_uint63`
- `PrimFloat.opp`
- `PrimFloat.sqrt`
- `PrimFloat.sub`
- `PrimInt63.eqb`
- `PrimInt63.int`
- `PrimInt63.land`
- `PrimInt63.lor`
- `PrimInt63.lsl`
- `PrimInt63.lsr`
- `PrimInt63.sub`

C114_too_large_refuted

## 2 theorems: 

- `ClassicalDedekindReals.sig_forall_dec`
- `FunctionalExtensionality.functional_extensionality_dep`
- `PrimFloat.abs`
- `PrimFloat.add`
- `PrimFloat.div`
- `PrimFloat.eqb`
- `PrimFloat.float`
- `PrimFloat.frshiftexp`
- `PrimFloat.leb`
- `PrimFloat.ltb`
- `PrimFloat.mul`
- `PrimFloat.normfr_mantissa`
- `PrimFloat.of_uint63`
- `PrimFloat.opp`
- `PrimFloat.sqrt`
- `PrimFloat.sub`
- `PrimInt63.eqb`
- `PrimInt63.int`
- `PrimInt63.land`
- `PrimInt63.lor`
- `PrimInt63.lsl`
- `PrimInt63.lsr`
- `PrimInt63.sub`

C114_tenth_refuted, C121_only_powers_of_two

## 1 theorems: 

- `ClassicalDedekindReals.sig_forall_dec`
- `ClassicalDedekindReals.sig_not_dec`
- `FunctionalExtensionality.functional_extensionality_dep`
- `PrimFloat.abs`
- `PrimFloat.add`
- `PrimFloat.div`
- `PrimFloat.eqb`
- `PrimFloat.float`
- `PrimFloat.frshiftexp`
- `PrimFloat.leb`
- `PrimFloat.ltb`
- `PrimFloat.mul`
- `PrimFloat.normfr_mantissa`
- `PrimFloat.of_uint63`
- `PrimFloat.opp`
- `PrimFloat.sqrt`
- `PrimFloat.sub`
- `PrimInt63.eqb`
- `PrimInt63.int`
- `PrimInt63.land`
- `PrimInt63.lor`
- `PrimInt63.lsl`
- `PrimInt63.lsr`
- `PrimInt63.sub`

C117_LMS_overflows

## 2 theorems: 

- `ClassicalDedekindReals.sig_forall_dec`
- `FunctionalExtensionality.functional_extensionality_dep`
- `PrimFloat.abs`
- `PrimFloat.add`
- `PrimFloat.div`
- `PrimFloat.eqb`
- `PrimFloat.float`
- `PrimFloat.frshiftexp`
- `PrimFloat.ldshiftexp`
- `PrimFloat.leb`
- `PrimFloat.ltb`
- `PrimFloat.mul`
- `PrimFloat.normfr_mantissa`
- `PrimFloat.of_uint63`
- `PrimFloat.opp`
- `PrimFloat.sqrt`
- `PrimFloat.sub`
- `PrimInt63.eqb`
- `PrimInt63.int`
- `PrimInt63.land`
- `PrimInt63.lor`
- `PrimInt63.lsl`
- `PrimInt63.lsr`
- `PrimInt63.sub`

C121_underflow, C131_constant_weights

## 1 theorems: 

- `FloatAxioms.SF2Prim_Prim2SF`
- `FloatAxioms.add_spec`
- `PrimFloat.abs`
- `PrimFloat.add`
- `PrimFloat.div`
- `PrimFloat.eqb`
- `PrimFloat.float`
- `PrimFloat.frshiftexp`
- `PrimFloat.ldshiftexp`
- `PrimFloat.leb`
- `PrimFloat.ltb`
- `PrimFloat.mul`
- `PrimFloat.normfr_mantissa`
- `PrimFloat.of_uint63`
- `PrimFloat.opp`
- `PrimFloat.sqrt`
- `PrimFloat.sub`
- `PrimInt63.eqb`
- `PrimInt63.int`
- `PrimInt63.land`
- `PrimInt63.lor`
- `PrimInt63.lsl`
- `PrimInt63.lsr`
- `PrimInt63.sub`

C88_for_good

## 1 theorems: 

- `ClassicalDedekindReals.sig_forall_dec`
- `ClassicalDedekindReals.sig_not_dec`
- `Classical_Prop.classic`
- `FloatAxioms.Prim2SF_valid`
- `FunctionalExtensionality.functional_extensionality_dep`
- `PrimFloat.abs`
- `PrimFloat.add`
- `PrimFloat.div`
- `PrimFloat.eqb`
- `PrimFloat.float`
- `PrimFloat.frshiftexp`
- `PrimFloat.leb`
- `PrimFloat.ltb`
- `PrimFloat.mul`
- `PrimFloat.normfr_mantissa`
- `PrimFloat.of_uint63`
- `PrimFloat.opp`
- `PrimFloat.sqrt`
- `PrimFloat.sub`
- `PrimInt63.eqb`
- `PrimInt63.int`
- `PrimInt63.land`
- `PrimInt63.lor`
- `PrimInt63.lsl`
- `PrimInt63.lsr`
- `PrimInt63.sub`

C99_hypotheses

## 2 theorems: 

- `FloatAxioms.SF2Prim_Prim2SF`
- `FloatAxioms.add_spec`
- `FloatAxioms.mul_spec`
- `FloatAxioms.sub_spec`
- `PrimFloat.abs`
- `PrimFloat.add`
- `PrimFloat.div`
- `PrimFloat.eqb`
- `PrimFloat.float`
- `PrimFloat.frshiftexp`
- `PrimFloat.ldshiftexp`
- `PrimFloat.leb`
- `PrimFloat.ltb`
- `PrimFloat.mul`
- `PrimFloat.normfr_mantissa`
- `PrimFloat.of_uint63`
- `PrimFloat.opp`
- `PrimFloat.sqrt`
- `PrimFloat.sub`
- `PrimInt63.eqb`
- `PrimInt63.int`
- `PrimInt63.land`
- `PrimInt63.lor`
- `PrimInt63.lsl`
- `PrimInt63.lsr`
- `PrimInt63.sub`

C26_mem1_becomes_nan, C60_nan_is_absorbing

## 1 theorems: 

- `FloatAxioms.SF2Prim_Prim2SF`
- `FloatAxioms.add_spec`
- `FloatAxioms.div_spec`
- `FloatAxioms.mul_spec`
- `FloatAxioms.opp_spec`
- `FloatAxioms.sub_spec`
- `PrimFloat.abs`
- `PrimFloat.add`
- `PrimFloat.div`
- `PrimFloat.eqb`
- `PrimFloat.float`
- `PrimFloat.frshiftexp`
- `PrimFloat.ldshiftexp`
- `PrimFloat.leb`
- `PrimFloat.ltb`
- `PrimFloat.mul`
- `PrimFloat.normfr_mantissa`
- `PrimFloat.of_uint63`
- `PrimFloat.opp`
- `PrimFloat.sqrt`
- `PrimFloat.sub`
- `PrimInt63.eqb`
- `PrimInt63.int`
- `PrimInt63.land`
- `PrimInt63.lor`
- `PrimInt63.lsl`
- `PrimInt63.lsr`
- `PrimInt63.sub`

C80_nan_is_passed_on

## 2 theorems: 

- `ClassicalDedekindReals.sig_forall_dec`
- `ClassicalDedekindReals.sig_not_dec`
- `Classical_Prop.classic`
- `FloatAxioms.Prim2SF_SF2Prim`
- `FloatAxioms.Prim2SF_valid`
- `FloatAxioms.SF2Prim_Prim2SF`
- `FloatAxioms.add_spec`
- `FunctionalExtensionality.functional_extensionality_dep`
- `PrimFloat.abs`
- `PrimFloat.add`
- `PrimFloat.div`
- `PrimFloat.eqb`
- `PrimFloat.float`
- `PrimFloat.frshiftexp`
- `PrimFloat.ldshiftexp`
- `PrimFloat.leb`
- `PrimFloat.ltb`
- `PrimFloat.mul`
- `PrimFloat.normfr_mantissa`
- `PrimFloat.of_uint63`
- `PrimFloat.opp`
- `PrimFloat.sqrt`
- `PrimFloat.sub`
- `PrimInt63.eqb`
- `PrimInt63.int`
- `PrimInt63.land`
- `PrimInt63.lor`
- `PrimInt63.lsl`
- `PrimInt63.lsr`
- `PrimInt63.sub`

C91_unnoticed, C91_for_good

## 1 theorems: 

- `ClassicalDedekindReals.sig_forall_dec`
- `ClassicalDedekindReals.sig_not_dec`
- `Classical_Prop.classic`
- `FloatAxioms.Prim2SF_SF2Prim`
- `FloatAxioms.Prim2SF_valid`
- `FloatAxioms.SF2Prim_Prim2SF`
- `FloatAxioms.mul_spec`
- `FunctionalExtensionality.functional_extensionality_dep`
- `PrimFloat.abs`
- `PrimFloat.add`
- `PrimFloat.div`
- `PrimFloat.eqb`
- `PrimFloat.float`
- `PrimFloat.frshiftexp`
- `PrimFloat.ldshiftexp`
- `PrimFloat.leb`
- `PrimFloat.ltb`
- `PrimFloat.mul`
- `PrimFloat.normfr_mantissa`
- `PrimFloat.of_uint63`
- `PrimFloat.opp`
- `PrimFloat.sqrt`
- `PrimFloat.sub`
- `PrimInt63.eqb`
- `PrimInt63.int`
- `PrimInt63.land`
- `PrimInt63.lor`
- `PrimInt63.lsl`
- `PrimInt63.lsr`
- `PrimInt63.sub`

C91_LMS

## 2 theorems: 

- `FloatAxioms.SF2Prim_Prim2SF`
- `FloatAxioms.abs_spec`
- `FloatAxioms.add_spec`
- `FloatAxioms.eqb_spec`
- `FloatAxioms.ltb_spec`
- `FloatAxioms.mul_spec`
- `FloatAxioms.opp_spec`
- `FloatAxioms.sub_spec`
- `PrimFloat.abs`
- `PrimFloat.add`
- `PrimFloat.div`
- `PrimFloat.eqb`
- `PrimFloat.float`
- `PrimFloat.frshiftexp`
- `PrimFloat.ldshiftexp`
- `PrimFloat.leb`
- `PrimFloat.ltb`
- `PrimFloat.mul`
- `PrimFloat.normfr_mantissa`
- `PrimFloat.of_uint63`
- `PrimFloat.opp`
- `PrimFloat.sqrt`
- `PrimFloat.sub`
- `PrimInt63.eqb`
- `PrimInt63.int`
- `PrimInt63.land`
- `PrimInt63.lor`
- `PrimInt63.lsl`
- `PrimInt63.lsr`
- `PrimInt63.sub`

C74_rounding_is_sign_blind, C74_mirror_binary64

## 1 theorems: 

- `ClassicalDedekindReals.sig_forall_dec`
- `ClassicalDedekindReals.sig_not_dec`
- `Classical_Prop.classic`
- `FloatAxioms.Prim2SF_SF2Prim`
- `FloatAxioms.Prim2SF_valid`
- `FloatAxioms.SF2Prim_Prim2SF`
- `FloatAxioms.add_spec`
- `FloatAxioms.mul_spec`
- `FunctionalExtensionality.functional_extensionality_dep`
- `PrimFloat.abs`
- `PrimFloat.add`
- `PrimFloat.div`
- `PrimFloat.eqb`
- `PrimFloat.float`
- `PrimFloat.frshiftexp`
- `PrimFloat.ldshiftexp`
- `PrimFloat.leb`
- `PrimFloat.ltb`
- `PrimFloat.mul`
- `PrimFloat.normfr_mantissa`
- `PrimFloat.of_uint63`
- `PrimFloat.opp`
- `PrimFloat.sqrt`
- `PrimFloat.sub`
- `PrimInt63.eqb`
- `PrimInt63.int`
- `PrimInt63.land`
- `PrimInt63.lor`
- `PrimInt63.lsl`
- `PrimInt63.lsr`
- `PrimInt63.sub`

C78_prediction

## 2 theorems: 

- `ClassicalDedekindReals.sig_forall_dec`
- `ClassicalDedekindReals.sig_not_dec`
- `Classical_Prop.classic`
- `FloatAxioms.Prim2SF_SF2Prim`
- `FloatAxioms.Prim2SF_valid`
- `FloatAxioms.SF2Prim_Prim2SF`
- `FloatAxioms.add_spec`
- `FloatAxioms.eqb_spec`
- `FloatAxioms.mul_spec`
- `FunctionalExtensionality.functional_extensionality_dep`
- `PrimFloat.abs`
- `PrimFloat.add`
- `PrimFloat.div`
- `PrimFloat.eqb`
- `PrimFloat.float`
- `PrimFloat.frshiftexp`
- `PrimFloat.ldshiftexp`
- `PrimFloat.leb`
- `PrimFloat.ltb`
- `PrimFloat.mul`
- `PrimFloat.normfr_mantissa`
- `PrimFloat.of_uint63`
- `PrimFloat.opp`
- `PrimFloat.sqrt`
- `PrimFloat.sub`
- `PrimInt63.eqb`
- `PrimInt63.int`
- `PrimInt63.land`
- `PrimInt63.lor`
- `PrimInt63.lsl`
- `PrimInt63.lsr`
- `PrimInt63.sub`

C96_step, C96_dead_node

## 1 theorems: 

- `ClassicalDedekindReals.sig_forall_dec`
- `ClassicalDedekindReals.sig_not_dec`
- `Classical_Prop.classic`
- `FloatAxioms.Prim2SF_SF2Prim`
- `FloatAxioms.Prim2SF_valid`
- `FloatAxioms.SF2Prim_Prim2SF`
- `FloatAxioms.add_spec`
- `FloatAxioms.ltb_spec`
- `FloatAxioms.mul_spec`
- `FunctionalExtensionality.functional_extensionality_dep`
- `PrimFloat.abs`
- `PrimFloat.add`
- `PrimFloat.div`
- `PrimFloat.eqb`
- `PrimFloat.float`
- `PrimFloat.frshiftexp`
- `PrimFloat.ldshiftexp`
- `PrimFloat.leb`
- `PrimFloat.ltb`
- `PrimFloat.mul`
- `PrimFloat.normfr_mantissa`
- `PrimFloat.of_uint63`
- `PrimFloat.opp`
- `PrimFloat.sqrt`
- `PrimFloat.sub`
- `PrimInt63.eqb`
- `PrimInt63.int`
- `PrimInt63.land`
- `PrimInt63.lor`
- `PrimInt63.lsl`
- `PrimInt63.lsr`
- `PrimInt63.sub`

C114_exact_steps

## 1 theorems: 

- `ClassicalDedekindReals.sig_forall_dec`
- `ClassicalDedekindReals.sig_not_dec`
- `Classical_Prop.classic`
- `FloatAxioms.Prim2SF_SF2Prim`
- `FloatAxioms.Prim2SF_valid`
- `FloatAxioms.SF2Prim_Prim2SF`
- `FloatAxioms.div_spec`
- `FloatAxioms.opp_spec`
- `FloatAxioms.sub_spec`
- `FunctionalExtensionality.functional_extensionality_dep`
- `PrimFloat.abs`
- `PrimFloat.add`
- `PrimFloat.div`
- `PrimFloat.eqb`
- `PrimFloat.float`
- `PrimFloat.frshiftexp`
- `PrimFloat.ldshiftexp`
- `PrimFloat.leb`
- `PrimFloat.ltb`
- `PrimFloat.mul`
- `PrimFloat.normfr_mantissa`
- `PrimFloat.of_uint63`
- `PrimFloat.opp`
- `PrimFloat.sqrt`
- `PrimFloat.sub`
- `PrimInt63.eqb`
- `PrimInt63.int`
- `PrimInt63.land`
- `PrimInt63.lor`
- `PrimInt63.lsl`
- `PrimInt63.lsr`
- `PrimInt63.sub`

C94_standardize

## 1 theorems: 

- `ClassicalDedekindReals.sig_forall_dec`
- `ClassicalDedekindReals.sig_not_dec`
- `Classical_Prop.classic`
- `FloatAxioms.Prim2SF_SF2Prim`
- `FloatAxioms.Prim2SF_valid`
- `FloatAxioms.SF2Prim_Prim2SF`
- `FloatAxioms.add_spec`
- `FloatAxioms.ltb_spec`
- `FloatAxioms.mul_spec`
- `FloatAxioms.sub_spec`
- `FunctionalExtensionality.functional_extensionality_dep`
- `PrimFloat.abs`
- `PrimFloat.add`
- `PrimFloat.div`
- `PrimFloat.eqb`
- `PrimFloat.float`
- `PrimFloat.frshiftexp`
- `PrimFloat.ldshiftexp`
- `PrimFloat.leb`
- `PrimFloat.ltb`
- `PrimFloat.mul`
- `PrimFloat.normfr_mantissa`
- `PrimFloat.of_uint63`
- `PrimFloat.opp`
- `PrimFloat.sqrt`
- `PrimFloat.sub`
- `PrimInt63.eqb`
- `PrimInt63.int`
- `PrimInt63.land`
- `PrimInt63.lor`
- `PrimInt63.lsl`
- `PrimInt63.lsr`
- `PrimInt63.sub`

C114_no_overflow

## 6 theorems: 

- `ClassicalDedekindReals.sig_forall_dec`
- `ClassicalDedekindReals.sig_not_dec`
- `Classical_Prop.classic`
- `FloatAxioms.Prim2SF_SF2Prim`
- `FloatAxioms.Prim2SF_valid`
- `FloatAxioms.SF2Prim_Prim2SF`
- `FloatAxioms.add_spec`
- `FloatAxioms.mul_spec`
- `FloatAxioms.opp_spec`
- `FloatAxioms.sub_spec`
- `FunctionalExtensionality.functional_extensionality_dep`
- `PrimFloat.abs`
- `PrimFloat.add`
- `PrimFloat.div`
- `PrimFloat.eqb`
- `PrimFloat.float`
- `PrimFloat.frshiftexp`
- `PrimFloat.ldshiftexp`
- `PrimFloat.leb`
- `PrimFloat.ltb`
- `PrimFloat.mul`
- `PrimFloat.normfr_mantissa`
- `PrimFloat.of_uint63`
- `PrimFloat.opp`
- `PrimFloat.sqrt`
- `PrimFloat.sub`
- `PrimInt63.eqb`
- `PrimInt63.int`
- `PrimInt63.land`
- `PrimInt63.lor`
- `PrimInt63.lsl`
- `PrimInt63.lsr`
- `PrimInt63.sub`

C78_run, C79_LMS, C89_LMS, C117_Llncosh, C119_LMS, C119_LMS_start_forgotten

## 1 theorems: 

- `ClassicalDedekindReals.sig_forall_dec`
- `ClassicalDedekindReals.sig_not_dec`
- `Classical_Prop.classic`
- `FloatAxioms.Prim2SF_SF2Prim`
- `FloatAxioms.Prim2SF_valid`
- `FloatAxioms.SF2Prim_Prim2SF`
- `FloatAxioms.abs_spec`
- `FloatAxioms.add_spec`
- `FloatAxioms.mul_spec`
- `FloatAxioms.opp_spec`
- `FloatAxioms.sub_spec`
- `FunctionalExtensionality.functional_extensionality_dep`
- `PrimFloat.abs`
- `PrimFloat.add`
- `PrimFloat.div`
- `PrimFloat.eqb`
- `PrimFloat.float`
- `PrimFloat.frshiftexp`
- `PrimFloat.ldshiftexp`
- `PrimFloat.leb`
- `PrimFloat.ltb`
- `PrimFloat.mul`
- `PrimFloat.normfr_mantissa`
- `PrimFloat.of_uint63`
- `PrimFloat.opp`
- `PrimFloat.sqrt`
- `PrimFloat.sub`
- `PrimInt63.eqb`
- `PrimInt63.int`
- `PrimInt63.land`
- `PrimInt63.lor`
- `PrimInt63.lsl`
- `PrimInt63.lsr`
- `PrimInt63.sub`

C130_sum

## 4 theorems: 

- `ClassicalDedekindReals.sig_forall_dec`
- `ClassicalDedekindReals.sig_not_dec`
- `Classical_Prop.classic`
- `FloatAxioms.Prim2SF_SF2Prim`
- `FloatAxioms.Prim2SF_valid`
- `FloatAxioms.SF2Prim_Prim2SF`
- `FloatAxioms.add_spec`
- `FloatAxioms.div_spec`
- `FloatAxioms.eqb_spec`
- `FloatAxioms.mul_spec`
- `FloatAxioms.sub_spec`
- `FunctionalExtensionality.functional_extensionality_dep`
- `PrimFloat.abs`
- `PrimFloat.add`
- `PrimFloat.div`
- `PrimFloat.eqb`
- `PrimFloat.float`
- `PrimFloat.frshiftexp`
- `PrimFloat.ldshiftexp`
- `PrimFloat.leb`
- `PrimFloat.ltb`
- `PrimFloat.mul`
- `PrimFloat.normfr_mantissa`
- `PrimFloat.of_uint63`
- `PrimFloat.opp`
- `PrimFloat.sqrt`
- `PrimFloat.sub`
- `PrimInt63.eqb`
- `PrimInt63.int`
- `PrimInt63.land`
- `PrimInt63.lor`
- `PrimInt63.lsl`
- `PrimInt63.lsr`
- `PrimInt63.sub`

C88_windup_rate, C88_windup, C88_no_warning, C88_no_forgetting

## 1 theorems: 

- `ClassicalDedekindReals.sig_forall_dec`
- `ClassicalDedekindReals.sig_not_dec`
- `Classical_Prop.classic`
- `FloatAxioms.Prim2SF_SF2Prim`
- `FloatAxioms.Prim2SF_valid`
- `FloatAxioms.SF2Prim_Prim2SF`
- `FloatAxioms.add_spec`
- `FloatAxioms.div_spec`
- `FloatAxioms.ltb_spec`
- `FloatAxioms.mul_spec`
- `FloatAxioms.sub_spec`
- `FunctionalExtensionality.functional_extensionality_dep`
- `PrimFloat.abs`
- `PrimFloat.add`
- `PrimFloat.div`
- `PrimFloat.eqb`
- `PrimFloat.float`
- `PrimFloat.frshiftexp`
- `PrimFloat.ldshiftexp`
- `PrimFloat.leb`
- `PrimFloat.ltb`
- `PrimFloat.mul`
- `PrimFloat.normfr_mantissa`
- `PrimFloat.of_uint63`
- `PrimFloat.opp`
- `PrimFloat.sqrt`
- `PrimFloat.sub`
- `PrimInt63.eqb`
- `PrimInt63.int`
- `PrimInt63.land`
- `PrimInt63.lor`
- `PrimInt63.lsl`
- `PrimInt63.lsr`
- `PrimInt63.sub`

C121_units

## 5 theorems: 

- `ClassicalDedekindReals.sig_forall_dec`
- `ClassicalDedekindReals.sig_not_dec`
- `Classical_Prop.classic`
- `FloatAxioms.Prim2SF_SF2Prim`
- `FloatAxioms.Prim2SF_valid`
- `FloatAxioms.SF2Prim_Prim2SF`
- `FloatAxioms.add_spec`
- `FloatAxioms.div_spec`
- `FloatAxioms.mul_spec`
- `FloatAxioms.opp_spec`
- `FloatAxioms.sub_spec`
- `FunctionalExtensionality.functional_extensionality_dep`
- `PrimFloat.abs`
- `PrimFloat.add`
- `PrimFloat.div`
- `PrimFloat.eqb`
- `PrimFloat.float`
- `PrimFloat.frshiftexp`
- `PrimFloat.ldshiftexp`
- `PrimFloat.leb`
- `PrimFloat.ltb`
- `PrimFloat.mul`
- `PrimFloat.normfr_mantissa`
- `PrimFloat.of_uint63`
- `PrimFloat.opp`
- `PrimFloat.sqrt`
- `PrimFloat.sub`
- `PrimInt63.eqb`
- `PrimInt63.int`
- `PrimInt63.land`
- `PrimInt63.lor`
- `PrimInt63.lsl`
- `PrimInt63.lsr`
- `PrimInt63.sub`

C79_NLMS, C89_NLMS, C94_round_trip, C119_NLMS, C119_NLMS_start_forgotten

## 2 theorems: 

- `ClassicalDedekindReals.sig_forall_dec`
- `ClassicalDedekindReals.sig_not_dec`
- `Classical_Prop.classic`
- `FloatAxioms.Prim2SF_SF2Prim`
- `FloatAxioms.Prim2SF_valid`
- `FloatAxioms.SF2Prim_Prim2SF`
- `FloatAxioms.add_spec`
- `FloatAxioms.ltb_spec`
- `FloatAxioms.mul_spec`
- `FloatAxioms.opp_spec`
- `FloatAxioms.sub_spec`
- `FunctionalExtensionality.functional_extensionality_dep`
- `PrimFloat.abs`
- `PrimFloat.add`
- `PrimFloat.div`
- `PrimFloat.eqb`
- `PrimFloat.float`
- `PrimFloat.frshiftexp`
- `PrimFloat.ldshiftexp`
- `PrimFloat.leb`
- `PrimFloat.ltb`
- `PrimFloat.mul`
- `PrimFloat.normfr_mantissa`
- `PrimFloat.of_uint63`
- `PrimFloat.opp`
- `PrimFloat.sqrt`
- `PrimFloat.sub`
- `PrimInt63.eqb`
- `PrimInt63.int`
- `PrimInt63.land`
- `PrimInt63.lor`
- `PrimInt63.lsl`
- `PrimInt63.lsr`
- `PrimInt63.sub`

C114_same_weights, C117_SSLMS

## 1 theorems: 

- `ClassicalDedekindReals.sig_forall_dec`
- `ClassicalDedekindReals.sig_not_dec`
- `Classical_Prop.classic`
- `FloatAxioms.Prim2SF_SF2Prim`
- `FloatAxioms.Prim2SF_valid`
- `FloatAxioms.SF2Prim_Prim2SF`
- `FloatAxioms.abs_spec`
- `FloatAxioms.eqb_spec`
- `FloatAxioms.ltb_spec`
- `FloatAxioms.mul_spec`
- `FloatAxioms.opp_spec`
- `FloatAxioms.sub_spec`
- `FunctionalExtensionality.functional_extensionality_dep`
- `PrimFloat.abs`
- `PrimFloat.add`
- `PrimFloat.div`
- `PrimFloat.eqb`
- `PrimFloat.float`
- `PrimFloat.frshiftexp`
- `PrimFloat.ldshiftexp`
- `PrimFloat.leb`
- `PrimFloat.ltb`
- `PrimFloat.mul`
- `PrimFloat.normfr_mantissa`
- `PrimFloat.of_uint63`
- `PrimFloat.opp`
- `PrimFloat.sqrt`
- `PrimFloat.sub`
- `PrimInt63.eqb`
- `PrimInt63.int`
- `PrimInt63.land`
- `PrimInt63.lor`
- `PrimInt63.lsl`
- `PrimInt63.lsr`
- `PrimInt63.sub`

C130_max

## 1 theorems: 

- `ClassicalDedekindReals.sig_forall_dec`
- `ClassicalDedekindReals.sig_not_dec`
- `Classical_Prop.classic`
- `FloatAxioms.Prim2SF_SF2Prim`
- `FloatAxioms.Prim2SF_valid`
- `FloatAxioms.SF2Prim_Prim2SF`
- `FloatAxioms.add_spec`
- `FloatAxioms.div_spec`
- `FloatAxioms.eqb_spec`
- `FloatAxioms.leb_spec`
- `FloatAxioms.mul_spec`
- `FloatAxioms.sub_spec`
- `FunctionalExtensionality.functional_extensionality_dep`
- `PrimFloat.abs`
- `PrimFloat.add`
- `PrimFloat.div`
- `PrimFloat.eqb`
- `PrimFloat.float`
- `PrimFloat.frshiftexp`
- `PrimFloat.ldshiftexp`
- `PrimFloat.leb`
- `PrimFloat.ltb`
- `PrimFloat.mul`
- `PrimFloat.normfr_mantissa`
- `PrimFloat.of_uint63`
- `PrimFloat.opp`
- `PrimFloat.sqrt`
- `PrimFloat.sub`
- `PrimInt63.eqb`
- `PrimInt63.int`
- `PrimInt63.land`
- `PrimInt63.lor`
- `PrimInt63.lsl`
- `PrimInt63.lsr`
- `PrimInt63.sub`

C96_saturation

## 1 theorems: 

- `ClassicalDedekindReals.sig_forall_dec`
- `ClassicalDedekindReals.sig_not_dec`
- `Classical_Prop.classic`
- `FloatAxioms.Prim2SF_SF2Prim`
- `FloatAxioms.Prim2SF_valid`
- `FloatAxioms.SF2Prim_Prim2SF`
- `FloatAxioms.add_spec`
- `FloatAxioms.div_spec`
- `FloatAxioms.ltb_spec`
- `FloatAxioms.mul_spec`
- `FloatAxioms.opp_spec`
- `FloatAxioms.sub_spec`
- `FunctionalExtensionality.functional_extensionality_dep`
- `PrimFloat.abs`
- `PrimFloat.add`
- `PrimFloat.div`
- `PrimFloat.eqb`
- `PrimFloat.float`
- `PrimFloat.frshiftexp`
- `PrimFloat.ldshiftexp`
- `PrimFloat.leb`
- `PrimFloat.ltb`
- `PrimFloat.mul`
- `PrimFloat.normfr_mantissa`
- `PrimFloat.of_uint63`
- `PrimFloat.opp`
- `PrimFloat.sqrt`
- `PrimFloat.sub`
- `PrimInt63.eqb`
- `PrimInt63.int`
- `PrimInt63.land`
- `PrimInt63.lor`
- `PrimInt63.lsl`
- `PrimInt63.lsr`
- `PrimInt63.sub`

C117_NSSLMS

## 2 theorems: 

- `ClassicalDedekindReals.sig_forall_dec`
- `ClassicalDedekindReals.sig_not_dec`
- `Classical_Prop.classic`
- `FloatAxioms.Prim2SF_SF2Prim`
- `FloatAxioms.Prim2SF_valid`
- `FloatAxioms.SF2Prim_Prim2SF`
- `FloatAxioms.add_spec`
- `FloatAxioms.div_spec`
- `FloatAxioms.eqb_spec`
- `FloatAxioms.leb_spec`
- `FloatAxioms.mul_spec`
- `FloatAxioms.opp_spec`
- `FloatAxioms.sub_spec`
- `FunctionalExtensionality.functional_extensionality_dep`
- `PrimFloat.abs`
- `PrimFloat.add`
- `PrimFloat.div`
- `PrimFloat.eqb`
- `PrimFloat.float`
- `PrimFloat.frshiftexp`
- `PrimFloat.ldshiftexp`
- `PrimFloat.leb`
- `PrimFloat.ltb`
- `PrimFloat.mul`
- `PrimFloat.normfr_mantissa`
- `PrimFloat.of_uint63`
- `PrimFloat.opp`
- `PrimFloat.sqrt`
- `PrimFloat.sub`
- `PrimInt63.eqb`
- `PrimInt63.int`
- `PrimInt63.land`
- `PrimInt63.lor`
- `PrimInt63.lsl`
- `PrimInt63.lsr`
- `PrimInt63.sub`

C96_range, C96_thresholds

## 2 theorems: 

- `ClassicalDedekindReals.sig_forall_dec`
- `ClassicalDedekindReals.sig_not_dec`
- `Classical_Prop.classic`
- `FloatAxioms.Prim2SF_SF2Prim`
- `FloatAxioms.Prim2SF_valid`
- `FloatAxioms.SF2Prim_Prim2SF`
- `FloatAxioms.add_spec`
- `FloatAxioms.div_spec`
- `FloatAxioms.of_uint63_spec`
- `FunctionalExtensionality.functional_extensionality_dep`
- `PrimFloat.abs`
- `PrimFloat.add`
- `PrimFloat.div`
- `PrimFloat.eqb`
- `PrimFloat.float`
- `PrimFloat.frshiftexp`
- `PrimFloat.ldshiftexp`
- `PrimFloat.leb`
- `PrimFloat.ltb`
- `PrimFloat.mul`
- `PrimFloat.normfr_mantissa`
- `PrimFloat.of_uint63`
- `PrimFloat.opp`
- `PrimFloat.sqrt`
- `PrimFloat.sub`
- `PrimInt63.add`
- `PrimInt63.eqb`
- `PrimInt63.int`
- `PrimInt63.land`
- `PrimInt63.leb`
- `PrimInt63.lor`
- `PrimInt63.lsl`
- `PrimInt63.lsr`
- `PrimInt63.ltb`
- `PrimInt63.sub`
- `Uint63.add_spec`
- `Uint63.eqb_correct`
- `Uint63.eqb_refl`
- `Uint63.leb_spec`
- `Uint63.lor_spec`
- `Uint63.lsl_spec`
- `Uint63.lsr_spec`
- `Uint63.ltb_spec`
- `Uint63.of_to_Z`
- `Uint63.sub_spec`

C99_range, C131_multiscale

## 1 theorems: 

- `ClassicalDedekindReals.sig_forall_dec`
- `ClassicalDedekindReals.sig_not_dec`
- `Classical_Prop.classic`
- `FloatAxioms.Prim2SF_SF2Prim`
- `FloatAxioms.Prim2SF_valid`
- `FloatAxioms.SF2Prim_Prim2SF`
- `FloatAxioms.add_spec`
- `FloatAxioms.div_spec`
- `FloatAxioms.mul_spec`
- `FloatAxioms.of_uint63_spec`
- `FunctionalExtensionality.functional_extensionality_dep`
- `PrimFloat.abs`
- `PrimFloat.add`
- `PrimFloat.div`
- `PrimFloat.eqb`
- `PrimFloat.float`
- `PrimFloat.frshiftexp`
- `PrimFloat.ldshiftexp`
- `PrimFloat.leb`
- `PrimFloat.ltb`
- `PrimFloat.mul`
- `PrimFloat.normfr_mantissa`
- `PrimFloat.of_uint63`
- `PrimFloat.opp`
- `PrimFloat.sqrt`
- `PrimFloat.sub`
- `PrimInt63.add`
- `PrimInt63.eqb`
- `PrimInt63.int`
- `PrimInt63.land`
- `PrimInt63.leb`
- `PrimInt63.lor`
- `PrimInt63.lsl`
- `PrimInt63.lsr`
- `PrimInt63.ltb`
- `PrimInt63.sub`
- `Uint63.add_spec`
- `Uint63.eqb_correct`
- `Uint63.eqb_refl`
- `Uint63.leb_spec`
- `Uint63.lor_spec`
- `Uint63.lsl_spec`
- `Uint63.lsr_spec`
- `Uint63.ltb_spec`
- `Uint63.of_to_Z`
- `Uint63.sub_spec`

C94_mean

## 1 theorems: 

- `ClassicalDedekindReals.sig_forall_dec`
- `ClassicalDedekindReals.sig_not_dec`
- `Classical_Prop.classic`
- `FloatAxioms.Prim2SF_SF2Prim`
- `FloatAxioms.Prim2SF_valid`
- `FloatAxioms.SF2Prim_Prim2SF`
- `FloatAxioms.add_spec`
- `FloatAxioms.div_spec`
- `FloatAxioms.mul_spec`
- `FloatAxioms.of_uint63_spec`
- `FloatAxioms.opp_spec`
- `FloatAxioms.sub_spec`
- `FunctionalExtensionality.functional_extensionality_dep`
- `PrimFloat.abs`
- `PrimFloat.add`
- `PrimFloat.div`
- `PrimFloat.eqb`
- `PrimFloat.float`
- `PrimFloat.frshiftexp`
- `PrimFloat.ldshiftexp`
- `PrimFloat.leb`
- `PrimFloat.ltb`
- `PrimFloat.mul`
- `PrimFloat.normfr_mantissa`
- `PrimFloat.of_uint63`
- `PrimFloat.opp`
- `PrimFloat.sqrt`
- `PrimFloat.sub`
- `PrimInt63.add`
- `PrimInt63.eqb`
- `PrimInt63.int`
- `PrimInt63.land`
- `PrimInt63.leb`
- `PrimInt63.lor`
- `PrimInt63.lsl`
- `PrimInt63.lsr`
- `PrimInt63.ltb`
- `PrimInt63.sub`
- `Uint63.add_spec`
- `Uint63.eqb_correct`
- `Uint63.eqb_refl`
- `Uint63.leb_spec`
- `Uint63.lor_spec`
- `Uint63.lsl_spec`
- `Uint63.lsr_spec`
- `Uint63.ltb_spec`
- `Uint63.of_to_Z`
- `Uint63.sub_spec`

C93_MSE

## 1 theorems: 

- `ClassicalDedekindReals.sig_forall_dec`
- `ClassicalDedekindReals.sig_not_dec`
- `Classical_Prop.classic`
- `FloatAxioms.Prim2SF_SF2Prim`
- `FloatAxioms.Prim2SF_valid`
- `FloatAxioms.SF2Prim_Prim2SF`
- `FloatAxioms.abs_spec`
- `FloatAxioms.add_spec`
- `FloatAxioms.div_spec`
- `FloatAxioms.mul_spec`
- `FloatAxioms.of_uint63_spec`
- `FloatAxioms.opp_spec`
- `FloatAxioms.sub_spec`
- `FunctionalExtensionality.functional_extensionality_dep`
- `PrimFloat.abs`
- `PrimFloat.add`
- `PrimFloat.div`
- `PrimFloat.eqb`
- `PrimFloat.float`
- `PrimFloat.frshiftexp`
- `PrimFloat.ldshiftexp`
- `PrimFloat.leb`
- `PrimFloat.ltb`
- `PrimFloat.mul`
- `PrimFloat.normfr_mantissa`
- `PrimFloat.of_uint63`
- `PrimFloat.opp`
- `PrimFloat.sqrt`
- `PrimFloat.sub`
- `PrimInt63.add`
- `PrimInt63.eqb`
- `PrimInt63.int`
- `PrimInt63.land`
- `PrimInt63.leb`
- `PrimInt63.lor`
- `PrimInt63.lsl`
- `PrimInt63.lsr`
- `PrimInt63.ltb`
- `PrimInt63.sub`
- `Uint63.add_spec`
- `Uint63.eqb_correct`
- `Uint63.eqb_refl`
- `Uint63.leb_spec`
- `Uint63.lor_spec`
- `Uint63.lsl_spec`
- `Uint63.lsr_spec`
- `Uint63.ltb_spec`
- `Uint63.of_to_Z`
- `Uint63.sub_spec`

C93_MAE

## 1 theorems: 

- `ClassicalDedekindReals.sig_forall_dec`
- `ClassicalDedekindReals.sig_not_dec`
- `Classical_Prop.classic`
- `FloatAxioms.Prim2SF_SF2Prim`
- `FloatAxioms.Prim2SF_valid`
- `FloatAxioms.SF2Prim_Prim2SF`
- `FloatAxioms.add_spec`
- `FloatAxioms.div_spec`
- `FloatAxioms.eqb_spec`
- `FloatAxioms.ltb_spec`
- `FloatAxioms.mul_spec`
- `FloatAxioms.of_uint63_spec`
- `FloatAxioms.sub_spec`
- `FunctionalExtensionality.functional_extensionality_dep`
- `PrimFloat.abs`
- `PrimFloat.add`
- `PrimFloat.div`
- `PrimFloat.eqb`
- `PrimFloat.float`
- `PrimFloat.frshiftexp`
- `PrimFloat.ldshiftexp`
- `PrimFloat.leb`
- `PrimFloat.ltb`
- `PrimFloat.mul`
- `PrimFloat.normfr_mantissa`
- `PrimFloat.of_uint63`
- `PrimFloat.opp`
- `PrimFloat.sqrt`
- `PrimFloat.sub`
- `PrimInt63.add`
- `PrimInt63.eqb`
- `PrimInt63.int`
- `PrimInt63.land`
- `PrimInt63.leb`
- `PrimInt63.lor`
- `PrimInt63.lsl`
- `PrimInt63.lsr`
- `PrimInt63.ltb`
- `PrimInt63.sub`
- `Uint63.add_spec`
- `Uint63.eqb_correct`
- `Uint63.eqb_refl`
- `Uint63.leb_spec`
- `Uint63.lor_spec`
- `Uint63.lsl_spec`
- `Uint63.lsr_spec`
- `Uint63.ltb_spec`
- `Uint63.of_to_Z`
- `Uint63.sub_spec`

C99_nan

## 1 theorems: 

- `ClassicalDedekindReals.sig_forall_dec`
- `ClassicalDedekindReals.sig_not_dec`
- `Classical_Prop.classic`
- `FloatAxioms.Prim2SF_SF2Prim`
- `FloatAxioms.Prim2SF_valid`
- `FloatAxioms.SF2Prim_Prim2SF`
- `FloatAxioms.add_spec`
- `FloatAxioms.div_spec`
- `FloatAxioms.mul_spec`
- `FloatAxioms.of_uint63_spec`
- `FloatAxioms.opp_spec`
- `FloatAxioms.sqrt_spec`
- `FloatAxioms.sub_spec`
- `FunctionalExtensionality.functional_extensionality_dep`
- `PrimFloat.abs`
- `PrimFloat.add`
- `PrimFloat.div`
- `PrimFloat.eqb`
- `PrimFloat.float`
- `PrimFloat.frshiftexp`
- `PrimFloat.ldshiftexp`
- `PrimFloat.leb`
- `PrimFloat.ltb`
- `PrimFloat.mul`
- `PrimFloat.normfr_mantissa`
- `PrimFloat.of_uint63`
- `PrimFloat.opp`
- `PrimFloat.sqrt`
- `PrimFloat.sub`
- `PrimInt63.add`
- `PrimInt63.eqb`
- `PrimInt63.int`
- `PrimInt63.land`
- `PrimInt63.leb`
- `PrimInt63.lor`
- `PrimInt63.lsl`
- `PrimInt63.lsr`
- `PrimInt63.ltb`
- `PrimInt63.sub`
- `Uint63.add_spec`
- `Uint63.eqb_correct`
- `Uint63.eqb_refl`
- `Uint63.leb_spec`
- `Uint63.lor_spec`
- `Uint63.lsl_spec`
- `Uint63.lsr_spec`
- `Uint63.ltb_spec`
- `Uint63.of_to_Z`
- `Uint63.sub_spec`

C93_RMSE

## 1 theorems: 

- `ClassicalDedekindReals.sig_forall_dec`
- `ClassicalDedekindReals.sig_not_dec`
- `Classical_Prop.classic`
- `FloatAxioms.Prim2SF_SF2Prim`
- `FloatAxioms.Prim2SF_valid`
- `FloatAxioms.SF2Prim_Prim2SF`
- `FloatAxioms.abs_spec`
- `FloatAxioms.add_spec`
- `FloatAxioms.div_spec`
- `FloatAxioms.eqb_spec`
- `FloatAxioms.mul_spec`
- `FloatAxioms.of_uint63_spec`
- `FloatAxioms.sqrt_spec`
- `FloatAxioms.sub_spec`
- `FunctionalExtensionality.functional_extensionality_dep`
- `PrimFloat.abs`
- `PrimFloat.add`
- `PrimFloat.div`
- `PrimFloat.eqb`
- `PrimFloat.float`
- `PrimFloat.frshiftexp`
- `PrimFloat.ldshiftexp`
- `PrimFloat.leb`
- `PrimFloat.ltb`
- `PrimFloat.mul`
- `PrimFloat.normfr_mantissa`
- `PrimFloat.of_uint63`
- `PrimFloat.opp`
- `PrimFloat.sqrt`
- `PrimFloat.sub`
- `PrimInt63.add`
- `PrimInt63.eqb`
- `PrimInt63.int`
- `PrimInt63.land`
- `PrimInt63.leb`
- `PrimInt63.lor`
- `PrimInt63.lsl`
- `PrimInt63.lsr`
- `PrimInt63.ltb`
- `PrimInt63.sub`
- `Uint63.add_spec`
- `Uint63.eqb_correct`
- `Uint63.eqb_refl`
- `Uint63.leb_spec`
- `Uint63.lor_spec`
- `Uint63.lsl_spec`
- `Uint63.lsr_spec`
- `Uint63.ltb_spec`
- `Uint63.of_to_Z`
- `Uint63.sub_spec`

C93_identical

## 4 theorems: 

- `ClassicalDedekindReals.sig_forall_dec`
- `ClassicalDedekindReals.sig_not_dec`
- `Classical_Prop.classic`
- `FloatAxioms.Prim2SF_SF2Prim`
- `FloatAxioms.Prim2SF_valid`
- `FloatAxioms.SF2Prim_Prim2SF`
- `FloatAxioms.abs_spec`
- `FloatAxioms.add_spec`
- `FloatAxioms.div_spec`
- `FloatAxioms.mul_spec`
- `FloatAxioms.of_uint63_spec`
- `FloatAxioms.opp_spec`
- `FloatAxioms.sqrt_spec`
- `FloatAxioms.sub_spec`
- `FunctionalExtensionality.functional_extensionality_dep`
- `PrimFloat.abs`
- `PrimFloat.add`
- `PrimFloat.div`
- `PrimFloat.eqb`
- `PrimFloat.float`
- `PrimFloat.frshiftexp`
- `PrimFloat.ldshiftexp`
- `PrimFloat.leb`
- `PrimFloat.ltb`
- `PrimFloat.mul`
- `PrimFloat.normfr_mantissa`
- `PrimFloat.of_uint63`
- `PrimFloat.opp`
- `PrimFloat.sqrt`
- `PrimFloat.sub`
- `PrimInt63.add`
- `PrimInt63.eqb`
- `PrimInt63.int`
- `PrimInt63.land`
- `PrimInt63.leb`
- `PrimInt63.lor`
- `PrimInt63.lsl`
- `PrimInt63.lsr`
- `PrimInt63.ltb`
- `PrimInt63.sub`
- `Uint63.add_spec`
- `Uint63.eqb_correct`
- `Uint63.eqb_refl`
- `Uint63.leb_spec`
- `Uint63.lor_spec`
- `Uint63.lsl_spec`
- `Uint63.lsr_spec`
- `Uint63.ltb_spec`
- `Uint63.of_to_Z`
- `Uint63.sub_spec`

C94_std, C94_default, C131_direct, C131_unchanged
