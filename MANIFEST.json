{
 "claims": [
  {
   "property": "C01",
   "status": "proved",
   "theorems": [
    "C01_run_is_adapt_loop"
   ],
   "note": "all 15 classes and the base class, any arithmetic"
  },
  {
   "property": "C02",
   "status": "proved",
   "theorems": [
    "C02_run_arrays",
    "C02_first_row",
    "C02_final_weights_in_history_refuted"
   ],
   "note": "y[k]=predict needs np.dot commutative for AP; history lacks the final weights (refuted witness)"
  },
  {
   "property": "C03",
   "status": "proved",
   "theorems": [
    "C03_chunked"
   ],
   "note": ""
  },
  {
   "property": "C04",
   "status": "proved",
   "theorems": [
    "C04_causality"
   ],
   "note": ""
  },
  {
   "property": "C05",
   "status": "proved",
   "theorems": [
    "C05_realtime_loop",
    "C05_realtime_loop_OCNLMS_refuted"
   ],
   "note": "holds for all classes but OCNLMS, for which it is refuted"
  },
  {
   "property": "C06",
   "status": "proved",
   "theorems": [
    "C06_predict_pure",
    "C06_predict_insertion",
    "C06_predict_pure_OCNLMS_refuted"
   ],
   "note": "holds for all classes but OCNLMS, for which it is refuted"
  },
  {
   "property": "C07",
   "status": "proved",
   "theorems": [
    "C07_sizes",
    "C07_predict_total",
    "C07_adapt_total",
    "C07_run_total"
   ],
   "note": ""
  },
  {
   "property": "C08",
   "status": "proved",
   "theorems": [
    "C08_length_mismatch",
    "C08_empty",
    "C08_wrong_width",
    "C08_ragged",
    "C08_adapt_wrong_width",
    "C08_rejected_run_breaks_Benveniste",
    "C08_adapt_length1_AP_refuted",
    "C08_adapt_length1_OCNLMS_refuted"
   ],
   "note": "plus two violations: a rejected run breaks VSLMS_Benveniste; AP/OCNLMS accept length-1 vectors"
  },
  {
   "property": "C09",
   "status": "proved",
   "theorems": [
    "C09_pretrained_run",
    "C09_output_lengths",
    "C09_no_training_data",
    "C09_no_test_data"
   ],
   "note": ""
  },
  {
   "property": "C10",
   "status": "proved",
   "theorems": [
    "C10_C12_new_filter",
    "C10_size_minus_one",
    "C10_rejected_weights",
    "C10_accepted",
    "C10_RLS_eps_zero",
    "C10_init_weights_method"
   ],
   "note": ""
  },
  {
   "property": "C11",
   "status": "proved",
   "theorems": [
    "C11_get_filter",
    "C11_unknown_name",
    "C11_registry_complete",
    "C11_factory",
    "C11_filter_data",
    "C11_filter_data_ignores_n"
   ],
   "note": ""
  },
  {
   "property": "C12",
   "status": "proved",
   "theorems": [
    "C12_type_error",
    "C10_C12_new_filter",
    "C12_documented_FilterLMS_n_refuted"
   ],
   "note": ""
  },
  {
   "property": "C13",
   "status": "proved",
   "theorems": [
    "C13_LMS_a_posteriori",
    "C13_LMS_step_iff",
    "C13_LMS_run"
   ],
   "note": ""
  },
  {
   "property": "C14",
   "status": "proved",
   "theorems": [
    "C14_NLMS_a_posteriori",
    "C14_NLMS_step",
    "C14_NLMS_run",
    "C14_NLMS_energy"
   ],
   "note": ""
  },
  {
   "property": "C15",
   "status": "proved",
   "theorems": [
    "C15_LMF_a_posteriori",
    "C15_LMF_run",
    "C15_NLMF_a_posteriori",
    "C15_NLMF_run",
    "C15_LMF_cubic"
   ],
   "note": ""
  },
  {
   "property": "C16",
   "status": "proved",
   "theorems": [
    "C16_SSLMS_step",
    "C16_SSLMS_run",
    "C16_NSSLMS_step",
    "C16_NSSLMS_drift"
   ],
   "note": ""
  },
  {
   "property": "C17",
   "status": "proved",
   "theorems": [
    "C17_Llncosh_robust",
    "C17_Llncosh_run"
   ],
   "note": ""
  },
  {
   "property": "C18",
   "status": "proved",
   "theorems": [
    "C18_GMCC_bound",
    "C18_GMCC_alpha2",
    "C18_GMCC_alpha2_is_LMS_refuted",
    "C18_GMCC_alpha2_robust",
    "C18_GMCC_alpha2_run"
   ],
   "note": ""
  },
  {
   "property": "C19",
   "status": "proved",
   "theorems": [
    "C19_perfect_model_is_fixed_point"
   ],
   "note": ""
  },
  {
   "property": "C20",
   "status": "proved",
   "theorems": [
    "C20_zero_rate_freezes",
    "C20_RLS_zero_rate",
    "C20_zero_rate_VSLMS_refuted"
   ],
   "note": ""
  },
  {
   "property": "C21",
   "status": "proved",
   "theorems": [
    "C21_least_squares",
    "C21_inverse_correlation",
    "C21_never_worse_than_start"
   ],
   "note": ""
  },
  {
   "property": "C22",
   "status": "proved",
   "theorems": [
    "C22_GNGD_ro0_is_NLMS",
    "C22_VSLMS_ro0_is_LMS"
   ],
   "note": ""
  },
  {
   "property": "C23",
   "status": "proved",
   "theorems": [
    "C23_memory_window",
    "C23_run_feeds_all",
    "C23_update"
   ],
   "note": ""
  },
  {
   "property": "C24",
   "status": "proved",
   "theorems": [
    "C24_projection",
    "C24_minimal_change",
    "C24_error_factor",
    "C24_errors_shrink",
    "C24_never_away",
    "C24_never_away_run",
    "C24_unregularised_start_refuted"
   ],
   "note": ""
  },
  {
   "property": "C25",
   "status": "proved",
   "theorems": [
    "C25_order1_is_NLMS"
   ],
   "note": ""
  },
  {
   "property": "C26",
   "status": "proved",
   "theorems": [
    "C26_shape",
    "C26_memory",
    "C26_even_slots_never_written",
    "C26_odd_memory_holds_last_inputs",
    "C26_mem1_becomes_nan",
    "C26_mean_halved",
    "C26_odd_memory_mean",
    "C26_offset_forgotten_refuted",
    "C26_targets_stored_refuted"
   ],
   "note": ""
  },
  {
   "property": "C27",
   "status": "proved",
   "theorems": [
    "C27_sign_symmetry",
    "C27_homogeneous"
   ],
   "note": ""
  },
  {
   "property": "C28",
   "status": "proved",
   "theorems": [
    "C28_reuse_is_safe",
    "C28_disciplined_is_safe",
    "C28_returned_history_stable",
    "C28_weights_array_is_live",
    "C28_reuse_refuted"
   ],
   "note": ""
  },
  {
   "property": "C29",
   "status": "proved",
   "theorems": [
    "C29_LMS",
    "C29_LMF",
    "C29_Llncosh",
    "C29_GMCC",
    "C29_normalised"
   ],
   "note": ""
  },
  {
   "property": "C30",
   "status": "proved",
   "theorems": [
    "C30_rotation_NSSLMS_refuted",
    "C30_permutation",
    "C30_rotation",
    "C30_rotation_sign_refuted"
   ],
   "note": ""
  },
  {
   "property": "C31",
   "status": "proved",
   "theorems": [
    "C31_two_series_or_error",
    "C31_length_mismatch",
    "C31_scalar_second",
    "C31_sentinel",
    "C31_dispatch"
   ],
   "note": ""
  },
  {
   "property": "C32",
   "status": "proved",
   "theorems": [
    "C32_values",
    "C32_nonneg_and_zero",
    "C32_symmetric",
    "C32_translation",
    "C32_scaling",
    "C32_triangle",
    "C32_MSE_triangle_refuted"
   ],
   "note": ""
  },
  {
   "property": "C33",
   "status": "proved",
   "theorems": [
    "C33_ordering",
    "C33_logSE"
   ],
   "note": ""
  },
  {
   "property": "C34",
   "status": "proved",
   "theorems": [
    "C34_lengths",
    "C34_standardize_back_inverse",
    "C34_C35_default_roundtrip",
    "C34_float_roundtrip_refuted"
   ],
   "note": ""
  },
  {
   "property": "C35",
   "status": "proved",
   "theorems": [
    "C35_zscore",
    "C35_idempotent",
    "C35_unit_invariance",
    "C34_C35_default_roundtrip"
   ],
   "note": ""
  },
  {
   "property": "C36",
   "status": "proved",
   "theorems": [
    "C36_windows",
    "C36_too_short",
    "C36_rejected",
    "C36_recoverable"
   ],
   "note": ""
  },
  {
   "property": "C37",
   "status": "proved",
   "theorems": [
    "C37_covariance",
    "C37_components",
    "C37_rejected",
    "C37_all_columns_rejected",
    "C37_single_column",
    "C37_shape",
    "C37_variances",
    "C37_maximal_variance",
    "C37_total_variance"
   ],
   "note": ""
  },
  {
   "property": "C38",
   "status": "proved",
   "theorems": [
    "C38_scatter",
    "C38_class_order",
    "C38_discriminants",
    "C38_rejected",
    "C38_fisher"
   ],
   "note": ""
  },
  {
   "property": "C39",
   "status": "proved",
   "theorems": [
    "C39_values",
    "C39_bounds",
    "C39_last_is_zero",
    "C39_unknown_function",
    "C39_LMS"
   ],
   "note": ""
  },
  {
   "property": "C40",
   "status": "proved",
   "theorems": [
    "C40_direct",
    "C40_differences_only",
    "C40_shift_invariance",
    "C40_early_shift_refuted",
    "C40_C41_negative_order"
   ],
   "note": ""
  },
  {
   "property": "C41",
   "status": "proved",
   "theorems": [
    "C41_fraction",
    "C41_range",
    "C41_alpha_order",
    "C41_alpha_monotone",
    "C41_shift_invariance",
    "C41_array_rejected",
    "C41_scalar_rejected",
    "C40_C41_negative_order"
   ],
   "note": ""
  },
  {
   "property": "C42",
   "status": "proved",
   "theorems": [
    "C42_k_largest",
    "C42_log10log10_overflow",
    "C42_log10log10",
    "C42_unknown_method",
    "C42_documented_30_percent",
    "C42_float_35_percent_refuted"
   ],
   "note": ""
  },
  {
   "property": "C43",
   "status": "proved",
   "theorems": [
    "C43_window_too_large",
    "C43_length",
    "C43_zero_below_threshold",
    "C43_bounds",
    "C43_value",
    "C43_unknown_method",
    "C43_total"
   ],
   "note": ""
  },
  {
   "property": "C44",
   "status": "proved",
   "theorems": [
    "C44_inference_keeps_parameters",
    "C44_predict",
    "C44_run",
    "C44_test",
    "C44_training_ignores_inference"
   ],
   "note": ""
  },
  {
   "property": "C45",
   "status": "proved",
   "theorems": [
    "C45_sigmoid_range",
    "C45_tanh_formula",
    "C45_tanh_range",
    "C45_derivative"
   ],
   "note": ""
  },
  {
   "property": "C46",
   "status": "proved",
   "theorems": [
    "C46_output_layer",
    "C46_last_hidden_layer_one_output",
    "C46_last_hidden_layer_many_outputs",
    "C46_deeper_layers_refuted",
    "C46_many_outputs_refuted"
   ],
   "note": ""
  },
  {
   "property": "C47",
   "status": "proved",
   "theorems": [
    "C47_train",
    "C47_mse_omits_last",
    "C47_mse_refuted"
   ],
   "note": ""
  },
  {
   "property": "C48",
   "status": "proved",
   "theorems": [
    "C48_shapes_preserved",
    "C48_step_succeeds",
    "C48_rejects",
    "C48_other_exceptions",
    "C48_wrong_width",
    "C48_width_one_accepted",
    "C48_update_before_predict"
   ],
   "note": ""
  },
  {
   "property": "C49",
   "status": "proved",
   "theorems": [
    "C49_Mathews",
    "C49_GNGD",
    "C49_Benveniste_sensitivity",
    "C49_Benveniste_Ang_gradient_refuted"
   ],
   "note": ""
  },
  {
   "property": "C50",
   "status": "proved",
   "theorems": [
    "C50_only_weight_error_matters"
   ],
   "note": ""
  },
  {
   "property": "C51",
   "status": "proved",
   "theorems": [
    "C51_others_refuted",
    "C51_GMCC_Llncosh_refuted",
    "C51_superposition",
    "C51_LMF_refuted"
   ],
   "note": ""
  },
  {
   "property": "C52",
   "status": "proved",
   "theorems": [
    "C52_warm_start",
    "C52_warm_start_refuted"
   ],
   "note": ""
  },
  {
   "property": "C53",
   "status": "proved",
   "theorems": [
    "C53_LMS_robust",
    "C53_NLMS_robust"
   ],
   "note": ""
  },
  {
   "property": "C54",
   "status": "proved",
   "theorems": [
    "C54_LMS",
    "C54_NLMS",
    "C54_LMF",
    "C54_NLMF",
    "C54_Llncosh"
   ],
   "note": ""
  },
  {
   "property": "C55",
   "status": "proved",
   "theorems": [
    "C55_RLS_error_bound",
    "C55_RLS_exponential",
    "C55_RLS_growing_window"
   ],
   "note": ""
  },
  {
   "property": "C56",
   "status": "proved",
   "theorems": [
    "C56_NLMS_minimal_disturbance",
    "C56_NLMS_projection",
    "C56_NLMS_orthogonal"
   ],
   "note": ""
  },
  {
   "property": "C57",
   "status": "proved",
   "theorems": [
    "C57_change_of_units"
   ],
   "note": ""
  },
  {
   "property": "C58",
   "status": "proved",
   "theorems": [
    "C58_AP_never_raises",
    "C58_AP_identifies"
   ],
   "note": ""
  },
  {
   "property": "C59",
   "status": "proved",
   "theorems": [
    "C59_LMS_tracking",
    "C59_NLMS_tracking"
   ],
   "note": ""
  },
  {
   "property": "C60",
   "status": "proved",
   "theorems": [
    "C60_prediction",
    "C60_never_recovers",
    "C60_one_bad_sample",
    "C60_run_poisoned",
    "C60_nan_is_absorbing"
   ],
   "note": ""
  },
  {
   "property": "C61",
   "status": "proved",
   "theorems": [
    "C61_NLMS",
    "C61_LMS",
    "C61_sinusoid"
   ],
   "note": ""
  },
  {
   "property": "C62",
   "status": "proved",
   "theorems": [
    "C62_LE_online",
    "C62_ELBND_online",
    "C62_ESE_online",
    "C62_LE_one_late",
    "C62_ESE_one_late",
    "C62_ELBND_prompt",
    "C62_sharp"
   ],
   "note": ""
  },
  {
   "property": "C63",
   "status": "proved",
   "theorems": [
    "C63_PCA_moved",
    "C63_PCA_reordered",
    "C63_LDA_moved",
    "C63_LDA_reordered",
    "C63_LDA_renamed"
   ],
   "note": ""
  },
  {
   "property": "C64",
   "status": "proved",
   "theorems": [
    "C64_pieces",
    "C64_logSE_pieces",
    "C64_between",
    "C64_reordered",
    "C64_best_constant",
    "C64_standardized"
   ],
   "note": ""
  },
  {
   "property": "C65",
   "status": "proved",
   "theorems": [
    "C65_recursion_determines",
    "C65_run_follows_the_recursion"
   ],
   "note": ""
  },
  {
   "property": "C66",
   "status": "proved",
   "theorems": [
    "C66_step_determined",
    "C66_learning_step"
   ],
   "note": ""
  },
  {
   "property": "C67",
   "status": "proved",
   "theorems": [
    "C67_train_in_rounds",
    "C67_train_in_batches"
   ],
   "note": ""
  },
  {
   "property": "C68",
   "status": "proved",
   "theorems": [
    "C68_renaming",
    "C68_twins"
   ],
   "note": ""
  },
  {
   "property": "C69",
   "status": "proved",
   "theorems": [
    "C69_fixed_points",
    "C69_output_bound"
   ],
   "note": ""
  },
  {
   "property": "C70",
   "status": "proved",
   "theorems": [
    "C70_small_steps_help",
    "C70_deeper_refuted"
   ],
   "note": ""
  },
  {
   "property": "C71",
   "status": "proved",
   "theorems": [
    "C71_clear_memory",
    "C71_clear_memory_elsewhere",
    "C71_new_weights"
   ],
   "note": ""
  },
  {
   "property": "C72",
   "status": "proved",
   "theorems": [
    "C72_mean_weights",
    "C72_error_energy",
    "C72_no_better",
    "C72_near_optimal",
    "C72_mean_convergence"
   ],
   "note": ""
  },
  {
   "property": "C73",
   "status": "proved",
   "theorems": [
    "C73_errors_add_up",
    "C73_error_shrinks",
    "C73_total_error"
   ],
   "note": ""
  },
  {
   "property": "C74",
   "status": "proved",
   "theorems": [
    "C74_mirror",
    "C74_rounding_is_sign_blind",
    "C74_mirror_binary64"
   ],
   "note": ""
  },
  {
   "property": "C75",
   "status": "proved",
   "theorems": [
    "C75_AP_order_zero",
    "C75_OCNLMS_mem_zero",
    "C75_init_weights"
   ],
   "note": ""
  },
  {
   "property": "C76",
   "status": "proved",
   "theorems": [
    "C76_orthogonal",
    "C76_most_variance",
    "C76_best_approximation",
    "C76_distances"
   ],
   "note": ""
  },
  {
   "property": "C77",
   "status": "proved",
   "theorems": [
    "C77_best_feature",
    "C77_uncorrelated",
    "C77_rank"
   ],
   "note": ""
  },
  {
   "property": "C78",
   "status": "proved",
   "theorems": [
    "C78_prediction",
    "C78_run"
   ],
   "note": ""
  },
  {
   "property": "C79",
   "status": "proved",
   "theorems": [
    "C79_LMS",
    "C79_NLMS"
   ],
   "note": ""
  },
  {
   "property": "C80",
   "status": "proved",
   "theorems": [
    "C80_input",
    "C80_one_bad_sample",
    "C80_forever",
    "C80_train",
    "C80_nan_is_passed_on"
   ],
   "note": ""
  },
  {
   "property": "C81",
   "status": "proved",
   "theorems": [
    "C81_predict",
    "C81_update",
    "C81_train"
   ],
   "note": ""
  },
  {
   "property": "C82",
   "status": "proved",
   "theorems": [
    "C82_reuse_is_safe",
    "C82_hands_off",
    "C82_one_output",
    "C82_written_output_is_used"
   ],
   "note": ""
  },
  {
   "property": "C83",
   "status": "proved",
   "theorems": [
    "C83_LE_multiscale",
    "C83_LE_direct",
    "C83_ELBND",
    "C83_ESE",
    "C83_units_of_the_data",
    "C83_names_of_the_inputs"
   ],
   "note": ""
  },
  {
   "property": "C84",
   "status": "proved",
   "theorems": [
    "C84_Mathews",
    "C84_Ang",
    "C84_Benveniste",
    "C84_GNGD",
    "C84_step_size_diverges",
    "C84_GNGD_diverges"
   ],
   "note": ""
  },
  {
   "property": "C85",
   "status": "proved",
   "theorems": [
    "C85_accepted",
    "C85_rejected",
    "C85_rejected_too_late",
    "C85_before_predict"
   ],
   "note": ""
  },
  {
   "property": "C86",
   "status": "proved",
   "theorems": [
    "C86_rejected",
    "C86_network",
    "C86_auto_rates"
   ],
   "note": ""
  },
  {
   "property": "C87",
   "status": "proved",
   "theorems": [
    "C87_learning_entropy",
    "C87_ELBND",
    "C87_pot",
    "C87_ESE",
    "C87_PCA",
    "C87_LDA"
   ],
   "note": ""
  },
  {
   "property": "C88",
   "status": "proved",
   "theorems": [
    "C88_windup_rate",
    "C88_windup",
    "C88_for_good",
    "C88_no_warning",
    "C88_no_forgetting",
    "C88_exact"
   ],
   "note": ""
  },
  {
   "property": "C89",
   "status": "proved",
   "theorems": [
    "C89_LMS",
    "C89_NLMS"
   ],
   "note": ""
  },
  {
   "property": "C90",
   "status": "proved",
   "theorems": [
    "C90_error_left",
    "C90_forgotten_direction",
    "C90_unseen_direction"
   ],
   "note": ""
  },
  {
   "property": "C91",
   "status": "proved",
   "theorems": [
    "C91_unnoticed",
    "C91_for_good",
    "C91_LMS"
   ],
   "note": ""
  },
  {
   "property": "C92",
   "status": "proved",
   "theorems": [
    "C92_LMS_NLMS",
    "C92_LMF_NLMF",
    "C92_SSLMS_NSSLMS",
    "C92_Llncosh",
    "C92_GMCC"
   ],
   "note": ""
  },
  {
   "property": "C93",
   "status": "proved",
   "theorems": [
    "C93_MSE",
    "C93_MAE",
    "C93_RMSE",
    "C93_identical"
   ],
   "note": ""
  },
  {
   "property": "C94",
   "status": "proved",
   "theorems": [
    "C94_mean",
    "C94_std",
    "C94_standardize",
    "C94_round_trip",
    "C94_default"
   ],
   "note": ""
  },
  {
   "property": "C95",
   "status": "proved",
   "theorems": [
    "C95_touches_no_weight",
    "C95_memoryless",
    "C95_adapt",
    "C95_rejected",
    "C95_OCNLMS_number",
    "C95_one_wrong_call_kills",
    "C95_Ang_one_weight",
    "C95_own_loop",
    "C95_own_loop_LMS"
   ],
   "note": ""
  },
  {
   "property": "C96",
   "status": "proved",
   "theorems": [
    "C96_range",
    "C96_saturation",
    "C96_thresholds",
    "C96_step",
    "C96_dead_node"
   ],
   "note": ""
  },
  {
   "property": "C97",
   "status": "proved",
   "theorems": [
    "C97_constant_modulus",
    "C97_one_weight",
    "C97_data_are_exciting",
    "C97_diverges",
    "C97_every_step_size",
    "C97_quiet_input",
    "C97_NLMS_on_the_same_data"
   ],
   "note": ""
  },
  {
   "property": "C98",
   "status": "proved",
   "theorems": [
    "C98_outlier",
    "C98_far_away",
    "C98_stuck",
    "C98_identifies"
   ],
   "note": ""
  },
  {
   "property": "C99",
   "status": "proved",
   "theorems": [
    "C99_multiscale",
    "C99_direct",
    "C99_ELBND",
    "C99_ESE",
    "C99_no_alarm",
    "C99_nan",
    "C99_range",
    "C99_hypotheses"
   ],
   "note": ""
  },
  {
   "property": "C100",
   "status": "proved",
   "theorems": [
    "C100_LMS_mean_convergence",
    "C100_is_LMS",
    "C100_mean_weights",
    "C100_error_energy",
    "C100_no_better",
    "C100_mean_convergence",
    "C100_same_target",
    "C100_biased",
    "C100_hypotheses"
   ],
   "note": ""
  },
  {
   "property": "C101",
   "status": "proved",
   "theorems": [
    "C101_RLS_exact",
    "C101_RLS_averages",
    "C101_RLS_consistent",
    "C101_RLS_forgetting_floor",
    "C101_LMS_floor",
    "C101_NLMS_floor",
    "C101_others_never"
   ],
   "note": ""
  },
  {
   "property": "C102",
   "status": "proved",
   "theorems": [
    "C102_RLS_order",
    "C102_RLS_epochs",
    "C102_RLS_forgetting_order",
    "C102_swap"
   ],
   "note": ""
  },
  {
   "property": "C103",
   "status": "proved",
   "theorems": [
    "C103_bounded",
    "C103_constant",
    "C103_resonance"
   ],
   "note": ""
  },
  {
   "property": "C104",
   "status": "proved",
   "theorems": [
    "C104_float_arrays",
    "C104_unaffected",
    "C104_no_overflow",
    "C104_normalised_run",
    "C104_NLMS_repeated",
    "C104_RLS_doubles",
    "C104_affected"
   ],
   "note": ""
  },
  {
   "property": "C105",
   "status": "proved",
   "theorems": [
    "C105_float_arrays",
    "C105_MSE",
    "C105_MSE_long",
    "C105_RMSE",
    "C105_logSE",
    "C105_MAE_signed",
    "C105_MAE_unsigned",
    "C105_MSE_negative"
   ],
   "note": ""
  },
  {
   "property": "C106",
   "status": "proved",
   "theorems": [
    "C106_distance",
    "C106_tracking",
    "C106_switch",
    "C106_no_forgetting",
    "C106_lag"
   ],
   "note": ""
  },
  {
   "property": "C107",
   "status": "proved",
   "theorems": [
    "C107_epochs",
    "C107_consistent",
    "C107_unique",
    "C107_pretrained",
    "C107_not_least_squares",
    "C107_small_step"
   ],
   "note": ""
  },
  {
   "property": "C108",
   "status": "proved",
   "theorems": [
    "C108_update",
    "C108_disturbed",
    "C108_bounded",
    "C108_tracking"
   ],
   "note": ""
  },
  {
   "property": "C109",
   "status": "proved",
   "theorems": [
    "C109_unlimited",
    "C109_unlimited_RLS",
    "C109_unlimited_OCNLMS",
    "C109_unlimited_AP",
    "C109_limited",
    "C109_Llncosh",
    "C109_GMCC",
    "C109_Llncosh_noise"
   ],
   "note": ""
  },
  {
   "property": "C110",
   "status": "proved",
   "theorems": [
    "C110_continuous",
    "C110_sign_jump",
    "C110_GMCC_alpha1_jump",
    "C110_GMCC_alpha_below_1",
    "C110_Llncosh_LMS",
    "C110_GMCC_LMS",
    "C110_NLMS_LMS"
   ],
   "note": ""
  },
  {
   "property": "C111",
   "status": "proved",
   "theorems": [
    "C111_silent_sample",
    "C111_inserted",
    "C111_leading",
    "C111_AP_quiet",
    "C111_gap_refuted",
    "C111_silent_sample_refuted",
    "C111_leading_OCNLMS_refuted"
   ],
   "note": ""
  },
  {
   "property": "C112",
   "status": "proved",
   "theorems": [
    "C112_dead_input"
   ],
   "note": ""
  },
  {
   "property": "C113",
   "status": "proved",
   "theorems": [
    "C113_never_learned",
    "C113_no_influence",
    "C113_twins",
    "C113_sign_sign_refuted"
   ],
   "note": ""
  },
  {
   "property": "C114",
   "status": "proved",
   "theorems": [
    "C114_exact_steps",
    "C114_no_overflow",
    "C114_same_weights",
    "C114_tenth_refuted",
    "C114_too_large_refuted"
   ],
   "note": ""
  },
  {
   "property": "C115",
   "status": "proved",
   "theorems": [
    "C115_never_learned",
    "C115_never_used",
    "C115_special_inputs",
    "C115_train",
    "C115_dead_input_left_out",
    "C115_auto_refuted"
   ],
   "note": ""
  },
  {
   "property": "C116",
   "status": "proved",
   "theorems": [
    "C116_sensitivity",
    "C116_training_continuous"
   ],
   "note": ""
  },
  {
   "property": "C117",
   "status": "proved",
   "theorems": [
    "C117_SSLMS",
    "C117_NSSLMS",
    "C117_Llncosh",
    "C117_LMS_overflows"
   ],
   "note": ""
  },
  {
   "property": "C118",
   "status": "proved",
   "theorems": [
    "C118_LMS_tracking",
    "C118_LMS_start_forgotten",
    "C118_NLMS_tracking",
    "C118_NLMS_start_forgotten",
    "C118_unbounded_without"
   ],
   "note": ""
  },
  {
   "property": "C119",
   "status": "proved",
   "theorems": [
    "C119_LMS",
    "C119_LMS_start_forgotten",
    "C119_NLMS",
    "C119_NLMS_start_forgotten"
   ],
   "note": ""
  },
  {
   "property": "C120",
   "status": "proved",
   "theorems": [
    "C120_nobody_guarantees_more",
    "C120_every_class",
    "C120_LMS_optimal",
    "C120_NLMS_optimal",
    "C120_RLS_guarantee",
    "C120_RLS_gain_four",
    "C120_no_guarantee"
   ],
   "note": ""
  },
  {
   "property": "C121",
   "status": "proved",
   "theorems": [
    "C121_units",
    "C121_only_powers_of_two",
    "C121_underflow"
   ],
   "note": ""
  },
  {
   "property": "C122",
   "status": "proved",
   "theorems": [
    "C122_regret",
    "C122_log",
    "C122_log_needed",
    "C122_forgetting"
   ],
   "note": ""
  },
  {
   "property": "C123",
   "status": "proved",
   "theorems": [
    "C123_notch",
    "C123_hum_removed",
    "C123_tone",
    "C123_gain",
    "C123_offset"
   ],
   "note": ""
  },
  {
   "property": "C124",
   "status": "proved",
   "theorems": [
    "C124_LMS",
    "C124_NLMS",
    "C124_tuned",
    "C124_needed"
   ],
   "note": ""
  },
  {
   "property": "C125",
   "status": "proved",
   "theorems": [
    "C125_categories",
    "C125_decouple",
    "C125_interleaving",
    "C125_average",
    "C125_RLS",
    "C125_RLS_mean",
    "C125_steps",
    "C125_RLS_not_separate"
   ],
   "note": ""
  },
  {
   "property": "C126",
   "status": "proved",
   "theorems": [
    "C126_proportional",
    "C126_copy",
    "C126_SSLMS"
   ],
   "note": ""
  },
  {
   "property": "C127",
   "status": "proved",
   "theorems": [
    "C127_sign_flips",
    "C127_SSLMS",
    "C127_NLMS",
    "C127_NLMS_is_normalised_LMS",
    "C127_LMS",
    "C127_RLS",
    "C127_signs_refuted"
   ],
   "note": ""
  },
  {
   "property": "C128",
   "status": "proved",
   "theorems": [
    "C128_LMS_NLMS",
    "C128_NLMS",
    "C128_constant_length",
    "C128_RLS",
    "C128_LMS_no_step"
   ],
   "note": ""
  },
  {
   "property": "C129",
   "status": "proved",
   "theorems": [
    "C129_balance",
    "C129_balance_signs",
    "C129_mean_error",
    "C129_RLS",
    "C129_level",
    "C129_median"
   ],
   "note": ""
  },
  {
   "property": "C130",
   "status": "proved",
   "theorems": [
    "C130_max",
    "C130_sum"
   ],
   "note": ""
  },
  {
   "property": "C131",
   "status": "proved",
   "theorems": [
    "C131_direct",
    "C131_multiscale",
    "C131_unchanged",
    "C131_constant_weights"
   ],
   "note": ""
  }
 ]
}