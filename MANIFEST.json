{
 "claims": [
  {
   "property": "C01",
   "status": "proved",
   "theorems": [
    "C01_sigmoid_value",
    "C01_sigmoid_no_overflow",
    "C01_sigmoid_shape"
   ],
   "note": ""
  },
  {
   "property": "C02",
   "status": "proved",
   "theorems": [
    "C02_softmax_rows",
    "C02_softmax_shift",
    "C02_softmax_no_overflow"
   ],
   "note": ""
  },
  {
   "property": "C03",
   "status": "proved",
   "theorems": [
    "C03_inverse_cdf"
   ],
   "note": ""
  },
  {
   "property": "C04",
   "status": "proved",
   "theorems": [
    "C04_missing_mass_goes_to_action_0",
    "C04_impossible_action_from_accepted_row"
   ],
   "note": ""
  },
  {
   "property": "C05",
   "status": "proved",
   "theorems": [
    "C05_undefined_samples",
    "C05_interval",
    "C05_percentiles",
    "C05_nested",
    "C05_rejects"
   ],
   "note": ""
  },
  {
   "property": "C06",
   "status": "proved",
   "theorems": [
    "C06_equivariant"
   ],
   "note": ""
  },
  {
   "property": "C07",
   "status": "proved",
   "theorems": [
    "C07_one_hot"
   ],
   "note": ""
  },
  {
   "property": "C08",
   "status": "proved",
   "theorems": [
    "C08_check_sound",
    "C08_check_complete"
   ],
   "note": ""
  },
  {
   "property": "C09",
   "status": "proved",
   "theorems": [
    "C09_accepts_negative_probabilities",
    "C09_accepts_nan_pscore",
    "C09_accepts_infinite_reward",
    "C09_accepts_length_mismatch",
    "C09_one_round_log_is_broadcast",
    "C09_other_mismatch_is_index_error"
   ],
   "note": ""
  },
  {
   "property": "C10",
   "status": "proved",
   "theorems": [
    "C10_ipw_value",
    "C10_ipw_needs_pscore"
   ],
   "note": ""
  },
  {
   "property": "C11",
   "status": "proved",
   "theorems": [
    "C11_ipw_unbiased"
   ],
   "note": ""
  },
  {
   "property": "C12",
   "status": "proved",
   "theorems": [
    "C12_clipping"
   ],
   "note": ""
  },
  {
   "property": "C13",
   "status": "proved",
   "theorems": [
    "C13_snipw_value",
    "C13_snipw_shift",
    "C13_snipw_rescale"
   ],
   "note": ""
  },
  {
   "property": "C14",
   "status": "proved",
   "theorems": [
    "C14_snipw_interval_nan",
    "C14_snipw_nan"
   ],
   "note": ""
  },
  {
   "property": "C15",
   "status": "proved",
   "theorems": [
    "C15_dm_value"
   ],
   "note": ""
  },
  {
   "property": "C16",
   "status": "proved",
   "theorems": [
    "C16_dr_value",
    "C16_dr_zero_model",
    "C16_dr_is_dm"
   ],
   "note": ""
  },
  {
   "property": "C17",
   "status": "proved",
   "theorems": [
    "C17_dr_unbiased_true_pscore"
   ],
   "note": ""
  },
  {
   "property": "C18",
   "status": "proved",
   "theorems": [
    "C18_dr_unbiased_true_model"
   ],
   "note": ""
  },
  {
   "property": "C19",
   "status": "proved",
   "theorems": [
    "C19_sndr_value",
    "C19_sndr_zero_model",
    "C19_sndr_rescale"
   ],
   "note": ""
  },
  {
   "property": "C20",
   "status": "proved",
   "theorems": [
    "C20_switch_value",
    "C20_switch_limits"
   ],
   "note": ""
  },
  {
   "property": "C21",
   "status": "proved",
   "theorems": [
    "C21_dros_value"
   ],
   "note": ""
  },
  {
   "property": "C22",
   "status": "proved",
   "theorems": [
    "C22_dros_zero_lambda"
   ],
   "note": ""
  },
  {
   "property": "C23",
   "status": "proved",
   "theorems": [
    "C23_sub_gaussian",
    "C23_sub_gaussian_zero",
    "C23_sub_gaussian_one"
   ],
   "note": ""
  },
  {
   "property": "C24",
   "status": "proved",
   "theorems": [
    "C24_replay"
   ],
   "note": ""
  },
  {
   "property": "C25",
   "status": "proved",
   "theorems": [
    "C25_bipw"
   ],
   "note": ""
  },
  {
   "property": "C26",
   "status": "proved",
   "theorems": [
    "C26_order_irrelevant"
   ],
   "note": ""
  },
  {
   "property": "C27",
   "status": "proved",
   "theorems": [
    "C27_mse_score",
    "C27_delta_zero"
   ],
   "note": ""
  },
  {
   "property": "C28",
   "status": "proved",
   "theorems": [
    "C28_hoeffding",
    "C28_bernstein",
    "C28_rejects",
    "C28_bad_delta",
    "C28_empty_sample",
    "C28_bernstein_one_observation",
    "C28_negative_observations_refuted"
   ],
   "note": ""
  },
  {
   "property": "C29",
   "status": "proved",
   "theorems": [
    "C29_candidate_value"
   ],
   "note": ""
  },
  {
   "property": "C30",
   "status": "proved",
   "theorems": [
    "C30_mse_argmin"
   ],
   "note": ""
  },
  {
   "property": "C31",
   "status": "proved",
   "theorems": [
    "C31_slope"
   ],
   "note": ""
  },
  {
   "property": "C32",
   "status": "proved",
   "theorems": [
    "C32_first_log_remembered",
    "C32_stale_choice"
   ],
   "note": ""
  },
  {
   "property": "C33",
   "status": "proved",
   "theorems": [
    "C33_value",
    "C33_rows",
    "C33_interval",
    "C33_row_order"
   ],
   "note": ""
  },
  {
   "property": "C34",
   "status": "proved",
   "theorems": [
    "C34_standard_unbiased"
   ],
   "note": ""
  },
  {
   "property": "C35",
   "status": "proved",
   "theorems": [
    "C35_independent_unbiased"
   ],
   "note": ""
  },
  {
   "property": "C36",
   "status": "proved",
   "theorems": [
    "C36_cascade_unbiased"
   ],
   "note": ""
  },
  {
   "property": "C37",
   "status": "proved",
   "theorems": [
    "C37_value",
    "C37_interval",
    "C37_zero_baseline",
    "C37_order_sensitive"
   ],
   "note": ""
  },
  {
   "property": "C38",
   "status": "proved",
   "theorems": [
    "C38_per_position_value",
    "C38_convex",
    "C38_rescale",
    "C38_rows_outside_len_list_ignored",
    "C38_standard_value",
    "C38_interval"
   ],
   "note": ""
  },
  {
   "property": "C39",
   "status": "proved",
   "theorems": [
    "C39_iips_check",
    "C39_sips_check",
    "C39_rips_check",
    "C39_cascade_dr_check",
    "C39_nan_pscore_accepted"
   ],
   "note": ""
  },
  {
   "property": "C40",
   "status": "proved",
   "theorems": [
    "C40_naive_value",
    "C40_weighted_ipw_value",
    "C40_weighted_dr_value",
    "C40_weights",
    "C40_equal_variances"
   ],
   "note": ""
  },
  {
   "property": "C41",
   "status": "proved",
   "theorems": [
    "C41_gap",
    "C41_gap_or_contiguous",
    "C41_zero_variance",
    "C41_singleton_stratum"
   ],
   "note": ""
  },
  {
   "property": "C42",
   "status": "proved",
   "theorems": [
    "C42_balanced_interval_never_returns",
    "C42_balanced_interval_typeerror",
    "C42_balanced_value"
   ],
   "note": ""
  },
  {
   "property": "C43",
   "status": "proved",
   "theorems": [
    "C43_balanced_ipw_unbiased",
    "C43_balanced_dr_unbiased",
    "C43_naive_ipw_unbiased",
    "C43_naive_biased_without_full_support"
   ],
   "note": ""
  },
  {
   "property": "C44",
   "status": "proved",
   "theorems": [
    "C44_kernels",
    "C44_shape",
    "C44_compact",
    "C44_gaussian",
    "C44_non_finite"
   ],
   "note": ""
  },
  {
   "property": "C45",
   "status": "proved",
   "theorems": [
    "C45_kipw_value",
    "C45_kdr_value",
    "C45_kdr_zero_model",
    "C45_kdr_perfect_model",
    "C45_ksnipw_value",
    "C45_ksnipw_convex"
   ],
   "note": ""
  },
  {
   "property": "C46",
   "status": "proved",
   "theorems": [
    "C46_accepted",
    "C46_zero_bandwidth",
    "C46_nan_bandwidth",
    "C46_infinite_bandwidth"
   ],
   "note": ""
  },
  {
   "property": "C47",
   "status": "proved",
   "theorems": [
    "C47_one_hot_is_ipw",
    "C47_one_hot_is_snipw"
   ],
   "note": ""
  },
  {
   "property": "C48",
   "status": "proved",
   "theorems": [
    "C48_unbiased_independent_dims",
    "C48_unbiased_one_dim"
   ],
   "note": ""
  },
  {
   "property": "C49",
   "status": "proved",
   "theorems": [
    "C49_value",
    "C49_biased_for_dependent_dims"
   ],
   "note": ""
  },
  {
   "property": "C50",
   "status": "proved",
   "theorems": [
    "C50_exact_selection",
    "C50_greedy_selection",
    "C50_min_dim_too_large_raises"
   ],
   "note": ""
  },
  {
   "property": "C51",
   "status": "proved",
   "theorems": [
    "C51_estimates",
    "C51_rejects",
    "C51_missing_key",
    "C51_shared_p_e_a",
    "C51_multi",
    "C51_slate",
    "C51_continuous",
    "C51_missing_keys",
    "C51_accepted_keys",
    "C51_end_to_end",
    "C51_shape_rules",
    "C51_key_deleted",
    "C51_multi_key_deleted",
    "C51_float_actions"
   ],
   "note": ""
  },
  {
   "property": "C52",
   "status": "proved",
   "theorems": [
    "C52_errors",
    "C52_multi",
    "C52_slate",
    "C52_continuous",
    "C52_meaning"
   ],
   "note": ""
  },
  {
   "property": "C53",
   "status": "proved",
   "theorems": [
    "C53_annotates",
    "C53_accepts",
    "C53_idempotent",
    "C53_reads",
    "C53_stale_actions"
   ],
   "note": ""
  },
  {
   "property": "C54",
   "status": "proved",
   "theorems": [
    "C54_out_of_fold",
    "C54_single_fold",
    "C54_missing_position",
    "C54_fold_count",
    "C54_own_round_irrelevant",
    "C54_warm_start_leaks"
   ],
   "note": ""
  },
  {
   "property": "C55",
   "status": "proved",
   "theorems": [
    "C55_training_sets",
    "C55_weights",
    "C55_other_positions_irrelevant",
    "C55_position_required",
    "C55_constructor",
    "C55_policy_required"
   ],
   "note": ""
  },
  {
   "property": "C56",
   "status": "proved",
   "theorems": [
    "C56_always_rejected"
   ],
   "note": ""
  },
  {
   "property": "C57",
   "status": "proved",
   "theorems": [
    "C57_zeros"
   ],
   "note": ""
  },
  {
   "property": "C58",
   "status": "proved",
   "theorems": [
    "C58_batch",
    "C58_no_rounds",
    "C58_init"
   ],
   "note": ""
  },
  {
   "property": "C59",
   "status": "proved",
   "theorems": [
    "C59_value",
    "C59_policy_value",
    "C59_rejects",
    "C59_unbiased"
   ],
   "note": ""
  },
  {
   "property": "C60",
   "status": "proved",
   "theorems": [
    "C60_rounding",
    "C60_sizes",
    "C60_last",
    "C60_exact",
    "C60_batch",
    "C60_constructor",
    "C60_negative_last",
    "C60_average_policy",
    "C60_deficient_average"
   ],
   "note": ""
  },
  {
   "property": "C61",
   "status": "proved",
   "theorems": [
    "C61_init",
    "C61_rejects",
    "C61_other_labels",
    "C61_plus_minus_one",
    "C61_batch",
    "C61_eval_policy",
    "C61_ground_truth"
   ],
   "note": ""
  },
  {
   "property": "C62",
   "status": "proved",
   "theorems": [
    "C62_pscores",
    "C62_slates_listed",
    "C62_distribution",
    "C62_slot_distribution",
    "C62_uniform_slot",
    "C62_rejects",
    "C62_sampling",
    "C62_clip_counterexample"
   ],
   "note": ""
  },
  {
   "property": "C63",
   "status": "proved",
   "theorems": [
    "C63_optimal_plays_lowest",
    "C63_exchanged",
    "C63_factorizable"
   ],
   "note": ""
  },
  {
   "property": "C64",
   "status": "proved",
   "theorems": [
    "C64_rewards",
    "C64_dataset"
   ],
   "note": ""
  },
  {
   "property": "C65",
   "status": "proved",
   "theorems": [
    "C65_setting",
    "C65_layout"
   ],
   "note": ""
  },
  {
   "property": "C66",
   "status": "proved",
   "theorems": [
    "C66_batch",
    "C66_no_rounds",
    "C66_init",
    "C66_mean_range",
    "C66_no_direct_effect",
    "C66_direct_effect",
    "C66_shared_seed"
   ],
   "note": ""
  },
  {
   "property": "C67",
   "status": "proved",
   "theorems": [
    "C67_full",
    "C67_split",
    "C67_partition",
    "C67_time_order",
    "C67_ranges",
    "C67_rejects",
    "C67_on_policy",
    "C67_edges",
    "C67_bootstrap",
    "C67_bootstrap_rejects",
    "C67_lengths",
    "C67_len_list"
   ],
   "note": ""
  },
  {
   "property": "C68",
   "status": "proved",
   "theorems": [
    "C68_linear_valid_rankings",
    "C68_linear_context_rows",
    "C68_linear_ts_two_rows_out_of_range",
    "C68_logistic_rankings",
    "C68_logistic_wrong_dimension",
    "C68_logistic_two_rows_out_of_range",
    "C68_epsilon_greedy_valid_ranking",
    "C68_epsilon_greedy_order",
    "C68_bernoulli_ts_order"
   ],
   "note": ""
  },
  {
   "property": "C69",
   "status": "proved",
   "theorems": [
    "C69_counters_equal_committed_history",
    "C69_selection_unchanged_within_batch",
    "C69_initialize_restores_fresh_object",
    "C69_rejected_update",
    "C69_rejected_update_skips_commit"
   ],
   "note": ""
  },
  {
   "property": "C70",
   "status": "proved",
   "theorems": [
    "C70_beta_parameters_positive",
    "C70_beta_parameters_value",
    "C70_large_rewards_make_selection_raise"
   ],
   "note": ""
  },
  {
   "property": "C71",
   "status": "proved",
   "theorems": [
    "C71_inverse_of_committed_rounds",
    "C71_updates_succeed",
    "C71_bad_context_half_applied"
   ],
   "note": ""
  },
  {
   "property": "C72",
   "status": "proved",
   "theorems": [
    "C72_linear_initialize_keeps_model",
    "C72_linear_initialize_not_fresh",
    "C72_logistic_initialize_keeps_models",
    "C72_logistic_initialize_not_fresh"
   ],
   "note": ""
  },
  {
   "property": "C73",
   "status": "proved",
   "theorems": [
    "C73_gradient_is_exact",
    "C73_zero_rewards_are_ignored",
    "C73_only_zero_rewards_learn_nothing",
    "C73_fit_effect",
    "C73_precision_increment_is_not_curvature",
    "C73_precision_monotone"
   ],
   "note": ""
  },
  {
   "property": "C74",
   "status": "proved",
   "theorems": [
    "C74_constructor",
    "C74_ipw_predict",
    "C74_ipw_unknown_label",
    "C74_q_predict",
    "C74_nn_predict",
    "C74_sample_action",
    "C74_nn_sample_action",
    "C74_predict_proba",
    "C74_zero_temperature",
    "C74_predict_proba_rejects",
    "C74_predict_score",
    "C74_missing_class",
    "C74_single_class"
   ],
   "note": ""
  },
  {
   "property": "C75",
   "status": "proved",
   "theorems": [
    "C75_surrogate_gradient",
    "C75_loss",
    "C75_single_round_batch",
    "C75_variance_term_opposes"
   ],
   "note": ""
  },
  {
   "property": "C76",
   "status": "proved",
   "theorems": [
    "C76_no_stop",
    "C76_first_stop",
    "C76_every_epoch_steps",
    "C76_improving_run",
    "C76_rising_run",
    "C76_validation_irrelevant",
    "C76_split"
   ],
   "note": ""
  },
  {
   "property": "C77",
   "status": "proved",
   "theorems": [
    "C77_delivered_when_due",
    "C77_due_round",
    "C77_never_early",
    "C77_exactly_once_after_clear",
    "C77_no_spurious_failure",
    "C77_recording_is_transparent"
   ],
   "note": ""
  },
  {
   "property": "C78",
   "status": "proved",
   "theorems": [
    "C78_action_is_first_choice",
    "C78_bookkeeping",
    "C78_bandit_rounds_iteration"
   ],
   "note": ""
  },
  {
   "property": "C79",
   "status": "proved",
   "theorems": [
    "C79_split_invariance",
    "C79_transition_breaks_split",
    "C79_lazy_dimensions",
    "C79_dimension_change",
    "C79_same_dimensions",
    "C79_dimension_left_out",
    "C79_nothing_drawn"
   ],
   "note": ""
  },
  {
   "property": "C80",
   "status": "proved",
   "theorems": [
    "C80_rows_exact",
    "C80_weights_below_one",
    "C80_shape_and_range",
    "C80_zero_interval_never_returns",
    "C80_no_rounds"
   ],
   "note": ""
  },
  {
   "property": "C81",
   "status": "proved",
   "theorems": [
    "C81_plain_delays",
    "C81_weighted_delays",
    "C81_scale_decreasing",
    "C81_large_reward_rejected"
   ],
   "note": ""
  },
  {
   "property": "C82",
   "status": "proved",
   "theorems": [
    "C82_average_over_replicas",
    "C82_within_reward_range",
    "C82_zero_simulations",
    "C82_replicas_share_randomness",
    "C82_missing_key"
   ],
   "note": ""
  },
  {
   "property": "C83",
   "status": "proved",
   "theorems": [
    "C83_dros_zero_candidate"
   ],
   "note": ""
  },
  {
   "property": "C84",
   "status": "proved",
   "theorems": [
    "C84_sg_tuning_estimated_pscore"
   ],
   "note": ""
  },
  {
   "property": "C85",
   "status": "proved",
   "theorems": [
    "C85_cascade_dr_unbiased"
   ],
   "note": ""
  },
  {
   "property": "C86",
   "status": "proved",
   "theorems": [
    "C86_continuous_interval_resamples_rounds",
    "C86_embedding_interval_resamples_rounds",
    "C86_interval_resamples_rounds",
    "C86_multi_interval_resamples_rounds"
   ],
   "note": ""
  },
  {
   "property": "C87",
   "status": "proved",
   "theorems": [
    "C87_smoothing",
    "C87_affine_unbiased"
   ],
   "note": ""
  },
  {
   "property": "C88",
   "status": "proved",
   "theorems": [
    "C88_ope_inputs_exact",
    "C88_needs_both",
    "C88_feedback_exact"
   ],
   "note": ""
  },
  {
   "property": "C89",
   "status": "proved",
   "theorems": [
    "C89_estimated_weights_value",
    "C89_calibrated",
    "C89_context_required"
   ],
   "note": ""
  },
  {
   "property": "C90",
   "status": "proved",
   "theorems": [
    "C90_snmipw_value",
    "C90_snmipw_within_reward_range",
    "C90_selection_drops_normalization",
    "C90_selection_leaves_reward_range"
   ],
   "note": ""
  },
  {
   "property": "C91",
   "status": "proved",
   "theorems": [
    "C91_random_action_dist",
    "C91_bernoulli_ts_action_dist",
    "C91_bernoulli_ts_zero_simulations"
   ],
   "note": ""
  },
  {
   "property": "C92",
   "status": "proved",
   "theorems": [
    "C92_greedy_by_ridge_regression",
    "C92_ucb_score",
    "C92_ts_samples_ridge_posterior"
   ],
   "note": ""
  },
  {
   "property": "C93",
   "status": "proved",
   "theorems": [
    "C93_batches_partition",
    "C93_each_round_fitted_once"
   ],
   "note": ""
  },
  {
   "property": "C94",
   "status": "proved",
   "theorems": [
    "C94_feedback_validator"
   ],
   "note": ""
  },
  {
   "property": "C95",
   "status": "proved",
   "theorems": [
    "C95_failed_selection",
    "C95_wrong_context_after_failure",
    "C95_failed_delivery_keeps_queue",
    "C95_duplicate_delivery_after_failure",
    "C95_undelayed_round_skips_due"
   ],
   "note": ""
  },
  {
   "property": "C96",
   "status": "proved",
   "theorems": [
    "C96_replay_always_raises",
    "C96_replay_type_error",
    "C96_missing_key",
    "C96_replay_learns_from_matches"
   ],
   "note": ""
  },
  {
   "property": "C97",
   "status": "proved",
   "theorems": [
    "C97_environment_rounds_rejected",
    "C97_batch_rounds_accepted"
   ],
   "note": ""
  },
  {
   "property": "C98",
   "status": "proved",
   "theorems": [
    "C98_first_position",
    "C98_predict_proba_is_sampling_probability",
    "C98_nn_sampling_differs"
   ],
   "note": ""
  },
  {
   "property": "C99",
   "status": "proved",
   "theorems": [
    "C99_training_sets",
    "C99_reduction",
    "C99_better_classifiers",
    "C99_rejects",
    "C99_default_propensity"
   ],
   "note": ""
  },
  {
   "property": "C100",
   "status": "proved",
   "theorems": [
    "C100_loss_is_minus_estimate",
    "C100_output_space",
    "C100_no_gradient_outside"
   ],
   "note": ""
  },
  {
   "property": "C101",
   "status": "proved",
   "theorems": [
    "C101_recursion",
    "C101_predict",
    "C101_exact",
    "C101_fit_checks"
   ],
   "note": ""
  },
  {
   "property": "C102",
   "status": "proved",
   "theorems": [
    "C102_constructor",
    "C102_position_required",
    "C102_training_sets",
    "C102_single_fold",
    "C102_cross_fitted",
    "C102_fold_without_position",
    "C102_posterior_odds",
    "C102_certain",
    "C102_saturated",
    "C102_raw_stochastic_policy"
   ],
   "note": ""
  },
  {
   "property": "C103",
   "status": "proved",
   "theorems": [
    "C103_single_fold",
    "C103_cross_fitted",
    "C103_cross_fit_values"
   ],
   "note": ""
  },
  {
   "property": "C104",
   "status": "proved",
   "theorems": [
    "C104_mrdr_is_variance",
    "C104_not_for_stochastic_policies",
    "C104_iw_is_evaluation_policy_error"
   ],
   "note": ""
  },
  {
   "property": "C105",
   "status": "proved",
   "theorems": [
    "C105_relative",
    "C105_multi",
    "C105_continuous",
    "C105_slate",
    "C105_matrix",
    "C105_cube",
    "C105_no_array"
   ],
   "note": ""
  },
  {
   "property": "C106",
   "status": "proved",
   "theorems": [
    "C106_repeated_actions",
    "C106_identical_batches"
   ],
   "note": ""
  },
  {
   "property": "C107",
   "status": "proved",
   "theorems": [
    "C107_batch_rewards",
    "C107_sample_reward"
   ],
   "note": ""
  },
  {
   "property": "C108",
   "status": "proved",
   "theorems": [
    "C108_reward",
    "C108_rejects",
    "C108_z_score",
    "C108_constant_values",
    "C108_order",
    "C108_behaviour"
   ],
   "note": ""
  },
  {
   "property": "C109",
   "status": "proved",
   "theorems": [
    "C109_init",
    "C109_uniform",
    "C109_infinite_bounds",
    "C109_behaviour",
    "C109_no_rounds",
    "C109_default_reward",
    "C109_default_reward_infinite",
    "C109_ground_truth",
    "C109_on_policy",
    "C109_ground_truth_rejects"
   ],
   "note": ""
  },
  {
   "property": "C110",
   "status": "proved",
   "theorems": [
    "C110_shared_coefficients",
    "C110_deviation",
    "C110_linear_minimum",
    "C110_quadratic",
    "C110_linear_policy",
    "C110_threshold",
    "C110_sign_policy"
   ],
   "note": ""
  },
  {
   "property": "C111",
   "status": "proved",
   "theorems": [
    "C111_random",
    "C111_rejects"
   ],
   "note": ""
  },
  {
   "property": "C112",
   "status": "proved",
   "theorems": [
    "C112_action_dist",
    "C112_distribution",
    "C112_close",
    "C112_low_logits"
   ],
   "note": ""
  },
  {
   "property": "C113",
   "status": "proved",
   "theorems": [
    "C113_values",
    "C113_rejects",
    "C113_context_free",
    "C113_zero_tau"
   ],
   "note": ""
  },
  {
   "property": "C114",
   "status": "proved",
   "theorems": [
    "C114_logged_rewards",
    "C114_later_contexts_ignored",
    "C114_action_wraps",
    "C114_continuous_shared_noise"
   ],
   "note": ""
  },
  {
   "property": "C115",
   "status": "proved",
   "theorems": [
    "C115_click_law",
    "C115_mean_discounting"
   ],
   "note": ""
  },
  {
   "property": "C116",
   "status": "proved",
   "theorems": [
    "C116_ground_truth",
    "C116_true_value",
    "C116_context_free",
    "C116_rejects"
   ],
   "note": ""
  },
  {
   "property": "C117",
   "status": "proved",
   "theorems": [
    "C117_init"
   ],
   "note": ""
  },
  {
   "property": "C118",
   "status": "proved",
   "theorems": [
    "C118_on_policy",
    "C118_generated",
    "C118_rejects"
   ],
   "note": ""
  },
  {
   "property": "C119",
   "status": "proved",
   "theorems": [
    "C119_hoeffding_valid",
    "C119_negative_refuted",
    "C119_policy_value"
   ],
   "note": ""
  },
  {
   "property": "C120",
   "status": "proved",
   "theorems": [
    "C120_bernstein_valid",
    "C120_policy_value"
   ],
   "note": ""
  },
  {
   "property": "C121",
   "status": "proved",
   "theorems": [
    "C121_ipw_consistent",
    "C121_dr_consistent",
    "C121_snipw_consistent",
    "C121_limit"
   ],
   "note": ""
  },
  {
   "property": "C122",
   "status": "proved",
   "theorems": [
    "C122_estimators",
    "C122_bipw",
    "C122_kernel",
    "C122_bipw_kernel_errors"
   ],
   "note": ""
  },
  {
   "property": "C123",
   "status": "proved",
   "theorems": [
    "C123_tuned",
    "C123_tuned_floats"
   ],
   "note": ""
  },
  {
   "property": "C124",
   "status": "proved",
   "theorems": [
    "C124_learner",
    "C124_qfunc",
    "C124_continuous",
    "C124_errors",
    "C124_optimizer",
    "C124_optimizer_refuted"
   ],
   "note": ""
  },
  {
   "property": "C125",
   "status": "proved",
   "theorems": [
    "C125_unbiased_gradient"
   ],
   "note": ""
  },
  {
   "property": "C126",
   "status": "proved",
   "theorems": [
    "C126_policy",
    "C126_scores",
    "C126_log_linear",
    "C126_bounded_away",
    "C126_smooth"
   ],
   "note": ""
  },
  {
   "property": "C127",
   "status": "proved",
   "theorems": [
    "C127_schedule",
    "C127_lone_round",
    "C127_fit",
    "C127_default_pscore",
    "C127_rejects",
    "C127_unknown_action"
   ],
   "note": ""
  },
  {
   "property": "C128",
   "status": "proved",
   "theorems": [
    "C128_fit",
    "C128_fit_continuous",
    "C128_rejects_continuous",
    "C128_error",
    "C128_predict",
    "C128_predict_continuous"
   ],
   "note": ""
  },
  {
   "property": "C129",
   "status": "proved",
   "theorems": [
    "C129_constructor",
    "C129_batch",
    "C129_sample_reward",
    "C129_context_free",
    "C129_not_a_probability",
    "C129_single_round"
   ],
   "note": ""
  },
  {
   "property": "C130",
   "status": "proved",
   "theorems": [
    "C130_expected_total",
    "C130_best_possible"
   ],
   "note": ""
  },
  {
   "property": "C131",
   "status": "proved",
   "theorems": [
    "C131_oracle",
    "C131_tuned"
   ],
   "note": ""
  },
  {
   "property": "C132",
   "status": "proved",
   "theorems": [
    "C132_exact_bias",
    "C132_correct_model",
    "C132_bias_bound",
    "C132_large_threshold",
    "C132_shrinkage_rate",
    "C132_subgaussian_rate",
    "C132_pessimistic",
    "C132_subgaussian_not_pessimistic",
    "C132_reported_bias"
   ],
   "note": ""
  },
  {
   "property": "C133",
   "status": "proved",
   "theorems": [
    "C133_expected_score"
   ],
   "note": ""
  },
  {
   "property": "C134",
   "status": "proved",
   "theorems": [
    "C134_bound_valid",
    "C134_unrepresentative_refuted"
   ],
   "note": ""
  },
  {
   "property": "C135",
   "status": "proved",
   "theorems": [
    "C135_dr_mse"
   ],
   "note": ""
  },
  {
   "property": "C136",
   "status": "proved",
   "theorems": [
    "C136_mipw_mse"
   ],
   "note": ""
  },
  {
   "property": "C137",
   "status": "proved",
   "theorems": [
    "C137_balanced_mse"
   ],
   "note": ""
  },
  {
   "property": "C138",
   "status": "proved",
   "theorems": [
    "C138_expected",
    "C138_uniform",
    "C138_biased"
   ],
   "note": ""
  },
  {
   "property": "C139",
   "status": "proved",
   "theorems": [
    "C139_replay_is_online",
    "C139_given_matches"
   ],
   "note": ""
  },
  {
   "property": "C140",
   "status": "proved",
   "theorems": [
    "C140_cross_fitting_unbiased",
    "C140_in_sample_biased"
   ],
   "note": ""
  },
  {
   "property": "C141",
   "status": "proved",
   "theorems": [
    "C141_one_hyperparameter"
   ],
   "note": ""
  },
  {
   "property": "C142",
   "status": "proved",
   "theorems": [
    "C142_refuses_with_the_base",
    "C142_remembered_is_base"
   ],
   "note": ""
  },
  {
   "property": "C143",
   "status": "proved",
   "theorems": [
    "C143_no_guarantee"
   ],
   "note": ""
  },
  {
   "property": "C144",
   "status": "proved",
   "theorems": [
    "C144_learning_guarantee"
   ],
   "note": ""
  },
  {
   "property": "C145",
   "status": "proved",
   "theorems": [
    "C145_egreedy",
    "C145_bts",
    "C145_lin_ts",
    "C145_lin_epsilon",
    "C145_log_ts",
    "C145_log_epsilon",
    "C145_errors",
    "C145_bts_errors",
    "C145_bts_campaign"
   ],
   "note": ""
  },
  {
   "property": "C146",
   "status": "proved",
   "theorems": [
    "C146_regression",
    "C146_slate_regression",
    "C146_importance_weights",
    "C146_propensities",
    "C146_ipw_learner",
    "C146_q_learner",
    "C146_marginalized",
    "C146_marginalized_errors",
    "C146_errors"
   ],
   "note": ""
  },
  {
   "property": "C147",
   "status": "proved",
   "theorems": [
    "C147_synthetic",
    "C147_multi",
    "C147_continuous",
    "C147_embed",
    "C147_slate",
    "C147_multiclass",
    "C147_obd",
    "C147_environment",
    "C147_unknown_reward_type",
    "C147_errors"
   ],
   "note": ""
  },
  {
   "property": "C148",
   "status": "proved",
   "theorems": [
    "C148_weighting",
    "C148_model",
    "C148_balanced",
    "C148_multi_loggers",
    "C148_embeddings",
    "C148_continuous",
    "C148_slates",
    "C148_interval_arguments"
   ],
   "note": ""
  },
  {
   "property": "C149",
   "status": "proved",
   "theorems": [
    "C149_sampler",
    "C149_joint",
    "C149_end_to_end"
   ],
   "note": ""
  },
  {
   "property": "C150",
   "status": "proved",
   "theorems": [
    "C150_law",
    "C150_transfer",
    "C150_best_model"
   ],
   "note": ""
  },
  {
   "property": "C151",
   "status": "proved",
   "theorems": [
    "C151_dr_bias",
    "C151_ipw_bias",
    "C151_dm_bias",
    "C151_doubly_robust",
    "C151_product_bound",
    "C151_deficient_support",
    "C151_scaled_propensities"
   ],
   "note": ""
  },
  {
   "property": "C152",
   "status": "proved",
   "theorems": [
    "C152_select_law",
    "C152_position",
    "C152_total",
    "C152_pulls",
    "C152_random",
    "C152_linear",
    "C152_logistic"
   ],
   "note": ""
  },
  {
   "property": "C153",
   "status": "proved",
   "theorems": [
    "C153_features",
    "C153_dense",
    "C153_linear_is_affine",
    "C153_sparse",
    "C153_behaviour"
   ],
   "note": ""
  },
  {
   "property": "C154",
   "status": "proved",
   "theorems": [
    "C154_law",
    "C154_estimators",
    "C154_ground_truth"
   ],
   "note": ""
  },
  {
   "property": "C155",
   "status": "proved",
   "theorems": [
    "C155_draws",
    "C155_random_contexts",
    "C155_fixed_contexts"
   ],
   "note": ""
  },
  {
   "property": "C156",
   "status": "proved",
   "theorems": [
    "C156_bars",
    "C156_multi",
    "C156_continuous",
    "C156_logged_pscore",
    "C156_tuning",
    "C156_nan_rounds",
    "C156_panels",
    "C156_panels_names",
    "C156_slate",
    "C156_labels",
    "C156_unequal_columns"
   ],
   "note": ""
  },
  {
   "property": "C157",
   "status": "proved",
   "theorems": [
    "C157_draws",
    "C157_biased"
   ],
   "note": ""
  },
  {
   "property": "C158",
   "status": "proved",
   "theorems": [
    "C158_draws"
   ],
   "note": ""
  },
  {
   "property": "C159",
   "status": "proved",
   "theorems": [
    "C159_behaviour",
    "C159_uniform",
    "C159_interior",
    "C159_boundary"
   ],
   "note": ""
  },
  {
   "property": "C160",
   "status": "proved",
   "theorems": [
    "C160_shape",
    "C160_same_context",
    "C160_lossless",
    "C160_missing_is_smallest",
    "C160_indicators",
    "C160_which_entry",
    "C160_other_columns",
    "C160_affinity_ignored",
    "C160_order_free",
    "C160_item_ranks",
    "C160_items_told_apart",
    "C160_item_columns_required",
    "C160_item_column_missing",
    "C160_ids_unused"
   ],
   "note": ""
  },
  {
   "property": "C161",
   "status": "proved",
   "theorems": [
    "C161_widths_never_grow",
    "C161_width_at_repeated_context",
    "C161_actions_do_not_interfere"
   ],
   "note": ""
  },
  {
   "property": "C162",
   "status": "proved",
   "theorems": [
    "C162_prediction_error",
    "C162_linucb_optimism"
   ],
   "note": ""
  },
  {
   "property": "C163",
   "status": "proved",
   "theorems": [
    "C163_linucb_cumulative_regret",
    "C163_runs_exist"
   ],
   "note": ""
  },
  {
   "property": "C164",
   "status": "proved",
   "theorems": [
    "C164_simulated_distribution_unbiased",
    "C164_simulated_distribution_accuracy"
   ],
   "note": ""
  },
  {
   "property": "C165",
   "status": "proved",
   "theorems": [
    "C165_standard_consistent",
    "C165_independent_consistent",
    "C165_cascade_consistent"
   ],
   "note": ""
  },
  {
   "property": "C166",
   "status": "proved",
   "theorems": [
    "C166_row_variance_never_grows",
    "C166_single_position_mse",
    "C166_cascade_weights_can_hurt"
   ],
   "note": ""
  },
  {
   "property": "C167",
   "status": "proved",
   "theorems": [
    "C167_total_width",
    "C167_linucb_regret"
   ],
   "note": ""
  },
  {
   "property": "C168",
   "status": "proved",
   "theorems": [
    "C168_mean_squared_error",
    "C168_bandwidth"
   ],
   "note": ""
  },
  {
   "property": "C169",
   "status": "proved",
   "theorems": [
    "C169_standard_consistent",
    "C169_independent_consistent",
    "C169_cascade_consistent"
   ],
   "note": ""
  },
  {
   "property": "C170",
   "status": "proved",
   "theorems": [
    "C170_integer_value",
    "C170_stochastic_garbage",
    "C170_deterministic_gap",
    "C170_dtype_changes_value"
   ],
   "note": ""
  },
  {
   "property": "C171",
   "status": "proved",
   "theorems": [
    "C171_ipw_consistent",
    "C171_dr_consistent",
    "C171_weighted_ipw_consistent",
    "C171_weighted_dr_consistent"
   ],
   "note": ""
  },
  {
   "property": "C172",
   "status": "proved",
   "theorems": [
    "C172_sndr_consistent",
    "C172_replay_limit",
    "C172_replay_consistent",
    "C172_replay_inconsistent",
    "C172_modified_limit",
    "C172_modified_consistent"
   ],
   "note": ""
  },
  {
   "property": "C173",
   "status": "proved",
   "theorems": [
    "C173_mipw_consistent",
    "C173_snmipw_consistent"
   ],
   "note": ""
  },
  {
   "property": "C174",
   "status": "proved",
   "theorems": [
    "C174_cascade_dr_consistent"
   ],
   "note": ""
  },
  {
   "property": "C175",
   "status": "proved",
   "theorems": [
    "C175_balanced_limit",
    "C175_balanced_consistent"
   ],
   "note": ""
  },
  {
   "property": "C176",
   "status": "proved",
   "theorems": [
    "C176_ipw_exponential",
    "C176_dr_exponential",
    "C176_snipw_exponential",
    "C176_sample_size"
   ],
   "note": ""
  },
  {
   "property": "C177",
   "status": "proved",
   "theorems": [
    "C177_reward_model_fit",
    "C177_reward_model_fit_predict",
    "C177_weight_estimator_fit",
    "C177_weight_estimator_fit_predict",
    "C177_propensity_fit",
    "C177_propensity_fit_predict"
   ],
   "note": ""
  },
  {
   "property": "C178",
   "status": "proved",
   "theorems": [
    "C178_selection_by_ipw",
    "C178_selection_by_dr",
    "C178_selection_by_snipw"
   ],
   "note": ""
  },
  {
   "property": "C179",
   "status": "proved",
   "theorems": [
    "C179_standard_exponential",
    "C179_independent_exponential",
    "C179_cascade_exponential",
    "C179_sample_size"
   ],
   "note": ""
  },
  {
   "property": "C180",
   "status": "proved",
   "theorems": [
    "C180_mipw_exponential",
    "C180_sample_size"
   ],
   "note": ""
  }
 ]
}