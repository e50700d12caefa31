{
 "claims": [
  {
   "property": "C01",
   "status": "proved",
   "theorems": [
    "c01_tick_bars_partition",
    "c01_volume_bars_partition",
    "c01_dollar_bars_partition"
   ],
   "note": "tick, volume and dollar bars; imbalance and runs bars are C06 and C10"
  },
  {
   "property": "C02",
   "status": "proved",
   "theorems": [
    "c02_bar_bounds",
    "c02_bars_conserve",
    "c02_compute_bar_stats",
    "c02_bar_unique"
   ],
   "note": ""
  },
  {
   "property": "C03",
   "status": "proved",
   "theorems": [
    "c03_tick_bar_sizes",
    "c03_tick_bars_same_bar"
   ],
   "note": ""
  },
  {
   "property": "C04",
   "status": "proved",
   "theorems": [
    "c04_volume_bars_threshold",
    "c04_dollar_bars_threshold"
   ],
   "note": ""
  },
  {
   "property": "C05",
   "status": "partial",
   "theorems": [
    "c05_time_bars_refuted",
    "c05_time_bars_fail_iff_gap",
    "c05_time_bars_no_gap"
   ],
   "note": "REFUTED as stated: an interval without ticks makes the call raise. It raises exactly when there is such a gap, and holds without gaps."
  },
  {
   "property": "C06",
   "status": "proved",
   "theorems": [
    "c06_c07_imbalance_bars",
    "c06_imbalance_sizes",
    "c06_signed_flow",
    "c06_time_unit"
   ],
   "note": ""
  },
  {
   "property": "C07",
   "status": "proved",
   "theorems": [
    "c06_c07_imbalance_bars",
    "c07_imbalance_sizes"
   ],
   "note": ""
  },
  {
   "property": "C08",
   "status": "partial",
   "theorems": [
    "c08_max_bar_size_refuted",
    "c08_max_bar_size_overshoot"
   ],
   "note": "REFUTED as stated: a bar can exceed max_bar_size by its last tick. Under min <= max and single flows at most v < max every bar is below max + v."
  },
  {
   "property": "C09",
   "status": "proved",
   "theorems": [
    "c09_imbalance_bars_causal",
    "c09_runs_bars_causal"
   ],
   "note": ""
  },
  {
   "property": "C10",
   "status": "proved",
   "theorems": [
    "c10_runs_bars",
    "c10_buy_shares_are_proportions",
    "c06_signed_flow"
   ],
   "note": ""
  },
  {
   "property": "C11",
   "status": "partial",
   "theorems": [
    "c11_runs_bars_refuted",
    "c11_runs_error_exactly",
    "c11_runs_bars_two_sided"
   ],
   "note": "REFUTED as stated: one-sided streams raise IndexError. It raises exactly when the first bar closes before both sides have traded (c11_runs_error_exactly)."
  },
  {
   "property": "C12",
   "status": "proved",
   "theorems": [
    "c12_resample_is_aggregation",
    "c12_resample_time_to_volume"
   ],
   "note": ""
  },
  {
   "property": "C13",
   "status": "proved",
   "theorems": [
    "c13_ewma_adjusted_is_weighted_mean",
    "c13_ewma_unadjusted_closed_form",
    "c13_ewma_bounded_by_prefix",
    "c13_ewma_causal"
   ],
   "note": ""
  },
  {
   "property": "C14",
   "status": "proved",
   "theorems": [
    "c14_tick_rule_last_move",
    "c14_tick_rule_values",
    "c14_tick_rule_causal"
   ],
   "note": ""
  },
  {
   "property": "C15",
   "status": "proved",
   "theorems": [
    "c15_etf_accounts_for_holdings",
    "c15_rebalance_spends_the_value",
    "c15_volume_is_largest_fill"
   ],
   "note": ""
  },
  {
   "property": "C16",
   "status": "proved",
   "theorems": [
    "c16_weights_scale",
    "c16_units_do_not_matter"
   ],
   "note": ""
  },
  {
   "property": "C17",
   "status": "proved",
   "theorems": [
    "c17_rolled_series_gap_free",
    "c17_adjusted_close_pnl",
    "c17_forward_starts_raw"
   ],
   "note": ""
  },
  {
   "property": "C18",
   "status": "partial",
   "theorems": [
    "c18_match_end_refuted",
    "c18_match_end_last_price"
   ],
   "note": "REFUTED as stated: the gap of the second-to-last bar is subtracted, so a roll on the last bar leaves the last price off by that roll gap. Proved: off by exactly that gap, raw otherwise."
  },
  {
   "property": "C19",
   "status": "partial",
   "theorems": [
    "c19_rolled_price_refuted",
    "c19_rolled_price_nonneg"
   ],
   "note": "REFUTED as stated: a roll bar that falls by more than the previous close makes the price negative. Proved non-negative when no roll bar does."
  },
  {
   "property": "C20",
   "status": "partial",
   "theorems": [
    "c20_contract_change_refuted",
    "c20_contract_change_without_return"
   ],
   "note": "REFUTED as stated: a contract that comes back is not a roll; holds for schedules without return."
  },
  {
   "property": "C21",
   "status": "proved",
   "theorems": [
    "c21_purging_exact"
   ],
   "note": ""
  },
  {
   "property": "C22",
   "status": "proved",
   "theorems": [
    "c22_embargo_exact",
    "c22_no_start_in_embargo",
    "c22_embargo_monotone",
    "c22_unknown_bar"
   ],
   "note": ""
  },
  {
   "property": "C23",
   "status": "proved",
   "theorems": [
    "c23_folds_partition"
   ],
   "note": ""
  },
  {
   "property": "C24",
   "status": "proved",
   "theorems": [
    "c24_kfold_no_leak"
   ],
   "note": ""
  },
  {
   "property": "C25",
   "status": "partial",
   "theorems": [
    "c25_kfold_refuted",
    "c25_kfold_keeps_all_but_one"
   ],
   "note": "REFUTED as stated: the first event after the test period is dropped. Exact characterisation without embargo proved."
  },
  {
   "property": "C26",
   "status": "proved",
   "theorems": [
    "c26_cv_score_rows",
    "c26_cv_score_total",
    "c26_mda_rows",
    "c26_shuffle_one_column",
    "c26_mda_ignored_feature"
   ],
   "note": ""
  },
  {
   "property": "C27",
   "status": "partial",
   "theorems": [
    "c27_cv_defaults_refuted",
    "c26_cv_score_total",
    "c27_single_feature_custom_splitter"
   ],
   "note": "REFUTED as stated: the default embargo_pct=None raises TypeError, single feature importance raises with both splitters of the library. Holds with an explicit embargo (c26_cv_score_total) and with self-contained splitters."
  },
  {
   "property": "C28",
   "status": "proved",
   "theorems": [
    "c28_groups_partition",
    "c28_group_rows",
    "c28_split_total",
    "c28_splits"
   ],
   "note": "exact arithmetic for the group boundaries; float64 is C31"
  },
  {
   "property": "C29",
   "status": "proved",
   "theorems": [
    "c29_backtest_paths"
   ],
   "note": ""
  },
  {
   "property": "C30",
   "status": "partial",
   "theorems": [
    "c30_paths_refuted",
    "c30_paths_repeat"
   ],
   "note": "REFUTED as stated: the split indices accumulate. Proved: m runs repeat the paths m times."
  },
  {
   "property": "C31",
   "status": "partial",
   "theorems": [
    "c31_float_groups_refuted",
    "c31_float_groups_cover_all_but_last",
    "c31_float_groups_divisible"
   ],
   "note": "REFUTED as stated: 61 events in 7 groups lose the last event. Proved in binary64: at most the last event is lost, and none when the number of groups divides the number of events."
  },
  {
   "property": "C32",
   "status": "proved",
   "theorems": [
    "c32_pbo_combinations",
    "c32_train_rows",
    "c32_pbo_records",
    "c32_pbo_total"
   ],
   "note": ""
  },
  {
   "property": "C33",
   "status": "proved",
   "theorems": [
    "c33_logit_sign"
   ],
   "note": "up to 1999 strategies"
  },
  {
   "property": "C34",
   "status": "partial",
   "theorems": [
    "c34_bet_timings_refuted",
    "c34_bet_timings_under_guard",
    "c34_bet_timings_exact"
   ],
   "note": "REFUTED as stated: the first bar is reported when its position is 0 although nothing was closed. Exact otherwise."
  },
  {
   "property": "C35",
   "status": "proved",
   "theorems": [
    "c35_holding_period",
    "c35_flat_at_end",
    "c35_scale_invariant",
    "c35_none_iff",
    "c35_days"
   ],
   "note": ""
  },
  {
   "property": "C36",
   "status": "proved",
   "theorems": [
    "c36_time_weighted_return",
    "c36_no_rows",
    "c36_cash_flows_irrelevant",
    "c36_every_table"
   ],
   "note": "balances after cash flows must not be zero"
  },
  {
   "property": "C37",
   "status": "proved",
   "theorems": [
    "c37_concentration_under_guard",
    "c37_too_few",
    "c37_zero_gains_refuted",
    "c37_scale_order"
   ],
   "note": ""
  },
  {
   "property": "C38",
   "status": "proved",
   "theorems": [
    "c38_drawdowns",
    "c38_max_drawdown",
    "c38_fractions"
   ],
   "note": ""
  },
  {
   "property": "C39",
   "status": "partial",
   "theorems": [
    "c39_time_under_water_refuted",
    "c39_never_understated",
    "c39_time_under_water_under_guard",
    "c39_complete"
   ],
   "note": "REFUTED as stated: highs without a loss before the next high are skipped, so the reported time runs to a later high. Never understated; exact when each high is followed by a loss."
  },
  {
   "property": "C40",
   "status": "proved",
   "theorems": [
    "c40_sharpe_defined",
    "c40_value",
    "c40_scale",
    "c40_negation",
    "c40_annualized",
    "c40_information_ratio",
    "c40_axis"
   ],
   "note": ""
  },
  {
   "property": "C41",
   "status": "partial",
   "theorems": [
    "c41_psr_refuted",
    "c41_psr_under_guard",
    "c41_sufficient",
    "c41_raw_kurtosis",
    "c41_range",
    "c41_value",
    "c41_no_sharpe"
   ],
   "note": "REFUTED as stated: for the returns 1, 3 the radicand is negative (the code uses the excess kurtosis in the formula for the raw one). Proved under a positive radicand, with a sufficient condition; with the raw kurtosis the radicand is never negative."
  },
  {
   "property": "C42",
   "status": "partial",
   "theorems": [
    "c42_axis0_refuted",
    "c42_axis0_under_guard",
    "c42_axis0_overconfident",
    "c42_axis1",
    "c42_axis0_value"
   ],
   "note": "REFUTED as stated: axis=0 is falsy, so rows*columns is used as the number of observations. Holds for axis=1 and for one column; the error always overstates the confidence."
  },
  {
   "property": "C43",
   "status": "proved",
   "theorems": [
    "c43_required_precision",
    "c43_precision_unique",
    "c43_precision_monotone",
    "c43_required_freq",
    "c43_sharpe_value",
    "c43_sharpe_undefined"
   ],
   "note": ""
  },
  {
   "property": "C44",
   "status": "proved",
   "theorems": [
    "c44_word_pmf_is_frequencies",
    "c44_plugin_entropy_value",
    "c44_plugin_entropy_bounds",
    "c44_plugin_entropy_zero_iff_one_word"
   ],
   "note": ""
  },
  {
   "property": "C45",
   "status": "proved",
   "theorems": [
    "c45_lempelziv_is_lz78",
    "c45_lempelziv_dictionary"
   ],
   "note": ""
  },
  {
   "property": "C46",
   "status": "proved",
   "theorems": [
    "c46_longest_match_is_longest",
    "c46_points_in_range",
    "c46_konto_defined",
    "c46_points",
    "c46_konto_value"
   ],
   "note": ""
  },
  {
   "property": "C47",
   "status": "partial",
   "theorems": [
    "c47_binary_encode",
    "c47_quantile_fit",
    "c47_quantile_encode",
    "c47_one_quantile_refuted",
    "c47_sigma_encode"
   ],
   "note": "REFUTED in one corner: with n_quantiles=1 the only boundary is the training minimum, so training values themselves get the unknown code. Proved for n_quantiles >= 2, and everything else for all inputs (sigma > 0)."
  },
  {
   "property": "C48",
   "status": "proved",
   "theorems": [
    "c48_cusum_events",
    "c48_cusum_causal",
    "c48_cusum_symmetric",
    "c48_gap_restarts"
   ],
   "note": "for threshold >= 0; the restart at missing values is a further theorem"
  },
  {
   "property": "C49",
   "status": "proved",
   "theorems": [
    "c49_mmi_is_fraction",
    "c49_mmi_bounds",
    "c49_mmi_affine_invariant",
    "c49_hull_formula",
    "c49_hull_length",
    "c49_hull_causal",
    "c49_hull_linear",
    "c49_hull_constant",
    "c49_hull_lag"
   ],
   "note": "Hull average for n >= 2 on complete series"
  },
  {
   "property": "C50",
   "status": "proved",
   "theorems": [
    "c50_composition",
    "c50_order0_identity",
    "c50_order1_first_difference",
    "c50_inverse"
   ],
   "note": "for threshold 1 (the default) and complete columns"
  },
  {
   "property": "C51",
   "status": "proved",
   "theorems": [
    "c51_expanding_skips_exactly",
    "c51_threshold_range",
    "c51_loss_decreases"
   ],
   "note": ""
  },
  {
   "property": "C52",
   "status": "proved",
   "theorems": [
    "c52_fixed_weights",
    "c52_fixed_values",
    "c52_truncation_error"
   ],
   "note": "for thresholds <= 1 the omitted weights are below the threshold for every order, not only 0<=d<=1"
  },
  {
   "property": "C53",
   "status": "proved",
   "theorems": [
    "c53_first_touch",
    "c53_event_returns",
    "c53_end_in_life"
   ],
   "note": "ps has distinct labels, known start price, a side and a target; touch = strict crossing; tie -> stop loss"
  },
  {
   "property": "C54",
   "status": "partial",
   "theorems": [
    "c54_refuted",
    "c54_return_sign",
    "c54_documented_short_raises"
   ],
   "note": "REFUTED as stated: an expired short is recorded with the price return (opposite sign). Holds for longs and for touched barriers. The documented short encoding 0 raises AssertionError."
  },
  {
   "property": "C55",
   "status": "partial",
   "theorems": [
    "c55_refuted",
    "c55_filtered_event_raises",
    "c55_unfiltered_processed"
   ],
   "note": "REFUTED as stated: a filtered event re-appears through the outer join and the whole call raises ValueError. Without filtered events every event is processed."
  },
  {
   "property": "C56",
   "status": "partial",
   "theorems": [
    "c56_labels",
    "c56_label_causal",
    "c56_prices_are_bars",
    "c56_lookahead_refuted",
    "c56_cancel_corners"
   ],
   "note": "Label values and causality proved; REFUTED corner: an expiry (or start) between bars takes the prices of the next bar, i.e. from after the recorded end; cancel_expired also cancels a touch on the expiry bar and misses events without expiry."
  },
  {
   "property": "C57",
   "status": "partial",
   "theorems": [
    "c57_refuted",
    "c57_return_formula",
    "c57_under_guard",
    "c57_window_rows",
    "c57_unaligned_gap_raises",
    "c57_no_window_raises",
    "c57_no_bars_raises"
   ],
   "note": "REFUTED as stated: the first bar close-to-close change is added. Exact formula proved, and the claim under the guard that this change is zero or missing."
  },
  {
   "property": "C58",
   "status": "proved",
   "theorems": [
    "c58_drop_rare_labels",
    "c58_vocabulary",
    "c58_enough_classes"
   ],
   "note": "any tie-breaking order of value_counts"
  },
  {
   "property": "C59",
   "status": "proved",
   "theorems": [
    "c59_counts",
    "c59_empty_raises"
   ],
   "note": "events sorted by start for the no-event-outside part; unsorted events miss bars (example); empty inputs raise"
  },
  {
   "property": "C60",
   "status": "proved",
   "theorems": [
    "c60_avg_uniqueness",
    "c60_matrix_agrees"
   ],
   "note": "for events with known ends; an event without bars has NaN uniqueness"
  },
  {
   "property": "C61",
   "status": "proved",
   "theorems": [
    "c61_sequential_bootstrap",
    "c61_empty_event_raises"
   ],
   "note": "random choice is an arbitrary function returning a valid position; an event without bars makes the draw raise"
  },
  {
   "property": "C62",
   "status": "proved",
   "theorems": [
    "c62_weights_normalised",
    "c62_attributions_add_up",
    "c62_attribution_value",
    "c62_weight_value",
    "c62_lone_event"
   ],
   "note": "normalisation needs a non-zero total attribution"
  },
  {
   "property": "C63",
   "status": "proved",
   "theorems": [
    "c63_time_decay",
    "c63_oldest_weight_refuted",
    "c63_minus_one_raises"
   ],
   "note": "for -1 < oldest_weight <= 1; the oldest event does not get oldest_weight exactly (c63_oldest_weight_refuted)"
  },
  {
   "property": "C64",
   "status": "proved",
   "theorems": [
    "c64_vertical_barriers"
   ],
   "note": "sorted events; unsorted events are misaligned (c64_unsorted_misaligned)"
  },
  {
   "property": "C65",
   "status": "proved",
   "theorems": [
    "c65_quasi_diagonalize",
    "c65_order_unique",
    "c65_empty_linkage"
   ],
   "note": "for every linkage matrix in which each cluster is merged exactly once after it was made"
  },
  {
   "property": "C66",
   "status": "proved",
   "theorems": [
    "c66_hrp_portfolio",
    "c66_recursive_allocation",
    "c66_inverse_variance",
    "c66_cluster_variance",
    "c66_split_minimises_variance"
   ],
   "note": "for positive-definite covariance; also the loop equals the recursive allocation"
  },
  {
   "property": "C67",
   "status": "partial",
   "theorems": [
    "c67_quantile_budget_refuted",
    "c67_budgeted_bounded",
    "c67_budgeted_value",
    "c67_mixture_size",
    "c67_mixture_bounded",
    "c67_probabilities_bounded",
    "c67_bet_direction",
    "c67_budgeted_sizes",
    "c67_mixture_sizes",
    "c67_signal_value",
    "c67_discretize_value",
    "c67_no_counts"
   ],
   "note": "Holds for mixture sizes, probability sizes and budgets with max. REFUTED for other budget functions such as a quantile."
  },
  {
   "property": "C68",
   "status": "partial",
   "theorems": [
    "c68_refuted",
    "c68_under_guard",
    "c68_times",
    "c68_value",
    "c68_time_set"
   ],
   "note": "REFUTED as stated: a finished bet sharing its start with a running one is still averaged. Holds when starts are distinct."
  },
  {
   "property": "C69",
   "status": "partial",
   "theorems": [
    "c69_one_sided_refuted",
    "c69_two_sided_bars"
   ],
   "note": "REFUTED as stated: any one-sided book raises IndexError. Books with both sides are sized on every bar."
  },
  {
   "property": "C70",
   "status": "proved",
   "theorems": [
    "c70_calibration",
    "c70_sigmoid_bounds",
    "c70_inverse_price",
    "c70_price_of_size",
    "c70_size_bounds",
    "c70_size_value"
   ],
   "note": "for w>0"
  },
  {
   "property": "C71",
   "status": "partial",
   "theorems": [
    "c71_sell_refuted",
    "c71_short_refuted",
    "c71_cover_refuted",
    "c71_buy_limit_price",
    "c71_buy_between_marginals",
    "c71_no_trade_raises",
    "c71_target_max_raises",
    "c71_buy_value"
   ],
   "note": "REFUTED as stated: for sells the result is 0 (or the negated price), for shorts it has the wrong sign or is 0; no trade and target=max raise ZeroDivisionError. Holds for buys from a non-negative position."
  },
  {
   "property": "C72",
   "status": "proved",
   "theorems": [
    "c72_value",
    "c72_put_call_parity",
    "c72_bounds",
    "c72_monotone_spot",
    "c72_monotone_strike",
    "c72_monotone_volatility",
    "c72_both_dividends_refused"
   ],
   "note": "cdf: any function with the normal density as derivative, symmetric, positive, vanishing at minus infinity"
  },
  {
   "property": "C73",
   "status": "proved",
   "theorems": [
    "c73_probability",
    "c73_european_is_binomial_expectation",
    "c73_binomial_total",
    "c73_put_call_parity",
    "c73_american_dominates",
    "c73_american_call_is_european",
    "c73_upper_bounds",
    "c73_parity_needs_sound_tree",
    "c73_control_variates",
    "c73_no_steps_raises",
    "c73_american_is_best_exercise",
    "c73_european_never_exercises"
   ],
   "note": "probability in [0,1] characterised by the parameters; parity shown to fail outside"
  },
  {
   "property": "C74",
   "status": "proved",
   "theorems": [
    "c74_parity_quotes_recover_rate",
    "c74_recovers_bsm_rate",
    "c74_forward_rate",
    "c74_forward_rate_unique",
    "c74_no_common_strike",
    "c74_median",
    "c74_rates"
   ],
   "note": "the guard for no common strike is dead code: the result is then NaN with an empty series"
  },
  {
   "property": "C75",
   "status": "proved",
   "theorems": [
    "c75_default_counts",
    "c75_total",
    "c75_nonnegative",
    "c75_mean_and_variance",
    "c75_order_irrelevant",
    "c75_systematic",
    "c75_no_firms_raises",
    "c75_systematic_firms"
   ],
   "note": ""
  },
  {
   "property": "C76",
   "status": "proved",
   "theorems": [
    "c76_loop_converged",
    "c76_loop_gives_up",
    "c76_fit_converges_or_raises",
    "c76_asset_values_explain_equity",
    "c76_no_iterations_raises",
    "c76_fit_values",
    "c76_firm_data"
   ],
   "note": "for every root finder; the loop theorem for every step function; c76_asset_values_explain_equity and c76_fit_values for one that returns exact roots, the error for that of scipy is in C150"
  },
  {
   "property": "C77",
   "status": "proved",
   "theorems": [
    "c77_rows",
    "c77_integer_lags",
    "c77_causal"
   ],
   "note": ""
  },
  {
   "property": "C78",
   "status": "proved",
   "theorems": [
    "c78_supremum",
    "c78_all_nan",
    "c78_series",
    "c78_series_causal",
    "c78_series_windows"
   ],
   "note": "for every window statistic; NaN statistics are skipped, minus infinity only if every window statistic is NaN"
  },
  {
   "property": "C79",
   "status": "partial",
   "theorems": [
    "c79_lag_list_refuted",
    "c79_never_accepted",
    "c79_first_lag_lost_refuted"
   ],
   "note": "REFUTED as stated: a lag list always raises TypeError in sadf_stat, and in _get_yx the first listed lag is overwritten by the level."
  },
  {
   "property": "C80",
   "status": "proved",
   "theorems": [
    "c80_statistic",
    "c80_causal",
    "c80_affine_invariant",
    "c80_pvalue_range",
    "c80_short_series",
    "c80_reference_outside_raises"
   ],
   "note": ""
  },
  {
   "property": "C81",
   "status": "proved",
   "theorems": [
    "c81_roll_nonnegative",
    "c81_roll_value",
    "c81_roll_too_few",
    "c81_roll_affine",
    "c81_corwin_schultz_range"
   ],
   "note": ""
  },
  {
   "property": "C82",
   "status": "partial",
   "theorems": [
    "c82_volume_bars_refuted",
    "c82_under_guard",
    "c82_volume_bar_bound"
   ],
   "note": "REFUTED as stated: three ticks of volume 3 in bars of volume 5 give 6/5. Holds when no bar exceeds volume_per_bar; for the library volume bars the excess is at most one tick over the bar volume."
  },
  {
   "property": "C83",
   "status": "partial",
   "theorems": [
    "c83_refuted",
    "c83_fill_index_value",
    "c83_under_guard",
    "c83_order"
   ],
   "note": "REFUTED as stated: with fill_val<>0 present values are shifted by fill_val and missing ones become 0. Holds for fill_val 0 when the index covers the series; exact value proved in general."
  },
  {
   "property": "C84",
   "status": "proved",
   "theorems": [
    "c84_value",
    "c84_normalised",
    "c84_std",
    "c84_no_trees",
    "c84_wrong_names",
    "c84_unused_forest"
   ],
   "note": ""
  },
  {
   "property": "C85",
   "status": "proved",
   "theorems": [
    "c85_pca_risk",
    "c85_default_is_smallest"
   ],
   "note": "eigh is external: its documented contract (orthonormal eigenvectors) is a hypothesis"
  },
  {
   "property": "C86",
   "status": "proved",
   "theorems": [
    "c86_benchmark_nonneg",
    "c86_deflation_lowers",
    "c86_value"
   ],
   "note": ""
  },
  {
   "property": "C87",
   "status": "proved",
   "theorems": [
    "c87_probability_of_failure",
    "c87_value"
   ],
   "note": ""
  },
  {
   "property": "C88",
   "status": "partial",
   "theorems": [
    "c88_token_lists_refuted",
    "c88_single_character_tokens",
    "c88_fixed_width_tokens_injective"
   ],
   "note": "REFUTED as stated: tokens are concatenated, so [1, 11] and [11, 1] are the same message. Holds when all tokens have the same width."
  },
  {
   "property": "C89",
   "status": "partial",
   "theorems": [
    "c89_refuted",
    "c89_intraday_pairs",
    "c89_daily_pairs"
   ],
   "note": "REFUTED for daily data: after a gap the bar is paired with itself (return 0) and the first pair is dropped. Intraday pairing proved; exact daily pairing characterised."
  },
  {
   "property": "C90",
   "status": "proved",
   "theorems": [
    "c90_gbm_path",
    "c90_gbm_positive",
    "c90_gbm_can_go_negative"
   ],
   "note": ""
  },
  {
   "property": "C91",
   "status": "partial",
   "theorems": [
    "c91_seeded_refuted",
    "c91_ou_path",
    "c91_half_life"
   ],
   "note": "REFUTED for an integer random_state: every step draws the same shock and the path tends to a shifted level. Otherwise proved."
  },
  {
   "property": "C92",
   "status": "partial",
   "theorems": [
    "c92_seed_zero_refuted",
    "c92_mixture_sizes",
    "c92_seeded_reproducible"
   ],
   "note": "REFUTED for seed 0, which is ignored. Composition proved for every seed; reproducibility for non-zero seeds."
  },
  {
   "property": "C93",
   "status": "proved",
   "theorems": [
    "c93_corr_distance_metric",
    "c93_closer_when_more_correlated"
   ],
   "note": "correlations of real series are inner products of unit vectors"
  },
  {
   "property": "C94",
   "status": "proved",
   "theorems": [
    "c94_recovers_volatility",
    "c94_outside_bracket_raises",
    "c94_arbitrage_price_raises"
   ],
   "note": "for every root finder meeting the contract of brentq (tolerance, RuntimeError when out of iterations); c149_contract: that of scipy does"
  },
  {
   "property": "C95",
   "status": "proved",
   "theorems": [
    "c95_asset_price_unique"
   ],
   "note": "for a root finder that returns exact roots; what the secant method of scipy returns instead is C150"
  },
  {
   "property": "C96",
   "status": "proved",
   "theorems": [
    "c96_pdf_nonnegative",
    "c96_pdf_complete",
    "c96_sampling_distribution",
    "c96_breeden_litzenberger",
    "c96_return_distribution"
   ],
   "note": "splines by argument: the second derivative is a parameter; the whole pipeline is C118-C121"
  },
  {
   "property": "C97",
   "status": "partial",
   "theorems": [
    "c97_equity_value_negative_refuted",
    "c97_equity_value_under_guard",
    "c97_equity_value_increasing",
    "c97_asset_value_unique",
    "c97_no_drift_is_bsm",
    "c97_value"
   ],
   "note": "REFUTED as stated: for every debt, rate, volatility and maturity a large enough alpha makes the equity value negative at some asset value. Holds when alpha*T + beta*x <= 0."
  },
  {
   "property": "C98",
   "status": "proved",
   "theorems": [
    "c98_least_squares",
    "c98_recovers_parameters",
    "c98_constant_market_raises",
    "c98_sigma_nonnegative",
    "c98_unusable_series"
   ],
   "note": ""
  },
  {
   "property": "C99",
   "status": "partial",
   "theorems": [
    "c99_annualised_return_refuted",
    "c99_one_year",
    "c99_default_event",
    "c99_is_probability",
    "c99_monotone"
   ],
   "note": "REFUTED for the units: an annualised market return is used as the return over the maturity (agrees only for one year). The rest holds."
  },
  {
   "property": "C100",
   "status": "partial",
   "theorems": [
    "c100_null_variance_refuted",
    "c100_last_observation"
   ],
   "note": "REFUTED as stated: the standard deviation of the last observation is used throughout, so every earlier p-value of a non-zero statistic is too large. Correct at the last observation."
  },
  {
   "property": "C101",
   "status": "proved",
   "theorems": [
    "c101_normal_equations",
    "c101_least_squares",
    "c101_exact_recovery",
    "c101_variance"
   ],
   "note": "np.linalg.inv by contract"
  },
  {
   "property": "C102",
   "status": "partial",
   "theorems": [
    "c102_min_sample_refuted",
    "c102_window_sizes"
   ],
   "note": "REFUTED as stated: with n>0 lags the smallest window has min_sample_len - n samples. That bound holds."
  },
  {
   "property": "C103",
   "status": "partial",
   "theorems": [
    "c103_noise_variance_negative_refuted",
    "c103_decomposition",
    "c103_no_spread"
   ],
   "note": "REFUTED as stated: prices 0,1,0,1,0 give -5/3. The decomposition holds, and without spread the variance is non-negative."
  },
  {
   "property": "C104",
   "status": "proved",
   "theorems": [
    "c104_rows",
    "c104_window",
    "c104_scale_invariant",
    "c104_pure_spread_exact",
    "c104_volatility_nonnegative",
    "c104_value"
   ],
   "note": ""
  },
  {
   "property": "C105",
   "status": "proved",
   "theorems": [
    "c105_value",
    "c105_nonnegative",
    "c105_scale_invariant",
    "c105_constant_range"
   ],
   "note": ""
  },
  {
   "property": "C106",
   "status": "proved",
   "theorems": [
    "c106_least_squares",
    "c106_exact_recovery",
    "c106_constant_regressor",
    "c106_kyle_rows",
    "c106_kyle_exact",
    "c106_kyle_constant_signed_volume",
    "c106_amihud_rows",
    "c106_amihud_equal_dollar_volume",
    "c106_hasbrouck_rows",
    "c106_no_rows"
   ],
   "note": ""
  },
  {
   "property": "C107",
   "status": "partial",
   "theorems": [
    "c107_cancellation_refuted",
    "c107_net_volumes",
    "c107_value",
    "c107_at_most_documented",
    "c107_same_side"
   ],
   "note": "REFUTED for n>1: the absolute value is taken after summing, so opposite imbalances cancel. Never above the documented value; equal for n=1 or imbalances on one side."
  },
  {
   "property": "C108",
   "status": "partial",
   "theorems": [
    "c108_statistic_refuted",
    "c108_weighted_refuted",
    "c108_no_weighted_pvalue",
    "c108_not_probability"
   ],
   "note": "REFUTED as stated: both rank correlation wrappers return the statistic (element 0), -1 for every reversed ranking and 1 for perfect agreement; scipy has no p-value for the weighted tau (c108_no_weighted_pvalue). The Jarque-Bera wrapper returns the p-value (C155)."
  },
  {
   "property": "C109",
   "status": "partial",
   "theorems": [
    "c109_infinite_refuted",
    "c109_under_guard",
    "c109_no_damage",
    "c109_sign"
   ],
   "note": "REFUTED as stated: with accuracy scoring one fold with a perfect permuted score and an imperfect original score gives minus infinity. Holds when no permuted score is perfect."
  },
  {
   "property": "C110",
   "status": "proved",
   "theorems": [
    "c110_rows",
    "c110_defined",
    "c110_no_substitution",
    "c110_mean_bounds",
    "c110_std",
    "c110_equal_scores"
   ],
   "note": ""
  },
  {
   "property": "C111",
   "status": "proved",
   "theorems": [
    "c111_corr_range",
    "c111_autocorr_range",
    "c111_autocorr_defined",
    "c111_autocorr_affine",
    "c111_lag_zero",
    "c111_trend",
    "c111_durbin_watson_range",
    "c111_durbin_watson_autocorr",
    "c111_durbin_watson_scale",
    "c111_corr_value",
    "c111_autocorr_value"
   ],
   "note": ""
  },
  {
   "property": "C112",
   "status": "proved",
   "theorems": [
    "c112_rows",
    "c112_corr_range",
    "c112_order_zero"
   ],
   "note": ""
  },
  {
   "property": "C113",
   "status": "proved",
   "theorems": [
    "c113_rows",
    "c113_dates_increase"
   ],
   "note": ""
  },
  {
   "property": "C114",
   "status": "proved",
   "theorems": [
    "c114_through_points",
    "c114_invalid"
   ],
   "note": "CubicSpline by contract, which scipy's meets: c151_is_spline"
  },
  {
   "property": "C115",
   "status": "proved",
   "theorems": [
    "c115_simulated_failure"
   ],
   "note": ""
  },
  {
   "property": "C116",
   "status": "partial",
   "theorems": [
    "c116_sample_size_refuted",
    "c116_standard_error_refuted"
   ],
   "note": "REFUTED as stated: the scale passed to the normal cdf is p(1-p), so repeating the same data does not change the result; it agrees with the standard error only if p(1-p)n = 1 or the threshold is the observed precision."
  },
  {
   "property": "C117",
   "status": "partial",
   "theorems": [
    "c117_dominant_refuted",
    "c117_pbo_value",
    "c117_pbo_is_probability",
    "c117_pbo_records",
    "c117_median",
    "c117_raises_iff"
   ],
   "note": "REFUTED for the dominating strategy: equal ranks in every combination make the kernel density estimate raise (LinAlgError). The rest is proved; it raises exactly when all ranks are equal."
  },
  {
   "property": "C118",
   "status": "partial",
   "theorems": [
    "c118_mass_refuted",
    "c118_densities",
    "c118_cdf_value"
   ],
   "note": "REFUTED as stated: the cdf stays below 1 by the mass the estimate puts on negative prices. The density and the cdf are given in closed form."
  },
  {
   "property": "C119",
   "status": "proved",
   "theorems": [
    "c119_discrete_pdf",
    "c119_no_quotes",
    "c119_sampling",
    "c119_smoothed",
    "c119_no_mass",
    "c119_rate",
    "c119_exceptions"
   ],
   "note": "gaussian_filter1d, CubicSpline, brentq and np.random.choice are arguments; C149, C151 and C153 are about those of scipy"
  },
  {
   "property": "C120",
   "status": "proved",
   "theorems": [
    "c120_points",
    "c120_reproduces_quotes",
    "c120_flat_smile",
    "c120_root_error"
   ],
   "note": "spline and root finder by contract (exact root; c149_quotes gives the error for that of scipy; passes through its points, constant for equal ordinates: c151_through_points, c151_keeps_constants)"
  },
  {
   "property": "C121",
   "status": "partial",
   "theorems": [
    "c121_range_share_refuted",
    "c121_quoted_refuted"
   ],
   "note": "REFUTED: for a flat density the probability of the calls range is the calls share of the quotes, whatever the widths of the ranges; c121_quoted_refuted has quotes for which this happens."
  },
  {
   "property": "C122",
   "status": "proved",
   "theorems": [
    "c122_value",
    "c122_span_error",
    "c122_second",
    "c122_zero_iff",
    "c122_affine",
    "c122_causal"
   ],
   "note": "pandas ewm(adjust=True, bias=False) recursion over exact rationals; the std is its real square root. Returns with zero previous price are not meant."
  },
  {
   "property": "C123",
   "status": "partial",
   "theorems": [
    "c123_labels_refuted"
   ],
   "note": "REFUTED: the returns are rebuilt from arrays, so labels are 0, 1, ...: always different from the position of the bar."
  },
  {
   "property": "C124",
   "status": "proved",
   "theorems": [
    "c124_imbalance_trace",
    "c124_empty",
    "c124_runs_trace"
   ],
   "note": ""
  },
  {
   "property": "C125",
   "status": "proved",
   "theorems": [
    "c125_bars",
    "c125_rolled",
    "c125_encoders",
    "c125_lags",
    "c125_holding",
    "c125_folds",
    "c125_backtests",
    "c125_triple_barrier",
    "c125_barrier_event",
    "c125_missing_target"
   ],
   "note": ""
  },
  {
   "property": "C126",
   "status": "proved",
   "theorems": [
    "c126_vwap_bounds",
    "c126_vwap_whole",
    "c126_left_sum",
    "c126_vwap_refuted"
   ],
   "note": "binary64 with round to nearest even (Flocq). c126_vwap_refuted: without the error term the claim is false (3 at 0.1)."
  },
  {
   "property": "C127",
   "status": "proved",
   "theorems": [
    "c127_volume_ids",
    "c127_dollar_ids",
    "c127_whole",
    "c127_exact_refuted"
   ],
   "note": "binary64; numpy.floor_divide modelled operation by operation. c127_exact_refuted: ten volumes of 0.1 do not fill a bar of 1.0."
  },
  {
   "property": "C128",
   "status": "proved",
   "theorems": [
    "c128_tick_rule"
   ],
   "note": "binary64"
  },
  {
   "property": "C129",
   "status": "proved",
   "theorems": [
    "c129_split",
    "c129_weights"
   ],
   "note": "binary64; the cluster variances are an argument, since np.dot adds in an order of its own"
  },
  {
   "property": "C130",
   "status": "proved",
   "theorems": [
    "c130_return",
    "c130_label"
   ],
   "note": "binary64"
  },
  {
   "property": "C131",
   "status": "proved",
   "theorems": [
    "c131_touch",
    "c131_exact_refuted"
   ],
   "note": "binary64. c131_exact_refuted: without the band the decisions differ (1.1 to 1.364, limit 0.24)."
  },
  {
   "property": "C132",
   "status": "proved",
   "theorems": [
    "c132_drawdown"
   ],
   "note": "binary64"
  },
  {
   "property": "C133",
   "status": "proved",
   "theorems": [
    "c133_uniqueness"
   ],
   "note": "binary64"
  },
  {
   "property": "C134",
   "status": "partial",
   "theorems": [
    "c134_hhi_refuted",
    "c134_hhi_error"
   ],
   "note": "REFUTED as stated: five equal returns of 0.01 have concentration -6.9e-17. It is within 50 n 2^-53 of the exact value, in every order of additions."
  },
  {
   "property": "C135",
   "status": "proved",
   "theorems": [
    "c135_ewma_any_power",
    "c135_ewma",
    "c135_ewma_exact",
    "c135_decay",
    "c135_power",
    "c135_constant_refuted"
   ],
   "note": "binary64; Numba raises to integer powers by square and multiply, other power functions through c135_ewma_any_power. c135_constant_refuted: the average of ones with span 5 exceeds 1."
  },
  {
   "property": "C136",
   "status": "proved",
   "theorems": [
    "c136_weights",
    "c136_whole_orders",
    "c136_order_one",
    "c136_order_zero",
    "c136_fixed_window",
    "c136_small_orders"
   ],
   "note": "binary64. Orders below 2^-54 give weight 0 at every later lag."
  },
  {
   "property": "C137",
   "status": "proved",
   "theorems": [
    "c137_exact",
    "c137_exact_within_double",
    "c137_exact_whole",
    "c137_error",
    "c137_exact_refuted"
   ],
   "note": "binary64. c137_exact_refuted: without representable differences an event can be missed."
  },
  {
   "property": "C138",
   "status": "proved",
   "theorems": [
    "c138_first_close",
    "c138_same_bars",
    "c138_same_bars_whole",
    "c138_tick_bars",
    "c138_exact_refuted",
    "c138_flows"
   ],
   "note": "binary64. The arrays returned for debugging are left out of the float model. c138_exact_refuted: a threshold of 5 rounds up to 5 + 2^-50, so a bar of constant flow takes a sixth tick."
  },
  {
   "property": "C139",
   "status": "proved",
   "theorems": [
    "c139_first_close",
    "c139_same_bars",
    "c139_same_bars_whole",
    "c139_tick_bars",
    "c139_exact_refuted",
    "c139_rows"
   ],
   "note": "binary64. The arrays returned for debugging are left out of the float model. c139_exact_refuted: fourteen whole prices with default arguments whose third bar closes one tick later than in exact arithmetic."
  },
  {
   "property": "C140",
   "status": "proved",
   "theorems": [
    "c140_linkage_valid",
    "c140_single_linkage",
    "c140_heights_sorted",
    "c140_order_keeps_groups"
   ],
   "note": "The distances are an argument; scipy computes the same minimum spanning tree rows in float64."
  },
  {
   "property": "C141",
   "status": "proved",
   "theorems": [
    "c141_hrp_from_returns",
    "c141_raises",
    "c141_units"
   ],
   "note": "exact arithmetic"
  },
  {
   "property": "C142",
   "status": "partial",
   "theorems": [
    "c142_most_correlated_refuted",
    "c142_first_merge",
    "c142_closest_pair_first",
    "c142_correlation"
   ],
   "note": "REFUTED as stated: among four assets the most correlated pair (1/2) is not merged first, a pair with correlation 0.471 is. The pair merged first is the one with the closest rows of the distance matrix (c142_first_merge)."
  },
  {
   "property": "C143",
   "status": "proved",
   "theorems": [
    "c143_events_processed",
    "c143_weights_and_folds",
    "c143_causal"
   ],
   "note": "The composition itself is in PipelineModel.v; the library leaves it to the caller."
  },
  {
   "property": "C144",
   "status": "partial",
   "theorems": [
    "c144_future_decides_refuted",
    "c144_labelled_by_its_own_bar"
   ],
   "note": "REFUTED as stated: outcomes are counted from the open of the bar whose close is the signal, high and low of that bar included, so a bar that moves by more than the barrier labels its own event whatever follows (c144_labelled_by_its_own_bar); in the witness every later price is lower and the label is 1."
  },
  {
   "property": "C145",
   "status": "proved",
   "theorems": [
    "c145_inverse",
    "c145_raises",
    "c145_short_raises",
    "c145_statistic",
    "c145_least_squares_exists",
    "c145_square"
   ],
   "note": "exact arithmetic; LinAlgError is ValueError in the model"
  },
  {
   "property": "C146",
   "status": "proved",
   "theorems": [
    "c146_raises",
    "c146_short_sample_raises",
    "c146_constant_raises",
    "c146_scale",
    "c146_shift",
    "c146_level_refuted"
   ],
   "note": "exact arithmetic, integer lags. Without a constant term the level matters: c146_level_refuted."
  },
  {
   "property": "C147",
   "status": "proved",
   "theorems": [
    "c147_residual",
    "c147_statistics",
    "c147_sum_of_squares",
    "c147_affine",
    "c147_invariant",
    "c147_constant"
   ],
   "note": "The recursion of statsmodels is written as one regression per row; the start-up for dependent first rows is not modelled."
  },
  {
   "property": "C148",
   "status": "partial",
   "theorems": [
    "c148_causal_refuted",
    "c148_residual_causal",
    "c148_rescaled"
   ],
   "note": "REFUTED as stated: the running sum is causal (c148_residual_causal) but is divided by the standard deviation of the residuals of the whole sample, so that later rows rescale all earlier statistics (c148_rescaled); in the witness the first statistic is sqrt 2 or sqrt 2 / 2 depending on the row after it."
  },
  {
   "property": "C149",
   "status": "proved",
   "theorems": [
    "c149_brentq",
    "c149_contract",
    "c149_implied_volatility",
    "c149_vega",
    "c149_repriced",
    "c149_quotes"
   ],
   "note": "scipy/optimize/Zeros/brentq.c step by step, in real arithmetic"
  },
  {
   "property": "C150",
   "status": "proved",
   "theorems": [
    "c150_start",
    "c150_from_above",
    "c150_small",
    "c150_asset_price",
    "c150_exact_refuted",
    "c150_equity_moves",
    "c150_firm_value",
    "c150_fit",
    "c150_predict",
    "c150_no_drift"
   ],
   "note": "secant method of scipy.optimize.newton step by step, in real arithmetic. c150_exact_refuted: it does not return the price that explains the observation."
  },
  {
   "property": "C151",
   "status": "proved",
   "theorems": [
    "c151_raises",
    "c151_through_points",
    "c151_smooth",
    "c151_unique",
    "c151_polynomials",
    "c151_keeps_constants",
    "c151_linear",
    "c151_curvature_between",
    "c151_is_spline",
    "c151_yield_curve",
    "c151_between_refuted"
   ],
   "note": "The slopes solve the tridiagonal system of scipy, by the elimination of C145 in real arithmetic. c151_between_refuted: interpolated yields need not lie between the quoted ones."
  },
  {
   "property": "C152",
   "status": "partial",
   "theorems": [
    "c152_convex_refuted",
    "c152_between",
    "c152_complete",
    "c152_raises",
    "c152_two_quotes"
   ],
   "note": "REFUTED as stated: four convex, falling call prices whose density at the highest strike is negative and is dropped (c152_convex_refuted). What holds: the density is linear between the quoted strikes (c152_between), so nothing is dropped if the spline is convex at the quotes (c152_complete); two quotes have no density and raise (c152_two_quotes)."
  },
  {
   "property": "C153",
   "status": "proved",
   "theorems": [
    "c153_value",
    "c153_raises",
    "c153_total",
    "c153_bounds",
    "c153_linear",
    "c153_densities",
    "c153_sampling"
   ],
   "note": "scipy.ndimage.gaussian_filter1d with its defaults (reflect, truncate 4), in real arithmetic"
  },
  {
   "property": "C154",
   "status": "proved",
   "theorems": [
    "c154_undefined",
    "c154_value",
    "c154_extremes",
    "c154_symmetric",
    "c154_monotone",
    "c154_weighted_undefined",
    "c154_weighted_value",
    "c154_weighted_extremes",
    "c154_weighted_symmetric",
    "c154_weighted_monotone"
   ],
   "note": "Totals over pairs are sums over all pairs of positions; scipy finds them by sorting. Samples without NaN."
  },
  {
   "property": "C155",
   "status": "proved",
   "theorems": [
    "c155_undefined",
    "c155_pvalue",
    "c155_affine"
   ],
   "note": "statsmodels' statistic; chi2.sf with two degrees of freedom as exp(-x/2)"
  },
  {
   "property": "C156",
   "status": "partial",
   "theorems": [
    "c156_default_labels_refuted",
    "c156_splits_leak_refuted",
    "c156_default_labels_raises",
    "c156_own_labels",
    "c156_own_labels_refuted"
   ],
   "note": "REFUTED as stated: pandas aligns a Series by label when it is given a new index. With default labels and less than one bar of embargo nothing is purged, not even the test events (c156_default_labels_refuted, c156_splits_leak_refuted); with more it raises KeyError. Labelled by its own times the Series works without embargo (c156_own_labels), but with one the test intervals are not extended, or not purged at all if they end in the first bars (c156_own_labels_refuted)."
  },
  {
   "property": "C157",
   "status": "partial",
   "theorems": [
    "c157_default_axis_refuted",
    "c157_value",
    "c157_same_axis",
    "c157_exact",
    "c157_one_trial"
   ],
   "note": "REFUTED as stated: rows times columns count as observations (C42), so trials with similar Sharpe ratios are raised instead of lowered (c157_default_axis_refuted: two identical trials). The claim holds for a trial exactly if the benchmark makes up for it (c157_exact), and always against the ratio of the same call without deflation (c157_same_axis). A single trial gives NaN (c157_one_trial)."
  },
  {
   "property": "C158",
   "status": "partial",
   "theorems": [
    "c158_default_labels_refuted",
    "c158_own_labels"
   ],
   "note": "REFUTED as stated: with default labels the last bar is looked up under the label -1 and both raise KeyError (c158_default_labels_refuted). For a Series labelled by its own times it holds (c158_own_labels)."
  },
  {
   "property": "C159",
   "status": "partial",
   "theorems": [
    "c159_step_refuted",
    "c159_fit_refuted",
    "c159_yearly_data"
   ],
   "note": "REFUTED as stated: the riskless rate of an interval is subtracted from the annualised expected return, so unless the interval is a year the asset returns of every iteration are not those of the documented model (c159_step_refuted, c159_fit_refuted). Holds for yearly data (c159_yearly_data)."
  },
  {
   "property": "C160",
   "status": "partial",
   "theorems": [
    "c160_alone",
    "c160_together",
    "c160_together_refuted",
    "c160_seed_lost"
   ],
   "note": "REFUTED as stated: the first step of a path seeds the global random state, so paths consumed together share the draws of the last one started (c160_together, c160_together_refuted, c160_seed_lost). A path consumed on its own is reproduced (c160_alone)."
  },
  {
   "property": "C161",
   "status": "partial",
   "theorems": [
    "c161_labels_refuted",
    "c161_equal_columns",
    "c161_common_order",
    "c161_weights_and_opens_any_order",
    "c161_opens_refuted"
   ],
   "note": "REFUTED as stated: closes, exchange rates, volumes and dividends are combined by position somewhere, so listing one of them in another order changes the basket silently, and so do weights in another order if the frames are not sorted by label (c161_labels_refuted). It holds if all frames list the instruments in one order, whichever (c161_equal_columns, c161_common_order), and for the order of the weights and open prices if the other frames are in ascending order of the labels (c161_weights_and_opens_any_order)."
  },
  {
   "property": "C162",
   "status": "proved",
   "theorems": [
    "c162_raises",
    "c162_row",
    "c162_critical",
    "c162_test_units",
    "c162_row_units",
    "c162_scan_units",
    "c162_below_supremum"
   ],
   "note": "statsmodels' adfuller; its OLS is any fit that reports the smallest sum of squared residuals, the rank and the t-value (ols_contract; ols_ref_contract shows one). A constant series, which newer versions of adfuller refuse, has dependent regressors and is excluded."
  },
  {
   "property": "C163",
   "status": "proved",
   "theorems": [
    "c163_pvalue",
    "c163_pvalue_raises",
    "c163_p_formula",
    "c163_max_lags",
    "c163_raises",
    "c163_lags",
    "c163_value",
    "c163_units",
    "c163_p_range",
    "c163_p_increasing"
   ],
   "note": "As C162; MacKinnon's polynomials as in statsmodels 0.13.5. The general form (a given maxlag) is covered as well: it raises for fewer than 2 maxlag + 4 observations."
  },
  {
   "property": "C164",
   "status": "proved",
   "theorems": [
    "c164_converges",
    "c164_american_call",
    "c164_control_variate",
    "c164_american_above",
    "c164_settles"
   ],
   "note": "In exact real arithmetic; the proof is elementary (Taylor estimates of the Black-Scholes put, no central limit theorem)."
  },
  {
   "property": "C165",
   "status": "proved",
   "theorems": [
    "c165_sizes",
    "c165_times",
    "c165_any_step_bounded",
    "c165_discretize",
    "c165_discretize_monotone",
    "c165_discretize_odd",
    "c165_discretize_idempotent",
    "c165_average",
    "c165_bet",
    "c165_statistic",
    "c165_budgeted",
    "c165_tie_refuted",
    "c165_multiple_refuted",
    "c165_average_refuted",
    "c165_active"
   ],
   "note": "norm.cdf is any function to [0,1] that is NaN for NaN only. Discretising is not exact decimal arithmetic: c165_tie_refuted, c165_multiple_refuted and c165_average_refuted show a tie decided by rounding, 0.3 in steps of 0.1 becoming 0.30000000000000004, and a mean of equal bets above them."
  },
  {
   "property": "C166",
   "status": "partial",
   "theorems": [
    "c166_calibration_refuted",
    "c166_size",
    "c166_sigmoid",
    "c166_correct_rounding"
   ],
   "note": "REFUTED as stated: calibrated for 15/16 at a divergence of 11, the size of at most 16 units at that divergence is 14, not 15, although all inputs are exact (c166_calibration_refuted). The size is never beyond the maximum, of the right sign, at most one unit from the exact one, and equal to it unless the exact product is within 10 roundings of a whole number (c166_size). The powers are any functions within 0.6 units in the last place (c166_correct_rounding: correct rounding is one)."
  },
  {
   "property": "C167",
   "status": "partial",
   "theorems": [
    "c167_unit",
    "c167_buy",
    "c167_raises",
    "c167_above_forecast_refuted"
   ],
   "note": "REFUTED as stated: buying 3 of 4 units at a forecast of 0.1 with a tiny coefficient gives a limit price of 0.10000000000000002, above the forecast (c167_above_forecast_refuted). Every single marginal price is at most the forecast (c167_unit), the limit price is within 12 max 2^-53 (|forecast| + sqrt(w max)) of the exact one (c167_buy), and it raises as in exact arithmetic (c167_raises). The powers are any functions within 0.6 units in the last place."
  },
  {
   "property": "C168",
   "status": "proved",
   "theorems": [
    "c168_raises",
    "c168_value",
    "c168_order"
   ],
   "note": "The routine swilk is an argument."
  },
  {
   "property": "C169",
   "status": "partial",
   "theorems": [
    "c169_mmi",
    "c169_raises",
    "c169_mmi_refuted"
   ],
   "note": "REFUTED as stated: of the neighbouring numbers 1 + 2^-52 and 1 the median rounds to 1, and the fall to 1 is not counted (c169_mmi_refuted). It holds whenever the two middle values are equal or have a float between them, in particular for every odd number of values (c169_mmi); it raises for fewer than two values (c169_raises)."
  },
  {
   "property": "C170",
   "status": "partial",
   "theorems": [
    "c170_timings",
    "c170_timings_refuted"
   ],
   "note": "REFUTED as stated: a flip from 2^-600 to -2^-600 is missed, because the product underflows (c170_timings_refuted). It holds if every position is zero or between 2^-500 and 2^500 in magnitude (c170_timings)."
  },
  {
   "property": "C171",
   "status": "partial",
   "theorems": [
    "c171_constant",
    "c171_constant_refuted"
   ],
   "note": "REFUTED as stated: three returns of 0.1 have a mean above 0.1, a standard deviation that is not zero, and a finite ratio above 10^15 (c171_constant_refuted). It holds, for every order of additions, if the returns are M 2^e with |M| times their number below 2^53 (c171_constant)."
  },
  {
   "property": "C172",
   "status": "proved",
   "theorems": [
    "c172_decay",
    "c172_raises"
   ],
   "note": "Rounding of the cumulated sum, slope and constant included; the sort is exact."
  },
  {
   "property": "C173",
   "status": "proved",
   "theorems": [
    "c173_rare"
   ],
   "note": "pandas' value_counts(normalize=True) divides the count by the number of labelled rows, as modelled."
  },
  {
   "property": "C174",
   "status": "proved",
   "theorems": [
    "c174_probs",
    "c174_accepted"
   ],
   "note": "The draw itself is an argument of the model."
  },
  {
   "property": "C175",
   "status": "proved",
   "theorems": [
    "c175_normalized"
   ],
   "note": "The attributed returns themselves (sums of log returns over concurrency) are inputs here; in exact arithmetic they are covered elsewhere."
  },
  {
   "property": "C176",
   "status": "partial",
   "theorems": [
    "c176_count",
    "c176_folds",
    "c176_purging",
    "c176_folds_refuted",
    "c176_no_bars"
   ],
   "note": "REFUTED as stated: of 100 events an embargo of 0.29 discards 28, and the 29th is trained on (c176_folds_refuted). It holds unless n p/d is whole and p/d is not a float (c176_folds, c176_purging), and then the embargo is at most one observation short (c176_count)."
  },
  {
   "property": "C177",
   "status": "partial",
   "theorems": [
    "c177_mixture",
    "c177_mixture_refuted"
   ],
   "note": "REFUTED as stated: 28 of 100 draws are from the first component for a probability of 0.29 (c177_mixture_refuted). The total is always right, and the first sample at most one short, and only if n p/d is whole and p/d not a float (c177_mixture)."
  },
  {
   "property": "C178",
   "status": "partial",
   "theorems": [
    "c178_distance",
    "c178_entries",
    "c178_self",
    "c178_self_refuted",
    "c178_symmetric_refuted"
   ],
   "note": "REFUTED as stated: an asset of variance 2 is 2^-27 away from itself (c178_self_refuted), and for variances 2 and 5 and a covariance of 3 the matrix is not symmetric (c178_symmetric_refuted). Entries are between 0 and 1 (c178_entries); the distance is zero exactly for a correlation of 1, decreasing in the correlation and within three roundings of the exact one (c178_distance); an asset is at most 2^-25 away from itself, and at distance 0 if its variance is the square of a float (c178_self). numpy's corrcoef is modelled entry by entry: two divisions and a clip."
  },
  {
   "property": "C179",
   "status": "proved",
   "theorems": [
    "c179_unchanged",
    "c179_return",
    "c179_total_loss",
    "c179_left_product"
   ],
   "note": "In c179_total_loss the other periods halve or double the portfolio at most."
  },
  {
   "property": "C180",
   "status": "partial",
   "theorems": [
    "c180_unit_rows",
    "c180_unit_average",
    "c180_weights",
    "c180_none",
    "c180_scale_refuted",
    "c180_tiny_refuted",
    "c180_no_rows"
   ],
   "note": "REFUTED as stated: the unit of the positions matters, two hours held with three units are less than with one (c180_scale_refuted); and positions of 2^-600, below the range of the claim, are not seen to end (c180_tiny_refuted). The rest is proved."
  },
  {
   "property": "C181",
   "status": "partial",
   "theorems": [
    "c181_ticks",
    "c181_first",
    "c181_last",
    "c181_gap_refuted"
   ],
   "note": "REFUTED as stated for prices that are not ticks of a power of two: with a close of 0.1 and the next open of 0.4 the rolled series falls at the roll (c181_gap_refuted). The rest is proved. The column of non-negative prices is C184."
  },
  {
   "property": "C182",
   "status": "proved",
   "theorems": [
    "c182_common",
    "c182_same_rows",
    "c182_disjoint",
    "c182_position_refuted"
   ],
   "note": "Arrays are matched by position instead: the same numbers can give another ratio (c182_position_refuted)."
  },
  {
   "property": "C183",
   "status": "partial",
   "theorems": [
    "c183_vpin",
    "c183_fraction",
    "c183_group_sum",
    "c183_rolling_sum",
    "c183_balanced_refuted"
   ],
   "note": "REFUTED as stated for fractional volumes: a purchase and a sale of a tenth leave a VPIN above 0 after two other bars (c183_balanced_refuted). Proved for whole volumes, with the sums of pandas as arguments that are exact on whole numbers; its compensated sums are (c183_group_sum, c183_rolling_sum)."
  },
  {
   "property": "C184",
   "status": "partial",
   "theorems": [
    "c184_nonneg",
    "c184_close",
    "c184_negative_refuted",
    "c184_positive_refuted",
    "c184_no_bars"
   ],
   "note": "REFUTED as stated: a new contract that falls by more than the previous close makes it negative, as in exact arithmetic (c184_negative_refuted), and 22 contracts that fall from 2^50 ticks to one take it to zero (c184_positive_refuted). Never below zero without such a fall (c184_nonneg); the accuracy is proved (c184_close)."
  },
  {
   "property": "C185",
   "status": "partial",
   "theorems": [
    "c185_resample",
    "c185_bounds",
    "c185_direct",
    "c185_same_refuted"
   ],
   "note": "REFUTED as stated in the last part: with whole prices and volumes the VWAP of two bars can be larger in the last digit than that of their four ticks (c185_same_refuted). The rest is proved."
  }
 ]
}