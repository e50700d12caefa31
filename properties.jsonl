{"id": "C01", "title": "Bars partition the tick stream", "statement": "aggregate_tick_bars, aggregate_volume_bars and aggregate_dollar_bars put every input tick in exactly one bar, keep ticks in order inside and across bars (volumes and prices non-negative), create no empty bar, and stamp each bar with the time of its first tick.", "quantifier": "every tick series, every positive bar frequency", "why_tests_cant": "A lost or duplicated tick only shows at particular alignments of the stream with the bar boundary; the input space is unbounded.", "anchors": ["financial_ml/data_structures/bars.py: _group_ticks_to_bars", "financial_ml/data_structures/bars.py: aggregate_tick_bars", "financial_ml/data_structures/bars.py: aggregate_volume_bars", "financial_ml/data_structures/bars.py: aggregate_dollar_bars"]}
{"id": "C02", "title": "Bar statistics are the OHLCV of the bar's ticks", "statement": "For every bar: open/close are the first/last tick price, low <= open,close,every tick <= high, high and low are attained, volume is the sum of tick volumes; with non-negative volumes and positive total, low <= VWAP <= high; bar volumes add up to the total tick volume and sum of VWAP*volume to the total dollar value.", "quantifier": "every tick series and bar grouping", "why_tests_cant": "Inequalities and conservation laws over all price/volume sequences.", "anchors": ["financial_ml/data_structures/bars.py: _compute_bar_stats", "financial_ml/data_structures/bars.py: _compute_vwap"]}
{"id": "C03", "title": "Tick bars hold exactly freq ticks", "statement": "With an integer frequency f >= 1 every bar from aggregate_tick_bars except the last holds exactly f ticks, the last holds between 1 and f, and there are ceil(n/f) bars.", "quantifier": "every tick series length n and every f >= 1", "why_tests_cant": "Off-by-one at the boundary appears only for particular n mod f.", "anchors": ["financial_ml/data_structures/bars.py: aggregate_tick_bars"]}
{"id": "C04", "title": "Volume and dollar bars sample one threshold crossing", "statement": "Two ticks share a volume (dollar) bar iff no multiple of freq lies between their cumulative volumes (dollars); if no tick exceeds v, every complete bar's volume is within v of freq.", "quantifier": "every tick series with non-negative volumes, every freq > 0", "why_tests_cant": "Depends on where cumulative sums fall relative to multiples of freq for unbounded streams.", "anchors": ["financial_ml/data_structures/bars.py: aggregate_volume_bars", "financial_ml/data_structures/bars.py: aggregate_dollar_bars"]}
{"id": "C05", "title": "Time bars cover the sampled period", "statement": "aggregate_time_bars returns a bar for each clock interval that contains ticks, whatever gaps the stream has.", "quantifier": "every sorted tick series and interval width", "why_tests_cant": "Fails only when some interval between first and last tick is empty; tests use dense streams.", "anchors": ["financial_ml/data_structures/bars.py: aggregate_time_bars"]}
{"id": "C06", "title": "Imbalance bars partition the ticks", "statement": "aggregate_imblance_bars assigns every tick to exactly one bar; bars are contiguous, non-empty, cover the stream to its last tick; the reported bar sizes are the bars' tick counts and add up to the number of ticks.", "quantifier": "every non-empty tick series, every bar unit and every parameter setting", "why_tests_cant": "The stopping rule depends on the entire history through moving averages; the loop has unbounded length.", "anchors": ["financial_ml/data_structures/bars.py: _compute_imbalance_bar_sizes", "financial_ml/data_structures/bars.py: _compute_tick_bar_id", "financial_ml/data_structures/bars.py: aggregate_imblance_bars"]}
{"id": "C07", "title": "Imbalance bars close at the first trigger", "statement": "A non-final imbalance bar ends at the first tick (after the first tick of the series) at which its accumulated size reached min_bar_size and either |theta| reached the threshold in force, or the size reached max_bar_size, or one of these had happened earlier in the bar while it was still below min_bar_size; consequently every non-final bar has size >= min_bar_size and, when min<=max, size < max_bar_size before its last tick.", "quantifier": "every tick series and parameters", "why_tests_cant": "A stopping-time property over all histories.", "anchors": ["financial_ml/data_structures/bars.py: _compute_imbalance_bar_sizes"]}
{"id": "C08", "title": "max_bar_size bounds the size of imbalance bars", "statement": "No imbalance bar is larger than max_bar_size.", "quantifier": "every tick series and parameters", "why_tests_cant": "Tests only use tick-count bars, where the bound is met exactly.", "anchors": ["financial_ml/data_structures/bars.py: aggregate_imblance_bars"]}
{"id": "C09", "title": "Information-driven bars do not look ahead", "statement": "Given explicit initial expectations, the completed bars computed on a prefix of the tick stream are the completed bars of the full stream that end inside the prefix: appending ticks never changes earlier bars.", "quantifier": "every tick stream, every prefix, every parameter setting", "why_tests_cant": "Causality quantifies over all futures of a stream.", "anchors": ["financial_ml/data_structures/bars.py: _compute_imbalance_bar_sizes", "financial_ml/data_structures/bars.py: _compute_runs_bar_sizes"]}
{"id": "C10", "title": "Runs bars partition the ticks", "statement": "aggregate_runs_bars assigns every tick to exactly one contiguous non-empty bar, sizes add up to the number of ticks, and buy/sell runs proportions lie in [0,1].", "quantifier": "every non-empty tick series and parameter setting", "why_tests_cant": "History-dependent stopping rule over unbounded streams.", "anchors": ["financial_ml/data_structures/bars.py: _compute_runs_bar_sizes", "financial_ml/data_structures/bars.py: aggregate_runs_bars"]}
{"id": "C11", "title": "Runs bars accept every valid tick stream", "statement": "aggregate_runs_bars returns bars for every non-empty tick series with positive prices.", "quantifier": "every non-empty tick series", "why_tests_cant": "Fails only when the first bar closes before one trade side was seen; tests use mixed streams.", "anchors": ["financial_ml/data_structures/bars.py: _compute_runs_bar_sizes"]}
{"id": "C12", "title": "Resampling bars equals aggregating ticks", "statement": "Grouping bars into coarser volume bars gives the same open, high, low, close, volume and VWAP as aggregating the underlying ticks of the group directly.", "quantifier": "every list of groups of ticks", "why_tests_cant": "An algebraic homomorphism law over all nested groupings.", "anchors": ["financial_ml/data_structures/bars.py: _resample_bar_stats", "financial_ml/data_structures/bars.py: _resample_vwap", "financial_ml/data_structures/bars.py: resample_time_to_volume_bars"]}
{"id": "C13", "title": "fast_ewma is the exponentially weighted mean", "statement": "fast_ewma(x, span, adjust=True)[i] equals sum_j (1-a)^j x[i-j] / sum_j (1-a)^j with a=2/(span+1), adjust=False follows y_i=(1-a)y_{i-1}+a x_i; the output has the input's length, stays between min and max of the prefix, and only depends on the prefix.", "quantifier": "every non-empty series and every span >= 1", "why_tests_cant": "Recursion equals closed form for all lengths: needs induction.", "anchors": ["financial_ml/utils/time_series.py: fast_ewma"]}
{"id": "C14", "title": "Tick rule", "statement": "tick_rule assigns to trade i the sign of the last non-zero price change up to i, or the given initial value if there was none; all outputs are +1, -1 or the initial value.", "quantifier": "every price series and initial value", "why_tests_cant": "Depends on arbitrarily long runs of unchanged prices.", "anchors": ["financial_ml/features/microstructure.py: tick_rule"]}
{"id": "C15", "title": "ETF trick accounts for holdings", "statement": "basket_to_etf starts at 1, changes by the P&L of the current holdings (close-to-close, or open-to-close on the first bar after a rebalance, plus dividends, times FX), keeps holdings fixed between rebalances and at each rebalance spends exactly the current value at next open prices.", "quantifier": "every price/weight/dividend/FX history and rebalance schedule", "why_tests_cant": "Accounting identity over all histories.", "anchors": ["financial_ml/data_structures/basket.py: basket_to_etf"]}
{"id": "C16", "title": "ETF trick ignores units", "statement": "Scaling the weights by a positive constant, or re-denominating one instrument's prices and dividends, leaves the basket value unchanged.", "quantifier": "every history, every positive scale factor", "why_tests_cant": "Metamorphic law over all inputs.", "anchors": ["financial_ml/data_structures/basket.py: basket_to_etf"]}
{"id": "C17", "title": "Rolled futures series are gap free", "statement": "Adjusted prices differ between consecutive bars by the raw price change inside a contract and by close-open of the new contract on a roll bar, independently of match_end; with match_end=False the first adjusted price is the raw one.", "quantifier": "every price history and every roll schedule in which a contract that was left is not held again (otherwise see C20)", "why_tests_cant": "Cumulative adjustment over unbounded number of rolls.", "anchors": ["financial_ml/data_structures/basket.py: _compute_roll_gaps", "financial_ml/data_structures/basket.py: adjust_rolled_series"]}
{"id": "C18", "title": "match_end keeps the last price raw", "statement": "With match_end=True the adjusted series ends at the raw last price, for every roll schedule.", "quantifier": "every price history and roll schedule", "why_tests_cant": "Fails only if a roll falls on the last bar; tests roll earlier.", "anchors": ["financial_ml/data_structures/basket.py: _compute_roll_gaps"]}
{"id": "C19", "title": "Rolled price is non-negative", "statement": "With non_negative=True the returned rolled price stays non-negative when raw prices are positive.", "quantifier": "every positive price history and roll schedule", "why_tests_cant": "Needs a large intrabar loss at a roll; a corner no test builds.", "anchors": ["financial_ml/data_structures/basket.py: adjust_rolled_series"]}
{"id": "C20", "title": "Every contract change is a roll", "statement": "Every bar whose contract differs from the previous bar's is treated as a roll.", "quantifier": "every contract sequence", "why_tests_cant": "Fails only when a contract name recurs.", "anchors": ["financial_ml/data_structures/basket.py: _compute_roll_gaps"]}
{"id": "C21", "title": "Purging removes exactly the overlapping events", "statement": "apply_purging_and_embargo without bar times returns, in order, exactly the indices of events whose closed interval meets no test interval.", "quantifier": "every list of events and of test intervals", "why_tests_cant": "Interval overlap has many boundary cases and any number of intervals.", "anchors": ["financial_ml/evaluation/cross_validation.py: _get_purged_train_indices", "financial_ml/evaluation/cross_validation.py: apply_purging_and_embargo"]}
{"id": "C22", "title": "Embargo extends test intervals by the stated number of bars", "statement": "With bar times, an event is kept iff it is disjoint from every test interval extended to the bar int(n*pct) bars later (or the last bar); so no kept event starts during a test interval or its embargo window, and a larger embargo never adds training events.", "quantifier": "every bar calendar, event list, test list whose end times are bars, and pct in [0,1]", "why_tests_cant": "Clamping at the end of the calendar and shifts by rounding interact for all sizes.", "anchors": ["financial_ml/evaluation/cross_validation.py: _get_embargo_times", "financial_ml/evaluation/cross_validation.py: apply_purging_and_embargo"]}
{"id": "C23", "title": "PurgedKFold test folds partition the data", "statement": "The test folds of PurgedKFold are contiguous, disjoint, in order, cover all observations and differ in size by at most one.", "quantifier": "every number of observations n and 1 <= n_splits <= n", "why_tests_cant": "Remainder handling for all n, k.", "anchors": ["financial_ml/evaluation/cross_validation.py: PurgedKFold.split"]}
{"id": "C24", "title": "PurgedKFold never leaks", "statement": "In every split every training event ends before the first test event starts or starts after every test event has ended, and at least int(n*pct) observations are skipped after the test labels end; training indices are strictly increasing and disjoint from the test fold.", "quantifier": "every event list sorted by start with end >= start, every n_splits, every embargo fraction", "why_tests_cant": "Leak depends on arbitrary overlaps of label intervals.", "anchors": ["financial_ml/evaluation/cross_validation.py: PurgedKFold.split"]}
{"id": "C25", "title": "PurgedKFold keeps every admissible event", "statement": "Without embargo, the training set of a split contains every event that does not overlap the test period.", "quantifier": "every sorted event list", "why_tests_cant": "Off-by-one after the test fold; existing tests encode the loss.", "anchors": ["financial_ml/evaluation/cross_validation.py: PurgedKFold.split"]}
{"id": "C26", "title": "Cross-validation never trains on test rows", "statement": "timeseries_cv_score and get_mean_decrease_accuracy fit on exactly the splitter's training rows, score on exactly its test rows and return one score per split.", "quantifier": "every classifier, data set and splitter", "why_tests_cant": "Classifier is arbitrary code.", "anchors": ["financial_ml/evaluation/cross_validation.py: timeseries_cv_score", "financial_ml/explain/feature_importance.py: get_mean_decrease_accuracy"]}
{"id": "C27", "title": "Defaults of the CV scoring API work", "statement": "timeseries_cv_score works with embargo_pct left at its default, and get_single_feature_importance works with the library's own splitters.", "quantifier": "every data set", "why_tests_cant": "Tests for this path are too slow to run and call it in the failing way.", "anchors": ["financial_ml/evaluation/cross_validation.py: timeseries_cv_score", "financial_ml/explain/feature_importance.py: get_single_feature_importance"]}
{"id": "C28", "title": "Combinatorial CV splits", "statement": "CombinatorialPurgedCV(N,k).split() yields C(N,k) splits; each tests a distinct set of k groups, groups partition the events (exact arithmetic), and no training event overlaps a test event or its embargo window.", "quantifier": "every N, k <= N, event list and embargo", "why_tests_cant": "Combinatorial enumeration for all N,k.", "anchors": ["financial_ml/evaluation/backtest.py: CombinatorialPurgedCV.split"]}
{"id": "C29", "title": "Combinatorial CV backtest paths", "statement": "After one complete split() run get_backtest_paths yields C(N-1,k-1) paths; each path visits every group once, in order, so covers every event exactly once; the split named for a group tests that group; and every (split, tested group) pair is used in exactly one path.", "quantifier": "every N and 1 <= k <= N", "why_tests_cant": "Global counting property of a stateful object over all N,k.", "anchors": ["financial_ml/evaluation/backtest.py: CombinatorialPurgedCV.get_backtest_paths"]}
{"id": "C30", "title": "Backtest paths do not depend on how often split() ran", "statement": "The backtest paths after running split() any positive number of times are those after running it once.", "quantifier": "every call history", "why_tests_cant": "Needs a history of API calls; tests call split once.", "anchors": ["financial_ml/evaluation/backtest.py: CombinatorialPurgedCV.split", "financial_ml/evaluation/backtest.py: CombinatorialPurgedCV.get_backtest_paths"]}
{"id": "C31", "title": "Combinatorial CV groups cover all events in float64", "statement": "With the float64 group size the code computes, the groups cover every event index.", "quantifier": "every number of events and groups", "why_tests_cant": "Rounding of n/G*G is wrong only for rare pairs (n,G).", "anchors": ["financial_ml/evaluation/backtest.py: CombinatorialPurgedCV.split"]}
{"id": "C32", "title": "PBO train/test combinations", "statement": "compute_pbo examines C(S,S/2) combinations; in each the train and test rows are disjoint and together all rows; train size is (S/2)*floor(T/S); every partition is in exactly half of the train sets.", "quantifier": "every T, even S", "why_tests_cant": "Combinatorial enumeration for all T,S.", "anchors": ["financial_ml/evaluation/backtest.py: compute_pbo"]}
{"id": "C33", "title": "PBO logit sign reflects the median", "statement": "A combination counts as overfit (logit <= 0) iff the selected strategy's out-of-sample rank is below the median, for realistic strategy counts.", "quantifier": "every number of strategies and rank", "why_tests_cant": "The 1e-3 regulariser moves the boundary only for large N.", "anchors": ["financial_ml/evaluation/backtest.py: compute_pbo"]}
{"id": "C34", "title": "Bet timings", "statement": "get_position_timings returns exactly the times at which a position is closed to zero or its sign flips.", "quantifier": "every position series", "why_tests_cant": "Boundary at the first bar.", "anchors": ["financial_ml/evaluation/metrics.py: get_position_timings"]}
{"id": "C35", "title": "Average holding period", "statement": "compute_holding_period times the total closed quantity equals the time integral of the absolute position minus the age of what is still open; it lies between 0 and the series duration, does not change when positions are rescaled, and is None iff nothing was ever closed or reduced.", "quantifier": "every position series with increasing times", "why_tests_cant": "Path-dependent average over all trading histories.", "anchors": ["financial_ml/evaluation/metrics.py: compute_holding_period"]}
{"id": "C36", "title": "Time-weighted return ignores cash flows", "statement": "compute_time_weighted_return equals the compounded per-period returns for every schedule of deposits and withdrawals.", "quantifier": "every return and cash-flow history", "why_tests_cant": "Metamorphic law over all cash-flow schedules.", "anchors": ["financial_ml/evaluation/metrics.py: compute_time_weighted_return"]}
{"id": "C37", "title": "HHI concentration is a [0,1] index", "statement": "For at least two bets of a sign whose total is not zero the concentration lies in [0,1], is 0 iff all bets are equal, 1 iff one bet carries everything, does not depend on scale or order; with fewer than two such bets no number is returned. (Gains that are all zero give a negative number, which is shown separately.)", "quantifier": "every list of returns", "why_tests_cant": "Inequality (Cauchy-Schwarz) over all inputs.", "anchors": ["financial_ml/evaluation/metrics.py: compute_hhi_returns_concentration"]}
{"id": "C38", "title": "Drawdowns", "statement": "compute_dd_and_tuw reports, for each high-water mark followed by a loss before the next new high, the depth of that loss; all depths are positive, fractions <= 1 for positive wealth, and the largest equals the maximum over i<=j of v_i - v_j.", "quantifier": "every P&L path", "why_tests_cant": "Path functional over all series.", "anchors": ["financial_ml/evaluation/metrics.py: compute_dd_and_tuw"]}
{"id": "C39", "title": "Time under water ends at recovery", "statement": "Reported time under water of a drawdown is the time from its high-water mark to the next new high.", "quantifier": "every P&L path", "why_tests_cant": "Fails only when new highs occur without drawdowns in between.", "anchors": ["financial_ml/evaluation/metrics.py: compute_dd_and_tuw"]}
{"id": "C40", "title": "Sharpe ratio invariances", "statement": "sharpe_ratio is unchanged by positive scaling of excess returns, changes sign under negation, annualisation multiplies by sqrt(periods), and the information ratio is the Sharpe ratio of the excess return.", "quantifier": "every return series with non-zero deviation", "why_tests_cant": "Algebraic law over all inputs.", "anchors": ["financial_ml/evaluation/metrics.py: sharpe_ratio", "financial_ml/evaluation/metrics.py: annualized_sharpe_ratio", "financial_ml/evaluation/metrics.py: information_ratio"]}
{"id": "C41", "title": "Probabilistic Sharpe ratio is always a probability", "statement": "probabilistic_sharpe_ratio is defined for every sample with non-zero deviation, lies in [0,1] and decreases in the benchmark.", "quantifier": "every return sample", "why_tests_cant": "The radicand is negative only for high Sharpe samples.", "anchors": ["financial_ml/evaluation/metrics.py: probabilistic_sharpe_ratio"]}
{"id": "C42", "title": "Probabilistic Sharpe ratio works per axis", "statement": "For a TxN return matrix with axis=0 the result for a column equals the result for that column alone.", "quantifier": "every return matrix", "why_tests_cant": "Tests use one-dimensional data.", "anchors": ["financial_ml/evaluation/metrics.py: probabilistic_sharpe_ratio", "financial_ml/evaluation/metrics.py: deflated_sharpe_ratio"]}
{"id": "C43", "title": "Required precision and frequency invert the strategy Sharpe ratio", "statement": "strategy_sharpe_ratio at strategy_required_precision (strategy_required_freq) equals the target; the precision lies in (0,1); the frequency is None exactly when the edge is negative and the target exceeds the tolerance of np.isclose.", "quantifier": "all real payoffs profit>0>loss, precisions with a non-zero edge, frequencies, non-negative targets", "why_tests_cant": "Root selection over a continuum.", "anchors": ["financial_ml/risk/strategy_risk.py: strategy_sharpe_ratio", "financial_ml/risk/strategy_risk.py: strategy_required_precision", "financial_ml/risk/strategy_risk.py: strategy_required_freq"]}
{"id": "C44", "title": "Word frequencies and plug-in entropy", "statement": "Word frequencies are the relative counts of words, sum to one; plugin_entropy lies between 0 and log2(#distinct words)/word length and is 0 iff only one word occurs.", "quantifier": "every message and word length", "why_tests_cant": "Gibbs inequality over all messages.", "anchors": ["financial_ml/features/entropy.py: _word_pmf", "financial_ml/features/entropy.py: plugin_entropy"]}
{"id": "C45", "title": "Lempel-Ziv library", "statement": "lempelziv_lib returns the phrases of the LZ78-style parsing: they are substrings, prefix-closed, their parse concatenates to the message; the library size is at most the message length.", "quantifier": "every non-empty message", "why_tests_cant": "Data-dependent loop.", "anchors": ["financial_ml/features/entropy.py: lempelziv_lib"]}
{"id": "C46", "title": "Longest match and Kontoyiannis entropy", "statement": "The match length used is the largest L<=n such that the next L symbols occur starting in the previous n positions; konto_entropy is non-negative and finite for messages of length >= 2.", "quantifier": "every message, position and window", "why_tests_cant": "String search over all inputs.", "anchors": ["financial_ml/features/entropy.py: _longest_match", "financial_ml/features/entropy.py: konto_entropy"]}
{"id": "C47", "title": "Encoders preserve order and length", "statement": "binary_encode, QuantileEncoder and sigma_encode output one character per value, never fail, and larger values never get smaller codes; the quantile encoder's '?' marks exactly values above the training maximum.", "quantifier": "every series", "why_tests_cant": "Monotonicity over all pairs of inputs.", "anchors": ["financial_ml/features/entropy.py: binary_encode", "financial_ml/features/entropy.py: QuantileEncoder", "financial_ml/features/entropy.py: sigma_encode"]}
{"id": "C48", "title": "Symmetric CUSUM filter", "statement": "filter_symmetric_cusum fires at t exactly when the series rose by more than the threshold above its minimum since the last up event, or fell by more than it below its maximum since the last down event; the filter is causal and symmetric under negation.", "quantifier": "every series and threshold >= 0", "why_tests_cant": "Path-dependent stopping rule.", "anchors": ["financial_ml/features/filters.py: filter_symmetric_cusum"]}
{"id": "C49", "title": "Market meanness index and Hull average", "statement": "get_mmi lies in [0,1] and is invariant under positive affine maps; hull_ma reproduces constants, is linear and causal.", "quantifier": "every series", "why_tests_cant": "Bounds and linearity over all inputs.", "anchors": ["financial_ml/features/filters.py: get_mmi", "financial_ml/features/filters.py: hull_ma"]}
{"id": "C50", "title": "Fractional differencing is a group action", "statement": "Expanding-window fractional differencing of order d2 after order d1 equals order d1+d2; order 0 is the identity, order 1 the first difference, order -d inverts order d.", "quantifier": "every rational order and series", "why_tests_cant": "Chu-Vandermonde identity for all orders and lengths.", "anchors": ["financial_ml/features/frac_diff.py: _get_weights", "financial_ml/features/frac_diff.py: frac_diff_expanding"]}
{"id": "C51", "title": "Weight-loss threshold", "statement": "frac_diff_expanding skips exactly the initial points whose omitted weight share exceeds the threshold.", "quantifier": "every series length, order, threshold", "why_tests_cant": "Index arithmetic for all lengths.", "anchors": ["financial_ml/features/frac_diff.py: frac_diff_expanding"]}
{"id": "C52", "title": "Fixed-window fractional differencing", "statement": "frac_diff_fixed uses exactly the leading weights of magnitude >= threshold up to the maximum width; for 0<=d<=1 all omitted weights are smaller than the threshold; each output equals the weighted sum over the last width+1 points.", "quantifier": "every series, order, threshold, width", "why_tests_cant": "Data-dependent cut-off for all orders.", "anchors": ["financial_ml/features/frac_diff.py: _get_weights_fixed", "financial_ml/features/frac_diff.py: frac_diff_fixed"]}
{"id": "C53", "title": "Triple barrier end time is the first touch", "statement": "An event ends at the first bar in [start, expiry] whose high/low crosses a horizontal barrier, at the expiry if none does; the recorded return matches the barrier touched (stop loss on ties).", "quantifier": "every price path, event, multipliers, side", "why_tests_cant": "First-passage property over all paths.", "anchors": ["financial_ml/labeling/triple_barrier.py: _get_triple_barrier_returns"]}
{"id": "C54", "title": "Event returns follow the side of the bet", "statement": "The recorded return of a side -1 event is the short position's return, also when it expires.", "quantifier": "every event", "why_tests_cant": "Existing tests encode the opposite for expired shorts.", "anchors": ["financial_ml/labeling/triple_barrier.py: _get_triple_barrier_returns"]}
{"id": "C55", "title": "Small targets are filtered", "statement": "get_event_returns drops events whose target does not exceed min_target_return and processes the rest.", "quantifier": "every event set", "why_tests_cant": "Tests never filter an event out.", "anchors": ["financial_ml/labeling/triple_barrier.py: get_event_returns"]}
{"id": "C56", "title": "Event labels", "statement": "Without sides labels are the sign of the return; with sides they are 1 for a gain and 0 otherwise; expired events become 0 if requested, and labels never use a price after the event's end.", "quantifier": "every event set", "why_tests_cant": "Case analysis over all outcomes.", "anchors": ["financial_ml/labeling/triple_barrier.py: get_event_labels"]}
{"id": "C57", "title": "Fixed-window event return", "statement": "The return of a fixed-window event is the log return from its first bar's open to its last bar's close.", "quantifier": "every price history and window", "why_tests_cant": "Tests use a history on which the error equals a regular increment.", "anchors": ["financial_ml/labeling/triple_barrier.py: get_fixed_window_events"]}
{"id": "C58", "title": "Rare labels are dropped", "statement": "drop_rare_labels terminates; keeps exactly the rows of the surviving labels in order; afterwards every label's share exceeds min_pct or at most min_classes labels remain; it never removes a label while at most min_classes remain.", "quantifier": "every label series, min_pct, min_classes >= 0", "why_tests_cant": "Loop with changing frequencies.", "anchors": ["financial_ml/labeling/weighting.py: drop_rare_labels"]}
{"id": "C59", "title": "Concurrency counts", "statement": "count_events_per_bar gives, for each bar of its range, the number of events whose interval contains the bar, and every bar outside the range has none (events sorted by start).", "quantifier": "every bar calendar and sorted event list", "why_tests_cant": "Interval counting over all inputs.", "anchors": ["financial_ml/labeling/weighting.py: count_events_per_bar", "financial_ml/labeling/weighting.py: get_event_indicators"]}
{"id": "C60", "title": "Average uniqueness", "statement": "label_avg_uniqueness lies in (0,1], equals 1 iff the event overlaps no other event on its bars, and agrees with the uniqueness computed from the indicator matrix.", "quantifier": "every bar calendar and event list", "why_tests_cant": "Agreement of two implementations over all inputs.", "anchors": ["financial_ml/labeling/weighting.py: label_avg_uniqueness", "financial_ml/labeling/weighting.py: _get_avg_uniqueness"]}
{"id": "C61", "title": "Sequential bootstrap probabilities", "statement": "At every draw the selection weights are non-negative and sum to one, the weight of an event is proportional to the mean of 1/(1+number of earlier draws covering each of its bars), and the requested number of valid samples is returned.", "quantifier": "every indicator matrix, every draw history", "why_tests_cant": "Random histories of any length.", "anchors": ["financial_ml/labeling/weighting.py: sample_sequential_boostrap"]}
{"id": "C62", "title": "Return-attribution weights", "statement": "compute_weights_by_returns gives non-negative weights summing to the number of events; signed attributions of all events add up to the total return over the covered bars.", "quantifier": "every price history and event list", "why_tests_cant": "Conservation law over all overlaps.", "anchors": ["financial_ml/labeling/weighting.py: compute_weights_by_returns", "financial_ml/labeling/weighting.py: _get_return_attributions"]}
{"id": "C63", "title": "Time decay", "statement": "apply_time_decay_to_weights gives the newest event weight 1, is non-decreasing in time, stays in [0,1], is at least oldest_weight when that is non-negative, and is constant 1 when oldest_weight=1.", "quantifier": "every uniqueness series, every oldest_weight in (-1,1]", "why_tests_cant": "Piecewise linear bounds over a continuum.", "anchors": ["financial_ml/labeling/weighting.py: apply_time_decay_to_weights"]}
{"id": "C64", "title": "Vertical barriers", "statement": "get_vertical_barriers maps each event to the first bar at least h days later and drops events with no such bar (events sorted).", "quantifier": "every bar calendar and sorted events", "why_tests_cant": "Search-boundary cases.", "anchors": ["financial_ml/utils/time_series.py: get_vertical_barriers"]}
{"id": "C65", "title": "Quasi-diagonalisation is a permutation", "statement": "_quasi_diagonalize terminates and returns each item exactly once, in dendrogram order, so hrp_allocations returns one weight per asset.", "quantifier": "every valid linkage", "why_tests_cant": "Tree-shaped data of any size.", "anchors": ["financial_ml/assets_allocation/HRP.py: _quasi_diagonalize", "financial_ml/assets_allocation/HRP.py: hrp_allocations"]}
{"id": "C66", "title": "HRP weights are a long-only fully invested portfolio", "statement": "hrp_allocations weights are positive and sum to one whenever cluster variances are positive; inverse-variance weights likewise.", "quantifier": "every covariance matrix and order", "why_tests_cant": "Recursion over arbitrary sizes.", "anchors": ["financial_ml/assets_allocation/HRP.py: _recursive_bisection", "financial_ml/assets_allocation/HRP.py: _get_inverse_cov_portfolio"]}
{"id": "C67", "title": "Bet sizes are bounded", "statement": "gaussian_mixture_position_size, budgeted_position_size, position_size_from_probabilities and the discretised sizes lie in [-1,1]; discretised sizes are nearest multiples of the step clipped to [-1,1].", "quantifier": "every event/probability series, every step > 0", "why_tests_cant": "Bounds for all inputs.", "anchors": ["financial_ml/assets_allocation/position_sizing.py: gaussian_mixture_position_size", "financial_ml/assets_allocation/position_sizing.py: budgeted_position_size", "financial_ml/assets_allocation/position_sizing.py: position_size_from_probabilities", "financial_ml/assets_allocation/position_sizing.py: _discretize_position_sizes"]}
{"id": "C68", "title": "Averaging uses active bets only", "statement": "The averaged bet size at a time is the mean of the sizes of the bets active at that time.", "quantifier": "every bet list", "why_tests_cant": "Fails only for bets sharing a start time and ending at different times.", "anchors": ["financial_ml/assets_allocation/position_sizing.py: _avg_active_positions"]}
{"id": "C69", "title": "One-sided bet books are sized", "statement": "budgeted_position_size and gaussian_mixture_position_size return sizes for books with only long (or only short) events.", "quantifier": "every event book", "why_tests_cant": "Tests always mix sides.", "anchors": ["financial_ml/assets_allocation/position_sizing.py: budgeted_position_size", "financial_ml/assets_allocation/position_sizing.py: gaussian_mixture_position_size"]}
{"id": "C70", "title": "Sigmoid sizing calibration", "statement": "get_sigmoid_coeff makes the size at the calibration divergence equal the calibration size; the inverse price inverts the size function; |size| <= max_size and sizes have the sign of the divergence.", "quantifier": "all reals", "why_tests_cant": "Continuum of inputs.", "anchors": ["financial_ml/assets_allocation/position_sizing.py: get_sigmoid_coeff", "financial_ml/assets_allocation/position_sizing.py: _inverse_price", "financial_ml/assets_allocation/position_sizing.py: position_size_from_divergence"]}
{"id": "C71", "title": "Limit price averages the marginal prices", "statement": "compute_limit_price is the average of the inverse prices of the unit steps from the current to the target position.", "quantifier": "every pair of positions", "why_tests_cant": "Tests only buy from a non-negative position.", "anchors": ["financial_ml/assets_allocation/position_sizing.py: compute_limit_price"]}
{"id": "C72", "title": "Black-Scholes put-call parity and bounds", "statement": "bsm_option_price is the Black-Scholes-Merton formula, satisfies put-call parity with discrete dividends or a dividend yield, respects the strict no-arbitrage bounds, and moves with spot, strike and volatility as an option price must.", "quantifier": "all positive spots, strikes, maturities, volatilities, real rates", "why_tests_cant": "Continuum of inputs.", "anchors": ["financial_ml/tools/option.py: bsm_option_price"]}
{"id": "C73", "title": "Binomial tree no-arbitrage", "statement": "For risk-neutral probability in [0,1]: European tree prices equal the discounted binomial expectation and satisfy put-call parity; American >= European and >= intrinsic value, and it is the best expected discounted payoff over all exercise policies that see only the past moves; without dividends and non-negative rate an American call equals the European one.", "quantifier": "all trees of any depth", "why_tests_cant": "Backward induction over any depth.", "anchors": ["financial_ml/tools/option.py: binom_option_price"]}
{"id": "C74", "title": "Implied rates invert pricing", "statement": "implied_risk_free_rate recovers the rate from parity-consistent quotes; get_implied_forward_rate reproduces the future price.", "quantifier": "all quotes", "why_tests_cant": "Continuum.", "anchors": ["financial_ml/tools/option.py: implied_risk_free_rate", "financial_ml/tools/interest_rate.py: get_implied_forward_rate"]}
{"id": "C75", "title": "Default count distribution", "statement": "get_default_count_probs returns the distribution of the number of defaults of independent firms: each entry is the total probability of the outcomes with that many defaults, entries are non-negative and sum to one, the mean is the sum of default probabilities, and firm order is irrelevant.", "quantifier": "every non-empty list of probabilities", "why_tests_cant": "Tree-shaped convolution of any size.", "anchors": ["financial_ml/features/systematic_default.py: get_default_count_probs"]}
{"id": "C76", "title": "Structural model fit converges or raises", "statement": "FirmStructuralCreditRisk.fit returns only if the last two iterates agree within tolerance, and raises after maxiter iterations otherwise.", "quantifier": "every iteration map and starting point", "why_tests_cant": "Numerical loop with arbitrary step behaviour.", "anchors": ["financial_ml/features/systematic_default.py: FirmStructuralCreditRisk.fit"]}
{"id": "C77", "title": "ADF regression rows are aligned and causal", "statement": "Row t of the SADF regression contains the level at t-1 and lagged differences up to t-lags only, and the response is the change at t.", "quantifier": "every series, lag count and trend specification", "why_tests_cant": "Index alignment for all sizes.", "anchors": ["financial_ml/features/structural_breaks.py: _get_lag_df", "financial_ml/features/structural_breaks.py: _get_yx"]}
{"id": "C78", "title": "SADF is the supremum over expanding windows", "statement": "sadf_stat is the maximum over all admissible window starts of the ADF statistic and sadf_stat_series is causal.", "quantifier": "every series and statistic", "why_tests_cant": "Maximum over variable windows.", "anchors": ["financial_ml/features/structural_breaks.py: sadf_stat", "financial_ml/features/structural_breaks.py: sadf_stat_series"]}
{"id": "C79", "title": "Lag lists are accepted", "statement": "sadf_stat accepts a list of lags, as documented.", "quantifier": "every lag list", "why_tests_cant": "Untested path.", "anchors": ["financial_ml/features/structural_breaks.py: sadf_stat"]}
{"id": "C80", "title": "Level CUSUM statistic", "statement": "levels_cusum_stats has one value per observation after n, only uses data up to that observation, and is invariant to positive scaling and shifts of the series.", "quantifier": "every series and reference point", "why_tests_cant": "Invariance over all inputs.", "anchors": ["financial_ml/features/structural_breaks.py: levels_cusum_stats"]}
{"id": "C81", "title": "Roll and Corwin-Schultz spreads", "statement": "Estimated spreads are non-negative and the Corwin-Schultz spread is below 2 (200%).", "quantifier": "every price history", "why_tests_cant": "Bounds over all inputs.", "anchors": ["financial_ml/features/microstructure.py: roll_effective_spread", "financial_ml/features/microstructure.py: corwin_schultz_spread"]}
{"id": "C82", "title": "VPIN is a fraction", "statement": "volume_synchronized_pin lies in [0,1] for bars made by the library's own volume bars.", "quantifier": "every tick stream", "why_tests_cant": "Exceeds 1 only for lumpy volumes.", "anchors": ["financial_ml/features/microstructure.py: volume_synchronized_pin"]}
{"id": "C83", "title": "fill_index fills missing entries", "statement": "fill_index returns the series on the given index with missing entries equal to fill_val.", "quantifier": "every series, index and fill value", "why_tests_cant": "Only fill value 0 is exercised.", "anchors": ["financial_ml/utils/data.py: fill_index"]}
{"id": "C84", "title": "MDI importances are normalised", "statement": "get_mean_decrease_impurity means lie in [0,1] and sum to one over the features used by some tree.", "quantifier": "every forest with non-negative importances", "why_tests_cant": "Sum law over all inputs.", "anchors": ["financial_ml/explain/feature_importance.py: get_mean_decrease_impurity"]}
{"id": "C85", "title": "PCA hedge hits the risk target", "statement": "pca_weights gives a portfolio of variance risk_target^2 (times the allocated fractions' sum) for any positive-definite covariance.", "quantifier": "every covariance spectral decomposition", "why_tests_cant": "Linear-algebra identity for all sizes.", "anchors": ["financial_ml/assets_allocation/pca_hedge.py: pca_weights"]}
{"id": "C86", "title": "Deflation never raises the Sharpe ratio's probability", "statement": "For at least two trials (one per row) the benchmark of deflated_sharpe_ratio is non-negative and the deflated value of each trial is at most its probabilistic Sharpe ratio against 0.", "quantifier": "every matrix of returns with one row per trial", "why_tests_cant": "Inequality over all samples.", "anchors": ["financial_ml/evaluation/metrics.py: deflated_sharpe_ratio"]}
{"id": "C87", "title": "Probability of failure rises with the target", "statement": "strategy_probability_of_failure is defined for every sample with a gain and a loss, is a probability, and strictly increases with the target Sharpe ratio.", "quantifier": "every return sample, frequency and pair of targets", "why_tests_cant": "Composition of a quadratic root with a cdf over a continuum.", "anchors": ["financial_ml/risk/strategy_risk.py: strategy_probability_of_failure"]}
{"id": "C88", "title": "List messages are treated token by token", "statement": "For a message given as a list, the entropy estimators work on the sequence of tokens: different token sequences of the same length are different messages.", "quantifier": "every pair of token lists", "why_tests_cant": "Ambiguity only shows for tokens of unequal width, such as numbers above 9.", "anchors": ["financial_ml/features/entropy.py: _stringify"]}
{"id": "C89", "title": "Daily return pairs", "statement": "get_daily_volatility compares each bar with a bar one day earlier: intraday, the last bar more than a day earlier; bars without one are left out; daily bars are compared with the previous day's bar.", "quantifier": "every sorted time index", "why_tests_cant": "Weekend gaps and the first bar are corners no fixture covers.", "anchors": ["financial_ml/utils/time_series.py: get_daily_volatility"]}
{"id": "C90", "title": "Geometric Brownian motion recursion", "statement": "gen_geometric_brownian returns the requested number of prices, the k-th being the seed times the product of one plus each period return, so prices stay positive as long as no period return is -100% or worse.", "quantifier": "every draw sequence, length and parameters", "why_tests_cant": "Any path length and any draws.", "anchors": ["financial_ml/utils/simulation.py: gen_geometric_brownian"]}
{"id": "C91", "title": "Ornstein-Uhlenbeck recursion", "statement": "gen_discrete_ou_process mean-reverts to the forecast: the k-th value is the forecast plus the decayed initial distance plus decayed independent shocks, and the distance halves every half_life steps; fixing random_state only makes it reproducible.", "quantifier": "every draw sequence, length, half-life and seed", "why_tests_cant": "Any path length; seeding is only tested for reproducibility.", "anchors": ["financial_ml/utils/simulation.py: gen_discrete_ou_process"]}
{"id": "C92", "title": "Gaussian mixtures have the requested composition", "statement": "gen_mixed_gaussians returns n_samples draws of which floor(n_samples*prob1) come from the first component, in shuffled order, and any given seed makes the sample reproducible.", "quantifier": "every generator, size, probability in [0,1] and seed", "why_tests_cant": "All sizes and seeds including 0.", "anchors": ["financial_ml/utils/simulation.py: gen_mixed_gaussians"]}
{"id": "C93", "title": "Correlation distance is a metric", "statement": "_corr_to_dist turns correlations into a proper metric: values in [0,1], symmetric, zero only for perfectly correlated series, decreasing in the correlation, and satisfying the triangle inequality.", "quantifier": "every family of return series", "why_tests_cant": "Triangle inequality over all triples of series.", "anchors": ["financial_ml/assets_allocation/HRP.py: _corr_to_dist"]}
{"id": "C94", "title": "Implied volatility inverts Black-Scholes", "statement": "implied_volatility recovers the volatility a Black-Scholes price was made with, up to the root finder's tolerance, when it lies in the search bracket; a volatility outside the bracket or a price violating the no-arbitrage bounds raises ValueError.", "quantifier": "all option parameters, volatilities and brackets, and every root finder meeting brentq's contract", "why_tests_cant": "Continuum of inputs; relies on strict monotonicity and continuity of the price.", "anchors": ["financial_ml/tools/option.py: implied_volatility"]}
{"id": "C95", "title": "Implied asset price is unique", "statement": "A positive asset price returned by implied_asset_price that reproduces a Black-Scholes price is the asset price it was made with.", "quantifier": "all option parameters and every exact root finder", "why_tests_cant": "Uniqueness over a continuum.", "anchors": ["financial_ml/tools/option.py: implied_asset_price"]}
{"id": "C96", "title": "Implied distribution", "statement": "implied_underlying_discrete_pdf keeps exactly the non-negative densities on the grid from the lowest to the highest strike; the sampling weights of implied_underlying_distribution are a probability distribution; for exact Black-Scholes price curves the density formula is the lognormal risk-neutral density, for calls and puts alike.", "quantifier": "all strike lists, grids, price curves and parameters", "why_tests_cant": "Second derivatives over a continuum of strikes.", "anchors": ["financial_ml/tools/option.py: implied_underlying_discrete_pdf", "financial_ml/tools/option.py: implied_underlying_distribution", "financial_ml/tools/option.py: bsm_return_distribution"]}
{"id": "C97", "title": "Conditional equity value is a call value", "statement": "_cond_equity_value behaves as the value of a call on the firm's assets: positive, below the asset value and increasing in it, so that the implied asset value is unique.", "quantifier": "all firm parameters, debts, rates, maturities and market returns", "why_tests_cant": "Fails only where the drift is large; continuum of inputs.", "anchors": ["financial_ml/features/systematic_default.py: _cond_equity_value"]}
{"id": "C98", "title": "Firm factor regression", "statement": "_regress_firm_params returns the least-squares fit of excess asset returns on excess market returns, and recovers alpha, beta and sigma from data generated by the factor model.", "quantifier": "every return history", "why_tests_cant": "Exact recovery over all histories.", "anchors": ["financial_ml/features/systematic_default.py: _regress_firm_params"]}
{"id": "C99", "title": "Conditional default probability", "statement": "predict_default is the probability, under the firm's lognormal asset model, of the assets ending below the debt given the annualised market return over the debt's maturity; it falls with the asset value and rises with the debt.", "quantifier": "all firm parameters and market returns", "why_tests_cant": "Unit slips only show for maturities other than one year.", "anchors": ["financial_ml/features/systematic_default.py: predict_default"]}
{"id": "C100", "title": "Recursive CUSUM p-values", "statement": "The recursive CUSUM p-value at time t is the one-sided tail probability of the statistic under its documented null distribution, normal with variance t-k-1.", "quantifier": "every series of statistics and every time", "why_tests_cant": "The variance only matches at the last observation.", "anchors": ["financial_ml/features/structural_breaks.py: recursive_residuals_cusum_stats"]}
{"id": "C101", "title": "ADF regression is least squares", "statement": "_fit_adf returns the least-squares coefficients of the regression, exact on data generated by a linear model, with the unbiased residual variance times the inverse Gram matrix as their covariance.", "quantifier": "every design, response and inverse routine meeting its contract", "why_tests_cant": "Linear algebra for all sizes.", "anchors": ["financial_ml/features/structural_breaks.py: _fit_adf"]}
{"id": "C102", "title": "Minimum regression sample", "statement": "Every ADF regression inside sadf_stat has at least min_sample_len samples, as documented.", "quantifier": "every series, lag count and minimum length", "why_tests_cant": "Off by the lag count, invisible in the value.", "anchors": ["financial_ml/features/structural_breaks.py: sadf_stat"]}
{"id": "C103", "title": "Roll's noise variance", "statement": "The variance of efficient price changes returned by roll_effective_spread is non-negative and, with the spread, decomposes the variance of the observed price changes.", "quantifier": "every price history", "why_tests_cant": "Negative only for strongly alternating short samples.", "anchors": ["financial_ml/features/microstructure.py: roll_effective_spread"]}
{"id": "C104", "title": "Corwin-Schultz estimates", "statement": "corwin_schultz_spread reports one estimate per bar from bar window on, with the first bar it uses as start time, uses only the bars in between, does not depend on the price unit, and recovers the spread exactly (with zero volatility) when bid and ask are fixed and both trade in every bar.", "quantifier": "every bar history and window", "why_tests_cant": "Exactness is an identity over all quotes.", "anchors": ["financial_ml/features/microstructure.py: corwin_schultz_spread", "financial_ml/features/microstructure.py: _get_beta", "financial_ml/features/microstructure.py: _get_gamma", "financial_ml/features/microstructure.py: _get_alpha", "financial_ml/features/microstructure.py: _corwin_schultz_volatility"]}
{"id": "C105", "title": "High-low volatility", "statement": "high_low_volatility is the Parkinson estimate over the rolling window: non-negative, independent of the price unit, and ln(h/l)/(2 sqrt(ln 2)) for bars of constant range.", "quantifier": "every bar history and window", "why_tests_cant": "All windows and prices.", "anchors": ["financial_ml/features/microstructure.py: high_low_volatility"]}
{"id": "C106", "title": "Price impact coefficients", "statement": "kyle_lambda, amihud_lambda and hasbrouck_lambda return the least-squares slope of price changes on (signed) volume with rows aligned bar by bar, exact on linear data; a constant regressor raises.", "quantifier": "every tick and bar history", "why_tests_cant": "Alignment and exactness for all sizes.", "anchors": ["financial_ml/features/microstructure.py: kyle_lambda", "financial_ml/features/microstructure.py: amihud_lambda", "financial_ml/features/microstructure.py: hasbrouck_lambda"]}
{"id": "C107", "title": "VPIN averages absolute imbalances", "statement": "volume_synchronized_pin over n bars is the mean absolute order imbalance of these bars relative to the bar volume (Easley et al.).", "quantifier": "every tick history and n", "why_tests_cant": "Only differs when imbalances of different bars have opposite signs.", "anchors": ["financial_ml/features/microstructure.py: volume_synchronized_pin"]}
{"id": "C108", "title": "Rank correlation p-values", "statement": "kendall_tau_pval and weighted_tau_pval return p-values, as named: probabilities in [0,1]; the normality and stationarity wrappers do too.", "quantifier": "every pair of samples and every library implementing the textbook statistics", "why_tests_cant": "Statistic and p-value are both plausible floats.", "anchors": ["financial_ml/utils/stats.py: kendall_tau_pval", "financial_ml/utils/stats.py: weighted_tau_pval", "financial_ml/utils/stats.py: jarque_bera_pval"]}
{"id": "C109", "title": "MDA importances are finite relative improvements", "statement": "The mean importance reported by get_mean_decrease_accuracy is a finite number at most one: the average over folds of the score lost by shuffling relative to the largest possible loss, zero if shuffling changes nothing, with the sign of the loss in each fold.", "quantifier": "every number of folds and all scores", "why_tests_cant": "Only breaks when a permuted fold scores perfectly.", "anchors": ["financial_ml/explain/feature_importance.py: get_mean_decrease_accuracy"]}
{"id": "C110", "title": "Single feature importance has no substitution effect", "statement": "get_single_feature_importance returns one row per requested feature, depending on that feature's cross-validation scores alone, with the mean within the range of the scores.", "quantifier": "every feature list and every scorer", "why_tests_cant": "Independence from all other features is a relation between runs.", "anchors": ["financial_ml/explain/feature_importance.py: get_single_feature_importance"]}
{"id": "C111", "title": "Autocorrelation statistics", "statement": "pearson_autocorr lies in [-1,1] where defined, does not depend on level or unit, is 1 at lag 0 and for linear trends; durbin_watson_stat lies in [0,4], is unit free and equals 2(1-r) up to the end points.", "quantifier": "every series and lag", "why_tests_cant": "Inequalities over all series.", "anchors": ["financial_ml/utils/stats.py: pearson_autocorr", "financial_ml/utils/stats.py: durbin_watson_stat"]}
{"id": "C112", "title": "ADF scan rows", "statement": "run_adf_tests returns one row per order: the test of the price logs differenced by that order, and their correlation, in [-1,1], with the log prices of the same bars; for order 0 the observed logs themselves with correlation 1.", "quantifier": "every price column with gaps, order list and test", "why_tests_cant": "Alignment with missing bars and repeated orders.", "anchors": ["financial_ml/features/frac_diff.py: run_adf_tests"]}
{"id": "C113", "title": "Default dataset join", "statement": "create_systematic_default_dataset holds exactly the firm rows whose date all other tables have, with a known treasury yield, in the firm's date order.", "quantifier": "all tables", "why_tests_cant": "Joins with gaps and duplicates.", "anchors": ["financial_ml/features/systematic_default.py: create_systematic_default_dataset"]}
{"id": "C114", "title": "Yield curve interpolates", "statement": "interpolate_yield_curve passes through every (maturity, rate) pair of the term structure and raises ValueError for unsorted or too few maturities.", "quantifier": "every term structure and every interpolating spline", "why_tests_cant": "All term structures.", "anchors": ["financial_ml/tools/interest_rate.py: interpolate_yield_curve"]}
{"id": "C115", "title": "Simulated probability of failure", "statement": "simulate_strategy_probability_of_failure is a probability computed from the two component samples in the requested proportion, independent of their order and increasing in the target Sharpe ratio.", "quantifier": "every generator, mixture and target", "why_tests_cant": "Order independence and monotonicity over all samples.", "anchors": ["financial_ml/risk/strategy_risk.py: simulate_strategy_probability_of_failure"]}
{"id": "C116", "title": "Probability of failure uses the precision's standard error", "statement": "strategy_probability_of_failure is the normal probability of a precision below the required one, with the standard deviation of the observed precision, so more data sharpen it.", "quantifier": "every return sample, frequency and target", "why_tests_cant": "The result is a plausible probability in any case.", "anchors": ["financial_ml/risk/strategy_risk.py: strategy_probability_of_failure"]}
{"id": "C117", "title": "Probability of backtest overfitting", "statement": "compute_pbo returns the mass below zero of the normal kernel density estimate (Scott's bandwidth) of the rank logits, one per combination: a probability above one half if the selected strategy is always below the median out of sample, below one half if it never is, and small for a strategy that beats all others on every sample.", "quantifier": "every performance matrix, evaluation function, even number of partitions and exact integrator", "why_tests_cant": "The degenerate case of equal ranks needs a dominating strategy.", "anchors": ["financial_ml/evaluation/backtest.py: compute_pbo", "financial_ml/utils/stats.py: KDERv"]}
{"id": "C118", "title": "Implied random variable is a probability distribution", "statement": "The random variable returned by implied_underlying_distribution is a probability distribution on non-negative prices whose density is the kernel density estimate of the price samples.", "quantifier": "all quotes, parameters, samplers and exact integrators", "why_tests_cant": "The missing mass is tiny for most inputs.", "anchors": ["financial_ml/tools/option.py: implied_underlying_distribution", "financial_ml/utils/stats.py: KDERv"]}
{"id": "C119", "title": "Quotes to sampling probabilities", "statement": "implied_underlying_distribution samples prices inside the quoted strike ranges with non-negative probabilities that sum to one, made of the non-negative second derivatives of the curves through the quotes, uses the given or the median parity rate, and raises for arguments it cannot use.", "quantifier": "all quote tables, flags, splines and samplers", "why_tests_cant": "Flag combinations and missing tables.", "anchors": ["financial_ml/tools/option.py: implied_underlying_distribution", "financial_ml/tools/option.py: implied_underlying_discrete_pdf"]}
{"id": "C120", "title": "Volatility space interpolation", "statement": "In volatility space the price curve has one Black-Scholes price per grid strike, passes through the quotes, and for quotes sharing one volatility is the Black-Scholes price at that volatility everywhere.", "quantifier": "all quotes and grids, every exact root finder and every interpolating spline", "why_tests_cant": "Composition of root finding, interpolation and pricing.", "anchors": ["financial_ml/tools/option.py: implied_underlying_discrete_pdf", "financial_ml/tools/option.py: implied_volatility"]}
{"id": "C121", "title": "Price ranges are weighted by their implied probability", "statement": "With calls and puts combined, the samples fall in a range of prices with the probability the implied density gives that range.", "quantifier": "all quote tables with a common density", "why_tests_cant": "Invisible when both sides quote the same strikes.", "anchors": ["financial_ml/tools/option.py: implied_underlying_distribution"]}
{"id": "C122", "title": "Daily volatility", "statement": "get_daily_volatility is the debiased exponentially weighted standard deviation of the daily returns up to each bar: missing for the first, zero exactly when all returns so far are equal, unaffected by later bars, proportional to the scale of the returns.", "quantifier": "every series of bars, span and intraday flag", "why_tests_cant": "The recursion accumulates over the whole series; bias and debiasing errors look like a different span.", "anchors": ["financial_ml/utils/time_series.py: get_daily_volatility"]}
{"id": "C123", "title": "Daily volatility is labelled by bar", "statement": "Every daily volatility carries the label of the bar whose return it includes last.", "quantifier": "every series of bars and span", "why_tests_cant": "Consumers that only use positions never notice.", "anchors": ["financial_ml/utils/time_series.py: get_daily_volatility"]}
{"id": "C124", "title": "Recorded imbalance and threshold per tick", "statement": "The two arrays returned beside the bar sizes have one entry per tick: the absolute imbalance (the larger of the buy and sell runs) accumulated since the first tick of the tick's bar, and the threshold in force in that bar, which does not change within it.", "quantifier": "every tick sequence, parameters and initial expectations", "why_tests_cant": "A lagged or one-off array is only seen by comparing it with a recomputation at every tick.", "anchors": ["financial_ml/data_structures/bars.py: _compute_imbalance_bar_sizes", "financial_ml/data_structures/bars.py: _compute_runs_bar_sizes"]}
{"id": "C125", "title": "Exceptions for unusable input", "statement": "Empty tick groups, empty messages and series, empty lag lists, fewer bars than the roll anchoring needs, no or too many folds, odd partition counts, negative barrier multiples, events that start outside the bars or have no valid side or target each raise the exception given in the theorems, and usable input does not.", "quantifier": "all inputs of these functions", "why_tests_cant": "Boundary inputs of many functions; a test per case would still not exclude exceptions on good input.", "anchors": ["financial_ml/data_structures/bars.py: _compute_bar_stats", "financial_ml/data_structures/bars.py: _resample_bar_stats", "financial_ml/labeling/triple_barrier.py: get_event_returns", "financial_ml/evaluation/cross_validation.py: PurgedKFold", "financial_ml/features/entropy.py: lempelziv_lib"]}
{"id": "C126", "title": "VWAP in float64", "statement": "Computed in float64, in any order of additions, the VWAP of a bar of n trades is between its lowest and highest price up to a relative error of (2n+2)/2^53, and exactly between them when prices, volumes and their sums are whole numbers up to 2^53; the error term cannot be dropped.", "quantifier": "all ticks with normal-range products and every summation order", "why_tests_cant": "The excess is one unit in the last place and depends on the data.", "anchors": ["financial_ml/data_structures/bars.py: _compute_bar_stats"]}
{"id": "C127", "title": "Volume and dollar bars in float64", "statement": "Computed in float64, with the rounding of every addition and of numpy's floor division, the bar ids of volume and dollar bars are whole numbers that never go down, each the whole number of freqs in the amount traded up to the tick to within one rounding per addition; for whole-number volumes they are exact, for others not.", "quantifier": "all ticks and frequencies with at most 2^50 bars", "why_tests_cant": "Off-by-one bars appear only at cumulative volumes next to a multiple of freq.", "anchors": ["financial_ml/data_structures/bars.py: aggregate_volume_bars", "financial_ml/data_structures/bars.py: aggregate_dollar_bars"]}
{"id": "C128", "title": "Tick rule in float64", "statement": "Computed in float64 the tick rule is exact: 1 after a rise, -1 after a fall, however small, and the last direction after no change.", "quantifier": "all finite prices up to 2^1022", "why_tests_cant": "Needs prices an ulp or a subnormal apart.", "anchors": ["financial_ml/features/microstructure.py: tick_rule"]}
{"id": "C129", "title": "HRP weights in float64", "statement": "Computed in float64 the two shares of every split of the recursive bisection add up to exactly one, and the weights of n <= 2^d items are between 0 and 1 and add up to one within (2d+2)/2^53.", "quantifier": "all item orders and all cluster variances that are finite, not negative and not both zero", "why_tests_cant": "Rounding accumulates along the tree of splits; tests use a tolerance chosen by eye.", "anchors": ["financial_ml/assets_allocation/HRP.py: _recursive_bisection"]}
{"id": "C130", "title": "Returns and labels in float64", "statement": "Computed in float64 a simple return is zero only for equal prices, positive after any rise and negative after any fall, never below -1, and monotone in the price; the sign label of an event is the sign of its price change.", "quantifier": "all finite positive prices", "why_tests_cant": "Needs neighbouring floats at every scale.", "anchors": ["financial_ml/labeling/triple_barrier.py: _get_triple_barrier_returns", "financial_ml/labeling/triple_barrier.py: get_event_labels", "financial_ml/utils/time_series.py: get_daily_returns"]}
{"id": "C131", "title": "Barrier touches in float64", "statement": "Computed in float64 a horizontal barrier is touched exactly when the return exceeds its limit, except for returns within a band of a few units in the last place around the limit, where the decision can differ from the exact one.", "quantifier": "all prices, multipliers and targets in the normal range, both sides and both barriers", "why_tests_cant": "The band is about 1e-15 wide.", "anchors": ["financial_ml/labeling/triple_barrier.py: _get_triple_barrier_returns"]}
{"id": "C132", "title": "Draw downs in float64", "statement": "Computed in float64 every reported draw down is positive, at most one (at most the high-water mark in dollars), and not smaller for a lower low.", "quantifier": "all high-water marks and lower lows", "why_tests_cant": "A rounded quotient could be one for neighbouring values.", "anchors": ["financial_ml/evaluation/metrics.py: compute_dd_and_tuw"]}
{"id": "C133", "title": "Average uniqueness in float64", "statement": "Computed in float64, in every order of additions, the average uniqueness of an event is positive, at most one, and exactly one when no other event overlaps.", "quantifier": "all concurrency counts and numbers of bars up to 2^53", "why_tests_cant": "A rounded mean could exceed one.", "anchors": ["financial_ml/labeling/weighting.py: label_avg_uniqueness"]}
{"id": "C134", "title": "Returns concentration in float64", "statement": "Computed in float64 the returns concentration is not negative.", "quantifier": "all series of returns", "why_tests_cant": "Of the order of 1e-17, and depends on the number of returns.", "anchors": ["financial_ml/evaluation/metrics.py: compute_hhi_returns_concentration"]}
{"id": "C135", "title": "Exponentially weighted average in float64", "statement": "Computed in float64, with the decay, its powers and every sum rounded, the j-th average is the exact weighted mean with the rounded decay to within 9 (j+1)^2 / 2^53 of the largest value so far; the average of a constant need not be that constant.", "quantifier": "every span below 2^53, every series up to 2^20 values, any power function of known accuracy", "why_tests_cant": "Errors grow with the length of the series; tests compare against the same rounding.", "anchors": ["financial_ml/utils/time_series.py: fast_ewma"]}
{"id": "C136", "title": "Fractional differencing weights in float64", "statement": "Computed in float64, for orders between 0 and 1 there is one weight per observation, 1 at lag 0, in [-1,0] and never larger in magnitude than the one before it after that, within 5k/2^53 of the binomial weight at lag k; whole orders are exact; the fixed window keeps exactly the lags whose weight reaches the threshold; orders below 2^-54 do not difference at all.", "quantifier": "all orders in [0,1], whole orders with small binomials, all sizes and thresholds", "why_tests_cant": "A sign or monotonicity failure would sit in a tail of thousands of lags.", "anchors": ["financial_ml/features/frac_diff.py: _get_weights", "financial_ml/features/frac_diff.py: _get_weights_fixed"]}
{"id": "C137", "title": "CUSUM filter in float64", "statement": "Computed in float64 the CUSUM events are those of exact arithmetic if differences of prices are representable, as for positive prices within a factor of two of each other and for whole numbers; otherwise each event is a rise or fall beyond the threshold, and each such move an event, up to an error of 2^-53 times three variations plus one threshold per step.", "quantifier": "all finite prices and thresholds up to 2^1000", "why_tests_cant": "The accumulated sums differ from price differences only in the last bits.", "anchors": ["financial_ml/features/filters.py: filter_symmetric_cusum"]}
{"id": "C138", "title": "Imbalance bars in float64", "statement": "Computed in float64, imbalance bars end at the first tick where the rounded imbalance reaches the rounded threshold and the bar is large enough, whatever the flow; the bars are those of exact arithmetic as long as the imbalance and the size of a bar stay away from threshold and limits by a margin of 32 N^3 / 2^53 times the largest flow; for tick bars, from the prices on, only the threshold needs a margin; without one the bars can differ for whole prices and default arguments.", "quantifier": "all streams, parameters and summation orders; the comparison up to 2^16 ticks", "why_tests_cant": "A bar one tick too long for constant flow looks like an off-by-one or like noise.", "anchors": ["financial_ml/data_structures/bars.py: _compute_imbalance_bar_sizes", "financial_ml/data_structures/bars.py: aggregate_imblance_bars", "financial_ml/utils/time_series.py: fast_ewma"]}
{"id": "C139", "title": "Runs bars in float64", "statement": "Computed in float64, runs bars end at the first tick where the larger of the rounded buy and sell runs reaches the rounded threshold and the bar is large enough, whatever the flow; the bars, and the exception for a first bar without ticks of one side, are those of exact arithmetic as long as the larger run and the size of a bar stay away from threshold and limits by a margin of 52 N^3 / 2^53 times the largest flow; for tick bars, from the prices on, only the threshold needs a margin; without one the bars can differ for whole prices and default arguments.", "quantifier": "all streams, parameters and summation orders; the comparison up to 2^16 ticks", "why_tests_cant": "Three averages are rounded separately; a difference moves one bar end by one tick and every later bar with it.", "anchors": ["financial_ml/data_structures/bars.py: _compute_runs_bar_sizes", "financial_ml/data_structures/bars.py: aggregate_runs_bars", "financial_ml/utils/time_series.py: fast_ewma"]}
{"id": "C140", "title": "Single linkage of the assets", "statement": "scipy's linkage with its default method, as hrp_allocations calls it, gives n-1 rows in which every item and every cluster is merged exactly once, after it was formed; two items share a cluster of height at most t exactly when a chain of items, each within t of the next, joins them; heights never go down; and the order made from the rows keeps all such groups together at every height.", "quantifier": "every number of items and every symmetric distance", "why_tests_cant": "Ties and long chains; a tree can be valid and still not be the single-linkage tree.", "anchors": ["financial_ml/assets_allocation/HRP.py: hrp_allocations", "financial_ml/assets_allocation/HRP.py: _quasi_diagonalize"]}
{"id": "C141", "title": "HRP from the returns on", "statement": "If no portfolio of the assets is free of risk in the sample, hrp_allocations gives every asset a positive weight, the weights add up to one, are those of recursive bisection with the sample covariance, and keep together assets joined by small distances; scaling all the returns, or adding a constant to those of one asset, changes nothing; it raises ValueError exactly for fewer than two assets or observations or for an asset of constant return.", "quantifier": "all returns matrices", "why_tests_cant": "Composition of covariance, correlation, clustering, ordering and bisection.", "anchors": ["financial_ml/assets_allocation/HRP.py: hrp_allocations", "financial_ml/assets_allocation/HRP.py: _corr_to_dist"]}
{"id": "C142", "title": "The most correlated assets are merged first", "statement": "The first cluster of hrp_allocations consists of the two most correlated assets.", "quantifier": "all returns matrices with a strictly most correlated pair", "why_tests_cant": "True for three assets and for most samples; linkage takes the square distance matrix for observations and clusters by the distance of its rows.", "anchors": ["financial_ml/assets_allocation/HRP.py: hrp_allocations", "financial_ml/assets_allocation/HRP.py: _corr_to_dist"]}
{"id": "C143", "title": "From bars to weights and folds", "statement": "With events sampled by the CUSUM filter on the closes, vertical barriers, and targets above the minimum, every event gets an outcome that starts and ends at bars, not later than the first bar after the holding period; every event then has an average uniqueness in (0,1], the sequential bootstrap can draw from them, the purged folds cover each event once and no training event meets a test event; and bars added later change neither the events sampled nor any outcome that was over before them.", "quantifier": "every bar table with strictly increasing times and non-zero opens, threshold, holding period, targets, multiples, sides, fold count and embargo", "why_tests_cant": "Composition of six functions; a run on a longer history is compared with a run on a shorter one.", "anchors": ["financial_ml/features/filters.py: filter_symmetric_cusum", "financial_ml/utils/time_series.py: get_vertical_barriers", "financial_ml/labeling/triple_barrier.py: get_event_returns", "financial_ml/labeling/triple_barrier.py: get_event_labels", "financial_ml/labeling/weighting.py: label_avg_uniqueness", "financial_ml/labeling/weighting.py: sample_sequential_bootstrap", "financial_ml/evaluation/cross_validation.py: PurgedKFold"]}
{"id": "C144", "title": "Labels are decided after the signal", "statement": "The label of an event sampled by the CUSUM filter on the closes depends on prices after the close that signalled it.", "quantifier": "all bar tables", "why_tests_cant": "The label agrees with the move that sampled the event, which looks like predictive power.", "anchors": ["financial_ml/labeling/triple_barrier.py: _get_triple_barrier_returns", "financial_ml/labeling/triple_barrier.py: get_event_returns", "financial_ml/features/filters.py: filter_symmetric_cusum"]}
{"id": "C145", "title": "The ADF regression", "statement": "With numpy's inverse (elimination with partial pivoting), the ADF regression raises LinAlgError exactly if some non-trivial combination of the regressors vanishes on the sample, in particular with fewer rows than regressors; otherwise its coefficients are the unique least squares coefficients and the statistic is the coefficient of the level over its usual standard error; with as many rows as regressors it is NaN.", "quantifier": "all samples, numbers of regressors and design matrices", "why_tests_cant": "Singular designs are rare in random data, and float rounding hides them.", "anchors": ["financial_ml/features/structural_breaks.py: _fit_adf", "financial_ml/features/structural_breaks.py: sadf_stat"]}
{"id": "C146", "title": "SADF: when it raises, units and level", "statement": "sadf_stat with integer lags raises LinAlgError exactly if on some of its windows the regressors are linearly dependent: always when the shortest window has fewer rows than regressors, and for a constant series with a constant or a lagged difference; new units for the prices change nothing; with a constant term neither does a shift of all prices.", "quantifier": "all series, sample lengths, trend terms and numbers of lags", "why_tests_cant": "A shift changes the lagged level in every window.", "anchors": ["financial_ml/features/structural_breaks.py: sadf_stat", "financial_ml/features/structural_breaks.py: _get_yx", "financial_ml/features/structural_breaks.py: _fit_adf"]}
{"id": "C147", "title": "Recursive residuals and their CUSUM", "statement": "If the first k rows determine the coefficients, there is one CUSUM value and one p-value for each of the other T-k rows: the running sum of the errors of predicting each label from a least squares fit to the rows before it, each over its standard deviation in units of the noise, divided by the sample standard deviation of these errors; their squares add up to the residual sum of squares of the regression on all rows; a positive rescaling of the labels, or adding a stable linear combination of the features, changes no statistic, a negative one only the signs.", "quantifier": "all samples and feature matrices with k independent first rows", "why_tests_cant": "The recursion accumulates over the sample.", "anchors": ["financial_ml/features/structural_breaks.py: recursive_residuals_cusum_stats"]}
{"id": "C148", "title": "CUSUM statistics are causal", "statement": "The CUSUM statistic of a row depends only on the rows up to it.", "quantifier": "all samples", "why_tests_cant": "On a fixed sample the look-ahead is a constant factor.", "anchors": ["financial_ml/features/structural_breaks.py: recursive_residuals_cusum_stats"]}
{"id": "C149", "title": "Implied volatilities to twelve digits", "statement": "With Brent's method as scipy implements it, implied_volatility raises ValueError exactly without a sign change in the bracket, and otherwise either gives up after maxiter rounds, impossible if maxiter times the tolerance exceeds four times the bracket, or returns a point of the bracket within 2e-12 plus 4 * 2^-52 of it from the volatility; an option quote repriced at its implied volatility is met to 201/10^14 of the spot times the root of the time, and so is every quote by the curve drawn through the implied volatilities.", "quantifier": "all functions, brackets, tolerances and iteration limits; all option parameters", "why_tests_cant": "The interpolation steps keep no obvious invariant; convergence of Brent's method is not tested.", "anchors": ["financial_ml/tools/option.py: implied_volatility", "financial_ml/tools/option.py: implied_underlying_discrete_pdf"]}
{"id": "C150", "title": "What the secant search finds", "statement": "With the secant method as scipy implements it, implied_asset_price started above the asset price explaining a call price returns a price above it, never the price itself, at most the start, at which the call is worth at most a cent more than observed, and gives up only if the start is at least 99 cents above; the asset values of the structural default model reproduce the equity values within (1 + |1 - exp(alpha T + beta x)| / (sigma sqrt T)) / 50; without drift predict_default understates the default probability or gives up.", "quantifier": "all option and firm parameters, starting points, tolerances and iteration limits", "why_tests_cant": "The tolerance is a step length in asset units, not a price error.", "anchors": ["financial_ml/tools/option.py: implied_asset_price", "financial_ml/features/systematic_default.py: fit", "financial_ml/features/systematic_default.py: predict_default"]}
{"id": "C151", "title": "The curve through the quotes", "statement": "CubicSpline with its default end condition, as the library uses it for volatilities, prices and yields, raises ValueError exactly for fewer than two or not strictly increasing abscissae or lists of different lengths; otherwise it is the only twice continuously differentiable piecewise cubic through the points whose first two and last two pieces are the same cubic (one parabola for three points, a line for two), reproduces constants, lines, parabolas and cubics, also outside the points, depends linearly on the ordinates, and its second derivative is linear between neighbouring points; interpolated yields are such curves.", "quantifier": "all lists of points", "why_tests_cant": "Uniqueness and smoothness at every point; an implementation can be off at the ends only.", "anchors": ["financial_ml/tools/option.py: implied_underlying_discrete_pdf", "financial_ml/tools/interest_rate.py: interpolate_yield_curve"]}
{"id": "C152", "title": "Arbitrage-free quotes give a density on the whole grid", "statement": "If call prices fall with the strike, by less than the strike rises, and are convex, the density implied in price space is not negative anywhere, so that no strike of the grid is dropped.", "quantifier": "all quotes without static arbitrage", "why_tests_cant": "A spline through convex data is convex for most data.", "anchors": ["financial_ml/tools/option.py: implied_underlying_discrete_pdf"]}
{"id": "C153", "title": "Smoothing the implied density", "statement": "gaussian_filter1d raises for a width of zero or of at most -3/8 and for no positive width; it keeps the number and the sum of the densities and the range they are in, and is linear; so smoothed implied densities are at the same strikes, not negative, have the same total, and are sampled with probabilities that add up to one.", "quantifier": "all positive widths and all densities, also when the filter is longer than the list", "why_tests_cant": "Mass is lost or gained at the ends in other boundary modes; tests look at the middle.", "anchors": ["financial_ml/tools/option.py: implied_underlying_discrete_pdf", "financial_ml/tools/option.py: implied_underlying_distribution"]}
{"id": "C154", "title": "What the rank correlations return", "statement": "kendall_tau_pval and weighted_tau_pval raise ValueError exactly for samples of different sizes, are NaN exactly if a sample is constant, and otherwise return a number in [-1,1]: the correlation of the signs of all differences, for the weighted one averaged over two weightings by 1/(1+rank). It is 1 exactly if the samples are in the same order and -1 exactly if in opposite order, ties included; symmetric; unchanged by strictly increasing transformations of either sample, and for Kendall's tau negated by decreasing ones.", "quantifier": "all pairs of samples, with ties", "why_tests_cant": "Ties enter in three places of the formula; tests use untied samples.", "anchors": ["financial_ml/utils/stats.py: kendall_tau_pval", "financial_ml/utils/stats.py: weighted_tau_pval"]}
{"id": "C155", "title": "The Jarque-Bera p-value", "statement": "jarque_bera_pval raises ValueError exactly for fewer than two observations, is NaN exactly for constant data, and otherwise the probability exp(-JB/2) in (0,1], which is 1 exactly if the third central moment is zero and the fourth three times the square of the second; units and level of the data do not matter.", "quantifier": "all series", "why_tests_cant": "An off-by-one in the moments changes the value slightly.", "anchors": ["financial_ml/utils/stats.py: jarque_bera_pval"]}
{"id": "C156", "title": "Bar times given as a Series", "statement": "Given bar times as a Series, the type CombinatorialPurgedCV declares for them, purging and embargo remove the same training events as given them as an array.", "quantifier": "all events, test intervals, bar times and embargo fractions, with default labels or labelled by the times", "why_tests_cant": "Every split is produced without an error or warning and looks normal; only the training sets are too large.", "anchors": ["financial_ml/evaluation/cross_validation.py: _get_embargo_times", "financial_ml/evaluation/cross_validation.py: apply_purging_and_embargo", "financial_ml/evaluation/backtest.py: CombinatorialPurgedCV"]}
{"id": "C157", "title": "Deflation with one trial per column", "statement": "For at least two trials, one per column as by default, the deflated Sharpe ratio of each trial is at most its probabilistic Sharpe ratio against 0.", "quantifier": "all return matrices with a defined Sharpe ratio in each column", "why_tests_cant": "Deflated values are below one and plausible; for one row per trial the claim is true.", "anchors": ["financial_ml/evaluation/metrics.py: deflated_sharpe_ratio", "financial_ml/evaluation/metrics.py: probabilistic_sharpe_ratio"]}
{"id": "C158", "title": "Position sizes for a Series of bar times", "statement": "budgeted_position_size and gaussian_mixture_position_size, given the bar times as a Series as documented, return the sizes they return for an index.", "quantifier": "all events, bar times and budget functions, with default labels or labelled by the times", "why_tests_cant": "Tests pass an index.", "anchors": ["financial_ml/assets_allocation/position_sizing.py: budgeted_position_size", "financial_ml/assets_allocation/position_sizing.py: gaussian_mixture_position_size", "financial_ml/labeling/weighting.py: count_events_per_bar"]}
{"id": "C159", "title": "The market's expected return in the structural fit", "statement": "FirmStructuralCreditRisk.fit values a firm's equity for an expected excess market return of maturity times (annualised expected return - riskless rate).", "quantifier": "all firm data and every converged fit", "why_tests_cant": "For data a year apart the claim holds.", "anchors": ["financial_ml/features/systematic_default.py: fit"]}
{"id": "C160", "title": "Simulated paths can be reproduced", "statement": "gen_geometric_brownian with a random_state yields the same path whenever it is consumed.", "quantifier": "all parameters, seeds and random number generators; consumed alone or together with another path", "why_tests_cant": "Paths are generators: a test that turns one into a list sees the claim hold.", "anchors": ["financial_ml/utils/simulation.py: gen_geometric_brownian"]}
{"id": "C161", "title": "Instruments of a basket are matched by label", "statement": "basket_to_etf depends only on the numbers of each instrument in each frame, not on the order in which the frames list their columns.", "quantifier": "all frames with the same instruments, in any column orders", "why_tests_cant": "Test frames list the instruments in one order; another order in one frame gives plausible values and no error.", "anchors": ["financial_ml/data_structures/basket.py: basket_to_etf"]}
{"id": "C162", "title": "The ADF scan over orders", "statement": "run_adf_tests raises ValueError exactly for an order that leaves fewer than six observations; otherwise the row of an order holds the t-statistic of the level in the regression of the differenced log price's changes on its level, one lagged change and a constant, 1 lag, two observations fewer than the differenced series has, and a critical value that rises with them towards -2.86154; quoting the prices in other units, or squaring them, changes no row; the statistic is at most the supremum statistic sadf_stat finds on the same series.", "quantifier": "all price columns with gaps and all orders for which the regressors are independent", "why_tests_cant": "adfuller is a library call whose sample size and lag handling a test takes from its output.", "anchors": ["financial_ml/features/frac_diff.py: run_adf_tests", "financial_ml/features/structural_breaks.py: sadf_stat"]}
{"id": "C163", "title": "The ADF p-value", "statement": "augmented_dickey_fuller_pval without options raises ValueError exactly for fewer than four observations; the number of lags it uses is the fewest that minimise n ln(SSE) + 2 lags among 0 to min(N/2-2, ceil(12 (N/100)^(1/4))), all fitted to the rows the longest leaves, a perfect fit winning; the reported regression uses all its rows and has residual degrees of freedom; the p-value is in [0,1] and strictly increasing in the statistic between -18.82 and 2.74; units and level of the series do not matter.", "quantifier": "all series with independent regressors; any maxlag", "why_tests_cant": "The lag choice is invisible in the p-value.", "anchors": ["financial_ml/utils/stats.py: augmented_dickey_fuller_pval"]}
{"id": "C164", "title": "The tree converges to Black-Scholes", "statement": "As the number of steps grows, the European price of binom_option_price tends to the price of bsm_option_price for calls and puts, with any rate, yield, or futures as underlying, and from some number of steps on the tree's probabilities lie in [0,1]; without yield and for a rate that is not negative so does the American call; the control variate's correction of American prices tends to zero; American prices end up above the Black-Scholes price less any margin.", "quantifier": "all positive prices, strikes, maturities and volatilities, all rates and yields", "why_tests_cant": "The tree oscillates around its limit; a wrong drift or step size leaves a small constant error.", "anchors": ["financial_ml/tools/option.py: binom_option_price", "financial_ml/tools/option.py: binom_am_option_price", "financial_ml/tools/option.py: bsm_option_price"]}
{"id": "C165", "title": "Position sizes in float64", "statement": "In float64 and for every order of additions: sizes from probabilities are between -1 and 1 or NaN, NaN only where all bets found are; they are at most half a step and a few roundings per bet from the exact mean of the bets; the test statistic of a probability in (0,1) is finite and has the sign of p - 1/n; discretising is monotone, odd, keeps 0 and changes nothing the second time; budgeted sizes are between -1 and 1, and exactly 1, -1 or 0 for full long, full short or no positions.", "quantifier": "all finite sizes in [-1,1], all steps from 2^-1000 (2^-48 for repetition) to 1, all probabilities, up to 2^50 bets, counts up to 2^53", "why_tests_cant": "Rounding errors show for few inputs only, and depend on the order numpy adds in.", "anchors": ["financial_ml/assets_allocation/position_sizing.py: _discretize_position_sizes", "financial_ml/assets_allocation/position_sizing.py: _avg_active_positions", "financial_ml/assets_allocation/position_sizing.py: position_size_from_probabilities", "financial_ml/assets_allocation/position_sizing.py: budgeted_position_size"]}
{"id": "C166", "title": "Sizes from a divergence in float64", "statement": "In float64, position_size_from_divergence returns the exact size for its inputs, so a coefficient from get_sigmoid_coeff(x, m) gives int(m * max_size) at divergence x.", "quantifier": "all forecasts, prices, coefficients and maximum sizes", "why_tests_cant": "int() truncates: an error in the last digit costs a whole unit for a few inputs.", "anchors": ["financial_ml/assets_allocation/position_sizing.py: position_size_from_divergence", "financial_ml/assets_allocation/position_sizing.py: get_sigmoid_coeff", "financial_ml/assets_allocation/position_sizing.py: _scaled_sigmoid"]}
{"id": "C167", "title": "Limit prices in float64", "statement": "In float64, the limit price of a buy from a long position is the mean of the marginal prices up to a stated error, it raises exactly when the exact computation does, and it is never above the forecast.", "quantifier": "all long positions, targets below a maximum of at most 2^40 units, forecasts and coefficients within the stated ranges; powers of the C library within 0.6 units in the last place", "why_tests_cant": "The error grows with the maximum position because 1 - m^2 cancels near a full position; a price above the forecast needs particular digits.", "anchors": ["financial_ml/assets_allocation/position_sizing.py: compute_limit_price", "financial_ml/assets_allocation/position_sizing.py: _inverse_price"]}
{"id": "C168", "title": "The Shapiro-Wilk p-value", "statement": "shapiro_wilk_pval raises ValueError for fewer than three observations and otherwise returns the p-value of the sorted sample, so the order of the observations does not matter.", "quantifier": "all samples, whatever the routine that computes the statistic", "why_tests_cant": "A test sees a few samples; the claim is for every sample and every order.", "anchors": ["financial_ml/utils/stats.py: shapiro_wilk_pval"]}
{"id": "C169", "title": "The meanness index in float64", "statement": "In float64, get_mmi is the share of steps that move away from the median (above it and rising, or below it and falling), rounded once.", "quantifier": "all series of 2 to 2^53 finite numbers up to 2^1022 in magnitude", "why_tests_cant": "The median of an even number of values is rounded; only values next to each other show it.", "anchors": ["financial_ml/features/filters.py: get_mmi"]}
{"id": "C170", "title": "Bet timings in float64", "statement": "In float64, get_position_timings returns in increasing order the times at which the position, as a real number, becomes zero or changes sign, and the first time if the position starts flat.", "quantifier": "all finite positions at increasing times", "why_tests_cant": "A flip is found from a product of positions, which can underflow; test positions are near one.", "anchors": ["financial_ml/evaluation/metrics.py: get_position_timings"]}
{"id": "C171", "title": "The Sharpe ratio of equal returns in float64", "statement": "In float64, returns that are all equal have standard deviation zero, and a Sharpe ratio that is infinite with their sign, or NaN if they are zero, in whatever order numpy adds.", "quantifier": "all numbers of equal finite returns", "why_tests_cant": "Returns such as 1, 0.5 or 0.25 satisfy the claim.", "anchors": ["financial_ml/evaluation/metrics.py: sharpe_ratio"]}
{"id": "C172", "title": "Time-decay weights in float64", "statement": "In float64, apply_time_decay_to_weights gives every event a weight in [0,1], never smaller for a later event and exactly 1 for the last; all are 1 for an oldest weight of 1; each is within (4n + 24) (1 + rate) roundings of the exact line through 1 at the last event, cut off at 0; it raises IndexError for no events.", "quantifier": "all events with uniqueness of any finite size that is not negative and a total between 2^-400 and 2^400, up to 2^50 events, oldest weights from -1 + 2^-50 to 1", "why_tests_cant": "The last weight is const + slope * total with both rounded; that it is 1 to the last bit is not visible in the formula.", "anchors": ["financial_ml/labeling/weighting.py: apply_time_decay_to_weights"]}
{"id": "C173", "title": "Rare labels in float64", "statement": "In float64, with a threshold that is the double of a fraction a/b, drop_rare_labels drops the same labels as in exact arithmetic with the threshold a/b: a label at exactly the threshold is dropped although neither number is representable.", "quantifier": "all tables of up to 2^30 rows, all fractions in [0,1] with denominators up to 2^20, all tie rules", "why_tests_cant": "Only shares exactly at the threshold are in doubt, such as 1 in 20 for the default 0.05.", "anchors": ["financial_ml/labeling/weighting.py: drop_rare_labels"]}
{"id": "C174", "title": "Bootstrap probabilities in float64", "statement": "In float64 and for every order of additions, the probabilities of the sequential bootstrap are not negative, proportional to the average uniqueness up to 7/2 n roundings, and add up to one within 4n roundings, so for up to 2^24 events within half the tolerance of numpy's choice.", "quantifier": "all lists of average uniqueness with a total between 2^-400 and 2^400, every order of additions", "why_tests_cant": "numpy refuses probabilities that do not add up to one; for long lists the error grows.", "anchors": ["financial_ml/labeling/weighting.py: sample_sequential_boostrap"]}
{"id": "C175", "title": "Return-attribution weights in float64", "statement": "In float64 and for every order of additions, the weights compute_weights_by_returns scales are not negative, proportional to the attributed returns up to 6 n roundings, and their mean is 1 within 7 n roundings.", "quantifier": "all attributed returns with a total between 2^-400 and 2^400, every order of additions", "why_tests_cant": "Accumulated rounding in long samples.", "anchors": ["financial_ml/labeling/weighting.py: compute_weights_by_returns"]}
{"id": "C176", "title": "Embargoes in float64", "statement": "In float64, with the double of a fraction p/d as embargo, PurgedKFold and apply_purging_and_embargo give the training sets they give with an embargo of floor(n p/d) observations.", "quantifier": "all events, test intervals, bars (up to 2^30) and fractions with denominators up to 2^20", "why_tests_cant": "int(n * pct) truncates after rounding; 100 * 0.29 is 28.999999999999996. Most fractions and sizes are right.", "anchors": ["financial_ml/evaluation/cross_validation.py: _get_embargo_times", "financial_ml/evaluation/cross_validation.py: PurgedKFold.split", "financial_ml/evaluation/cross_validation.py: apply_purging_and_embargo"]}
{"id": "C177", "title": "Sample sizes of a mixture in float64", "statement": "In float64, gen_mixed_gaussians returns as many samples as asked for, floor(n p/d) of them from the first component for the double of a probability p/d.", "quantifier": "all sizes up to 2^30, all probabilities in [0,1] and generators", "why_tests_cant": "The first sample is one short for a few sizes and probabilities only.", "anchors": ["financial_ml/utils/simulation.py: gen_mixed_gaussians"]}
{"id": "C178", "title": "Correlation distances in float64", "statement": "In float64, the matrix hrp_allocations computes from the covariances is a distance matrix: entries between 0 and 1, zero for an asset and itself, symmetric, closer for a larger correlation.", "quantifier": "all covariance matrices, entry by entry", "why_tests_cant": "Entries off by 2^-27 where zeros are expected print as 0.0000; variances that are squares satisfy the claim.", "anchors": ["financial_ml/assets_allocation/HRP.py: _corr_to_dist", "financial_ml/assets_allocation/HRP.py: hrp_allocations"]}
{"id": "C179", "title": "The time-weighted return in float64", "statement": "In float64 and for every order of multiplications: if every value is the rounded balance before it, the time-weighted return is exactly 0; if the value once is zero, it is exactly -1; if no period more than halves or doubles the portfolio, it is within 24 n (1 + G) roundings of G - 1, G being the exact product of the n factors.", "quantifier": "all portfolios with positive balances up to 2^1000, up to 2^48 periods, factors whose gains and losses multiply to at most 2^500 and at least 2^-500", "why_tests_cant": "A return of 1e-17 instead of 0 looks like zero; errors accumulate over thousands of cash flows.", "anchors": ["financial_ml/evaluation/metrics.py: compute_time_weighted_return"]}
{"id": "C180", "title": "The holding period in float64", "statement": "In float64 and for every order of additions, compute_holding_period returns None exactly if the position is never reduced or flipped; the reductions weigh what they are worth; with positions of one unit it averages, to five roundings per bet, the days from entry to exit of the bets that end, each rounded once; and it does not depend on the unit of the positions.", "quantifier": "all position series on increasing times, positions that are zero or between 2^-300 and 2^300 in size, up to 2^49 bars", "why_tests_cant": "Differences in the last digit between sizes of 1 and of 3 are within any tolerance of a test; tiny positions are not tested.", "anchors": ["financial_ml/evaluation/metrics.py: compute_holding_period"]}
{"id": "C181", "title": "Rolled series in float64", "statement": "In float64, adjust_rolled_series leaves the first bar as it is when it rolls forward, and the last one when it matches the end and the last bar is not a roll; for prices in ticks of a power of two it gives the prices of exact arithmetic; and the rolled series has no gap at a roll.", "quantifier": "all series of bars and contracts with prices up to 2^900, up to 2^53 bars, all lists of columns; ticks from 2^-1074 to 2^900", "why_tests_cant": "Gaps in the last digit are far below any tolerance; that the sum of the gaps cancels exactly at the end depends on the order of operations.", "anchors": ["financial_ml/data_structures/basket.py: _compute_roll_gaps", "financial_ml/data_structures/basket.py: adjust_rolled_series"]}
{"id": "C182", "title": "The information ratio of two Series", "statement": "information_ratio of two Series is that of the rows for which both have a value, matched by label: the order of the rows, rows that only one of them has, and NaN do not matter. Without a common row it is NaN.", "quantifier": "all pairs of Series of any length with distinct labels, in any order, with and without NaN", "why_tests_cant": "Tests use arrays or equal indices, where matching by label and by position agree.", "anchors": ["financial_ml/evaluation/metrics.py: information_ratio"]}
{"id": "C183", "title": "VPIN in float64", "statement": "With whole volumes that add up to at most 2^53, volume_synchronized_pin in float64 is the exact VPIN rounded once, missing for the same bars, and it lies between 0 and 1 if no bar holds more than volume_per_bar. The compensated sums of pandas are exact there. With fractional volumes this is false: a balanced window can have a VPIN other than 0.", "quantifier": "all series of ticks with finite prices and whole volumes, all bar ids, windows and bar volumes within 53 bits", "why_tests_cant": "Tests compare with a tolerance and cannot tell an exact sum from one that keeps an error from a bar that has left the window.", "anchors": ["financial_ml/features/microstructure.py: volume_synchronized_pin"]}
{"id": "C184", "title": "Non-negative rolled prices in float64", "statement": "In float64 the column of non-negative rolled prices starts at 1 and is never below zero; for prices in ticks of a power of two that move by at most half of the previous close a bar it is the exact column but for 14 roundings a bar; and it is above zero where the exact one is.", "quantifier": "all series of bars and contracts of any length up to 2^45 bars, all lists of columns that adjust the close once, ticks from 2^-1074 to 2^900", "why_tests_cant": "Products that underflow, or lose a sign by rounding, need long series or extreme moves.", "anchors": ["financial_ml/data_structures/basket.py: adjust_rolled_series"]}
{"id": "C185", "title": "Resampled bars in float64", "statement": "In float64 and for every order of additions, a bar resampled from m bars of at most n ticks has the volume of all the ticks but for n+m roundings and their VWAP but for 4n+2m+4 roundings, so that its VWAP is, up to these, between the lowest and the highest price; and it is the VWAP computed from the ticks directly.", "quantifier": "all groupings of ticks into up to 2^50 bars of up to 2^40 ticks, prices and volumes between 2^-300 and 2^300", "why_tests_cant": "A VWAP that differs in the last digit from that of the ticks passes any comparison with a tolerance.", "anchors": ["financial_ml/data_structures/bars.py: _resample_vwap", "financial_ml/data_structures/bars.py: _resample_bar_stats"]}
