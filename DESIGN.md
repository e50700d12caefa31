# Formal model of ndt93/FinancialML in Rocq (Coq 8.16)

The Python library in `/repo/financial_ml` is modelled function by function as small Gallina
functions. The semantic properties listed in `properties.jsonl` are theorems about these functions.

## Layout

`rocq/theories/` is flat. Each area `X` has up to four files:

| file | content |
|------|---------|
| `XModel.v` | the model: one definition per Python function, each citing file and lines |
| `XSpec.v` | vocabulary the property statements need and that does not depend on the model |
| `XProofs.v` | lemmas |
| `XProps.v` | the property theorems, `Print Assumptions`, and non-vacuity examples |

`Num.v` and `Py.v` hold the shared base: rationals with Leibniz equality, finite sums, Python
exceptions as values, pandas/numpy primitives (`searchsorted`, `groupby`, `cumsum`, ...). `RNum.v`
has finite sums over the reals, `Normal.v` the normal distribution function.

| area | source files | model |
|---|---|---|
| bars | data_structures/bars.py | BarsModel (time, tick, volume, dollar, imbalance, runs bars, resampling) |
| basket | data_structures/basket.py | BasketModel (ETF trick, roll gaps), BasketColsModel (ETF trick on frames with labelled columns) |
| series | utils/time_series.py `fast_ewma`, features/microstructure.py `tick_rule` | SeriesModel |
| filters | features/filters.py | FiltersModel |
| fractional differencing | features/frac_diff.py | FracDiffModel; `run_adf_tests` in StatsModel, statsmodels' `adfuller` in AdfModel |
| entropy | features/entropy.py | EntropyModel |
| structural breaks | features/structural_breaks.py | StructModel; RegModel (`np.linalg.inv` by elimination, recursive residuals) |
| microstructure | features/microstructure.py | MicroModel |
| systematic default | features/systematic_default.py | SysDefaultModel; the dataset join in StatsModel |
| labelling | labeling/triple_barrier.py, labeling/weighting.py | BarrierModel, WeightModel |
| cross-validation | evaluation/cross_validation.py, evaluation/backtest.py | CVModel, CombModel, BarSeriesModel (bar times as a Series); FloatProofs for float64 group sizes |
| metrics | evaluation/metrics.py, risk/strategy_risk.py | MetricsModel, SharpeModel, InfoRatioModel (Series with labels) |
| importance | explain/feature_importance.py | CVModel (folds), ImportanceModel (aggregation) |
| allocation | assets_allocation/HRP.py, pca_hedge.py, position_sizing.py | HRPModel, LinkModel (sample covariance and correlation, scipy's default linkage), PositionModel |
| options, rates | tools/option.py, tools/interest_rate.py | OptionModel; scipy's root finders in RootModel, its cubic spline and Gaussian filter in CurveModel; the yield curve in StatsModel; the implied distribution in KDEModel |
| kernel densities | utils/stats.py `KDERv`, end of evaluation/backtest.py `compute_pbo` | KDEModel |
| daily volatility | utils/time_series.py `get_daily_volatility`, pandas `ewm` | UtilsModel, EwmModel |
| binary64 | bars.py ids and VWAP, `tick_rule`, triple-barrier returns, `compute_dd_and_tuw`, `_get_hhi`, `label_avg_uniqueness`, HRP `_recursive_bisection`, `fast_ewma`, `_get_weights`, `_get_weights_fixed`, `filter_symmetric_cusum`, imbalance and runs bars (without the debug arrays), `_discretize_position_sizes`, `_avg_active_positions`, `position_size_from_probabilities`, `budgeted_position_size`, `position_size_from_divergence`, `get_sigmoid_coeff`, `compute_limit_price`, `get_mmi`, `get_position_timings`, `sharpe_ratio`, `apply_time_decay_to_weights`, `drop_rare_labels`, the probabilities of `sample_sequential_boostrap`, the scaling of `compute_weights_by_returns`, `_get_embargo_times`, `apply_purging_and_embargo`, `PurgedKFold.split`, `gen_mixed_gaussians`, `_corr_to_dist`, `compute_time_weighted_return`, `compute_holding_period`, `adjust_rolled_series`, `volume_synchronized_pin`, `_resample_vwap` | Float64, FloatBarsModel, FloatRetModel, FloatHRPModel, FloatSeriesModel, FloatInfoModel, FloatRunsModel, FloatPosModel, FloatLimitModel, FloatStatModel, FloatWeightModel, FloatCVModel, FloatDistModel, FloatTwrModel, FloatHoldModel, FloatRollModel, FloatRollPriceModel, FloatVpinModel, FloatResampleModel |
| across areas | exceptions; recorded imbalance arrays; CUSUM events to labels, weights and folds | ErrorProps, InfoTraceProps, PipelineModel |
| utilities | utils/time_series.py, utils/data.py, utils/simulation.py, utils/stats.py | UtilsModel, StatsModel, TauModel, ShapiroModel, GenModel (paths as generators that share a random state) |

## Numbers, NaN, exceptions

* Prices, volumes, ratios without transcendental functions: canonical rationals `Qc`. Every finite
  float64 is a rational, so quantifying over `Qc` covers all finite inputs. In these models float *rounding*
  is not modelled: an arithmetic operation returns the exact rational. Where rounding itself is the subject
  binary64 is modelled bit by bit: group boundaries of `CombinatorialPurgedCV` and `_discretize_position_sizes`
  with `Coq.Floats.SpecFloat`; VWAP, volume and dollar bar ids, the tick rule, returns, barrier touches,
  draw downs, average uniqueness, the returns concentration, the HRP bisection, the exponentially weighted average, the fractional differencing weights, the CUSUM filter, imbalance bars, runs bars, position sizes and limit prices (files `Float*.v`) with
  Flocq's `binary_float 53 1024`, round to nearest even, in the order of operations of the code (numpy's
  `floor_divide` step by step; sums of arrays in an arbitrary order given as an argument).
* Functions that use `sqrt`, `exp`, `log`, the normal cdf: classical reals `R`.
* NaN/NaT: `None` of an `option`. Infinities are modelled only where they can be returned (MDA importances).
* Timestamps: `Z`. Only order and differences matter.
* Python exceptions: `Err e` of the result type `res`.
* External code (scipy, sklearn, statsmodels, random generators, user classifiers) is a function
  argument; whatever is assumed about it is an explicit hypothesis of the theorem.
* Models over `Qc` are executable. The repo's own unit-test vectors are run through the models as
  `Example`s where the test data is rational, so the model is checked against observed behaviour.

## Trusted base

* Coq's kernel (and `coqchk`), the `vm_compute` reduction used in examples.
* The axioms of the standard library listed per theorem at the end of this file. They are
  `ClassicalDedekindReals.sig_forall_dec`, `ClassicalDedekindReals.sig_not_dec`,
  `FunctionalExtensionality.functional_extensionality_dep` (all from the real numbers),
  `Classical_Prop.classic` (through Coquelicot and Flocq lemmas), and in the non-vacuity examples of the
  root finders (`brentq_exists`) `ClassicalEpsilon.constructive_indefinite_description`. Nothing else,
  and no axiom of this development.
* The correspondence between Python/pandas/numpy semantics and the Gallina text, as argued in the
  comments beside the definitions. `seeded/LOG.jsonl` records how the theorems react when a definition is
  changed.

## Not modelled, or only by contract

* Float rounding outside the binary64 models (see above), memory layout, dtypes, pandas index metadata other than labels, plotting,
  notebooks, printing.
* By contract (an explicit hypothesis): the normal cdf and its inverse, `np.linalg.eigh`, the classifiers and scorers of the cross-validation, random
  generators, statsmodels' `OLS` in its ADF test, scipy's Shapiro-Wilk test, `GaussianMixture`, scipy's linkage for other methods than the
  default, `scipy.integrate.quad` (the exact integral).
* Dtypes. The models take the numeric columns as floats. Known consequences outside the model: an integer volume column
  makes numba reject `fast_ewma` in the runs bars; integer labels of a Series to difference make `col_res[loc] = ...` an
  assignment by position in pandas 1.5; time-zone aware indexes reach `_avg_active_positions` as objects; `bsm_option_price`
  subtracts the dividends in place from an array given as `s0`.
* Not modelled: the `ppf`, `rvs` and moments that scipy derives from a `KDERv`, MultiIndex handling, `Enum` column constants.

## Property by property

`proved`: the statement in `properties.jsonl` is a theorem. `refuted`: the model, which follows the code, violates it; the theorems give the witness and what does hold.

| id | property | outcome | file |
|---|---|---|---|
| C01 | Bars partition the tick stream | proved | `BarsProps.v` |
| C02 | Bar statistics are the OHLCV of the bar's ticks | proved | `BarsProps.v` |
| C03 | Tick bars hold exactly freq ticks | proved | `BarsProps.v` |
| C04 | Volume and dollar bars sample one threshold crossing | proved | `BarsProps.v` |
| C05 | Time bars cover the sampled period | refuted | `BarsProps.v` |
| C06 | Imbalance bars partition the ticks | proved | `InfoBarsProps.v` |
| C07 | Imbalance bars close at the first trigger | proved | `InfoBarsProps.v` |
| C08 | max_bar_size bounds the size of imbalance bars | refuted | `InfoBarsProps.v` |
| C09 | Information-driven bars do not look ahead | proved | `InfoBarsProps.v` |
| C10 | Runs bars partition the ticks | proved | `InfoBarsProps.v` |
| C11 | Runs bars accept every valid tick stream | refuted | `InfoBarsProps.v` |
| C12 | Resampling bars equals aggregating ticks | proved | `BarsProps.v` |
| C13 | fast_ewma is the exponentially weighted mean | proved | `SeriesProps.v` |
| C14 | Tick rule | proved | `SeriesProps.v` |
| C15 | ETF trick accounts for holdings | proved | `BasketProps.v` |
| C16 | ETF trick ignores units | proved | `BasketProps.v` |
| C17 | Rolled futures series are gap free | proved | `BasketProps.v` |
| C18 | match_end keeps the last price raw | refuted | `BasketProps.v` |
| C19 | Rolled price is non-negative | refuted | `BasketProps.v` |
| C20 | Every contract change is a roll | refuted | `BasketProps.v` |
| C21 | Purging removes exactly the overlapping events | proved | `CVProps.v` |
| C22 | Embargo extends test intervals by the stated number of bars | proved | `CVProps.v` |
| C23 | PurgedKFold test folds partition the data | proved | `CVProps.v` |
| C24 | PurgedKFold never leaks | proved | `CVProps.v` |
| C25 | PurgedKFold keeps every admissible event | refuted | `CVProps.v` |
| C26 | Cross-validation never trains on test rows | proved | `CVProps.v` |
| C27 | Defaults of the CV scoring API work | refuted | `CVProps.v` |
| C28 | Combinatorial CV splits | proved | `CombProps.v` |
| C29 | Combinatorial CV backtest paths | proved | `CombProps.v` |
| C30 | Backtest paths do not depend on how often split() ran | refuted | `CombProps.v` |
| C31 | Combinatorial CV groups cover all events in float64 | refuted | `FloatProps.v` |
| C32 | PBO train/test combinations | proved | `CombProps.v` |
| C33 | PBO logit sign reflects the median | proved | `CombProps.v` |
| C34 | Bet timings | refuted | `MetricsProps.v` |
| C35 | Average holding period | proved | `MetricsProps.v`, `UnitsProps.v` |
| C36 | Time-weighted return ignores cash flows | proved | `MetricsProps.v` |
| C37 | HHI concentration is a [0,1] index | proved | `MetricsProps.v` |
| C38 | Drawdowns | proved | `MetricsProps.v` |
| C39 | Time under water ends at recovery | refuted | `MetricsProps.v` |
| C40 | Sharpe ratio invariances | proved | `SharpeProps.v` |
| C41 | Probabilistic Sharpe ratio is always a probability | refuted | `SharpeProps.v` |
| C42 | Probabilistic Sharpe ratio works per axis | refuted | `SharpeProps.v` |
| C43 | Required precision and frequency invert the strategy Sharpe ratio | proved | `SharpeProps.v` |
| C44 | Word frequencies and plug-in entropy | proved | `EntropyProps.v` |
| C45 | Lempel-Ziv library | proved | `EntropyProps.v` |
| C46 | Longest match and Kontoyiannis entropy | proved | `EntropyProps.v` |
| C47 | Encoders preserve order and length | refuted | `EntropyProps.v` |
| C48 | Symmetric CUSUM filter | proved | `FiltersProps.v` |
| C49 | Market meanness index and Hull average | proved | `FiltersProps.v` |
| C50 | Fractional differencing is a group action | proved | `FracDiffProps.v` |
| C51 | Weight-loss threshold | proved | `FracDiffProps.v` |
| C52 | Fixed-window fractional differencing | proved | `FracDiffProps.v` |
| C53 | Triple barrier end time is the first touch | proved | `BarrierProps.v` |
| C54 | Event returns follow the side of the bet | refuted | `BarrierProps.v` |
| C55 | Small targets are filtered | refuted | `BarrierProps.v` |
| C56 | Event labels | refuted | `BarrierProps.v` |
| C57 | Fixed-window event return | refuted | `BarrierProps.v` |
| C58 | Rare labels are dropped | proved | `WeightProps.v` |
| C59 | Concurrency counts | proved | `WeightProps.v` |
| C60 | Average uniqueness | proved | `WeightProps.v` |
| C61 | Sequential bootstrap probabilities | proved | `WeightProps.v` |
| C62 | Return-attribution weights | proved | `WeightProps.v` |
| C63 | Time decay | proved | `WeightProps.v` |
| C64 | Vertical barriers | proved | `UtilsProps.v` |
| C65 | Quasi-diagonalisation is a permutation | proved | `HRPProps.v` |
| C66 | HRP weights are a long-only fully invested portfolio | proved | `HRPProps.v` |
| C67 | Bet sizes are bounded | refuted | `PositionProps.v`, `UnitsProps.v` |
| C68 | Averaging uses active bets only | refuted | `PositionProps.v` |
| C69 | One-sided bet books are sized | refuted | `PositionProps.v` |
| C70 | Sigmoid sizing calibration | proved | `PositionProps.v` |
| C71 | Limit price averages the marginal prices | refuted | `PositionProps.v` |
| C72 | Black-Scholes put-call parity and bounds | proved | `OptionProps.v` |
| C73 | Binomial tree no-arbitrage | proved | `ExerciseProps.v`, `OptionProps.v` |
| C74 | Implied rates invert pricing | proved | `OptionProps.v` |
| C75 | Default count distribution | proved | `SysDefaultProps.v` |
| C76 | Structural model fit converges or raises | proved | `SysDefaultProps.v` |
| C77 | ADF regression rows are aligned and causal | proved | `StructProps.v` |
| C78 | SADF is the supremum over expanding windows | proved | `StructProps.v` |
| C79 | Lag lists are accepted | refuted | `StructProps.v` |
| C80 | Level CUSUM statistic | proved | `StructProps.v` |
| C81 | Roll and Corwin-Schultz spreads | proved | `MicroProps.v` |
| C82 | VPIN is a fraction | refuted | `MicroProps.v` |
| C83 | fill_index fills missing entries | refuted | `UtilsProps.v` |
| C84 | MDI importances are normalised | proved | `ImportanceProps.v` |
| C85 | PCA hedge hits the risk target | proved | `HRPProps.v` |
| C86 | Deflation never raises the Sharpe ratio's probability | proved | `SharpeProps.v` |
| C87 | Probability of failure rises with the target | proved | `SharpeProps.v` |
| C88 | List messages are treated token by token | refuted | `EntropyProps.v` |
| C89 | Daily return pairs | refuted | `UtilsProps.v` |
| C90 | Geometric Brownian motion recursion | proved | `UtilsProps.v` |
| C91 | Ornstein-Uhlenbeck recursion | refuted | `UtilsProps.v` |
| C92 | Gaussian mixtures have the requested composition | refuted | `UtilsProps.v` |
| C93 | Correlation distance is a metric | proved | `HRPProps.v` |
| C94 | Implied volatility inverts Black-Scholes | proved | `OptionProps.v` |
| C95 | Implied asset price is unique | proved | `OptionProps.v` |
| C96 | Implied distribution | proved | `OptionProps.v` |
| C97 | Conditional equity value is a call value | refuted | `SysDefaultProps.v` |
| C98 | Firm factor regression | proved | `SysDefaultProps.v` |
| C99 | Conditional default probability | refuted | `SysDefaultProps.v` |
| C100 | Recursive CUSUM p-values | refuted | `StructProps.v` |
| C101 | ADF regression is least squares | proved | `StructProps.v` |
| C102 | Minimum regression sample | refuted | `StructProps.v` |
| C103 | Roll's noise variance | refuted | `MicroProps.v` |
| C104 | Corwin-Schultz estimates | proved | `MicroProps.v` |
| C105 | High-low volatility | proved | `MicroProps.v` |
| C106 | Price impact coefficients | proved | `MicroProps.v` |
| C107 | VPIN averages absolute imbalances | refuted | `MicroProps.v` |
| C108 | Rank correlation p-values | refuted | `TauProps.v` |
| C109 | MDA importances are finite relative improvements | refuted | `ImportanceProps.v` |
| C110 | Single feature importance has no substitution effect | proved | `ImportanceProps.v` |
| C111 | Autocorrelation statistics | proved | `StatsProps.v` |
| C112 | ADF scan rows | proved | `StatsProps.v` |
| C113 | Default dataset join | proved | `StatsProps.v` |
| C114 | Yield curve interpolates | proved | `StatsProps.v` |
| C115 | Simulated probability of failure | proved | `StatsProps.v` |
| C116 | Probability of failure uses the precision's standard error | refuted | `StatsProps.v` |
| C117 | Probability of backtest overfitting | refuted | `KDEProps.v` |
| C118 | Implied random variable is a probability distribution | refuted | `KDEProps.v` |
| C119 | Quotes to sampling probabilities | proved | `KDEProps.v` |
| C120 | Volatility space interpolation | proved | `KDEProps.v` |
| C121 | Price ranges are weighted by their implied probability | refuted | `DensityProps.v`, `KDEProps.v` |
| C122 | Daily volatility | proved | `EwmProps.v` |
| C123 | Daily volatility is labelled by bar | refuted | `EwmProps.v` |
| C124 | Recorded imbalance and threshold per tick | proved | `InfoTraceProps.v` |
| C125 | Exceptions for unusable input | proved | `ErrorProps.v` |
| C126 | VWAP in float64 | proved | `FloatBarsProps.v` |
| C127 | Volume and dollar bars in float64 | proved | `FloatBarsProps.v` |
| C128 | Tick rule in float64 | proved | `FloatBarsProps.v` |
| C129 | HRP weights in float64 | proved | `FloatHRPProps.v` |
| C130 | Returns and labels in float64 | proved | `FloatRetProps.v` |
| C131 | Barrier touches in float64 | proved | `FloatRetProps.v` |
| C132 | Draw downs in float64 | proved | `FloatRetProps.v` |
| C133 | Average uniqueness in float64 | proved | `FloatRetProps.v` |
| C134 | Returns concentration in float64 | refuted | `FloatConcProps.v`, `FloatRetProps.v` |
| C135 | Exponentially weighted average in float64 | proved | `FloatEwmaProps.v`, `FloatSeriesProps.v` |
| C136 | Fractional differencing weights in float64 | proved | `FloatSeriesProps.v` |
| C137 | CUSUM filter in float64 | proved | `FloatCusumProps.v` |
| C138 | Imbalance bars in float64 | proved | `FloatInfoProps.v`, `FloatTickBarsProps.v`, `UnitsProps.v` |
| C139 | Runs bars in float64 | proved | `FloatRunsProps.v`, `UnitsProps.v` |
| C140 | Single linkage of the assets | proved | `LinkProps.v` |
| C141 | HRP from the returns on | proved | `LinkHRPProps.v` |
| C142 | The most correlated assets are merged first | refuted | `LinkHRPProps.v`, `LinkProps.v` |
| C143 | From bars to weights and folds | proved | `PipelineProps.v` |
| C144 | Labels are decided after the signal | refuted | `PipelineProps.v` |
| C145 | The ADF regression | proved | `RegProps.v` |
| C146 | SADF: when it raises, units and level | proved | `RegProps.v` |
| C147 | Recursive residuals and their CUSUM | proved | `RecProps.v` |
| C148 | CUSUM statistics are causal | refuted | `RecProps.v` |
| C149 | Implied volatilities to twelve digits | proved | `RootProps.v`, `RootQuoteProps.v` |
| C150 | What the secant search finds | proved | `RootFirmProps.v`, `RootProps.v` |
| C151 | The curve through the quotes | proved | `CurveProps.v`, `DensityProps.v` |
| C152 | Arbitrage-free quotes give a density on the whole grid | refuted | `DensityProps.v` |
| C153 | Smoothing the implied density | proved | `DensityProps.v`, `FilterProps.v` |
| C154 | What the rank correlations return | proved | `TauProps.v` |
| C155 | The Jarque-Bera p-value | proved | `TauProps.v` |
| C156 | Bar times given as a Series | refuted | `BarSeriesProps.v` |
| C157 | Deflation with one trial per column | refuted | `DeflateProps.v` |
| C158 | Position sizes for a Series of bar times | refuted | `BarSeriesProps.v` |
| C159 | The market's expected return in the structural fit | refuted | `SysDefaultProps.v` |
| C160 | Simulated paths can be reproduced | refuted | `GenProps.v` |
| C161 | Instruments of a basket are matched by label | refuted | `BasketColsProps.v`, `UnitsProps.v` |
| C162 | The ADF scan over orders | proved | `AdfProps.v` |
| C163 | The ADF p-value | proved | `AdfProps.v` |
| C164 | The tree converges to Black-Scholes | proved | `ConvProps.v` |
| C165 | Position sizes in float64 | proved | `FloatPosProps.v`, `UnitsProps.v` |
| C166 | Sizes from a divergence in float64 | refuted | `FloatDivProps.v` |
| C167 | Limit prices in float64 | refuted | `FloatLimitProps.v` |
| C168 | The Shapiro-Wilk p-value | proved | `ShapiroProps.v` |
| C169 | The meanness index in float64 | refuted | `FloatStatProps.v` |
| C170 | Bet timings in float64 | refuted | `FloatStatProps.v` |
| C171 | The Sharpe ratio of equal returns in float64 | refuted | `FloatStatProps.v` |
| C172 | Time-decay weights in float64 | proved | `FloatWeightProps.v` |
| C173 | Rare labels in float64 | proved | `FloatWeightProps.v` |
| C174 | Bootstrap probabilities in float64 | proved | `FloatWeightProps.v` |
| C175 | Return-attribution weights in float64 | proved | `FloatWeightProps.v` |
| C176 | Embargoes in float64 | refuted | `FloatCVProps.v` |
| C177 | Sample sizes of a mixture in float64 | refuted | `FloatCVProps.v` |
| C178 | Correlation distances in float64 | refuted | `FloatDistProps.v` |
| C179 | The time-weighted return in float64 | proved | `FloatTwrProps.v` |
| C180 | The holding period in float64 | refuted | `FloatHoldProps.v` |
| C181 | Rolled series in float64 | refuted | `FloatRollProps.v` |
| C182 | The information ratio of two Series | proved | `InfoRatioProps.v` |
| C183 | VPIN in float64 | refuted | `FloatVpinProps.v` |
| C184 | Non-negative rolled prices in float64 | refuted | `FloatRollPriceProps.v` |
| C185 | Resampled bars in float64 | refuted | `FloatResampleProps.v` |

## Findings: properties the code violates

Each has a `_refuted` theorem with a witness, and theorems for the part that holds.

* **C05 Time bars cover the sampled period.** an interval without ticks makes the call raise. It raises exactly when there is such a gap, and holds without gaps. (`c05_time_bars_refuted`)
* **C08 max_bar_size bounds the size of imbalance bars.** a bar can exceed max_bar_size by its last tick. Under min <= max and single flows at most v < max every bar is below max + v. (`c08_max_bar_size_refuted`)
* **C11 Runs bars accept every valid tick stream.** one-sided streams raise IndexError. It raises exactly when the first bar closes before both sides have traded (c11_runs_error_exactly). (`c11_runs_bars_refuted`)
* **C18 match_end keeps the last price raw.** the gap of the second-to-last bar is subtracted, so a roll on the last bar leaves the last price off by that roll gap. Proved: off by exactly that gap, raw otherwise. (`c18_match_end_refuted`)
* **C19 Rolled price is non-negative.** a roll bar that falls by more than the previous close makes the price negative. Proved non-negative when no roll bar does. (`c19_rolled_price_refuted`)
* **C20 Every contract change is a roll.** a contract that comes back is not a roll; holds for schedules without return. (`c20_contract_change_refuted`)
* **C25 PurgedKFold keeps every admissible event.** the first event after the test period is dropped. Exact characterisation without embargo proved. (`c25_kfold_refuted`)
* **C27 Defaults of the CV scoring API work.** the default embargo_pct=None raises TypeError, single feature importance raises with both splitters of the library. Holds with an explicit embargo (c26_cv_score_total) and with self-contained splitters. (`c27_cv_defaults_refuted`)
* **C30 Backtest paths do not depend on how often split() ran.** the split indices accumulate. Proved: m runs repeat the paths m times. (`c30_paths_refuted`)
* **C31 Combinatorial CV groups cover all events in float64.** 61 events in 7 groups lose the last event. Proved in binary64: at most the last event is lost, and none when the number of groups divides the number of events. (`c31_float_groups_refuted`)
* **C34 Bet timings.** the first bar is reported when its position is 0 although nothing was closed. Exact otherwise. (`c34_bet_timings_refuted`)
* **C39 Time under water ends at recovery.** highs without a loss before the next high are skipped, so the reported time runs to a later high. Never understated; exact when each high is followed by a loss. (`c39_time_under_water_refuted`)
* **C41 Probabilistic Sharpe ratio is always a probability.** for the returns 1, 3 the radicand is negative (the code uses the excess kurtosis in the formula for the raw one). Proved under a positive radicand, with a sufficient condition; with the raw kurtosis the radicand is never negative. (`c41_psr_refuted`)
* **C42 Probabilistic Sharpe ratio works per axis.** axis=0 is falsy, so rows*columns is used as the number of observations. Holds for axis=1 and for one column; the error always overstates the confidence. (`c42_axis0_refuted`)
* **C47 Encoders preserve order and length.** Refuted in one corner: with n_quantiles=1 the only boundary is the training minimum, so training values themselves get the unknown code. Proved for n_quantiles >= 2, and everything else for all inputs (sigma > 0). (`c47_one_quantile_refuted`)
* **C54 Event returns follow the side of the bet.** an expired short is recorded with the price return (opposite sign). Holds for longs and for touched barriers. The documented short encoding 0 raises AssertionError. (`c54_refuted`)
* **C55 Small targets are filtered.** a filtered event re-appears through the outer join and the whole call raises ValueError. Without filtered events every event is processed. (`c55_refuted`)
* **C56 Event labels.** Label values and causality proved; Refuted corner: an expiry (or start) between bars takes the prices of the next bar, i.e. from after the recorded end; cancel_expired also cancels a touch on the expiry bar and misses events without expiry. (`c56_lookahead_refuted`)
* **C57 Fixed-window event return.** the first bar close-to-close change is added. Exact formula proved, and the claim under the guard that this change is zero or missing. (`c57_refuted`)
* **C67 Bet sizes are bounded.** Holds for mixture sizes, probability sizes and budgets with max. Refuted for other budget functions such as a quantile. (`c67_quantile_budget_refuted`)
* **C68 Averaging uses active bets only.** a finished bet sharing its start with a running one is still averaged. Holds when starts are distinct. (`c68_refuted`)
* **C69 One-sided bet books are sized.** any one-sided book raises IndexError. Books with both sides are sized on every bar. (`c69_one_sided_refuted`)
* **C71 Limit price averages the marginal prices.** for sells the result is 0 (or the negated price), for shorts it has the wrong sign or is 0; no trade and target=max raise ZeroDivisionError. Holds for buys from a non-negative position. (`c71_sell_refuted`, `c71_short_refuted`, `c71_cover_refuted`)
* **C79 Lag lists are accepted.** a lag list always raises TypeError in sadf_stat, and in _get_yx the first listed lag is overwritten by the level. (`c79_lag_list_refuted`, `c79_first_lag_lost_refuted`)
* **C82 VPIN is a fraction.** three ticks of volume 3 in bars of volume 5 give 6/5. Holds when no bar exceeds volume_per_bar; for the library volume bars the excess is at most one tick over the bar volume. (`c82_volume_bars_refuted`)
* **C83 fill_index fills missing entries.** with fill_val<>0 present values are shifted by fill_val and missing ones become 0. Holds for fill_val 0 when the index covers the series; exact value proved in general. (`c83_refuted`)
* **C88 List messages are treated token by token.** tokens are concatenated, so [1, 11] and [11, 1] are the same message. Holds when all tokens have the same width. (`c88_token_lists_refuted`)
* **C89 Daily return pairs.** Refuted for daily data: after a gap the bar is paired with itself (return 0) and the first pair is dropped. Intraday pairing proved; exact daily pairing characterised. (`c89_refuted`)
* **C91 Ornstein-Uhlenbeck recursion.** Refuted for an integer random_state: every step draws the same shock and the path tends to a shifted level. Otherwise proved. (`c91_seeded_refuted`)
* **C92 Gaussian mixtures have the requested composition.** Refuted for seed 0, which is ignored. Composition proved for every seed; reproducibility for non-zero seeds. (`c92_seed_zero_refuted`)
* **C97 Conditional equity value is a call value.** for every debt, rate, volatility and maturity a large enough alpha makes the equity value negative at some asset value. Holds when alpha*T + beta*x <= 0. (`c97_equity_value_negative_refuted`)
* **C99 Conditional default probability.** Refuted for the units: an annualised market return is used as the return over the maturity (agrees only for one year). The rest holds. (`c99_annualised_return_refuted`)
* **C100 Recursive CUSUM p-values.** the standard deviation of the last observation is used throughout, so every earlier p-value of a non-zero statistic is too large. Correct at the last observation. (`c100_null_variance_refuted`)
* **C102 Minimum regression sample.** with n>0 lags the smallest window has min_sample_len - n samples. That bound holds. (`c102_min_sample_refuted`)
* **C103 Roll's noise variance.** prices 0,1,0,1,0 give -5/3. The decomposition holds, and without spread the variance is non-negative. (`c103_noise_variance_negative_refuted`)
* **C107 VPIN averages absolute imbalances.** Refuted for n>1: the absolute value is taken after summing, so opposite imbalances cancel. Never above the documented value; equal for n=1 or imbalances on one side. (`c107_cancellation_refuted`)
* **C108 Rank correlation p-values.** both rank correlation wrappers return the statistic (element 0), -1 for every reversed ranking and 1 for perfect agreement; scipy has no p-value for the weighted tau (c108_no_weighted_pvalue). The Jarque-Bera wrapper returns the p-value (C155). (`c108_statistic_refuted`, `c108_weighted_refuted`)
* **C109 MDA importances are finite relative improvements.** with accuracy scoring one fold with a perfect permuted score and an imperfect original score gives minus infinity. Holds when no permuted score is perfect. (`c109_infinite_refuted`)
* **C116 Probability of failure uses the precision's standard error.** the scale passed to the normal cdf is p(1-p), so repeating the same data does not change the result; it agrees with the standard error only if p(1-p)n = 1 or the threshold is the observed precision. (`c116_sample_size_refuted`, `c116_standard_error_refuted`)
* **C117 Probability of backtest overfitting.** Refuted for the dominating strategy: equal ranks in every combination make the kernel density estimate raise (LinAlgError). The rest is proved; it raises exactly when all ranks are equal. (`c117_dominant_refuted`)
* **C118 Implied random variable is a probability distribution.** the cdf stays below 1 by the mass the estimate puts on negative prices. The density and the cdf are given in closed form. (`c118_mass_refuted`)
* **C121 Price ranges are weighted by their implied probability.** REFUTED: for a flat density the probability of the calls range is the calls share of the quotes, whatever the widths of the ranges; c121_quoted_refuted has quotes for which this happens. (`c121_range_share_refuted`, `c121_quoted_refuted`)
* **C123 Daily volatility is labelled by bar.** REFUTED: the returns are rebuilt from arrays, so labels are 0, 1, ...: always different from the position of the bar. (`c123_labels_refuted`)
* **C134 Returns concentration in float64.** five equal returns of 0.01 have concentration -6.9e-17. It is within 50 n 2^-53 of the exact value, in every order of additions. (`c134_hhi_refuted`)
* **C142 The most correlated assets are merged first.** among four assets the most correlated pair (1/2) is not merged first, a pair with correlation 0.471 is. The pair merged first is the one with the closest rows of the distance matrix (c142_first_merge). (`c142_most_correlated_refuted`)
* **C144 Labels are decided after the signal.** outcomes are counted from the open of the bar whose close is the signal, high and low of that bar included, so a bar that moves by more than the barrier labels its own event whatever follows (c144_labelled_by_its_own_bar); in the witness every later price is lower and the label is 1. (`c144_future_decides_refuted`)
* **C148 CUSUM statistics are causal.** the running sum is causal (c148_residual_causal) but is divided by the standard deviation of the residuals of the whole sample, so that later rows rescale all earlier statistics (c148_rescaled); in the witness the first statistic is sqrt 2 or sqrt 2 / 2 depending on the row after it. (`c148_causal_refuted`)
* **C152 Arbitrage-free quotes give a density on the whole grid.** four convex, falling call prices whose density at the highest strike is negative and is dropped (c152_convex_refuted). What holds: the density is linear between the quoted strikes (c152_between), so nothing is dropped if the spline is convex at the quotes (c152_complete); two quotes have no density and raise (c152_two_quotes). (`c152_convex_refuted`)
* **C156 Bar times given as a Series.** pandas aligns a Series by label when it is given a new index. With default labels and less than one bar of embargo nothing is purged, not even the test events (c156_default_labels_refuted, c156_splits_leak_refuted); with more it raises KeyError. Labelled by its own times the Series works without embargo (c156_own_labels), but with one the test intervals are not extended, or not purged at all if they end in the first bars (c156_own_labels_refuted). (`c156_default_labels_refuted`, `c156_splits_leak_refuted`, `c156_own_labels_refuted`)
* **C157 Deflation with one trial per column.** rows times columns count as observations (C42), so trials with similar Sharpe ratios are raised instead of lowered (c157_default_axis_refuted: two identical trials). The claim holds for a trial exactly if the benchmark makes up for it (c157_exact), and always against the ratio of the same call without deflation (c157_same_axis). A single trial gives NaN (c157_one_trial). (`c157_default_axis_refuted`)
* **C158 Position sizes for a Series of bar times.** with default labels the last bar is looked up under the label -1 and both raise KeyError (c158_default_labels_refuted). For a Series labelled by its own times it holds (c158_own_labels). (`c158_default_labels_refuted`)
* **C159 The market's expected return in the structural fit.** the riskless rate of an interval is subtracted from the annualised expected return, so unless the interval is a year the asset returns of every iteration are not those of the documented model (c159_step_refuted, c159_fit_refuted). Holds for yearly data (c159_yearly_data). (`c159_step_refuted`, `c159_fit_refuted`)
* **C160 Simulated paths can be reproduced.** the first step of a path seeds the global random state, so paths consumed together share the draws of the last one started (c160_together, c160_together_refuted, c160_seed_lost). A path consumed on its own is reproduced (c160_alone). (`c160_together_refuted`)
* **C161 Instruments of a basket are matched by label.** closes, exchange rates, volumes and dividends are combined by position somewhere, so listing one of them in another order changes the basket silently, and so do weights in another order if the frames are not sorted by label (c161_labels_refuted). It holds if all frames list the instruments in one order, whichever (c161_equal_columns, c161_common_order), and for the order of the weights and open prices if the other frames are in ascending order of the labels (c161_weights_and_opens_any_order). (`c161_labels_refuted`, `c161_opens_refuted`)
* **C166 Sizes from a divergence in float64.** calibrated for 15/16 at a divergence of 11, the size of at most 16 units at that divergence is 14, not 15, although all inputs are exact (c166_calibration_refuted). The size is never beyond the maximum, of the right sign, at most one unit from the exact one, and equal to it unless the exact product is within 10 roundings of a whole number (c166_size). The powers are any functions within 0.6 units in the last place (c166_correct_rounding: correct rounding is one). (`c166_calibration_refuted`)
* **C167 Limit prices in float64.** buying 3 of 4 units at a forecast of 0.1 with a tiny coefficient gives a limit price of 0.10000000000000002, above the forecast (c167_above_forecast_refuted). Every single marginal price is at most the forecast (c167_unit), the limit price is within 12 max 2^-53 (|forecast| + sqrt(w max)) of the exact one (c167_buy), and it raises as in exact arithmetic (c167_raises). The powers are any functions within 0.6 units in the last place. (`c167_above_forecast_refuted`)
* **C169 The meanness index in float64.** of the neighbouring numbers 1 + 2^-52 and 1 the median rounds to 1, and the fall to 1 is not counted (c169_mmi_refuted). It holds whenever the two middle values are equal or have a float between them, in particular for every odd number of values (c169_mmi); it raises for fewer than two values (c169_raises). (`c169_mmi_refuted`)
* **C170 Bet timings in float64.** a flip from 2^-600 to -2^-600 is missed, because the product underflows (c170_timings_refuted). It holds if every position is zero or between 2^-500 and 2^500 in magnitude (c170_timings). (`c170_timings_refuted`)
* **C171 The Sharpe ratio of equal returns in float64.** three returns of 0.1 have a mean above 0.1, a standard deviation that is not zero, and a finite ratio above 10^15 (c171_constant_refuted). It holds, for every order of additions, if the returns are M 2^e with |M| times their number below 2^53 (c171_constant). (`c171_constant_refuted`)
* **C176 Embargoes in float64.** of 100 events an embargo of 0.29 discards 28, and the 29th is trained on (c176_folds_refuted). It holds unless n p/d is whole and p/d is not a float (c176_folds, c176_purging), and then the embargo is at most one observation short (c176_count). (`c176_folds_refuted`)
* **C177 Sample sizes of a mixture in float64.** 28 of 100 draws are from the first component for a probability of 0.29 (c177_mixture_refuted). The total is always right, and the first sample at most one short, and only if n p/d is whole and p/d not a float (c177_mixture). (`c177_mixture_refuted`)
* **C178 Correlation distances in float64.** an asset of variance 2 is 2^-27 away from itself (c178_self_refuted), and for variances 2 and 5 and a covariance of 3 the matrix is not symmetric (c178_symmetric_refuted). Entries are between 0 and 1 (c178_entries); the distance is zero exactly for a correlation of 1, decreasing in the correlation and within three roundings of the exact one (c178_distance); an asset is at most 2^-25 away from itself, and at distance 0 if its variance is the square of a float (c178_self). numpy's corrcoef is modelled entry by entry: two divisions and a clip. (`c178_self_refuted`, `c178_symmetric_refuted`)
* **C180 The holding period in float64.** the unit of the positions matters, two hours held with three units are less than with one (c180_scale_refuted); and positions of 2^-600, below the range of the claim, are not seen to end (c180_tiny_refuted). The rest is proved. (`c180_scale_refuted`, `c180_tiny_refuted`)
* **C181 Rolled series in float64.** Refuted as stated for prices that are not ticks of a power of two: with a close of 0.1 and the next open of 0.4 the rolled series falls at the roll (c181_gap_refuted). The rest is proved. The column of non-negative prices is C184. (`c181_gap_refuted`)
* **C183 VPIN in float64.** Refuted as stated for fractional volumes: a purchase and a sale of a tenth leave a VPIN above 0 after two other bars (c183_balanced_refuted). Proved for whole volumes, with the sums of pandas as arguments that are exact on whole numbers; its compensated sums are (c183_group_sum, c183_rolling_sum). (`c183_balanced_refuted`)
* **C184 Non-negative rolled prices in float64.** a new contract that falls by more than the previous close makes it negative, as in exact arithmetic (c184_negative_refuted), and 22 contracts that fall from 2^50 ticks to one take it to zero (c184_positive_refuted). Never below zero without such a fall (c184_nonneg); the accuracy is proved (c184_close). (`c184_negative_refuted`, `c184_positive_refuted`)
* **C185 Resampled bars in float64.** Refuted as stated in the last part: with whole prices and volumes the VWAP of two bars can be larger in the last digit than that of their four ticks (c185_same_refuted). The rest is proved. (`c185_same_refuted`)

## Axioms per theorem (output of `Print Assumptions`)

### No axioms (closed under the global context)

* `BarSeriesProps.v`: `c156_default_labels_refuted`, `c156_splits_leak_refuted`, `c156_default_labels_raises`, `c156_own_labels`, `c156_own_labels_refuted`
* `BarrierProps.v`: `c53_first_touch`, `c53_end_in_life`, `c54_refuted`, `c54_return_sign`, `c54_documented_short_raises`, `c55_refuted`, `c55_filtered_event_raises`, `c55_unfiltered_processed`, `c56_labels`, `c56_label_causal`, `c56_prices_are_bars`, `c53_event_returns`, `c56_lookahead_refuted`, `c56_cancel_corners`, `c57_window_rows`
* `BarsProps.v`: `c01_tick_bars_partition`, `c01_volume_bars_partition`, `c01_dollar_bars_partition`, `c02_bar_bounds`, `c02_bars_conserve`, `c02_compute_bar_stats`, `c02_bar_unique`, `c03_tick_bar_sizes`, `c03_tick_bars_same_bar`, `c04_volume_bars_threshold`, `c04_dollar_bars_threshold`, `c05_time_bars_refuted`, `c05_time_bars_fail_iff_gap`, `c05_time_bars_no_gap`, `c12_resample_is_aggregation`, `c12_resample_time_to_volume`
* `BasketColsProps.v`: `c161_equal_columns`, `c161_common_order`, `c161_weights_and_opens_any_order`, `c161_labels_refuted`
* `BasketProps.v`: `c15_etf_accounts_for_holdings`, `c15_rebalance_spends_the_value`, `c15_volume_is_largest_fill`, `c16_weights_scale`, `c16_units_do_not_matter`, `c17_rolled_series_gap_free`, `c17_adjusted_close_pnl`, `c17_forward_starts_raw`, `c18_match_end_refuted`, `c18_match_end_last_price`, `c19_rolled_price_refuted`, `c19_rolled_price_nonneg`, `c20_contract_change_refuted`, `c20_contract_change_without_return`
* `CVProps.v`: `c21_purging_exact`, `c22_embargo_exact`, `c22_no_start_in_embargo`, `c22_embargo_monotone`, `c22_unknown_bar`, `c23_folds_partition`, `c24_kfold_no_leak`, `c25_kfold_refuted`, `c25_kfold_keeps_all_but_one`, `c26_cv_score_rows`, `c26_cv_score_total`, `c26_mda_rows`, `c26_shuffle_one_column`, `c26_mda_ignored_feature`, `c27_cv_defaults_refuted`, `c27_single_feature_custom_splitter`
* `CombProps.v`: `c28_groups_partition`, `c28_group_rows`, `c28_split_total`, `c28_splits`, `c29_backtest_paths`, `c30_paths_refuted`, `c30_paths_repeat`, `c32_pbo_combinations`, `c32_train_rows`, `c32_pbo_records`, `c32_pbo_total`
* `EntropyProps.v`: `c45_lempelziv_is_lz78`, `c45_lempelziv_dictionary`, `c46_longest_match_is_longest`, `c46_points_in_range`, `c46_points`, `c47_binary_encode`, `c47_quantile_fit`, `c47_quantile_encode`, `c47_one_quantile_refuted`, `c47_sigma_encode`, `c88_single_character_tokens`, `c88_fixed_width_tokens_injective`
* `ErrorProps.v`: `c125_bars`, `c125_rolled`, `c125_encoders`, `c125_holding`, `c125_folds`, `c125_backtests`, `c125_triple_barrier`, `c125_barrier_event`, `c125_missing_target`
* `EwmProps.v`: `c122_second`, `c122_zero_iff`, `c122_affine`
* `FiltersProps.v`: `c48_cusum_events`, `c48_cusum_causal`, `c48_cusum_symmetric`, `c48_gap_restarts`, `c49_mmi_is_fraction`, `c49_mmi_bounds`, `c49_mmi_affine_invariant`, `c49_hull_formula`, `c49_hull_length`, `c49_hull_causal`, `c49_hull_linear`, `c49_hull_constant`, `c49_hull_lag`
* `FloatCVProps.v`: `c176_no_bars`
* `FloatProps.v`: `c31_float_groups_refuted`
* `FloatWeightProps.v`: `c172_raises`
* `FracDiffProps.v`: `c51_expanding_skips_exactly`, `c51_threshold_range`, `c51_loss_decreases`, `c50_composition`, `c50_order0_identity`, `c50_order1_first_difference`, `c50_inverse`, `c52_fixed_weights`, `c52_fixed_values`, `c52_truncation_error`
* `HRPProps.v`: `c65_quasi_diagonalize`, `c65_empty_linkage`, `c65_order_unique`, `c66_recursive_allocation`, `c66_hrp_portfolio`, `c66_inverse_variance`, `c66_cluster_variance`, `c66_split_minimises_variance`
* `InfoBarsProps.v`: `c06_c07_imbalance_bars`, `c06_imbalance_sizes`, `c07_imbalance_sizes`, `c08_max_bar_size_refuted`, `c08_max_bar_size_overshoot`, `c09_imbalance_bars_causal`, `c09_runs_bars_causal`, `c10_runs_bars`, `c10_buy_shares_are_proportions`, `c11_runs_bars_refuted`, `c11_runs_bars_two_sided`, `c06_signed_flow`, `c06_time_unit`, `c11_runs_error_exactly`
* `InfoTraceProps.v`: `c124_imbalance_trace`, `c124_empty`, `c124_runs_trace`
* `KDEProps.v`: `c119_no_quotes`
* `MetricsProps.v`: `c34_bet_timings_under_guard`, `c34_bet_timings_refuted`, `c34_bet_timings_exact`, `c35_holding_period`, `c35_flat_at_end`, `c35_scale_invariant`, `c35_none_iff`, `c36_time_weighted_return`, `c36_no_rows`, `c36_cash_flows_irrelevant`, `c36_every_table`, `c37_concentration_under_guard`, `c37_too_few`, `c37_zero_gains_refuted`, `c37_scale_order`, `c38_drawdowns`, `c38_max_drawdown`, `c38_fractions`, `c39_time_under_water_refuted`, `c39_never_understated`, `c39_time_under_water_under_guard`, `c39_complete`
* `MicroProps.v`: `c82_under_guard`, `c82_volume_bars_refuted`, `c82_volume_bar_bound`, `c107_net_volumes`, `c107_cancellation_refuted`, `c107_at_most_documented`, `c107_same_side`, `c107_value`
* `OptionProps.v`: `c73_no_steps_raises`
* `PipelineProps.v`: `c143_events_processed`, `c143_weights_and_folds`, `c143_causal`, `c144_labelled_by_its_own_bar`, `c144_future_decides_refuted`
* `PositionProps.v`: `c67_budgeted_bounded`, `c67_budgeted_value`, `c67_quantile_budget_refuted`, `c67_budgeted_sizes`
* `SeriesProps.v`: `c13_ewma_adjusted_is_weighted_mean`, `c13_ewma_unadjusted_closed_form`, `c13_ewma_bounded_by_prefix`, `c13_ewma_causal`, `c14_tick_rule_last_move`, `c14_tick_rule_values`, `c14_tick_rule_causal`
* `StatsProps.v`: `c113_rows`, `c113_dates_increase`
* `StructProps.v`: `c102_window_sizes`
* `SysDefaultProps.v`: `c75_no_firms_raises`
* `UnitsProps.v`: `c35_days`, `c165_active`, `c67_no_counts`, `c161_opens_refuted`
* `UtilsProps.v`: `c64_vertical_barriers`, `c83_fill_index_value`, `c83_order`, `c83_refuted`, `c83_under_guard`, `c89_intraday_pairs`, `c89_daily_pairs`, `c89_refuted`, `c92_mixture_sizes`, `c92_seeded_reproducible`, `c92_seed_zero_refuted`
* `WeightProps.v`: `c58_drop_rare_labels`, `c58_vocabulary`, `c58_enough_classes`, `c59_counts`, `c59_empty_raises`, `c60_avg_uniqueness`, `c60_matrix_agrees`, `c61_sequential_bootstrap`, `c61_empty_event_raises`, `c63_time_decay`, `c63_oldest_weight_refuted`, `c63_minus_one_raises`

### `ClassicalDedekindReals.sig_forall_dec`

* `StatsProps.v`: `c114_through_points`

### `ClassicalDedekindReals.sig_forall_dec` `FunctionalExtensionality.functional_extensionality_dep`

* `AdfProps.v`: `c163_p_formula`, `c162_critical`
* `BarSeriesProps.v`: `c158_default_labels_refuted`, `c158_own_labels`
* `CurveProps.v`: `c151_raises`, `c151_through_points`, `c151_smooth`, `c151_unique`, `c151_polynomials`, `c151_keeps_constants`, `c151_linear`, `c151_curvature_between`
* `DensityProps.v`: `c151_is_spline`, `c151_yield_curve`, `c151_between_refuted`
* `EntropyProps.v`: `c44_word_pmf_is_frequencies`
* `ErrorProps.v`: `c125_lags`
* `ImportanceProps.v`: `c109_infinite_refuted`, `c109_under_guard`, `c109_no_damage`, `c109_sign`
* `LinkProps.v`: `c140_linkage_valid`, `c140_single_linkage`, `c140_heights_sorted`, `c140_order_keeps_groups`, `c142_closest_pair_first`
* `MicroProps.v`: `c106_least_squares`, `c106_exact_recovery`, `c106_constant_regressor`, `c106_kyle_rows`, `c106_kyle_exact`, `c106_kyle_constant_signed_volume`
* `OptionProps.v`: `c73_binomial_total`, `c96_sampling_distribution`
* `PositionProps.v`: `c69_one_sided_refuted`, `c69_two_sided_bars`, `c67_mixture_size`, `c67_mixture_bounded`, `c68_refuted`, `c68_under_guard`, `c68_times`, `c67_mixture_sizes`, `c67_discretize_value`, `c68_value`, `c68_time_set`
* `RegProps.v`: `c145_inverse`
* `RootProps.v`: `c150_from_above`, `c150_small`, `c150_start`
* `ShapiroProps.v`: `c168_raises`, `c168_value`, `c168_order`
* `StatsProps.v`: `c111_durbin_watson_range`, `c111_durbin_watson_autocorr`, `c111_durbin_watson_scale`, `c114_invalid`
* `StructProps.v`: `c77_rows`, `c77_integer_lags`, `c77_causal`, `c79_lag_list_refuted`, `c79_never_accepted`, `c79_first_lag_lost_refuted`, `c78_supremum`, `c78_all_nan`, `c102_min_sample_refuted`, `c78_series`, `c78_series_causal`, `c78_series_windows`, `c101_normal_equations`, `c101_least_squares`, `c101_exact_recovery`, `c101_variance`
* `SysDefaultProps.v`: `c75_default_counts`, `c75_total`, `c75_nonnegative`, `c75_mean_and_variance`, `c75_order_irrelevant`, `c76_loop_converged`, `c76_loop_gives_up`

### `ClassicalDedekindReals.sig_forall_dec` `ClassicalDedekindReals.sig_not_dec` `FunctionalExtensionality.functional_extensionality_dep`

* `AdfProps.v`: `c163_max_lags`, `c163_p_range`
* `DeflateProps.v`: `c157_value`, `c157_exact`, `c157_default_axis_refuted`, `c157_one_trial`
* `EwmProps.v`: `c122_value`, `c122_span_error`, `c123_labels_refuted`, `c122_causal`
* `FilterProps.v`: `c153_raises`, `c153_total`, `c153_bounds`, `c153_linear`, `c153_value`
* `GenProps.v`: `c160_alone`, `c160_together`, `c160_together_refuted`, `c160_seed_lost`
* `HRPProps.v`: `c85_pca_risk`, `c85_default_is_smallest`, `c93_corr_distance_metric`, `c93_closer_when_more_correlated`
* `ImportanceProps.v`: `c84_value`, `c84_normalised`, `c84_std`, `c84_no_trees`, `c84_wrong_names`, `c84_unused_forest`, `c110_rows`, `c110_defined`, `c110_no_substitution`, `c110_mean_bounds`, `c110_std`, `c110_equal_scores`
* `InfoRatioProps.v`: `c182_common`, `c182_same_rows`, `c182_disjoint`, `c182_position_refuted`
* `LinkHRPProps.v`: `c141_hrp_from_returns`, `c141_raises`, `c141_units`, `c142_first_merge`
* `LinkProps.v`: `c142_correlation`
* `MicroProps.v`: `c81_roll_nonnegative`, `c81_roll_value`, `c81_roll_too_few`, `c81_roll_affine`, `c103_noise_variance_negative_refuted`, `c103_decomposition`, `c103_no_spread`
* `OptionProps.v`: `c96_pdf_nonnegative`, `c96_pdf_complete`, `c96_return_distribution`
* `PositionProps.v`: `c67_probabilities_bounded`, `c67_bet_direction`, `c70_calibration`, `c70_sigmoid_bounds`, `c70_inverse_price`, `c70_price_of_size`, `c70_size_bounds`, `c71_buy_limit_price`, `c71_buy_between_marginals`, `c71_sell_refuted`, `c71_short_refuted`, `c71_cover_refuted`, `c71_no_trade_raises`, `c71_target_max_raises`, `c67_signal_value`, `c70_size_value`, `c71_buy_value`
* `RecProps.v`: `c148_residual_causal`
* `RootProps.v`: `c149_brentq`, `c149_contract`
* `SharpeProps.v`: `c40_sharpe_defined`, `c40_scale`, `c40_negation`, `c40_value`, `c40_annualized`, `c40_information_ratio`, `c40_axis`, `c41_psr_refuted`, `c41_psr_under_guard`, `c41_sufficient`, `c41_raw_kurtosis`, `c41_range`, `c42_axis1`, `c42_axis0_under_guard`, `c42_axis0_refuted`, `c42_axis0_overconfident`, `c43_required_precision`, `c43_precision_unique`, `c43_precision_monotone`, `c43_required_freq`, `c87_probability_of_failure`, `c41_value`, `c41_no_sharpe`, `c42_axis0_value`, `c43_sharpe_value`, `c43_sharpe_undefined`, `c86_value`, `c87_value`
* `StatsProps.v`: `c111_corr_range`, `c111_autocorr_range`, `c111_autocorr_defined`, `c111_autocorr_affine`, `c111_lag_zero`, `c111_trend`, `c112_rows`, `c112_corr_range`, `c112_order_zero`, `c115_simulated_failure`, `c116_sample_size_refuted`, `c116_standard_error_refuted`, `c111_corr_value`, `c111_autocorr_value`
* `StructProps.v`: `c80_statistic`, `c80_causal`, `c80_affine_invariant`, `c80_pvalue_range`, `c80_short_series`, `c80_reference_outside_raises`, `c100_last_observation`
* `SysDefaultProps.v`: `c98_least_squares`, `c98_recovers_parameters`, `c98_constant_market_raises`, `c98_unusable_series`, `c98_sigma_nonnegative`
* `TauProps.v`: `c154_weighted_symmetric`, `c108_no_weighted_pvalue`, `c155_undefined`, `c155_affine`
* `UtilsProps.v`: `c90_gbm_path`, `c90_gbm_positive`, `c90_gbm_can_go_negative`

### `ClassicalDedekindReals.sig_forall_dec` `Classical_Prop.classic` `FunctionalExtensionality.functional_extensionality_dep`

* `RegProps.v`: `c145_least_squares_exists`

### `ClassicalDedekindReals.sig_forall_dec` `ClassicalDedekindReals.sig_not_dec` `Classical_Prop.classic` `FunctionalExtensionality.functional_extensionality_dep`

* `AdfProps.v`: `c162_raises`, `c162_row`, `c162_test_units`, `c162_row_units`, `c162_scan_units`, `c162_below_supremum`, `c163_raises`, `c163_lags`, `c163_value`, `c163_units`, `c163_pvalue`, `c163_pvalue_raises`, `c163_p_increasing`
* `BarrierProps.v`: `c57_no_window_raises`, `c57_no_bars_raises`, `c57_return_formula`, `c57_refuted`, `c57_under_guard`, `c57_unaligned_gap_raises`
* `CombProps.v`: `c33_logit_sign`
* `ConvProps.v`: `c164_converges`, `c164_american_call`, `c164_control_variate`, `c164_american_above`, `c164_settles`
* `DeflateProps.v`: `c157_same_axis`
* `DensityProps.v`: `c152_raises`, `c152_between`, `c152_complete`, `c152_two_quotes`, `c153_sampling`, `c152_convex_refuted`, `c121_quoted_refuted`
* `EntropyProps.v`: `c44_plugin_entropy_bounds`, `c44_plugin_entropy_zero_iff_one_word`, `c44_plugin_entropy_value`, `c46_konto_value`, `c46_konto_defined`, `c88_token_lists_refuted`
* `ExerciseProps.v`: `c73_american_is_best_exercise`, `c73_european_never_exercises`
* `FilterProps.v`: `c153_densities`
* `FloatBarsProps.v`: `c126_vwap_refuted`, `c126_left_sum`, `c126_vwap_bounds`, `c126_vwap_whole`, `c127_volume_ids`, `c127_dollar_ids`, `c127_exact_refuted`, `c127_whole`, `c128_tick_rule`
* `FloatCVProps.v`: `c176_count`, `c176_folds`, `c176_purging`, `c176_folds_refuted`, `c177_mixture`, `c177_mixture_refuted`
* `FloatConcProps.v`: `c134_hhi_error`
* `FloatCusumProps.v`: `c137_exact`, `c137_exact_within_double`, `c137_exact_whole`, `c137_error`, `c137_exact_refuted`
* `FloatDistProps.v`: `c178_distance`, `c178_entries`, `c178_self`, `c178_self_refuted`, `c178_symmetric_refuted`
* `FloatDivProps.v`: `c166_sigmoid`, `c166_size`, `c166_calibration_refuted`, `c166_correct_rounding`
* `FloatEwmaProps.v`: `c135_ewma_exact`
* `FloatHRPProps.v`: `c129_split`, `c129_weights`
* `FloatHoldProps.v`: `c180_unit_rows`, `c180_unit_average`, `c180_weights`, `c180_none`, `c180_scale_refuted`, `c180_tiny_refuted`, `c180_no_rows`
* `FloatInfoProps.v`: `c138_first_close`, `c138_same_bars`, `c138_same_bars_whole`
* `FloatLimitProps.v`: `c167_unit`, `c167_buy`, `c167_raises`, `c167_above_forecast_refuted`
* `FloatPosProps.v`: `c165_any_step_bounded`, `c165_discretize`, `c165_discretize_monotone`, `c165_discretize_odd`, `c165_discretize_idempotent`, `c165_tie_refuted`, `c165_multiple_refuted`, `c165_average_refuted`, `c165_average`, `c165_bet`, `c165_sizes`, `c165_budgeted`, `c165_statistic`, `c165_times`
* `FloatProps.v`: `c31_float_groups_cover_all_but_last`, `c31_float_groups_divisible`
* `FloatResampleProps.v`: `c185_resample`, `c185_bounds`, `c185_direct`, `c185_same_refuted`
* `FloatRetProps.v`: `c130_return`, `c130_label`, `c131_touch`, `c131_exact_refuted`, `c132_drawdown`, `c133_uniqueness`, `c134_hhi_refuted`
* `FloatRollPriceProps.v`: `c184_nonneg`, `c184_close`, `c184_negative_refuted`, `c184_positive_refuted`, `c184_no_bars`
* `FloatRollProps.v`: `c181_ticks`, `c181_first`, `c181_last`, `c181_gap_refuted`
* `FloatRunsProps.v`: `c139_first_close`, `c139_same_bars`, `c139_same_bars_whole`, `c139_tick_bars`, `c139_exact_refuted`
* `FloatSeriesProps.v`: `c135_ewma_any_power`, `c135_ewma`, `c135_decay`, `c135_power`, `c135_constant_refuted`, `c136_weights`, `c136_whole_orders`, `c136_order_one`, `c136_order_zero`, `c136_fixed_window`, `c136_small_orders`
* `FloatStatProps.v`: `c169_mmi`, `c169_raises`, `c169_mmi_refuted`, `c170_timings`, `c170_timings_refuted`, `c171_constant`, `c171_constant_refuted`
* `FloatTickBarsProps.v`: `c138_tick_bars`, `c138_exact_refuted`
* `FloatTwrProps.v`: `c179_left_product`, `c179_unchanged`, `c179_return`, `c179_total_loss`
* `FloatVpinProps.v`: `c183_group_sum`, `c183_rolling_sum`, `c183_vpin`, `c183_fraction`, `c183_balanced_refuted`
* `FloatWeightProps.v`: `c172_decay`, `c173_rare`, `c174_probs`, `c174_accepted`, `c175_normalized`
* `KDEProps.v`: `c117_pbo_value`, `c117_pbo_is_probability`, `c117_pbo_records`, `c117_median`, `c117_raises_iff`, `c117_dominant_refuted`, `c118_densities`, `c118_cdf_value`, `c118_mass_refuted`, `c119_discrete_pdf`, `c119_sampling`, `c119_smoothed`, `c119_no_mass`, `c119_rate`, `c119_exceptions`, `c120_points`, `c120_reproduces_quotes`, `c120_flat_smile`, `c120_root_error`, `c121_range_share_refuted`
* `MicroProps.v`: `c105_value`, `c105_nonnegative`, `c105_scale_invariant`, `c105_constant_range`, `c104_rows`, `c81_corwin_schultz_range`, `c104_volatility_nonnegative`, `c104_pure_spread_exact`, `c104_scale_invariant`, `c104_window`, `c106_amihud_rows`, `c106_amihud_equal_dollar_volume`, `c106_hasbrouck_rows`, `c106_no_rows`, `c104_value`
* `OptionProps.v`: `c72_value`, `c72_put_call_parity`, `c72_bounds`, `c72_monotone_spot`, `c72_monotone_strike`, `c72_monotone_volatility`, `c72_both_dividends_refused`, `c73_probability`, `c73_european_is_binomial_expectation`, `c73_put_call_parity`, `c73_american_dominates`, `c73_american_call_is_european`, `c73_upper_bounds`, `c73_parity_needs_sound_tree`, `c73_control_variates`, `c74_rates`, `c74_parity_quotes_recover_rate`, `c74_recovers_bsm_rate`, `c74_forward_rate`, `c74_forward_rate_unique`, `c74_median`, `c74_no_common_strike`, `c94_recovers_volatility`, `c94_outside_bracket_raises`, `c94_arbitrage_price_raises`, `c95_asset_price_unique`, `c96_breeden_litzenberger`
* `RecProps.v`: `c147_residual`, `c147_sum_of_squares`, `c147_affine`, `c147_statistics`, `c147_invariant`, `c148_rescaled`, `c147_constant`, `c148_causal_refuted`
* `RegProps.v`: `c145_raises`, `c145_short_raises`, `c145_statistic`, `c145_square`, `c146_raises`, `c146_short_sample_raises`, `c146_scale`, `c146_shift`, `c146_constant_raises`, `c146_level_refuted`
* `RootFirmProps.v`: `c150_equity_moves`, `c150_firm_value`, `c150_fit`, `c150_predict`, `c150_no_drift`
* `RootProps.v`: `c149_implied_volatility`, `c150_asset_price`, `c150_exact_refuted`
* `RootQuoteProps.v`: `c149_vega`, `c149_repriced`, `c149_quotes`
* `SharpeProps.v`: `c86_benchmark_nonneg`, `c86_deflation_lowers`
* `StructProps.v`: `c100_null_variance_refuted`
* `SysDefaultProps.v`: `c76_fit_converges_or_raises`, `c76_asset_values_explain_equity`, `c76_no_iterations_raises`, `c97_equity_value_negative_refuted`, `c97_equity_value_under_guard`, `c97_equity_value_increasing`, `c97_asset_value_unique`, `c97_no_drift_is_bsm`, `c99_is_probability`, `c99_default_event`, `c99_monotone`, `c99_annualised_return_refuted`, `c99_one_year`, `c75_systematic`, `c76_fit_values`, `c159_step_refuted`, `c159_fit_refuted`, `c159_yearly_data`, `c76_firm_data`, `c75_systematic_firms`, `c97_value`
* `TauProps.v`: `c154_undefined`, `c154_value`, `c154_extremes`, `c154_symmetric`, `c154_monotone`, `c154_weighted_undefined`, `c154_weighted_value`, `c154_weighted_extremes`, `c154_weighted_monotone`, `c108_statistic_refuted`, `c108_weighted_refuted`, `c108_not_probability`, `c155_pvalue`
* `UnitsProps.v`: `c138_flows`, `c139_rows`
* `UtilsProps.v`: `c91_ou_path`, `c91_half_life`, `c91_seeded_refuted`
* `WeightProps.v`: `c62_weights_normalised`, `c62_attributions_add_up`, `c62_attribution_value`, `c62_weight_value`, `c62_lone_event`

### `ClassicalDedekindReals.sig_forall_dec` `ClassicalDedekindReals.sig_not_dec` `Classical_Prop.classic` `FloatAxioms.Prim2SF_SF2Prim` `FloatAxioms.Prim2SF_valid` `FloatAxioms.SF2Prim_Prim2SF` `FloatAxioms.abs_spec` `FloatAxioms.add_spec` `FloatAxioms.classify_spec` `FloatAxioms.compare_spec` `FloatAxioms.div_spec` `FloatAxioms.eqb_spec` `FloatAxioms.frshiftexp_spec` `FloatAxioms.ldshiftexp_spec` `FloatAxioms.ltb_spec` `FloatAxioms.mul_spec` `FloatAxioms.next_down_spec` `FloatAxioms.next_up_spec` `FloatAxioms.normfr_mantissa_spec` `FloatAxioms.of_uint63_spec` `FloatAxioms.opp_spec` `FloatAxioms.sqrt_spec` `FloatAxioms.sub_spec` `FunctionalExtensionality.functional_extensionality_dep` `PrimFloat.abs` `PrimFloat.add` `PrimFloat.classify` `PrimFloat.compare` `PrimFloat.div` `PrimFloat.eqb` `PrimFloat.float` `PrimFloat.frshiftexp` `PrimFloat.ldshiftexp` `PrimFloat.ltb` `PrimFloat.mul` `PrimFloat.next_down` `PrimFloat.next_up` `PrimFloat.normfr_mantissa` `PrimFloat.of_uint63` `PrimFloat.opp` `PrimFloat.sqrt` `PrimFloat.sub` `PrimInt63.add` `PrimInt63.addc` `PrimInt63.addcarryc` `PrimInt63.addmuldiv` `PrimInt63.compare` `PrimInt63.div` `PrimInt63.diveucl` `PrimInt63.diveucl_21` `PrimInt63.eqb` `PrimInt63.head0` `PrimInt63.int` `PrimInt63.land` `PrimInt63.leb` `PrimInt63.lor` `PrimInt63.lsl` `PrimInt63.lsr` `PrimInt63.ltb` `PrimInt63.lxor` `PrimInt63.mod` `PrimInt63.mul` `PrimInt63.mulc` `PrimInt63.sub` `PrimInt63.subc` `PrimInt63.subcarryc` `PrimInt63.tail0` `Uint63.add_spec` `Uint63.addc_def_spec` `Uint63.addcarryc_def_spec` `Uint63.addmuldiv_def_spec` `Uint63.compare_def_spec` `Uint63.div_spec` `Uint63.diveucl_21_spec` `Uint63.diveucl_def_spec` `Uint63.eqb_correct` `Uint63.eqb_refl` `Uint63.head0_spec` `Uint63.land_spec` `Uint63.leb_spec` `Uint63.lor_spec` `Uint63.lsl_spec` `Uint63.lsr_spec` `Uint63.ltb_spec` `Uint63.lxor_spec` `Uint63.mod_spec` `Uint63.mul_spec` `Uint63.mulc_spec` `Uint63.of_to_Z` `Uint63.sub_spec` `Uint63.subc_def_spec` `Uint63.subcarryc_def_spec` `Uint63.tail0_spec`

* `LinkHRPProps.v`: `c142_most_correlated_refuted`

