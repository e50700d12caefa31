(** Model of statsmodels' [adfuller] with regression='c', as called by [run_adf_tests] (frac_diff.py:118) and
    [augmented_dickey_fuller_pval] (stats.py:35-36).  Real numbers stand for floats.  statsmodels 0.13.5,
    tsa/stattools.py [adfuller] and [_autolag], tsa/adfvalues.py [mackinnonp] and [mackinnoncrit]. *)
From Verif Require Import Py RNum StructModel RegModel FracDiffModel UtilsModel StatsModel.
Set Implicit Arguments.
Unset Strict Implicit.
Open Scope R_scope.

(** What is read off [OLS(y, x).fit()]: the sum of the squared residuals, the rank of the regressors and the t-value of the first coefficient
    (None: NaN or infinite).  [ols k y x] is the fit on the first [k] columns of [x]. *)
Record ols_fit := OlsFit { ssr : R; rank : nat; tvalue : option R }.
Section Adf.
  Variable ols : nat -> list R -> list (list R) -> ols_fit.
  Variable cdf : R -> R.

  (** the changes explained, and the rows of regressors: the level before the change, the [lags] changes before it, and the constant.  The first
      [skip] changes are left out.  statsmodels has the constant first while it searches the number of lags, last in the fit it reports; the
      order does not enter what is read off the former. *)
  Definition adf_y (x : list R) (skip : nat) : list R :=
    map (fun t => nth (skip + 1 + t) x 0 - nth (skip + t) x 0) (seq 0 (length x - 1 - skip)).
  Definition adf_x (x : list R) (skip lags : nat) : list (list R) :=
    map (fun t => nth (skip + t) x 0 :: map (fun lag => nth (skip + 1 + t - lag) x 0 - nth (skip + t - lag) x 0) (seq 1 lags) ++ [1])
        (seq 0 (length x - 1 - skip)).

  (** int(np.ceil(12 * (nobs / 100) ** (1 / 4))): the first whole number whose fourth power is large enough, found below [n + 12] *)
  Definition schwert (n : nat) : nat :=
    hd 0%nat (filter (fun c => (12 ^ 4 * Z.of_nat n <=? 100 * Z.of_nat c ^ 4)%Z) (seq 0 (n + 13))).
  (** nobs // 2 - ntrend - 1 *)
  Definition lag_limit (n : nat) : Z := (Z.of_nat (n / 2) - 2)%Z.
  Definition max_lags (n : nat) (maxlag : option nat) : res nat :=
    match maxlag with
    | None => let m := Z.min (lag_limit n) (Z.of_nat (schwert n)) in if (m <? 0)%Z then Err ValueError else Ok (Z.to_nat m)
    | Some m => if (lag_limit n <? Z.of_nat m)%Z then Err ValueError else Ok m
    end.

  (** Akaike's criterion of a fit to [n] rows; None is minus infinity (no residuals) *)
  Definition aic (n : nat) (f : ols_fit) : option R :=
    if Req_EM_T (ssr f) 0 then None
    else Some (INR n * ln (2 * PI) + INR n * ln (ssr f / INR n) + INR n + 2 * INR (rank f)).
  Definition aic_lt (a b : option R) : bool :=
    match a, b with None, Some _ => true | Some v, Some w => if Rlt_dec v w then true else false | _, None => false end.
  (** [min((aic, lags))]: the smallest criterion, of several the fewest lags *)
  Definition lags_aic (x : list R) (m lags : nat) : option R :=
    aic (length x - 1 - m) (ols (lags + 2) (adf_y x m) (adf_x x m lags)).
  Definition best_lag (x : list R) (m : nat) : nat :=
    fold_left (fun best l => if aic_lt (lags_aic x m l) (lags_aic x m best) then l else best) (seq 1 m) 0%nat.

  (** MacKinnon's approximate p-value (constant, one series) and 5% critical value *)
  Definition mackinnon_p (s : R) : R :=
    if Rlt_dec (274 / 100) s then 1
    else if Rlt_dec s (- (1883 / 100)) then 0
    else if Rle_dec s (- (161 / 100)) then cdf (21659 / 10000 + 14412 / 10000 * s + 38269 / 1000000 * s ^ 2)
    else cdf (17339 / 10000 + 93202 / 100000 * s - 12745 / 100000 * s ^ 2 - 10368 / 1000000 * s ^ 3).
  Definition mackinnon_5pct (nobs : nat) : R :=
    let n := INR nobs in - (286154 / 100000) - 28903 / 10000 / n - 4234 / 1000 / n ^ 2 - 4004 / 100 / n ^ 3.

  (** [adfuller]: statistic, p-value, lags, observations and 5% critical value; [autolag]: 'AIC' (the default) or None *)
  Definition adfuller (x : list R) (maxlag : option nat) (autolag : bool) : res (option R * option R * nat * nat * R) :=
    do m <- max_lags (length x) maxlag;
    let lags := if autolag then best_lag x m else m in
    let f := ols (lags + 2) (adf_y x lags) (adf_x x lags lags) in
    let nobs := (length x - 1 - lags)%nat in
    Ok (tvalue f, option_map mackinnon_p (tvalue f), lags, nobs, mackinnon_5pct nobs).

  (** stats.py:35-36 [augmented_dickey_fuller_pval] without keyword arguments *)
  Definition augmented_dickey_fuller_pval (x : list R) : res (option R) :=
    do r <- adfuller x None true; let '(_, p, _, _, _) := r in Ok p.
  (** frac_diff.py:118 the test of one fractionally differenced series *)
  Definition scan_test (x : list Qc) : res (option R * option R * nat * nat * R) := adfuller (map real x) (Some 1%nat) false.
End Adf.
