(** Model of utils/time_series.py [get_daily_volatility] with the exponentially weighted standard deviation of pandas
    ([Series.ewm(span).std()]: adjust=True, ignore_na=False, bias=False, no missing values). *)
From Verif Require Import Py SeriesModel UtilsModel.
From Coq Require Import Reals Qreals.
Set Implicit Arguments.
Unset Strict Implicit.
Open Scope Qc_scope.

(** pandas/_libs/window/aggregations [ewmcov] of a series with itself: the loop variables *)
Record ewm_state := { em_mean : Qc; em_cov : Qc; em_sum_wt : Qc; em_sum_wt2 : Qc; em_old_wt : Qc }.
Definition ewm_first (x : Qc) : ewm_state := {| em_mean := x; em_cov := 0; em_sum_wt := 1; em_sum_wt2 := 1; em_old_wt := 1 |}.
Definition ewm_step (alpha : Qc) (st : ewm_state) (x : Qc) : ewm_state :=
  let f := 1 - alpha in
  let sum_wt := em_sum_wt st * f in
  let sum_wt2 := em_sum_wt2 st * (f * f) in
  let old_wt := em_old_wt st * f in
  let mean := (old_wt * em_mean st + 1 * x) / (old_wt + 1) in
  let cov := (old_wt * (em_cov st + (em_mean st - mean) * (em_mean st - mean)) + 1 * ((x - mean) * (x - mean))) / (old_wt + 1) in
  {| em_mean := mean; em_cov := cov; em_sum_wt := sum_wt + 1; em_sum_wt2 := sum_wt2 + 1 * 1; em_old_wt := old_wt + 1 |}.
(** the debiased variance; NaN unless the denominator is positive *)
Definition ewm_out (st : ewm_state) : option Qc :=
  let numerator := em_sum_wt st * em_sum_wt st in
  let denominator := numerator - em_sum_wt2 st in
  if qlt 0 denominator then Some (numerator / denominator * em_cov st) else None.
Fixpoint ewm_loop (alpha : Qc) (st : ewm_state) (xs : list Qc) : list (option Qc) :=
  match xs with [] => [] | x :: xs' => let st' := ewm_step alpha st x in ewm_out st' :: ewm_loop alpha st' xs' end.
(** [ewm(span=span).var()]; the first value is NaN.  A span below 1 raises ValueError. *)
Definition ewm_var (xs : list Qc) (span : Z) : res (list (option Qc)) :=
  if (span <? 1)%Z then Err ValueError
  else Ok (match xs with [] => [] | x :: xs' => None :: ewm_loop (ewma_alpha span) (ewm_first x) xs' end).

(** time_series.py:34-46 [get_daily_volatility]: (label, volatility).  The returns are put in a new Series from plain arrays (line 45), so its
    labels are the positions 0, 1, ... *)
Definition get_daily_volatility (day : Z) (times : list Z) (close : list Qc) (span : Z) (intraday : bool) : res (list (nat * option R)) :=
  let rets := daily_returns day times close intraday in
  do vars <- ewm_var rets span;
  Ok (combine (seq 0 (length rets)) (map (option_map (fun v : Qc => sqrt (Q2R (this v)))) vars)).
