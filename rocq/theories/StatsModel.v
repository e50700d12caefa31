(** Model of the series statistics in utils/stats.py, [run_adf_tests] of features/frac_diff.py, the dataset join of features/systematic_default.py,
    [interpolate_yield_curve] of tools/interest_rate.py and [simulate_strategy_probability_of_failure] of risk/strategy_risk.py. *)
From Verif Require Import Py RNum SysDefaultModel SharpeModel FracDiffModel UtilsModel.
From Coq Require Import Qreals.
Set Implicit Arguments.
Unset Strict Implicit.
Open Scope R_scope.

(** Pearson correlation of two samples of equal length; [None] is NaN (a constant or empty sample) *)
Definition cov_sum (xs ys : list R) : R := rsum (zip_with (fun x y => (x - rmean xs) * (y - rmean ys)) xs ys).
Definition corr (xs ys : list R) : option R :=
  let d := sqrt (cov_sum xs xs) * sqrt (cov_sum ys ys) in if Req_EM_T d 0 then None else Some (cov_sum xs ys / d).
(** stats.py:8-9 [pearson_autocorr]: Series.autocorr correlates the series with itself shifted by a lag (here not negative), without the NaN rows the shift makes *)
Definition pearson_autocorr (series : list R) (lag : nat) : option R := corr (skipn lag series) (firstn (length series - lag) series).
(** stats.py:12-13 [durbin_watson_stat]: statsmodels' sum of squared differences over the sum of squares; [None] is NaN *)
Definition durbin_watson_stat (series : list R) : option R :=
  let ss := rsum (map (fun e => e * e) series) in
  if Req_EM_T ss 0 then None else Some (rsum (map (fun d => d * d) (diff series)) / ss).

(** frac_diff.py:99-120 [run_adf_tests]; [log_prices] is the logarithm of the price column, [adf] the first four values and the 5% critical value of adfuller,
    which may raise.  [adf_out.loc[d] = ...] replaces the row of a repeated order. *)
Definition real (x : Qc) : R := Q2R (this x).
Section Adf.
  Variable A : Type.
  Variable adf : list Qc -> res A.
  Definition adf_row (log_prices : list (option Qc)) (d : Qc) : res (A * option R) :=
    let fd := frac_diff_fixed log_prices d (q 1 100) in
    let at_index := map (fun iv => nth (fst iv) log_prices None) fd in
    let c := corr (map (fun o => match o with Some x => real x | None => 0 end) at_index) (map (fun iv => real (snd iv)) fd) in
    do a <- adf (map snd fd); Ok (a, c).
  Fixpoint set_order (d : Qc) (v : A * option R) (rows : list (Qc * (A * option R))) : list (Qc * (A * option R)) :=
    match rows with [] => [(d, v)] | (e, w) :: rows' => if qeq d e then (e, v) :: rows' else (e, w) :: set_order d v rows' end.
  Definition run_adf_tests (log_prices : list (option Qc)) (orders : list Qc) : res (list (Qc * (A * option R))) :=
    fold_left (fun acc d => do rows <- acc; do v <- adf_row log_prices d; Ok (set_order d v rows)) orders (Ok []).
End Adf.

(** systematic_default.py:185-191 [create_systematic_default_dataset]; [DataFrame.merge(on='date')] is an inner join keeping the order of the left rows,
    and for each of these the order of the matching right rows.  Yields may be missing. *)
Definition merge (A B : Type) (l : list (Z * A)) (r : list (Z * B)) : list (Z * (A * B)) :=
  flat_map (fun a => map (fun b => (fst a, (snd a, snd b))) (filter (fun b => (fst b =? fst a)%Z) r)) l.
Definition create_systematic_default_dataset (F P : Type) (firm : list (Z * F)) (yields : list (Z * option P)) (bonds equities : list (Z * P)) : list (Z * (F * option P * P * P)) :=
  filter (fun row => match snd row with (_, y, _, _) => match y with Some _ => true | None => false end end)
    (map (fun row => match row with (d, (((f, y), b), e)) => (d, (f, y, b, e)) end) (merge (merge (merge firm yields) bonds) equities)).

(** interest_rate.py:5-12 [interpolate_yield_curve]; [spline] is scipy's CubicSpline *)
Definition interpolate_yield_curve (spline : list R -> list R -> res (R -> R)) (term_structure : list (R * R)) : res (R -> R) :=
  spline (map fst term_structure) (map snd term_structure).

(** strategy_risk.py:75-92 [simulate_strategy_probability_of_failure] *)
Definition simulate_strategy_probability_of_failure (St : Type) (seed_state : Z -> St) (normal : St -> R -> R -> nat -> list R * St) (shuffle : St -> list R -> list R * St)
  (cdf : R -> R) (st : St) (mu1 mu2 sigma1 sigma2 : R) (prob1 : Qc) (n_samples : nat) (freq target : R) : option R :=
  strategy_probability_of_failure cdf (gen_mixed_gaussians seed_state normal shuffle st mu1 mu2 sigma1 sigma2 prob1 n_samples None) freq target.
