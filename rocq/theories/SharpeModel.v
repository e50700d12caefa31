(** Model of evaluation/metrics.py:119-199 (Sharpe ratios) and risk/strategy_risk.py, over the reals. *)
From Verif Require Import Py RNum.
Set Implicit Arguments.
Unset Strict Implicit.
Open Scope R_scope.

(** [np.std] and [np.var] have ddof = 0 *)
Definition moment (k : nat) (l : list R) : R := rmean (map (fun x => (x - rmean l) ^ k) l).
Definition np_var (l : list R) : R := moment 2 l.
Definition np_std (l : list R) : R := sqrt (np_var l).
(** scipy.stats [skew] (biased) and [kurtosis] (excess, biased) *)
Definition skew (l : list R) : R := moment 3 l / (moment 2 l * sqrt (moment 2 l)).
Definition kurtosis (l : list R) : R := moment 4 l / (moment 2 l) ^ 2 - 3.

(** metrics.py:119-127 [sharpe_ratio] of one series; [None] when the deviation is 0 (inf or NaN) or there is no data *)
Definition sharpe_ratio (l : list R) : option R :=
  if Req_EM_T (np_std l) 0 then None else Some (rmean l / np_std l).

(** a matrix is a list of rows *)
Definition column (j : nat) (m : list (list R)) : list R := map (fun row => nth j row 0) m.
Definition columns (n : nat) (m : list (list R)) : list (list R) := map (fun j => column j m) (seq 0 n).
Definition sharpe_axis0 (n : nat) (m : list (list R)) : list (option R) := map sharpe_ratio (columns n m).
Definition sharpe_axis1 (m : list (list R)) : list (option R) := map sharpe_ratio m.

(** metrics.py:130-150 [probabilistic_sharpe_ratio]; [cdf] is the normal cdf; [num_obs] as computed there.
    [None] is NaN; a zero radicand gives an infinite quotient, whose cdf is 0 or 1. *)
Definition psr_radicand (s k sr : R) : R := 1 - s * sr + (k - 1) / 4 * sr ^ 2.
Definition psr_with (cdf : R -> R) (num_obs : nat) (benchmark : R) (l : list R) : option R :=
  match sharpe_ratio l with
  | None => None
  | Some sr =>
      let numer := (sr - benchmark) * sqrt (INR num_obs - 1) in
      let radicand := psr_radicand (skew l) (kurtosis l) sr in
      if Rlt_dec radicand 0 then None
      else if Req_EM_T radicand 0
           then (if Rlt_dec 0 numer then Some 1 else if Rlt_dec numer 0 then Some 0 else None)
           else Some (cdf (numer / sqrt radicand))
  end.
(** axis=None on one-dimensional data: num_obs = returns.size *)
Definition psr (cdf : R -> R) (benchmark : R) (l : list R) : option R := psr_with cdf (length l) benchmark l.
(** [returns.shape[axis] if axis else returns.size]: axis 0 is falsy, so it is rows * columns *)
Definition psr_axis0 (cdf : R -> R) (benchmark : R) (n : nat) (m : list (list R)) : list (option R) :=
  map (psr_with cdf (length m * n) benchmark) (columns n m).
Definition psr_axis1 (cdf : R -> R) (benchmark : R) (n : nat) (m : list (list R)) : list (option R) :=
  map (psr_with cdf n benchmark) m.

(** metrics.py:153-170 [deflated_sharpe_ratio]: the benchmark from the Sharpe ratios of the trials; [ppf] is the normal
    quantile function, [gamma] Euler's constant *)
Definition dsr_benchmark (ppf : R -> R) (gamma : R) (srs : list R) : R :=
  let n := INR (length srs) in
  let a := (1 - gamma) * ppf (1 - 1 / n) in
  let b := gamma * ppf (1 - 1 / n * exp (-1)) in
  sqrt (np_var srs) * (a + b).
Fixpoint all_some {A} (l : list (option A)) : option (list A) :=
  match l with
  | [] => Some []
  | None :: _ => None
  | Some a :: l' => match all_some l' with None => None | Some r => Some (a :: r) end
  end.
(** one row per trial (axis=1); [None] when a Sharpe ratio is not a number or for one trial (ppf 0 = -inf times 0), which makes the benchmark NaN;
    without a trial the code divides by zero *)
Definition deflated_axis1 (cdf ppf : R -> R) (gamma : R) (n : nat) (m : list (list R)) : option (list (option R) * R) :=
  match all_some (sharpe_axis1 m) with
  | None => None
  | Some srs => if (length srs <=? 1)%nat then None else let b := dsr_benchmark ppf gamma srs in Some (psr_axis1 cdf b n m, b)
  end.
(** one column per trial (axis=0, the default) *)
Definition deflated_axis0 (cdf ppf : R -> R) (gamma : R) (n : nat) (m : list (list R)) : option (list (option R) * R) :=
  match all_some (sharpe_axis0 n m) with
  | None => None
  | Some srs => if (length srs <=? 1)%nat then None else let b := dsr_benchmark ppf gamma srs in Some (psr_axis0 cdf b n m, b)
  end.

(** metrics.py:173-180 [annualized_sharpe_ratio] *)
Definition annualized_sharpe_ratio (sr returns_per_year : R) : R := sr * sqrt returns_per_year.
(** metrics.py:183-199 [information_ratio] *)
Definition information_ratio (returns benchmark_returns : list R) : option R :=
  let excess := map (fun p => fst p - snd p) (combine returns benchmark_returns) in
  if Req_EM_T (np_std excess) 0 then None else Some (rmean excess / np_std excess).

(** ** strategy_risk.py *)

(** lines 8-20; [None]: a complex number or a division by zero *)
Definition strategy_sharpe_ratio (p freq profit loss : R) : option R :=
  let numer := (profit - loss) * p + loss in
  if Rlt_dec 0 (p * (1 - p)) then if Req_EM_T profit loss then None else if Rle_dec 0 freq
  then Some (numer / ((profit - loss) * sqrt (p * (1 - p))) * sqrt freq) else None else None.
(** lines 23-37 *)
Definition strategy_required_precision (target freq profit loss : R) : option R :=
  let a := (freq + target ^ 2) * (profit - loss) ^ 2 in
  let b := (2 * freq * loss - target ^ 2 * (profit - loss)) * (profit - loss) in
  let c := freq * loss ^ 2 in
  if Req_EM_T a 0 then None else if Rle_dec 0 (b ^ 2 - 4 * a * c)
  then Some ((- b + sqrt (b ^ 2 - 4 * a * c)) / (2 * a)) else None.
(** [np.isclose(a, b)] *)
Definition isclose (a b : R) : Prop := Rabs (a - b) <= / 100000000 + / 100000 * Rabs b.
Definition isclose_dec (a b : R) : {isclose a b} + {~ isclose a b} := Rle_dec _ _.
(** lines 40-53; the outer [None] is an exception, [Some None] the returned None *)
Definition strategy_required_freq (target p profit loss : R) : option (option R) :=
  let edge := (profit - loss) * p + loss in
  if Req_EM_T edge 0 then None
  else let freq := (target * (profit - loss)) ^ 2 * p * (1 - p) / edge ^ 2 in
       match strategy_sharpe_ratio p freq profit loss with
       | None => None
       | Some sr => if isclose_dec sr target then Some (Some freq) else Some None
       end.
(** lines 56-74 [strategy_probability_of_failure]; [cdf] is the standard normal cdf and [norm.cdf(x, loc, scale)] is
    [cdf ((x - loc) / scale)]; [None]: no positive or no non-positive return, or no real precision *)
Definition rpos (x : R) : bool := if Rlt_dec 0 x then true else false.
Definition strategy_probability_of_failure (cdf : R -> R) (returns : list R) (freq target : R) : option R :=
  let pos := filter rpos returns in
  let neg := filter (fun x => negb (rpos x)) returns in
  match pos, neg with
  | [], _ | _, [] => None
  | _, _ =>
      let p := INR (length pos) / INR (length returns) in
      match strategy_required_precision target freq (rmean pos) (rmean neg) with
      | None => None
      | Some thresh => Some (cdf ((thresh - p) / (p * (1 - p))))
      end
  end.
