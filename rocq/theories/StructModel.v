(** Model of features/structural_breaks.py.  Real numbers stand for floats, None for NaN (and for the non-finite results of a division by zero). *)
From Verif Require Import Py RNum SysDefaultModel.
Set Implicit Arguments.
Unset Strict Implicit.
Open Scope R_scope.

(** ** CUSUM *)
(** structural_breaks.py:9-27 [recursive_residuals_cusum_stats]: p-values of the CUSUM series [cusum] that statsmodels computes from a T x k design *)
Definition one_sided (cdf : R -> R) (z : R) : R := Rmin (cdf z) (1 - cdf z).
Definition recursive_cusum_pvals (cdf : R -> R) (T k : nat) (cusum : list R) : list R := map (fun c => one_sided cdf (c / sqrt (INR (T - k - 1)))) cusum.
(** structural_breaks.py:40-42: sigma[i] of the changes up to observation i+1 *)
Definition cusum_sigma (y : list R) (i : nat) : R := sqrt (1 / INR (S i) * rsum (map (fun d => d * d) (firstn (S i) (diff y)))).
(** structural_breaks.py:30-46 [levels_cusum_stats] for a non-negative reference index; None result for fewer than two observations *)
Definition levels_cusum_stats (cdf : R -> R) (y : list R) (n : nat) : res (option (list (option R * option R))) :=
  if (length y <? 2)%nat then Ok None else
  do yn <- match nth_error y n with Some v => Ok v | None => Err IndexError end;
  Ok (Some (map (fun i => let den := cusum_sigma y (n + i) * sqrt (INR (S i)) in
                          let s := if Req_EM_T den 0 then None else Some ((nth (n + 1 + i) y 0 - yn) * / den) in (s, option_map (one_sided cdf) s))
                (seq 0 (length y - (n + 1))))).

(** ** Augmented Dickey-Fuller *)
Inductive lags_arg := LagInt (n : nat) | LagList (l : list nat).
Definition lag_list (a : lags_arg) : list nat := match a with LagInt n => seq 0 (S n) | LagList l => l end.
Inductive trend_arg := NC | C | CT | CTT.
Definition all_some (l : list (option R)) : option (list R) := fold_right (fun x acc => match x, acc with Some v, Some w => Some (v :: w) | _, _ => None end) (Some []) l.
Definition keep (l : list (list (option R))) : list (list R) := flat_map (fun r => match all_some r with Some v => [v] | None => [] end) l.
(** structural_breaks.py:51-65 [_get_lag_df] followed by dropna, for one column without missing values and with a duplicate-free index; lags are non-negative *)
Definition lag_rows (d : list R) (lags : list nat) : list (list R) :=
  keep (map (fun i => map (fun lag => if (lag <=? i)%nat then nth_error d (i - lag) else None) lags) (seq 0 (length d))).
(** l[-m:] and l[-m-1:-1] *)
Definition tail_rows (m : nat) (l : list R) : list R := if (m =? 0)%nat then l else skipn (length l - m) l.
Definition level_rows (m : nat) (l : list R) : list R := skipn (length l - 1 - m) (firstn (length l - 1) l).
(** a lag listed twice gives two columns of one name, which DataFrame.join refuses (ValueError) *)
Definition lags_distinct (lags : lags_arg) : bool :=
  match lags with LagInt _ => true | LagList l => (length (nodup Nat.eq_dec l) =? length l)%nat end.
(** structural_breaks.py:68-88 [_get_yx]; assigning to the first column of a frame without columns raises IndexError *)
Definition get_yx (series : list R) (c : trend_arg) (lags : lags_arg) : res (list R * list (list R)) :=
  let d := diff series in
  match lag_list lags with
  | [] => Err IndexError
  | ls => if lags_distinct lags then
          let x := lag_rows d ls in
          let m := length x in
          let x := zip_with (fun level row => level :: tl row) (level_rows m series) x in
          let y := tail_rows m d in
          let ext := fun (j : nat) => match c with NC => [] | C => [1] | CT => [1; INR j] | CTT => [1; INR j; INR j * INR j] end in
          Ok (y, zip_with (fun j row => row ++ ext j) (seq 0 m) x)
          else Err ValueError
  end.
(** structural_breaks.py:101-121 [sadf_stat]; [adf] is the t-statistic of the first coefficient ([_fit_adf] and the division), NaN = None.
    An integer plus a list raises TypeError.  A result None is minus infinity. *)
Definition step_max (acc : option R) (v : option R) : option R :=
  match acc, v with _, None => acc | None, Some b => Some b | Some a, Some b => if Rlt_dec a b then Some b else Some a end.
Definition sadf_stat (adf : list R -> list (list R) -> res (option R)) (series : list R) (min_len : nat) (c : trend_arg) (lags : lags_arg) : res (option R) :=
  do yx <- get_yx series c lags;
  match lags with
  | LagList _ => Err TypeError
  | LagInt n => do stats <- mapM (fun s => adf (skipn s (fst yx)) (skipn s (snd yx))) (seq 0 (length (fst yx) + n + 1 - min_len));
                Ok (fold_left step_max stats None)
  end.
(** structural_breaks.py:124-140 [sadf_stat_series] *)
Definition sadf_stat_series adf (series : list R) (min_len : nat) c lags : res (list (nat * option R)) :=
  mapM (fun t => do s <- sadf_stat adf (firstn (S t) series) min_len c lags; Ok (t, s)) (seq min_len (length series - min_len)).

(** structural_breaks.py:91-98 [_fit_adf] for a T x k design; [inv] is np.linalg.inv *)
Section Fit.
  Variable inv : nat -> (nat -> nat -> R) -> res (nat -> nat -> R).
  Variables (T k : nat) (X : nat -> nat -> R) (y : nat -> R).
  Definition sum_n (n : nat) (f : nat -> R) : R := rsum (map f (seq 0 n)).
  Definition xx (i j : nat) : R := sum_n T (fun t => X t i * X t j).
  Definition xy (i : nat) : R := sum_n T (fun t => X t i * y t).
  Definition fit_adf : res ((nat -> R) * (nat -> nat -> R)) :=
    do xi <- inv k xx;
    let b := fun i => sum_n k (fun j => xi i j * xy j) in
    let err := fun t => y t - sum_n k (fun j => X t j * b j) in
    let s2 := sum_n T (fun t => err t * err t) / (INR T - INR k) in
    Ok (b, fun i j => s2 * xi i j).
End Fit.
