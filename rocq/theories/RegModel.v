(** np.linalg.inv written out, and what is built on it in features/structural_breaks.py: the ADF statistic of [sadf_stat], and statsmodels'
    recursive residuals used by [recursive_residuals_cusum_stats].  Real numbers stand for floats, None for NaN and the infinities. *)
From Verif Require Import Py RNum StructModel.
Set Implicit Arguments.
Unset Strict Implicit.
Open Scope R_scope.

(** ** numpy's inv: LAPACK's gesv (elimination with the largest pivot of the column) with the unit vectors as right-hand sides *)
Definition pivot (n : nat) (A : nat -> nat -> R) : nat :=
  fold_left (fun p i => if Rlt_dec (Rabs (A p 0%nat)) (Rabs (A i 0%nat)) then i else p) (seq 1 (n - 1)) 0%nat.
Definition swapped (p i : nat) : nat := if (i =? 0)%nat then p else if (i =? p)%nat then 0%nat else i.
Fixpoint gesv (n : nat) (A : nat -> nat -> R) (b : nat -> R) : option (nat -> R) :=
  match n with
  | O => Some (fun _ => 0)
  | S m =>
      let p := pivot (S m) A in
      let A' i j := A (swapped p i) j in
      let b' i := b (swapped p i) in
      let a := A' 0%nat 0%nat in
      if Req_EM_T a 0 then None else
      match gesv m (fun i j => A' (S i) (S j) - A' (S i) 0%nat / a * A' 0%nat (S j)) (fun i => b' (S i) - A' (S i) 0%nat / a * b' 0%nat) with
      | None => None
      | Some x => Some (fun j => match j with O => (b' 0%nat - sum_n m (fun j => A' 0%nat (S j) * x j)) / a | S j' => x j' end)
      end
  end.
Definition unit_vec (l i : nat) : R := if (i =? l)%nat then 1 else 0.
(** a zero pivot raises LinAlgError, which is a ValueError *)
Definition inv (n : nat) (A : nat -> nat -> R) : res (nat -> nat -> R) :=
  do cols <- mapM (fun l => match gesv n A (unit_vec l) with Some x => Ok x | None => Err ValueError end) (seq 0 n);
  Ok (fun i l => nth l cols (fun _ => 0) i).

(** ** structural_breaks.py:112-117, one round of the loop of [sadf_stat]: b_mean[0, 0] / sqrt(b_var[0, 0]).  As many rows as columns give
    0/0 in b_var; a perfect fit gives b_var 0 and a NaN or an infinity.  [k] is the number of columns. *)
Definition adf_tstat (k : nat) (y : list R) (x : list (list R)) : res (option R) :=
  do f <- fit_adf inv (length y) k (fun t j => nth j (nth t x []) 0) (fun t => nth t y 0);
  let v := snd f 0%nat 0%nat in
  Ok (if (length y =? k)%nat then None else if Rlt_dec 0 v then Some (fst f 0%nat / sqrt v) else None).
Definition trend_count (c : trend_arg) : nat := match c with NC => 0 | C => 1 | CT => 2 | CTT => 3 end.
(** structural_breaks.py:101-121 [sadf_stat] for a number of lags *)
Definition sadf (series : list R) (min_len : nat) (c : trend_arg) (n : nat) : res (option R) :=
  sadf_stat (adf_tstat (n + 1 + trend_count c)) series min_len c (LagInt n).

(** ** structural_breaks.py:20-22: [RecursiveLS(y, X).fit().cusum] of statsmodels.  The filter's t-th standardised forecast error is the error of
    predicting y[t] from the least squares fit to the rows before it, over its standard deviation in units of the noise.  The first k rows
    are assumed to determine the coefficients (otherwise statsmodels needs more rows to start; here ValueError). *)
Definition rec_resid (k : nat) (X : nat -> nat -> R) (y : nat -> R) (t : nat) : res R :=
  do p <- inv k (xx t X);
  let b := fun i => sum_n k (fun j => p i j * xy t X y j) in
  let f := 1 + sum_n k (fun i => X t i * sum_n k (fun j => p i j * X t j)) in
  Ok ((y t - sum_n k (fun j => X t j * b j)) / sqrt f).
(** np.std(w, ddof=1) *)
Definition sd1 (w : list R) : R := sqrt (rsum (map (fun v => (v - rmean w) * (v - rmean w)) w) / (INR (length w) - 1)).
(** np.cumsum(w) / np.std(w, ddof=1) over the observations after the first k; one observation or equal ones have no finite statistic *)
Definition rec_cusum (T k : nat) (X : nat -> nat -> R) (y : nat -> R) : res (list (option R)) :=
  do w <- mapM (rec_resid k X y) (seq k (T - k));
  Ok (map (fun i => if (length w <=? 1)%nat then None else if Req_EM_T (sd1 w) 0 then None else Some (rsum (firstn (S i) w) / sd1 w)) (seq 0 (length w))).
(** structural_breaks.py:9-27 [recursive_residuals_cusum_stats]: statistics and p-values *)
Definition recursive_residuals_cusum_stats (cdf : R -> R) (T k : nat) (X : nat -> nat -> R) (y : nat -> R) : res (list (option R * option R)) :=
  do cs <- rec_cusum T k X y;
  Ok (map (fun c => (c, option_map (fun v => one_sided cdf (v / sqrt (INR (T - k - 1)))) c)) cs).
