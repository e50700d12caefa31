(** Model of features/systematic_default.py: Merton's structural model conditioned on the market, and the distribution of the number of defaults.
    Real numbers stand for floats; the normal cdf and scipy's newton are arguments. *)
From Verif Require Import Py RNum OptionModel.
Set Implicit Arguments.
Unset Strict Implicit.
Open Scope R_scope.

(** systematic_default.py:10-22 [_d1], [_d2], [_cond_equity_value] *)
Definition cond_d1 (s0 k r sigma t alpha beta mkt_ex_ret : R) : R :=
  (ln (s0 / k) + (r + alpha + sigma * sigma / 2) * t + beta * mkt_ex_ret) / (sigma * sqrt t).
Definition cond_d2 (s0 k r sigma t alpha beta mkt_ex_ret : R) : R := cond_d1 s0 k r sigma t alpha beta mkt_ex_ret - sigma * sqrt t.
Definition cond_equity_value (cdf : R -> R) (s0 k r sigma T alpha beta mkt_ex_ret : R) : R :=
  s0 * cdf (cond_d1 s0 k r sigma T alpha beta mkt_ex_ret) - k * exp (- r * T) * cdf (cond_d2 s0 k r sigma T alpha beta mkt_ex_ret).

(** systematic_default.py:25-37 [FirmParams] *)
Record firm_params := { fp_alpha : R; fp_beta : R; fp_sigma : R }.
Definition rltb (a b : R) : bool := if Rlt_dec a b then true else false.
Definition approx_equal (a b : firm_params) (tol : R) : bool :=
  rltb (Rabs (fp_alpha a - fp_alpha b)) tol && rltb (Rabs (fp_beta a - fp_beta b)) tol && rltb (Rabs (fp_sigma a - fp_sigma b)) tol.

(** Least squares of y on x with an intercept (statsmodels OLS after add_constant).  add_constant leaves a non-zero constant column alone, so the
    coefficient at position 1 does not exist; an all-zero column gets coefficient 0 (pseudo-inverse). *)
Definition zip_with A B C (f : A -> B -> C) (a : list A) (b : list B) : list C := map (fun p => f (fst p) (snd p)) (combine a b).
Definition ols_beta (y x : list R) : R :=
  rsum (zip_with (fun yi xi => (yi - rmean y) * (xi - rmean x)) y x) / rsum (map (fun xi => (xi - rmean x) * (xi - rmean x)) x).
Definition ols (y x : list R) : res (R * R) :=
  if Req_EM_T (rsum (map (fun xi => (xi - rmean x) * (xi - rmean x)) x)) 0 then
    if Req_EM_T (rmean x) 0 then Ok (rmean y, 0) else Err IndexError
  else Ok (rmean y - ols_beta y x * rmean x, ols_beta y x).
(** np.std (ddof 0) *)
Definition pstd (l : list R) : R := sqrt (rmean (map (fun x => (x - rmean l) * (x - rmean l)) l)).
(** systematic_default.py:40-56 [_regress_firm_params]; series of unequal lengths do not broadcast (numpy's broadcasting of length-1 arrays is not modelled);
    empty series make OLS raise *)
Definition regress_firm_params (asset_rets market_rets risk_free_rates : list R) (interval : R) : res firm_params :=
  if negb ((length asset_rets =? length risk_free_rates)%nat && (length market_rets =? length risk_free_rates)%nat) || (length asset_rets =? 0)%nat then Err ValueError else
  let y := zip_with (fun a r => a - r * interval) asset_rets risk_free_rates in
  let x := zip_with (fun m r => m - r * interval) market_rets risk_free_rates in
  do cb <- ols y x;
  let '(const, beta) := cb in
  let sigma := pstd (zip_with (fun yi xi => yi - (const + beta * xi)) y x) / sqrt interval in
  Ok {| fp_alpha := const / interval + sigma * sigma / 2; fp_beta := beta; fp_sigma := sigma |}.

(** np.diff *)
Fixpoint diff (l : list R) : list R := match l with x :: (y :: _) as l' => (y - x) :: diff l' | _ => [] end.

(** systematic_default.py:64-146 [fit] *)
Record firm_data := { fd_equity : list R; fd_debt : list R; fd_maturity : list R; fd_rf : list R; fd_market : list R; fd_interval : R; fd_expected : R }.
(** one row of the zip: equity, debt, maturity, rate, expected excess market return *)
Definition rows (d : firm_data) : list (R * R * R * R * R) :=
  map (fun x => let '(e, (b, (m, r))) := x in (e, b, m, r, fd_expected d - r * fd_interval d))
      (combine (fd_equity d) (combine (fd_debt d) (combine (fd_maturity d) (fd_rf d)))).
Definition row_asset (cdf : R -> R) (newton : (R -> R) -> R -> res R) (p : firm_params) (row : R * R * R * R * R) : res R :=
  let '(e, b, m, r, x) := row in
  implied_asset_price newton (fun s0 => cond_equity_value cdf s0 (Rmax 1 b) r (fp_sigma p) m (fp_alpha p) (fp_beta p) (x * m)) e (e + b).
Definition row_delta (cdf : R -> R) (p : firm_params) (row : R * R * R * R * R) (a : R) : R :=
  let '(e, b, m, r, x) := row in cdf (cond_d1 a (Rmax 1 b) r (fp_sigma p) m (fp_alpha p) (fp_beta p) (x * m)).
Definition row_equity (row : R * R * R * R * R) : R := let '(e, _, _, _, _) := row in e.
(** lines 104-138: one iteration; a zip shorter than the return series does not broadcast, nor do debts or maturities that are not one longer *)
Definition fit_step (cdf : R -> R) (newton : (R -> R) -> R -> res R) (d : firm_data) (p : firm_params) : res (firm_params * (list R * list R)) :=
  do values <- mapM (row_asset cdf newton p) (rows d);
  let n := length (fd_equity d) in
  if negb ((length values =? n - 1)%nat && (length (fd_debt d) =? n)%nat && (length (fd_maturity d) =? n)%nat) then Err ValueError else
  let rets := zip_with (fun er rv => er / (row_delta cdf p (fst rv) (snd rv) * snd rv / row_equity (fst rv)))
                (diff (map ln (fd_equity d))) (combine (rows d) values) in
  do p' <- regress_firm_params rets (fd_market d) (fd_rf d) (fd_interval d);
  Ok (p', (rets, values)).
(** lines 103-146: the loop, for any step; RuntimeError stands for the bare Exception *)
Fixpoint fit_loop (A : Type) (step : firm_params -> res (firm_params * A)) (tol : R) (n : nat) (p : firm_params) : res (firm_params * A) :=
  match n with
  | O => Err RuntimeError
  | S n' => do x <- step p; if approx_equal p (fst x) tol then Ok x else fit_loop step tol n' (fst x)
  end.
Definition fit (cdf : R -> R) (newton : (R -> R) -> R -> res R) (d : firm_data) (tol : R) (maxiter : nat) : res (firm_params * (list R * list R)) :=
  do p0 <- regress_firm_params (diff (map ln (fd_equity d))) (fd_market d) (fd_rf d) (fd_interval d);
  fit_loop (fit_step cdf newton d) tol maxiter p0.

(** systematic_default.py:148-182 [predict_default] *)
Definition predict_default (cdf : R -> R) (newton : (R -> R) -> R -> res R) (p : firm_params) (equity_value debt_value debt_maturity risk_free_rate market_ret : R) : res R :=
  let debt := Rmax 1 debt_value in
  let x := market_ret - risk_free_rate * debt_maturity in
  do a <- implied_asset_price newton (fun s0 => cond_equity_value cdf s0 debt risk_free_rate (fp_sigma p) debt_maturity (fp_alpha p) (fp_beta p) x) equity_value (equity_value + debt);
  Ok (1 - cdf (cond_d2 a debt risk_free_rate (fp_sigma p) debt_maturity (fp_alpha p) (fp_beta p) x)).

(** systematic_default.py:194-215 [create_firm_model]: the data a firm's model is fitted on *)
Record firm_table := { ft_equities_index : list R; ft_bonds_index : list R; ft_short : list R; ft_long : list R; ft_yield : list R; ft_cap : list R }.
Definition firm_model_data (t : firm_table) (interval expected_market_ret equity_ratio : R) : firm_data :=
  {| fd_equity := ft_cap t;
     fd_debt := zip_with (fun s l => s + l / 2) (ft_short t) (ft_long t);
     fd_maturity := repeat 1 (length (ft_cap t));
     fd_rf := removelast (ft_yield t);
     fd_market := zip_with (fun e b => equity_ratio * e + (1 - equity_ratio) * b) (diff (map ln (ft_equities_index t))) (diff (map ln (ft_bonds_index t)));
     fd_interval := interval; fd_expected := expected_market_ret |}.

(** ** systematic_default.py:218-239 [get_default_count_probs] *)
Fixpoint add_at (v : list R) (i : nat) (x : R) : list R := match v, i with [], _ => [] | y :: v', O => (y + x) :: v' | y :: v', S i' => y :: add_at v' i' x end.
(** lines 224-231: outer product accumulated along anti-diagonals (for non-empty vectors) *)
Definition merge_counts (a b : list R) : list R :=
  fold_left (fun acc jk => add_at acc (fst jk + snd jk) (nth (fst jk) a 0 * nth (snd jk) b 0)) (list_prod (seq 0 (length a)) (seq 0 (length b)))
    (repeat 0 (length a + length b - 2 + 1)).
(** lines 221-237: one pass over the pairs *)
Fixpoint merge_pairs (vs : list (list R)) : list (list R) := match vs with a :: b :: vs' => merge_counts a b :: merge_pairs vs' | _ => vs end.
(** the while loop; each pass shortens a list of two or more, so [length vs] passes suffice *)
Fixpoint merge_all (fuel : nat) (vs : list (list R)) : list (list R) :=
  match fuel with O => vs | S f => if (1 <? length vs)%nat then merge_all f (merge_pairs vs) else vs end.
(** line 239: squeeze makes a one-element vector a scalar; not distinguished here *)
Definition get_default_count_probs (vs : list (list R)) : res (list R) := match merge_all (length vs) vs with [] => Err IndexError | v :: _ => Ok v end.

(** systematic_default.py:242-264 [get_systematic_default_probs]: firms as (table, (equity, debt, maturity, rate)) in dictionary order *)
Definition get_systematic_default_probs (cdf : R -> R) (newton : (R -> R) -> R -> res R) (tol : R) (maxiter : nat) (firms : list (firm_table * (R * R * R * R))) (interval market_ret : R) : res (list R * list R) :=
  do models <- mapM (fun f => fit cdf newton (firm_model_data (fst f) interval market_ret (81 / 100)) tol maxiter) firms;
  do probs <- mapM (fun fm => let '(e, b, m, r) := snd (fst fm) in predict_default cdf newton (fst (snd fm)) e b m r market_ret) (combine firms models);
  do counts <- get_default_count_probs (map (fun p => [1 - p; p]) probs);
  Ok (counts, probs).
