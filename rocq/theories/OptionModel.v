(** Model of tools/option.py and tools/interest_rate.py.
    The normal cdf is an argument [cdf]; scipy's root finders and splines are arguments.  Real numbers stand for floats. *)
From Verif Require Import Py RNum.
Set Implicit Arguments.
Unset Strict Implicit.
Open Scope R_scope.

Inductive option_type := Call | Put.
Inductive exercise := American | European.

(** ** Black-Scholes-Merton *)
(** option.py:146-151 [_bsm_d1], [_bsm_d2] *)
Definition bsm_d1 (s0 k r sigma t q : R) : R := (ln (s0 / k) + (r - q + sigma * sigma / 2) * t) / (sigma * sqrt t).
Definition bsm_d2 (s0 k r sigma t q : R) : R := bsm_d1 s0 k r sigma t q - sigma * sqrt t.
(** option.py:169-171: present value of the dividends *)
Definition divs_present (r : R) (divs : list (R * R)) : R := rsum (map (fun d => fst d * exp (- r * snd d)) divs).
(** option.py:154-184 [bsm_option_price].  Inputs for which numpy would produce NaN or inf (non-positive prices net of dividends,
    zero volatility or maturity) are outside the theorems' hypotheses. *)
Definition bsm_option_price (cdf : R -> R) (ty : option_type) (s0 k r sigma T : R) (divs : option (list (R * R))) (div_yield : R) (is_futures : bool) : res R :=
  if match divs with None => true | Some _ => if Req_EM_T div_yield 0 then true else false end then
    let s0 := match divs with Some ds => s0 - divs_present r ds | None => s0 end in
    let q := if is_futures then r else div_yield in
    let d1 := bsm_d1 s0 k r sigma T q in let d2 := bsm_d2 s0 k r sigma T q in
    Ok (match ty with
        | Call => s0 * exp (- q * T) * cdf d1 - k * exp (- r * T) * cdf d2
        | Put => - s0 * exp (- q * T) * cdf (- d1) + k * exp (- r * T) * cdf (- d2)
        end)
  else Err AssertionError.

(** ** Binomial tree *)
Definition payoff (ty : option_type) (s k : R) : R := match ty with Call => Rmax (s - k) 0 | Put => Rmax (k - s) 0 end.
Definition node (s0 u d : R) (i j : nat) : R := s0 * u ^ j * d ^ (i - j).
(** option.py:217-223: values at expiry; 225-240: one level back *)
Definition last_level ty s0 k u d n : list R := map (fun j => payoff ty (node s0 u d n j) k) (seq 0 (S n)).
Definition back_level ty ex s0 k u d p disc (i : nat) (v : list R) : list R :=
  map (fun j => let hold := disc * (p * nth (S j) v 0 + (1 - p) * nth j v 0) in
                let v_ex := match ex with American => payoff ty (node s0 u d i j) k | European => 0 end in Rmax hold v_ex) (seq 0 (S i)).
Fixpoint levels ty ex s0 k u d p disc (i : nat) (v : list R) : list R :=
  match i with O => v | S i' => levels ty ex s0 k u d p disc i' (back_level ty ex s0 k u d p disc i' v) end.
(** option.py:188-242 [binom_option_price]; [T/0] raises in python.  Zero volatility makes u - d zero (outside the hypotheses). *)
Definition binom_option_price ty ex (s0 k T r sigma div_yield : R) (is_futures : bool) (n : nat) : res R :=
  if (n =? 0)%nat then Err ZeroDivisionError else
  let q := if is_futures then r else div_yield in
  let dt := T / INR n in
  let u := exp (sigma * sqrt dt) in let d := 1 / u in
  let a := exp ((r - q) * dt) in let p := (a - d) / (u - d) in
  Ok (nth 0 (levels ty ex s0 k u d p (exp (- r * dt)) n (last_level ty s0 k u d n)) 0).
(** option.py:245-273 [binom_am_option_price] *)
Definition binom_am_option_price (cdf : R -> R) ty s0 k T r sigma div_yield is_futures n (control_variates : bool) : res R :=
  do am <- binom_option_price ty American s0 k T r sigma div_yield is_futures n;
  if control_variates then
    do eur <- binom_option_price ty European s0 k T r sigma div_yield is_futures n;
    do bsm <- bsm_option_price cdf ty s0 k r sigma T None div_yield is_futures;
    Ok (am + (bsm - eur))
  else Ok am.

(** ** Implied quantities *)
(** option.py:276-292 [implied_volatility]: [brentq f a b] is scipy's root finder *)
Definition implied_volatility (brentq : (R -> R) -> R -> R -> res R) (pricing : R -> R) (observed lower upper : R) : res R :=
  brentq (fun sigma => pricing sigma - observed) lower upper.
(** option.py:295-307 [implied_asset_price] *)
Definition implied_asset_price (newton : (R -> R) -> R -> res R) (pricing : R -> R) (observed x0 : R) : res R :=
  newton (fun s0 => pricing s0 - observed) x0.
(** option.py:14-33 [implied_risk_free_rate]: quotes are (strike, price), NaN = None.  The outer merge followed by dropna keeps the pairs
    with both prices, in the order of the strikes (pairs of one strike in the order of the calls, then of the puts).  The guard
    [callput.shape == 0] compares a tuple with 0 and never holds. *)
Definition quote_matches (calls puts : list (R * option R)) : list (R * R * R) :=
  flat_map (fun c => match snd c with
    | None => []
    | Some pc => flat_map (fun p => match snd p with Some pp => if Req_EM_T (fst c) (fst p) then [(fst c, pc, pp)] else [] | None => [] end) puts
    end) calls.
Fixpoint insert_quote (x : R * R * R) (l : list (R * R * R)) : list (R * R * R) :=
  match l with [] => [x] | y :: l' => if Rle_lt_dec (fst (fst x)) (fst (fst y)) then x :: l else y :: insert_quote x l' end.
Definition quote_pairs (calls puts : list (R * option R)) : list (R * R * R) := fold_right insert_quote [] (quote_matches calls puts).
(** lines 29-30: the logarithm of a negative number is NaN.  Simplified: so is that of 0, which is infinite. *)
Definition parity_rate (s0 t d : R) (x : R * R * R) : option R :=
  let '(k, pc, pp) := x in let v := (pp + s0 - pc - d) / k in if Rlt_dec 0 v then Some (- ln v / t) else None.
Fixpoint rinsert (x : R) (l : list R) : list R := match l with [] => [x] | y :: l' => if Rle_lt_dec x y then x :: l else y :: rinsert x l' end.
Definition rsort (l : list R) : list R := fold_right rinsert [] l.
(** pandas median; of nothing: NaN *)
Definition median (l : list R) : option R :=
  let s := rsort l in let n := length l in
  if (n =? 0)%nat then None else
  if Nat.even n then Some ((nth (n / 2 - 1) s 0 + nth (n / 2) s 0) / 2) else Some (nth (n / 2) s 0).
(** it skips NaN *)
Definition present (l : list (option R)) : list R := flat_map (fun x => match x with Some v => [v] | None => [] end) l.
Definition implied_risk_free_rate (calls puts : list (R * option R)) (s0 t d : R) : option R * list (R * option R) :=
  let rates := map (fun x => (fst (fst x), parity_rate s0 t d x)) (quote_pairs calls puts) in
  (median (present (map snd rates)), rates).
(** interest_rate.py:15-24 [get_implied_forward_rate] *)
Definition implied_forward_rate (s0 f t : R) : R := ln (f / s0) / t.
(** option.py:310-323 [bsm_return_distribution]: (loc, scale) of the log return and of the annual return *)
Definition bsm_return_distribution (mu sigma t : R) : (R * R) * (R * R) :=
  let m := mu - sigma * sigma / 2 in ((m * t, sigma * sqrt t), (m, sigma / sqrt t)).

(** ** Implied distribution *)
(** option.py:57 [np.linspace] *)
Definition linspace (a b : R) (n : nat) : list R := if (n =? 1)%nat then [a] else map (fun i => a + INR i * ((b - a) / INR (n - 1))) (seq 0 n).
Definition rlmin (l : list R) : R := match l with [] => 0 | x :: l' => fold_right Rmin x l' end.
Definition rlmax (l : list R) : R := match l with [] => 0 | x :: l' => fold_right Rmax x l' end.
(** option.py:36-80 [implied_underlying_discrete_pdf] without smoothing; [deriv2] is the second derivative of the interpolated price curve *)
Definition discrete_pdf (deriv2 : R -> R) (strikes : list R) (t r : R) (n_interpolate : option nat) : list (R * R) :=
  match strikes with
  | [] => []
  | _ => let n := match n_interpolate with Some m => m | None => (length strikes * 3)%nat end in
         filter (fun e => if Rle_dec 0 (snd e) then true else false)
           (map (fun k => (k, exp (r * t) * deriv2 k)) (linspace (rlmin strikes) (rlmax strikes) n))
  end.
(** option.py:124-139: the sampling probabilities of [implied_underlying_distribution] *)
Definition sampling_probs (pdf_calls pdf_puts : option (list (R * R))) : option (list (R * R)) :=
  let pdf := match pdf_calls, pdf_puts with Some a, Some b => Some (a ++ b) | Some a, None => Some a | None, Some b => Some b | None, None => None end in
  option_map (fun l => map (fun e => (fst e, snd e / rsum (map snd l))) l) pdf.
