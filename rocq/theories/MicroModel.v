(** Model of financial_ml/features/microstructure.py (except [tick_rule], which is in SeriesModel). *)
From Coq Require Import Qreals.
From Verif Require Import Py SeriesModel BarsModel RNum SysDefaultModel StructModel.
Set Implicit Arguments.
Unset Strict Implicit.
Open Scope R_scope.

(** np.var (ddof 0) and np.cov(a, b)[0, 1] (ddof 1); NaN = None *)
Definition np_var (l : list R) : option R := match l with [] => None | _ => Some (rmean (map (fun x => (x - rmean l) * (x - rmean l)) l)) end.
Definition np_cov (a b : list R) : option R :=
  if (length a <? 2)%nat then None else Some (rsum (zip_with (fun x y => (x - rmean a) * (y - rmean b)) a b) / (INR (length a) - 1)).
(** microstructure.py:32-49 [roll_effective_spread]: (spread, var(dm)).  Python's max(0, nan) is 0. *)
Definition roll_effective_spread (prices : list R) : R * option R :=
  let dp := diff prices in
  let cov := np_cov (removelast dp) (tl dp) in
  (sqrt (match cov with None => 0 | Some v => if Rlt_dec 0 (- v) then - v else 0 end) * 2,
   match np_var dp, cov with Some v, Some w => Some (v + 2 * w) | _, _ => None end).

(** pandas rolling(w) with min_periods = w >= 1: NaN unless the window is full and free of NaN *)
Definition rolling (w : nat) (f : list R -> R) (l : list (option R)) : list (option R) :=
  map (fun t => if (S t <? w)%nat then None else option_map f (all_some (firstn w (skipn (S t - w) l)))) (seq 0 (length l)).
(** bars are (high, low) pairs of positive prices *)
Notation hl_bar := (R * R)%type.
(** microstructure.py:52-62 [high_low_volatility] *)
Definition high_low_volatility (bars : list hl_bar) (window : nat) : list (option R) :=
  map (option_map (fun m => sqrt (m / (4 * ln 2)))) (rolling window rmean (map (fun b => Some ((ln (fst b) - ln (snd b)) * (ln (fst b) - ln (snd b)))) bars)).
(** microstructure.py:65-69 [_get_beta] before dropna *)
Definition get_beta (bars : list hl_bar) (window : nat) : list (option R) :=
  rolling window rmean (rolling 2 rsum (map (fun b => Some (ln (fst b / snd b) * ln (fst b / snd b))) bars)).
(** microstructure.py:72-76 [_get_gamma] before dropna *)
Definition maxR (l : list R) : R := match l with [] => 0 | x :: l => fold_left Rmax l x end.
Definition minR (l : list R) : R := match l with [] => 0 | x :: l => fold_left Rmin l x end.
Definition get_gamma (bars : list hl_bar) : list (option R) :=
  let h := rolling 2 maxR (map (fun b => Some (fst b)) bars) in
  let l := rolling 2 minR (map (fun b => Some (snd b)) bars) in
  zip_with (fun h l => match h, l with Some h, Some l => Some (ln (h / l) * ln (h / l)) | _, _ => None end) h l.
(** microstructure.py:79-83 [_get_alpha] at one time where beta and gamma exist; series are aligned on a duplicate-free index, elsewhere NaN *)
Definition cs_denom : R := 3 - 2 * sqrt 2.
Definition alpha_of (beta gamma : R) : R :=
  let a := (sqrt (2 * beta) - sqrt beta) / cs_denom - sqrt (gamma / cs_denom) in if Rlt_dec a 0 then 0 else a.
(** microstructure.py:86-99 [_corwin_schultz_volatility] at one time *)
Definition cs_volatility (beta gamma : R) : R :=
  let k2 := sqrt (8 / PI) in
  let s := (/ sqrt 2 - 1) * sqrt beta / (k2 * cs_denom) + sqrt (gamma / (k2 * k2 * cs_denom)) in if Rlt_dec s 0 then 0 else s.
Definition both (a b : option R) : option (R * R) := match a, b with Some a, Some b => Some (a, b) | _, _ => None end.
(** microstructure.py:102-118 [corwin_schultz_spread]: rows (position in the bars' index, spread, position of the start time) and (position, volatility).
    [sigma += ...] (line 97) aligns the sum with gamma's index and then cuts it back to beta's *)
Definition corwin_schultz (bars : list hl_bar) (window : nat) : list (nat * R * nat) * list (nat * option R) :=
  let bg := combine (seq 0 (length bars)) (zip_with pair (get_beta bars window) (get_gamma bars)) in
  let alphas := flat_map (fun r => match both (fst (snd r)) (snd (snd r)) with Some (b, g) => [(fst r, alpha_of b g)] | None => [] end) bg in
  let spreads := map (fun r => (fst r, 2 * (exp (snd r) - 1) / (1 + exp (snd r)))) alphas in
  (combine spreads (firstn (length spreads) (seq 0 (length bars))),
   flat_map (fun r => match snd r with (None, _) => [] | (b, g) => [(fst r, option_map (fun bg => cs_volatility (fst bg) (snd bg)) (both b g))] end) bg).

(** params[1] of OLS on [add_constant x]; no rows raise ValueError, a constant non-zero regressor IndexError (see [ols]) *)
Definition impact (y x : list R) : res R := match x with [] => Err ValueError | _ => do cb <- ols y x; Ok (snd cb) end.
Definition inj (q : Qc) : R := Q2R (this q).
(** microstructure.py:121-135 [kyle_lambda] *)
Definition kyle_lambda (ticks : list tick) (b0 : Qc) : res R :=
  let b := tick_rule (map t_price ticks) b0 in
  let signed := zip_with (fun t bi => inj (t_vol t) * inj bi) ticks b in
  impact (diff (map (fun t => inj (t_price t)) ticks)) (tl signed).
(** microstructure.py:138-150 [amihud_lambda]; rows (close, vwap, volume) *)
Definition amihud_lambda (bars : list (R * R * R)) : res R :=
  impact (map Rabs (diff (map (fun b => ln (fst (fst b))) bars))) (tl (map (fun b => snd (fst b) * snd b) bars)).
(** microstructure.py:153-170 [hasbrouck_lambda]; rows carry their bar id; prices positive and volumes non-negative *)
Definition hasbrouck_lambda (ids : list Z) (ticks : list tick) (b0 : Qc) : res R :=
  let b := tick_rule (map t_price ticks) b0 in
  let closes := map (fun g => last (snd g) 0) (groupby (combine ids (map (fun t => inj (t_price t)) ticks))) in
  let x := map (fun g => rsum (snd g)) (groupby (combine ids (zip_with (fun t bi => sqrt (inj (t_vol t) * inj (t_price t)) * inj bi) ticks b))) in
  impact (diff (map ln closes)) (tl x).

(** microstructure.py:173-192 [volume_synchronized_pin]: net volume per bar, then the result *)
Open Scope Qc_scope.
Definition tick_net (v b : Qc) : Qc := (if qeq b 1 then v else 0) - (if qeq b (-1) then v else 0).
Definition net_volumes (ids : list Z) (ticks : list tick) (b0 : Qc) : list (Z * Qc) :=
  map (fun g => (fst g, qsum (snd g))) (groupby (combine ids (zip_with tick_net (map t_vol ticks) (tick_rule (map t_price ticks) b0)))).
Definition rolling_sum (n : nat) (l : list Qc) : list (option Qc) :=
  map (fun t => if (S t <? n)%nat then None else Some (qsum (firstn n (skipn (S t - n) l)))) (seq 0 (length l)).
Definition vpin (ids : list Z) (ticks : list tick) (volume_per_bar : Qc) (n : nat) (b0 : Qc) : list (Z * option Qc) :=
  let nets := net_volumes ids ticks b0 in
  combine (map fst nets) (map (fun s => match s with None => None | Some s => np_div (qabs s) (qn n * volume_per_bar) end) (rolling_sum n (map snd nets))).
