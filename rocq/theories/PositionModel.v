(** Model of assets_allocation/position_sizing.py. *)
From Verif Require Import Py RNum BarrierModel WeightModel UtilsModel.
From Flocq Require Import Core.Raux Core.Generic_fmt Core.Round_NE.
Set Implicit Arguments.
Unset Strict Implicit.
Open Scope Qc_scope.

(** An event: start time, end time (None = NaT), side *)
Definition event := (Z * option Z * Z)%type.
Definition of_side (s : Z) (events : list event) : list (Z * option Z) := map fst (filter (fun e => (snd e =? s)%Z) events).

(** position_sizing.py:53-54: division of a count by the budget; 0/0 is NaN.  Simplified: a positive count divided by a zero budget
    (only possible with a user-supplied budget function) is inf in pandas and is not told apart from NaN here. *)
Definition budget_share (c : nat) (budget : Qc) : option Qc := if qeq budget 0 then None else Some (qn c / budget).
(** python's [max] of a sequence, the default budget *)
Definition max_budget (counts : list nat) : res Qc := match counts with [] => Err ValueError | _ => Ok (qn (list_max counts)) end.
(** position_sizing.py:39-56 [budgeted_position_size]; both terms are on the bars' index *)
Definition filled (bars : list Z) (shares : list (Z * option Qc)) (t : Z) : Qc :=
  match lookup t (fill_index bars shares 0) with Some x => x | None => 0 end.
Definition budgeted_position_size (bars : list Z) (events : list event) (budget_fn : list nat -> res Qc) : res (list (Z * Qc)) :=
  do lc <- count_events_per_bar bars (of_side 1 events);
  do sc <- count_events_per_bar bars (of_side (-1) events);
  do lb <- budget_fn (map snd lc);
  do sb <- budget_fn (map snd sc);
  let ls := map (fun r => (fst r, budget_share (snd r) lb)) lc in
  let ss := map (fun r => (fst r, budget_share (snd r) sb)) sc in
  Ok (map (fun t => (t, filled bars ls t - filled bars ss t)) bars).

Open Scope R_scope.
(** position_sizing.py:11-36 [gaussian_mixture_position_size]; [fit] is sklearn's fitted mixture: weights and component cdfs *)
Definition count_at (counts : list (Z * nat)) (t : Z) : Z := Z.of_nat (match lookup t counts with Some c => c | None => 0%nat end).
Definition mixed_cdf (mix : list (R * (R -> R))) (x : R) : R := rsum (map (fun k => snd k x * fst k) mix).
Definition mixture_size (mix : list (R * (R -> R))) (c : Z) : R :=
  (mixed_cdf mix (IZR c) - mixed_cdf mix 0) / (if (0 <=? c)%Z then 1 - mixed_cdf mix 0 else mixed_cdf mix 0).
Definition gaussian_mixture_position_size (bars : list Z) (events : list event) (fit : list Z -> list (R * (R -> R))) : res (list (Z * R)) :=
  do lc <- count_events_per_bar bars (of_side 1 events);
  do sc <- count_events_per_bar bars (of_side (-1) events);
  let conc := map (fun t => (count_at lc t - count_at sc t)%Z) bars in
  let mix := fit conc in
  Ok (combine bars (map (mixture_size mix) conc)).

(** ** Sizing from probabilities; a bet is (start, end, size), NaN = None *)
Record bet := { b_start : Z; b_end : option Z; b_size : option R }.
Definition active_at (t : Z) (b : bet) : bool := (b_start b <=? t)%Z && match b_end b with Some e => (t <=? e)%Z | None => true end.
Definition omean (l : list R) : option R := match l with [] => None | _ => Some (rmean l) end.
(** position_sizing.py:60-71 [_avg_active_positions]: [positions.loc[active_starts]] selects every bet with one of these starts *)
Definition avg_active_positions (bets : list bet) : list (Z * option R) :=
  map (fun t => (t, let starts := map b_start (filter (active_at t) bets) in
                    match starts with
                    | [] => Some 0
                    | _ => omean (somes (map b_size (filter (fun b => zmem (b_start b) starts) bets)))
                    end))
      (zset (map b_start bets ++ somes (map b_end bets))).
(** position_sizing.py:74-78 [_discretize_position_sizes]; [round] is to nearest, ties to even *)
Definition discretize (step x : R) : R :=
  let d := IZR (ZnearestE (x / step)) * step in
  let d := if Rlt_dec 1 d then 1 else d in
  if Rlt_dec d (-1) then -1 else d.
(** position_sizing.py:98-99: cdf of the test statistic.  A zero denominator gives +-inf (cdf 1 or 0) or NaN, a negative one NaN. *)
Definition test_cdf (cdf : R -> R) (p : R) (classes : nat) : option R :=
  let num := p - 1 / INR classes in let v := p * (1 - p) in
  if Rlt_dec v 0 then None else
  if Req_EM_T v 0 then (if Rlt_dec 0 num then Some 1 else if Rlt_dec num 0 then Some 0 else None)
  else Some (cdf (num / sqrt v)).
Record signal := { s_start : Z; s_end : option Z; s_prob : R; s_pred : R; s_side : option R }.
Definition signal_bet (cdf : R -> R) (classes : nat) (s : signal) : bet :=
  {| b_start := s_start s; b_end := s_end s;
     b_size := option_map (fun c => s_pred s * (2 * c - 1) * match s_side s with Some d => d | None => 1 end) (test_cdf cdf (s_prob s) classes) |}.
(** position_sizing.py:81-109 [position_size_from_probabilities] *)
Definition size_from_probabilities (cdf : R -> R) (classes : nat) (step : R) (signals : list signal) : list (Z * option R) :=
  map (fun r => (fst r, option_map (discretize step) (snd r))) (avg_active_positions (map (signal_bet cdf classes) signals)).

(** ** Sizing from divergence *)
(** position_sizing.py:113-122.  Not modelled: a negative radicand ([w] negative, or a position beyond the maximum) gives a complex number
    in python, and [w = x = 0] raises; the theorems exclude both. *)
Definition scaled_sigmoid (w x : R) : R := x * / sqrt (w + x * x).
Definition inverse_price (f w m : R) : R := f - m * sqrt (w / (1 - m * m)).
Definition sigmoid_coeff (x m : R) : R := x * x * (/ (m * m) - 1).
(** position_sizing.py:125-141 [position_size_from_divergence]; int() truncates towards zero *)
Definition size_from_divergence (forecast price max_size w : R) : Z := Ztrunc (scaled_sigmoid w (forecast - price) * max_size).
(** position_sizing.py:144-161 [compute_limit_price]; python floats raise on a zero denominator *)
Definition zrange (a b : Z) : list Z := map (fun k => (a + Z.of_nat k)%Z) (seq 0 (Z.to_nat (b - a))).
Definition unit_price (forecast w : R) (max_position j : Z) : res R :=
  if (max_position =? 0)%Z then Err ZeroDivisionError else
  let m := IZR j / IZR max_position in
  if Req_EM_T (1 - m * m) 0 then Err ZeroDivisionError else Ok (inverse_price forecast w m).
Definition compute_limit_price (cur target max_position : Z) (forecast w : R) : res R :=
  let sign := if (cur <? target)%Z then 1%Z else (-1)%Z in
  do ps <- mapM (unit_price forecast w max_position) (zrange (Z.abs (cur + sign)) (Z.abs (target + 1)));
  if (target - cur =? 0)%Z then Err ZeroDivisionError else Ok (rsum ps / IZR (target - cur)).
