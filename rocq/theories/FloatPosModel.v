(** position_sizing.py in binary64. *)
From Coq Require Import ZArith List Bool.
From Flocq Require Import BinarySingleNaN.
From Verif Require Import Py BarrierModel Float64 FloatBarsModel.
Import ListNotations.
Set Implicit Arguments.
Unset Strict Implicit.

(** np.round to an integer: to nearest, ties to even *)
Definition fround (x : f64) : f64 := Bnearbyint mode_NE x.
Definition fsqrt (x : f64) : f64 := Bsqrt mode_NE x.

(** position_sizing.py:74-78 [_discretize_position_sizes]; a comparison with NaN is false *)
Definition fdiscretize (step x : f64) : f64 :=
  let d := fmul (fround (fdiv x step)) step in
  let d := if flt (fz 1) d then fz 1 else d in
  if flt d (fz (-1)) then fz (-1) else d.

(** Series.mean of pandas: NaN counts for nothing (it is replaced by 0 in the sum), the mean of nothing is NaN; [sum] adds in any order *)
Definition no_nan (x : f64) : f64 := if is_nan x then fz 0 else x.
Definition present_count (l : list f64) : nat := length (filter (fun x => negb (is_nan x)) l).
Definition fmean_present (sum : list f64 -> f64) (l : list f64) : f64 :=
  match present_count l with O => B754_nan | n => fdiv (sum (map no_nan l)) (fz (Z.of_nat n)) end.

Record fbet := FBet { fb_start : Z; fb_end : option Z; fb_size : f64 }.
Definition factive_at (t : Z) (b : fbet) : bool := (fb_start b <=? t)%Z && match fb_end b with Some e => (t <=? e)%Z | None => true end.
(** position_sizing.py:60-71 [_avg_active_positions]: [positions.loc[active_starts]] selects every bet with one of these starts *)
Definition favg_active_positions (sum : list f64 -> f64) (bets : list fbet) : list (Z * f64) :=
  map (fun t => (t, let starts := map fb_start (filter (factive_at t) bets) in
                    match starts with
                    | [] => fz 0
                    | _ => fmean_present sum (map fb_size (filter (fun b => zmem (fb_start b) starts) bets))
                    end))
      (zset (map fb_start bets ++ somes (map fb_end bets))).

(** position_sizing.py:98-101; numpy evaluates [** 0.5] as a square root; [cdf] is scipy's norm.cdf *)
Definition ftest_stat (classes : Z) (p : f64) : f64 := fdiv (fsub p (fdiv (fz 1) (fz classes))) (fsqrt (fmul p (fsub (fz 1) p))).
Record fsignal := FSignal { fs_start : Z; fs_end : option Z; fs_prob : f64; fs_pred : f64; fs_side : option f64 }.
Definition fsignal_bet (cdf : f64 -> f64) (classes : Z) (s : fsignal) : fbet :=
  let size := fmul (fs_pred s) (fsub (fmul (fz 2) (cdf (ftest_stat classes (fs_prob s)))) (fz 1)) in
  FBet (fs_start s) (fs_end s) (match fs_side s with Some d => fmul size d | None => size end).
(** position_sizing.py:81-109 [position_size_from_probabilities] *)
Definition fsize_from_probabilities (sum : list f64 -> f64) (cdf : f64 -> f64) (classes : Z) (step : f64) (signals : list fsignal) : list (Z * f64) :=
  map (fun r => (fst r, fdiscretize step (snd r))) (favg_active_positions sum (map (fsignal_bet cdf classes) signals)).

(** position_sizing.py:52-56 [budgeted_position_size] at one bar, with [max] as the budget: the counts there and the two maxima; a bar without
    a count, and 0/0, count as 0 ([fillna(0)]); adding the 0.0 of [fill_index] *)
Definition fshare (c budget : Z) : f64 := no_nan (fadd (fz 0) (fdiv (fz c) (fz budget))).
Definition fbudgeted (longs max_longs shorts max_shorts : Z) : f64 := fsub (fshare longs max_longs) (fshare shorts max_shorts).

(** position_sizing.py:113-141 in binary64: the powers [x ** 2], [x ** -2] and [x ** -0.5] are arguments, since the C library does not promise
    correct rounding; [Btrunc] is python's int() on a finite float *)
Definition fscaled_sigmoid (square inv_sqrt : f64 -> f64) (w x : f64) : f64 := fmul x (inv_sqrt (fadd w (square x))).
Definition fsigmoid_coeff (square inv_square : f64 -> f64) (x m : f64) : f64 := fmul (square x) (fsub (inv_square m) (fz 1)).
Definition fsize_from_divergence (square inv_sqrt : f64 -> f64) (forecast price max_size w : f64) : Z :=
  Btrunc (fmul (fscaled_sigmoid square inv_sqrt w (fsub forecast price)) max_size).
