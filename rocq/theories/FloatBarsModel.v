(** bars.py and microstructure.py in binary64: VWAP, cumulative bar ids, tick rule. *)
From Coq Require Import ZArith List.
From Flocq Require Import BinarySingleNaN.
From Verif Require Import Float64.
Import ListNotations.
Set Implicit Arguments.
Unset Strict Implicit.

Record ftick := FTick { ft_price : f64; ft_vol : f64 }.

(** bars.py:9-17 [_compute_vwap] in binary64; [sum] is np.sum, which does not promise an order of the additions *)
Definition fvwap (sum : list f64 -> f64) (ticks : list ftick) : f64 :=
  fdiv (sum (map (fun t => fmul (ft_price t) (ft_vol t)) ticks)) (sum (map ft_vol ticks)).
(** the order of additions as a binary tree; [SZero] is the initial value 0.0 of a loop *)
Inductive sum_tree := SZero | SLeaf (x : f64) | SNode (l r : sum_tree).
Fixpoint seval (t : sum_tree) : f64 := match t with SZero => fz 0 | SLeaf x => x | SNode l r => fadd (seval l) (seval r) end.
(** adding one after the other, as numpy does for short arrays *)
Definition fsum_left (l : list f64) : f64 := fold_left fadd l (fz 0).

(** np.cumsum: s[0] = v[0], s[i] = s[i-1] + v[i] *)
Fixpoint fcumsum_from (s : f64) (l : list f64) : list f64 := match l with [] => [] | x :: r => fadd s x :: fcumsum_from (fadd s x) r end.
Definition fcumsum (l : list f64) : list f64 := match l with [] => [] | x :: r => x :: fcumsum_from x r end.

(** C's fmod on finite arguments (exact); the sign of the first argument *)
Definition ffmod (x y : f64) : f64 :=
  match x, y with
  | B754_zero s, B754_finite _ _ _ _ => x
  | B754_finite sx mx ex _, B754_finite _ my ey _ =>
      let e := Z.min ex ey in
      let r := Z.rem (Z.pos mx * 2 ^ (ex - e)) (Z.pos my * 2 ^ (ey - e)) in
      ff (if sx then - r else r)%Z e
  | B754_finite _ _ _ _, B754_infinity _ | B754_zero _, B754_infinity _ => x
  | _, _ => B754_nan
  end.
Definition ffloor (x : f64) : f64 := Bnearbyint mode_DN x.
(** numpy's floor_divide (npy_math: npy_floor_divide, npy_divmod), for a non-zero divisor *)
Definition ffloordiv (a b : f64) : f64 :=
  let m := ffmod a b in
  let d := fdiv (fsub a m) b in
  let d := if feq m (fz 0) then d else if Bool.eqb (flt b (fz 0)) (flt m (fz 0)) then d else fsub d (fz 1) in
  if feq d (fz 0) then d else
  let f := ffloor d in if flt (ff 1 (-1)) (fsub d f) then fadd f (fz 1) else f.

(** bars.py:74-95 [aggregate_volume_bars], [aggregate_dollar_bars]: the bar ids *)
Definition fvolume_ids (ticks : list ftick) (freq : f64) : list f64 := map (fun s => ffloordiv s freq) (fcumsum (map ft_vol ticks)).
Definition fdollar_ids (ticks : list ftick) (freq : f64) : list f64 :=
  map (fun s => ffloordiv s freq) (fcumsum (map (fun t => fmul (ft_vol t) (ft_price t)) ticks)).

(** microstructure.py:8-29 [tick_rule]; [pd.Series.diff] is the difference to the previous price *)
Fixpoint ftick_rule_from (prev_price prev_dir : f64) (prices : list f64) : list f64 :=
  match prices with
  | [] => []
  | p :: r => let c := fsub p prev_price in
              let d := if feq c (fz 0) then prev_dir else fdiv (fabs c) c in
              d :: ftick_rule_from p d r
  end.
Definition ftick_rule (prices : list f64) (b0 : f64) : list f64 := match prices with [] => [] | p :: r => b0 :: ftick_rule_from p b0 r end.
