(** data_structures/basket.py, rolled futures series in binary64.  Finite prices.  The column of non-negative prices is in FloatRollPriceModel. *)
From Coq Require Import ZArith List Bool.
From Flocq Require Import BinarySingleNaN.
From Verif Require Import Py Float64 BasketModel.
Import ListNotations.
Set Implicit Arguments.
Unset Strict Implicit.

(** a bar is the row of its price columns *)
Definition frow := column -> f64.
(** basket.py:76-80, the gap entered at each bar; [close * 0] where there is no roll, as in [BasketModel.raw_gaps] *)
Fixpoint fraw_gaps (seen : list Z) (prev_close : f64) (bars : list (frow * Z)) : list f64 :=
  match bars with
  | [] => []
  | (b, c) :: rest => (if existsb (Z.eqb c) seen then fmul (b CClose) (fz 0) else fsub (b COpen) prev_close) :: fraw_gaps (c :: seen) (b CClose) rest
  end.
(** np.cumsum: one addition after the other *)
Fixpoint fcumsum_from (acc : f64) (l : list f64) : list f64 := match l with [] => [] | x :: l' => fadd acc x :: fcumsum_from (fadd acc x) l' end.
(** basket.py:75-81 *)
Definition froll_sums (bars : list (frow * Z)) : list f64 :=
  match bars with [] => [] | (b, c) :: rest => let g := fmul (b CClose) (fz 0) in g :: fcumsum_from g (fraw_gaps [c] (b CClose) rest) end.
(** basket.py:69-85 [_compute_roll_gaps] *)
Definition fcompute_roll_gaps (bars : list (frow * Z)) (match_end : bool) : res (list f64) :=
  let gaps := froll_sums bars in
  if match_end then match rev gaps with _ :: g :: _ => Ok (map (fun x => fsub x g) gaps) | _ => Err IndexError end else Ok gaps.
(** basket.py:102-105, one bar *)
Definition fadjust_row (cols : list column) (gap : f64) (b : frow) : frow :=
  fold_left (fun b' col => fun c => if column_eqb c col then fsub (b' c) gap else b' c) cols b.
(** basket.py:88-112 [adjust_rolled_series] without [non_negative] *)
Definition fadjusted_bars (bars : list (frow * Z)) (cols : list column) (match_end : bool) : res (list frow) :=
  do gaps <- fcompute_roll_gaps bars match_end;
  Ok (map2 (fadjust_row cols) gaps (map fst bars)).
