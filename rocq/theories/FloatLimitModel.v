(** position_sizing.py, the limit price of an order, in binary64. *)
From Coq Require Import ZArith List.
From Verif Require Import Py Float64 FloatBarsModel PositionModel.
Import ListNotations.
Set Implicit Arguments.
Unset Strict Implicit.

(** position_sizing.py:117-118 [_inverse_price] at position [j]: the powers [m ** 2] and [q ** .5] of python floats are arguments; python's division
    raises on a zero divisor.  A negative [q] (python would return a complex number) is outside the model: the theorems ask for w > 0 *)
Definition funit_price (square root : f64 -> f64) (forecast w : f64) (max_position j : Z) : res f64 :=
  if (max_position =? 0)%Z then Err ZeroDivisionError else
  let m := fdiv (fz j) (fz max_position) in
  let d := fsub (fz 1) (square m) in
  if feq d (fz 0) then Err ZeroDivisionError else Ok (fsub forecast (fmul m (root (fdiv w d)))).
(** position_sizing.py:144-161 [compute_limit_price] *)
Definition fcompute_limit_price (square root : f64 -> f64) (cur target max_position : Z) (forecast w : f64) : res f64 :=
  let sign := if (cur <? target)%Z then 1%Z else (-1)%Z in
  do ps <- mapM (funit_price square root forecast w max_position) (zrange (Z.abs (cur + sign)) (Z.abs (target + 1)));
  if (target - cur =? 0)%Z then Err ZeroDivisionError else Ok (fdiv (fsum_left ps) (fz (target - cur))).
