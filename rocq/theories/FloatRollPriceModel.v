(** data_structures/basket.py, the column of non-negative rolled prices in binary64. *)
From Coq Require Import ZArith List Bool.
From Flocq Require Import BinarySingleNaN.
From Verif Require Import Py Float64 BasketModel FloatRollModel.
Import ListNotations.
Set Implicit Arguments.
Unset Strict Implicit.

(** basket.py:108 [res.close.diff() / bars.close.shift(1)] after the first bar; [raw] are the raw closes *)
Fixpoint froll_returns (adj raw : list f64) : list f64 :=
  match adj, raw with
  | a :: ((a' :: _) as adj'), r :: raw' => fdiv (fsub a' a) r :: froll_returns adj' raw'
  | _, _ => []
  end.
(** np.cumprod: one product after the other.  No factor is NaN (closes are not zero), so pandas does not skip any. *)
Fixpoint fcumprod_from (acc : f64) (l : list f64) : list f64 := match l with [] => [] | x :: l' => fmul acc x :: fcumprod_from (fmul acc x) l' end.
Definition fcumprod (l : list f64) : list f64 := match l with [] => [] | x :: l' => x :: fcumprod_from x l' end.
(** basket.py:103-110, the column [RET_PRICES]; [returns.iloc[0] = 0] raises IndexError on an empty frame *)
Definition frolled_prices (bars : list (frow * Z)) (cols : list column) (match_end : bool) : res (list f64) :=
  do adj <- fadjusted_bars bars cols match_end;
  match bars with
  | [] => Err IndexError
  | _ => Ok (fcumprod (map (fadd (fz 1)) (fz 0 :: froll_returns (map (fun b : frow => b CClose) adj) (map (fun b : frow * Z => fst b CClose) bars))))
  end.
