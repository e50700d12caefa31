(** binary64 models of simple returns, barrier touches, draw downs, average uniqueness and the returns concentration.
    The exact versions are in BarrierModel, MetricsModel and WeightModel. *)
From Coq Require Import ZArith List.
From Flocq Require Import BinarySingleNaN.
From Verif Require Import Float64.
Import ListNotations.
Set Implicit Arguments.
Unset Strict Implicit.

Definition fopp (x : f64) : f64 := Bopp x.
(** [prices/start_price - 1], triple_barrier.py:41-42,53 and utils/time_series.py:40-45 *)
Definition fret (p p0 : f64) : f64 := fsub (fdiv p p0) (fz 1).
(** triple_barrier.py:45-46: the return of a trade of the given side ([true] is 1, [false] is -1) at a price *)
Definition fside_ret (long : bool) (p p0 : f64) : f64 := if long then fret p p0 else fopp (fret p p0).
(** triple_barrier.py:27-28,48-49: [path_pt_returns > pt_mulp * target], [path_sl_returns < -sl_mulp * target] *)
Definition fpt_touch (long : bool) (p p0 mult target : f64) : bool := flt (fmul mult target) (fside_ret long p p0).
Definition fsl_touch (long : bool) (p p0 mult target : f64) : bool := flt (fside_ret long p p0) (fmul (fopp mult) target).
(** [np.sign] of a number, triple_barrier.py:125 *)
Definition fsign (x : f64) : Z := if flt (fz 0) x then 1%Z else if flt x (fz 0) then (-1)%Z else 0%Z.

(** metrics.py:112-115: one row of the draw down *)
Definition fdrawdown (dollars : bool) (hwm low : f64) : f64 := if dollars then fsub hwm low else fsub (fz 1) (fdiv low hwm).

(** weighting.py:62: [(1./counts).mean()]; [sum] adds in some order *)
Definition fmean_uniqueness (sum : list f64 -> f64) (counts : list f64) : f64 :=
  fdiv (sum (map (fdiv (fz 1)) counts)) (fz (Z.of_nat (length counts))).

(** metrics.py:82-86 [_get_hhi] *)
Definition fhhi (sum : list f64 -> f64) (rets : list f64) : f64 :=
  let s := sum rets in
  let h := sum (map (fun r => fmul (fdiv r s) (fdiv r s)) rets) in
  let inv := fdiv (fz 1) (fz (Z.of_nat (length rets))) in
  fdiv (fsub h inv) (fsub (fz 1) inv).
