(** evaluation/metrics.py [information_ratio] of two Series, whose entries carry labels. *)
From Coq Require Import ZArith.
From Verif Require Import Py RNum BarrierModel SharpeModel BasketColsModel.
Set Implicit Arguments.
Unset Strict Implicit.
Open Scope R_scope.

(** a Series: rows (label, value), NaN = None *)
Definition labelled := list (Z * option R).
Definition nan_sub (a b : option R) : option R := match a, b with Some x, Some y => Some (x - y) | _, _ => None end.
Definition value_at (s : labelled) (l : Z) : option R := match lookup l s with Some v => v | None => None end.
(** metrics.py:197 [returns - benchmark_returns]: entry by entry for equal indices, else on the sorted union of the labels, NaN where one side has
    no entry.  Simplification: for indices that differ the labels are distinct; pandas pairs repeated ones in every way. *)
Definition excess_series (s b : labelled) : list (option R) :=
  if same_labels (map fst s) (map fst b) then map (fun p => nan_sub (snd (fst p)) (snd (snd p))) (combine s b)
  else map (fun l => nan_sub (value_at s l) (value_at b l)) (sort_labels (nodup Z.eq_dec (map fst s ++ map fst b))).
(** np.std and np.mean of a Series are its methods, which skip NaN *)
Definition drop_nan (l : list (option R)) : list R := flat_map (fun v => match v with Some x => [x] | None => [] end) l.
(** metrics.py:183-199 [information_ratio]; [None] when the tracking error is 0 or there is no data *)
Definition information_ratio_series (s b : labelled) : option R :=
  let e := drop_nan (excess_series s b) in
  if Req_EM_T (np_std e) 0 then None else Some (rmean e / np_std e).
