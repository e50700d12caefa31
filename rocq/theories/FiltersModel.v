(** Model of features/filters.py.  A missing value (NaN) is [None]. *)
From Verif Require Import Py RNum EntropyModel.
Set Implicit Arguments.
Unset Strict Implicit.
Open Scope Qc_scope.

(** ** filters.py:6-26 [filter_symmetric_cusum].  The result is the list of positions of the events; the index is assumed
    unique, so that [diff.loc[t]] is the value at that position. *)

(** [max(0, x)] and [min(0, x)] of Python: when x is NaN the comparison is false and 0 is returned *)
Definition py_max0 (x : option Qc) : Qc := match x with None => 0 | Some v => if qlt 0 v then v else 0 end.
Definition py_min0 (x : option Qc) : Qc := match x with None => 0 | Some v => if qlt v 0 then v else 0 end.
(** [series.diff()] without its first entry *)
Definition osub (a b : option Qc) : option Qc := match a, b with Some x, Some y => Some (x - y) | _, _ => None end.
Fixpoint diffs (prev : option Qc) (l : list (option Qc)) : list (option Qc) :=
  match l with [] => [] | x :: l' => osub x prev :: diffs x l' end.
Definition oadd (a : Qc) (b : option Qc) : option Qc := option_map (Qcplus a) b.
Fixpoint cusum_loop (threshold pos neg : Qc) (i : nat) (ds : list (option Qc)) : list nat :=
  match ds with
  | [] => []
  | d :: ds' =>
      let pos' := py_max0 (oadd pos d) in
      let neg' := py_min0 (oadd neg d) in
      if qlt neg' (- threshold) then i :: cusum_loop threshold pos' 0 (S i) ds'
      else if qlt threshold pos' then i :: cusum_loop threshold 0 neg' (S i) ds'
      else cusum_loop threshold pos' neg' (S i) ds'
  end.
Definition cusum (series : list (option Qc)) (threshold : Qc) : list nat :=
  match series with [] => [] | x :: l => cusum_loop threshold 0 0 1 (diffs x l) end.

(** ** filters.py:29-38 [get_mmi] *)

(** [np.median] of non-empty data: the mean of the two middle elements of the sorted data (which coincide for odd length) *)
Definition median (l : list Qc) : Qc :=
  let s := qsort_asc l in let n := length l in (nth ((n - 1) / 2) s 0 + nth (n / 2) s 0) / 2.
(** pairs (previous, current) *)
Fixpoint steps (prev : Qc) (l : list Qc) : list (Qc * Qc) := match l with [] => [] | x :: l' => (prev, x) :: steps x l' end.
(** numba's default error model raises ZeroDivisionError; the median of an empty array is not modelled *)
Definition get_mmi (series : list Qc) : res Qc :=
  match series with
  | [] => Err ValueError
  | x :: l =>
      let m := median series in
      let n_hi := length (filter (fun p => qlt m (snd p) && qlt 0 (snd p - fst p)) (steps x l)) in
      let n_lo := length (filter (fun p => qlt (snd p) m && qlt (snd p - fst p) 0) (steps x l)) in
      match l with [] => Err ZeroDivisionError | _ => Ok ((qn n_hi + qn n_lo) / qn (length series - 1)) end
  end.

(** ** filters.py:41-53 [hull_ma] of one column with agg_fn='mean', win_type=None *)
Fixpoint all_obs (l : list (option Qc)) : option (list Qc) :=
  match l with
  | [] => Some []
  | None :: _ => None
  | Some x :: l' => match all_obs l' with Some xs => Some (x :: xs) | None => None end
  end.
(** [rolling(w).mean()]: min_periods is the window length, so NaN unless the last w values are all there.
    Window 0 gives NaN everywhere. *)
Definition rolling_mean (w : nat) (l : list (option Qc)) : list (option Qc) :=
  map (fun i => if (S i <? w)%nat || (w =? 0)%nat then None else option_map qmean (all_obs (slice l (S i - w) (S i)))) (seq 0 (length l)).
Definition hull_ma (l : list (option Qc)) (n : nat) : list (option Qc) :=
  let short := rolling_mean (n / 2) l in
  let long := rolling_mean n l in
  rolling_mean (Nat.sqrt n) (map (fun p => osub (option_map (Qcmult 2) (fst p)) (snd p)) (combine short long)).
