(** utils/time_series.py, features/frac_diff.py and features/filters.py in binary64: the adjusted exponentially weighted average, the weights of
    fractional differencing and the symmetric CUSUM filter. The exact versions are in SeriesModel, FracDiffModel and FiltersModel. *)
From Coq Require Import ZArith List.
From Flocq Require Import BinarySingleNaN.
From Verif Require Import Float64 FloatRetModel.
Import ListNotations.
Set Implicit Arguments.
Unset Strict Implicit.

(** Numba's power with an integer exponent up to 65536: square and multiply from the lowest bit *)
Fixpoint fpow_pos (a r : f64) (p : positive) : f64 :=
  match p with xH => fmul r a | xO q => fpow_pos (fmul a a) r q | xI q => fpow_pos (fmul a a) (fmul r a) q end.
Definition fpow (a : f64) (i : nat) : f64 := match N.of_nat i with N0 => fz 1 | Npos p => fpow_pos a (fz 1) p end.
(** utils/time_series.py:17 [alpha = 2 / float(span + 1)], and [1 - alpha] *)
Definition falpha (span : Z) : f64 := fdiv (fz 2) (fz (span + 1)).
Definition fdecay (span : Z) : f64 := fsub (fz 1) (falpha span).
(** utils/time_series.py:22-26: the loop from index [i] on; [pw] is the power function *)
Fixpoint fewma_loop (pw : f64 -> nat -> f64) (d : f64) (i : nat) (w old : f64) (xs : list f64) : list f64 :=
  match xs with
  | [] => []
  | x :: xs' => let w' := fadd w (pw d i) in
                let old' := fadd (fmul old d) x in
                fdiv old' w' :: fewma_loop pw d (S i) w' old' xs'
  end.
(** utils/time_series.py:6-27 [fast_ewma(series, span, adjust=True)] for span >= 1 *)
Definition fewma (pw : f64 -> nat -> f64) (series : list f64) (span : Z) : list f64 :=
  match series with [] => [] | x :: xs => x :: fewma_loop pw (fdecay span) 1 (fz 1) x xs end.

(** features/frac_diff.py:16 [-weights[-1] * (order - k + 1) / k] *)
Definition fnext_weight (order w : f64) (k : nat) : f64 :=
  fdiv (fmul (fopp w) (fadd (fsub order (fz (Z.of_nat k))) (fz 1))) (fz (Z.of_nat k)).
(** features/frac_diff.py:14-18: the weights from the [k]-th on, before they are reversed *)
Fixpoint fweights_from (order w : f64) (k m : nat) : list f64 :=
  match m with O => [] | S m' => let v := fnext_weight order w k in v :: fweights_from order v (S k) m' end.
(** features/frac_diff.py:8-20 [_get_weights]; the list starts with 1.0 whatever the size *)
Definition fget_weights (order : f64) (size : nat) : list f64 := rev (fz 1 :: fweights_from order (fz 1) 1 (size - 1)).
(** features/frac_diff.py:62-68: the loop of [_get_weights_fixed], [m] is [max_width - k] *)
Fixpoint fweights_fixed_from (order threshold w : f64) (k m : nat) : list f64 :=
  match m with
  | O => []
  | S m' => let v := fnext_weight order w k in if flt (fabs v) threshold then [] else v :: fweights_fixed_from order threshold v (S k) m'
  end.
(** features/frac_diff.py:54-70 [_get_weights_fixed] *)
Definition fget_weights_fixed (order threshold : f64) (max_width : nat) : list f64 :=
  rev (fz 1 :: fweights_fixed_from order threshold (fz 1) 1 (max_width - 1)).

(** features/filters.py:16-25: one step of the filter for the increment [d]; the new accumulators and whether an event is recorded.
    Python's [max(0, x)] is x only if x > 0 and [min(0, x)] is x only if x < 0. *)
Definition fcusum_step (threshold pos neg d : f64) : f64 * f64 * bool :=
  let pos := if flt (fz 0) (fadd pos d) then fadd pos d else fz 0 in
  let neg := if flt (fadd neg d) (fz 0) then fadd neg d else fz 0 in
  if flt neg (fopp threshold) then (pos, fz 0, true)
  else if flt threshold pos then (fz 0, neg, true)
  else (pos, neg, false).
Fixpoint fcusum_from (threshold pos neg prev : f64) (i : nat) (prices : list f64) : list nat :=
  match prices with
  | [] => []
  | p :: r => let '(pos', neg', e) := fcusum_step threshold pos neg (fsub p prev) in
              (if e then [i] else []) ++ fcusum_from threshold pos' neg' p (S i) r
  end.
(** features/filters.py:6-26 [filter_symmetric_cusum]: the positions of the sampled rows *)
Definition fcusum (prices : list f64) (threshold : f64) : list nat :=
  match prices with [] => [] | p :: r => fcusum_from threshold (fz 0) (fz 0) p 1 r end.
