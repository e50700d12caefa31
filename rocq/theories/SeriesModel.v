(** Model of the recursive helpers [fast_ewma] and [tick_rule]. *)
From Verif Require Import Py.
Set Implicit Arguments.
Open Scope Qc_scope.

(** utils/time_series.py:17 [alpha = 2 / float(span + 1)]; span is an int64. *)
Definition ewma_alpha (span : Z) : Qc := 2 / qz (span + 1).

(** utils/time_series.py:22-26, the loop of the adjusted average from index [i] on.
    [w] and [old] are the loop variables [w] and [ewma_old].  Numba compiles with Python's
    error model, so a zero denominator raises ZeroDivisionError. *)
Fixpoint ewma_adj_loop (alpha : Qc) (i : nat) (w old : Qc) (xs : list Qc) : res (list Qc) :=
  match xs with
  | [] => Ok []
  | x :: xs' =>
      let w' := w + (1 - alpha) ^ i in
      let old' := old * (1 - alpha) + x in
      if qeq w' 0 then Err ZeroDivisionError
      else do ys <- ewma_adj_loop alpha (S i) w' old' xs'; Ok (old' / w' :: ys)
  end.

(** utils/time_series.py:28-31, the unadjusted recursion; [prev] is [ewma[i-1]]. *)
Fixpoint ewma_noadj_loop (alpha prev : Qc) (xs : list Qc) : list Qc :=
  match xs with
  | [] => []
  | x :: xs' => let y := x * alpha + prev * (1 - alpha) in y :: ewma_noadj_loop alpha y xs'
  end.

(** utils/time_series.py:6-31 [fast_ewma(series, span, adjust)].
    On an empty array the compiled code reads and writes out of bounds (nopython mode has no bounds
    check); every caller then takes [[-1]] of the empty result, which raises IndexError.  Both are
    modelled as [Err IndexError]. *)
Definition fast_ewma (series : list Qc) (span : Z) (adjust : bool) : res (list Qc) :=
  if (span + 1 =? 0)%Z then Err ZeroDivisionError
  else
    let alpha := ewma_alpha span in
    match series with
    | [] => Err IndexError
    | x :: xs =>
        if adjust then do ys <- ewma_adj_loop alpha 1 1 x xs; Ok (x :: ys)
        else Ok (x :: ewma_noadj_loop alpha x xs)
    end.

(** features/microstructure.py:23-27, loop of [tick_rule] after the first tick. *)
Fixpoint tick_rule_loop (prev_price prev_b : Qc) (prices : list Qc) : list Qc :=
  match prices with
  | [] => []
  | p :: ps =>
      let change := p - prev_price in
      let b := if qeq change 0 then prev_b else qabs change / change in
      b :: tick_rule_loop p b ps
  end.

(** features/microstructure.py:8-29 [tick_rule(ticks, b0)] on the price column (no NaN prices). *)
Definition tick_rule (prices : list Qc) (b0 : Qc) : list Qc :=
  match prices with
  | [] => []
  | p :: ps => b0 :: tick_rule_loop p b0 ps
  end.
