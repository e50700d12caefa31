(** metrics.py [compute_time_weighted_return] in binary64.  Finite input. *)
From Coq Require Import ZArith List Bool.
From Flocq Require Import BinarySingleNaN.
From Verif Require Import Float64.
Import ListNotations.
Set Implicit Arguments.
Unset Strict Implicit.

(** metrics.py:65-68, one period: rows (BEGIN_VALUE, CASHFLOW) and the value at its end *)
Definition fgrowth (row : f64 * f64) (value : f64) : f64 :=
  let begin_balance := fadd (fst row) (snd row) in
  fadd (fz 1) (fdiv (fsub value begin_balance) begin_balance).
(** metrics.py:56-68 [compute_time_weighted_return]; [product] skips NaN, in particular that of the first row; [prod] is numpy's product *)
Definition ftime_weighted_return (prod : list f64 -> f64) (rows : list (f64 * f64)) : f64 :=
  let rets := map (fun p => fgrowth (fst p) (snd p)) (combine rows (tl (map fst rows))) in
  fsub (prod (filter (fun x => negb (is_nan x)) rets)) (fz 1).
(** multiplying one after the other *)
Definition fprod_left (l : list f64) : f64 := fold_left fmul l (fz 1).
