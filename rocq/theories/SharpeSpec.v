(** Vocabulary for the Sharpe ratio properties. *)
From Verif Require Import Py RNum.
Set Implicit Arguments.
Unset Strict Implicit.
Open Scope R_scope.

(** what is used of the normal cdf: a strictly increasing function into (0, 1) *)
Definition is_cdf (cdf : R -> R) : Prop := (forall x, 0 < cdf x < 1) /\ (forall x y, x < y -> cdf x < cdf y).
(** what is used of the normal quantile function: non-negative from one half on *)
Definition is_quantile (ppf : R -> R) : Prop := forall x, / 2 <= x -> 0 <= ppf x.
(** a sample whose values are not all equal *)
Definition not_constant (l : list R) : Prop := exists x y, In x l /\ In y l /\ x <> y.
