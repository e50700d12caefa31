(** Vocabulary for the fractional differencing properties. *)
From Verif Require Import Py.
Set Implicit Arguments.
Unset Strict Implicit.
Open Scope Qc_scope.

(** the coefficients of (1-B)^d: (-1)^k * d(d-1)...(d-k+1)/k! *)
Fixpoint falling (d : Qc) (k : nat) : Qc := match k with O => 1 | S k' => falling d k' * (d - qn k') end.
Definition coeff (d : Qc) (k : nat) : Qc := (- (1)) ^ k * falling d k / qn (fact k).
(** sum of f 0 .. f n *)
Definition sum_to (n : nat) (f : nat -> Qc) : Qc := qsum (map f (seq 0 (S n))).
(** the fractional difference of order d of the series x, truncated to the data available at i *)
Definition fdiff (d : Qc) (x : nat -> Qc) (i : nat) : Qc := sum_to i (fun k => coeff d k * x (i - k)%nat).
(** the last observed value of a column at or before [i] *)
Definition last_seen (col : list (option Qc)) (i : nat) (v : Qc) : Prop :=
  exists j, (j <= i)%nat /\ nth_error col j = Some (Some v) /\ forall k, (j < k <= i)%nat -> nth_error col k = Some None.
(** share of the total absolute weight of [n] points that is not available at the [i]-th point (0-based) *)
Definition omitted_share (d : Qc) (n i : nat) : Qc :=
  qsum (map (fun k => qabs (coeff d k)) (seq (S i) (n - S i))) / qsum (map (fun k => qabs (coeff d k)) (seq 0 n)).
