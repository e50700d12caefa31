(** Vocabulary for cross-validation. *)
From Verif Require Import Py.
Set Implicit Arguments.
Unset Strict Implicit.
Open Scope Z_scope.

(** two closed intervals share a point *)
Definition meets (a b : Z * Z) : Prop := exists x, fst a <= x <= snd a /\ fst b <= x <= snd b.
Definition proper (e : Z * Z) : Prop := fst e <= snd e.

(** [b'] is the bar [step] bars after bar [b], or the last bar *)
Definition bar_after (bars : list Z) (step : nat) (b b' : Z) : Prop :=
  exists i, nth_error bars i = Some b /\ nth_error bars (Nat.min (i + step) (length bars - 1)) = Some b'.

(** strictly increasing list of indices *)
Definition increasing (l : list nat) : Prop := StronglySorted lt l.

(** number of events that start no later than [t] *)
Definition started_by (events : list (Z * Z)) (t : Z) : nat := length (filter (fun e => fst e <=? t) events).

(** [m] is the largest value of [f] on [l] *)
Definition is_max {A} (f : A -> Z) (l : list A) (m : Z) : Prop := (exists a, In a l /\ f a = m) /\ forall a, In a l -> f a <= m.

(** [rows] are the entries of [l] at the positions [idx] *)
Definition rows_at {A} (l : list A) (idx : list nat) (rows : list A) : Prop := Forall2 (fun i a => nth_error l i = Some a) idx rows.

(** [step] is the integer part of [n * pct] *)
Definition embargo_bars (n : nat) (pct : Qc) (step : nat) : Prop := (qn step <= qn n * pct)%Qc /\ (qn n * pct < qn (step + 1))%Qc.
