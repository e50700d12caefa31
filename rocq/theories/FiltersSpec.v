(** Vocabulary for the filter properties. *)
From Verif Require Import Py RNum.
Set Implicit Arguments.
Unset Strict Implicit.
Open Scope Qc_scope.

(** [up] marks the up events of the series [y] (positions 1..): at [t] the series stands more than [thr] above its value at
    some [s] not earlier than the last up event before [t] (or the start), that is, above its minimum since then *)
Definition up_events (y : nat -> Qc) (thr : Qc) (up : nat -> bool) : Prop :=
  forall t, up t = true <-> (1 <= t)%nat /\ exists s, (s <= t)%nat /\ (forall u, (s < u < t)%nat -> up u = false) /\ thr < y t - y s.
(** down events are the up events of the mirrored series *)
Definition down_events (y : nat -> Qc) (thr : Qc) (down : nat -> bool) : Prop := up_events (fun t => - y t) thr down.

(** mean of the [w] values of [x] ending at position [i] *)
Definition mean_ending (x : nat -> Qc) (w i : nat) : Qc := qsum (map (fun j => x (i - j)%nat) (seq 0 w)) / qn w.
(** the Hull average of period [n] at position [i] *)
Definition hull_at (x : nat -> Qc) (n i : nat) : Qc :=
  mean_ending (fun k => 2 * mean_ending x (n / 2) k - mean_ending x n k) (Nat.sqrt n) i.
