(** Vocabulary for the sample-weighting properties. *)
From Verif Require Import Py RNum BarrierModel WeightModel.
Set Implicit Arguments.
Unset Strict Implicit.
Open Scope Qc_scope.

(** the rows whose label is not in [dropped]; unlabelled rows stay *)
Definition without {A} (dropped : list Z) (rows : list (option Z * A)) : list (option Z * A) :=
  filter (fun r => match fst r with Some z => negb (zmem z dropped) | None => true end) rows.
(** number of events whose closed interval contains [t] *)
Definition concurrent (events : list (Z * Z)) (t : Z) : nat := length (filter (fun e => (fst e <=? t)%Z && (t <=? snd e)%Z) events).
Definition bars_of (bars : list Z) (e : Z * Z) : list Z := filter (fun t => (fst e <=? t)%Z && (t <=? snd e)%Z) bars.
(** the bars of event (column) [k] in an indicator matrix *)
Definition support (n_bars : nat) (cols : list (list nat)) (k : nat) : list nat := filter (fun i => (nth i (nth k cols []) 0 =? 1)%nat) (seq 0 n_bars).
(** how many of the draws cover bar [i] *)
Definition drawn_on (cols : list (list nat)) (draws : list nat) (i : nat) : nat := length (filter (fun k => (nth i (nth k cols []) 0 =? 1)%nat) draws).
Definition is_indicator (n_bars : nat) (cols : list (list nat)) : Prop :=
  forall c, In c cols -> length c = n_bars /\ (forall x, In x c -> x = 0%nat \/ x = 1%nat).
