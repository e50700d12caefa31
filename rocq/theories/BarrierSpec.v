(** Vocabulary for the labelling properties. *)
From Verif Require Import Py RNum BarrierModel.
Set Implicit Arguments.
Unset Strict Implicit.
Open Scope Qc_scope.

(** return of holding [side] units from price [s] to price [p] *)
Definition held (side : Z) (s p : Qc) : Qc := qz side * ((p - s) / s).
(** best and worst price of a bar for the side *)
Definition best (side : Z) (b : ohlc) : Qc := if (side =? 1)%Z then b_high b else b_low b.
Definition worst (side : Z) (b : ohlc) : Qc := if (side =? 1)%Z then b_low b else b_high b.
(** the bar at [t] lies in the event's life and its best price gains more than [mult]*[target] *)
Definition takes_profit (ps : prices) (start expiry side : Z) (s mult target : Qc) (t : Z) : Prop :=
  0 < mult /\ (start <= t <= expiry)%Z /\ exists b, In (t, Some b) ps /\ mult * target < held side s (best side b).
Definition stops_loss (ps : prices) (start expiry side : Z) (s mult target : Qc) (t : Z) : Prop :=
  0 < mult /\ (start <= t <= expiry)%Z /\ exists b, In (t, Some b) ps /\ held side s (worst side b) < - (mult * target).
(** [o] is the earliest time at which [P] holds *)
Definition first_time (P : Z -> Prop) (o : option Z) : Prop :=
  match o with None => forall t, ~ P t | Some t => P t /\ forall u, P u -> (t <= u)%Z end.
