(** Vocabulary for the performance metrics. *)
From Verif Require Import Py.
Set Implicit Arguments.
Unset Strict Implicit.
Open Scope Qc_scope.

(** the position held in [i] is closed to zero, or changes sign, at [S i] *)
Definition closes (ps : list (Z * Qc)) (i : nat) (t : Z) : Prop :=
  exists p0 t0 p, nth_error ps i = Some (t0, p0) /\ nth_error ps (S i) = Some (t, p) /\ p0 <> 0 /\ p = 0.
Definition flips (ps : list (Z * Qc)) (i : nat) (t : Z) : Prop :=
  exists p0 t0 p, nth_error ps i = Some (t0, p0) /\ nth_error ps (S i) = Some (t, p) /\ ((p0 < 0 /\ 0 < p) \/ (0 < p0 /\ p < 0)).

(** quantity closed when the position goes from [p0] to [p] *)
Definition closed_qty (p0 p : Qc) : Qc := if qlt (p0 * p) 0 then qabs p0 else qmax 0 (qabs p0 - qabs p).
Fixpoint total_closed (l : list (Z * Qc)) : Qc :=
  match l with r0 :: ((r :: _) as l') => closed_qty (snd r0) (snd r) + total_closed l' | _ => 0 end.
(** time integral of the absolute position, in units of [u] *)
Fixpoint exposure (u : Qc) (l : list (Z * Qc)) : Qc :=
  match l with r0 :: ((r :: _) as l') => qabs (snd r0) * (qz (fst r - fst r0) / u) + exposure u l' | _ => 0 end.

(** strictly increasing times *)
Definition times_increase (l : list (Z * Qc)) : Prop := StronglySorted Z.lt (map fst l).

(** [i] is a new high of the values [v] *)
Definition new_high (v : list Qc) (i : nat) : Prop := exists x, nth_error v i = Some x /\ forall j y, (j < i)%nat -> nth_error v j = Some y -> y < x.
(** [j] is in the stretch from the new high [i] to just before the next one *)
Definition before_next_high (v : list Qc) (i j : nat) : Prop :=
  (i <= j < length v)%nat /\ forall k, (i < k <= j)%nat -> ~ new_high v k.
(** the lowest value in that stretch *)
Definition low_until_next_high (v : list Qc) (i : nat) (m : Qc) : Prop :=
  (exists j, before_next_high v i j /\ nth_error v j = Some m) /\
  forall j y, before_next_high v i j -> nth_error v j = Some y -> m <= y.

(** rows (value before the cash flow, cash flow) of a portfolio: it earns the return of each period on the balance
    after the previous cash flow.  [steps] are the pairs (return, cash flow) of the later periods. *)
Fixpoint portfolio (v cf : Qc) (steps : list (Qc * Qc)) : list (Qc * Qc) :=
  (v, cf) :: match steps with [] => [] | (r, cf') :: steps' => portfolio ((v + cf) * (1 + r)) cf' steps' end.
(** the balance after each cash flow but the last is not zero *)
Fixpoint solvent (rows : list (Qc * Qc)) : Prop :=
  match rows with (v, cf) :: ((_ :: _) as rows') => v + cf <> 0 /\ solvent rows' | _ => True end.
(** compounded growth *)
Fixpoint growth (rs : list Qc) : Qc := match rs with [] => 1 | r :: rs' => (1 + r) * growth rs' end.

(** the gains (zero included) and the losses among the returns *)
Definition gains (l : list Qc) : list Qc := filter (fun r => qle 0 r) l.
Definition losses (l : list Qc) : list Qc := filter (fun r => qlt r 0) l.
Definition all_equal (l : list Qc) : Prop := forall x y, In x l -> In y l -> x = y.
(** one element carries the whole sum *)
Definition single_bet (l : list Qc) : Prop :=
  exists l1 x l2, l = l1 ++ x :: l2 /\ x <> 0 /\ (forall y, In y l1 -> y = 0) /\ (forall y, In y l2 -> y = 0).
