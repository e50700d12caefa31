(** Vocabulary for the ETF trick and rolled series. *)
From Verif Require Import Py BasketModel.
Set Implicit Arguments.
Unset Strict Implicit.
Open Scope Qc_scope.

Definition at_ (l : list Qc) (i : nat) : Qc := nth i l 0.
(** sum over the instruments 0..n-1 *)
Definition over (n : nat) (f : nat -> Qc) : Qc := qsum (map f (seq 0 n)).

(** every row has one entry per instrument *)
Definition shaped (n : nat) (b : etf_bar) : Prop :=
  length (e_w b) = n /\ length (e_open b) = n /\ length (e_close b) = n /\
  length (e_fx b) = n /\ length (e_vol b) = n /\ length (e_div b) = n.

(** change of one unit of instrument [i] during bar [b] that follows bar [p] *)
Definition unit_change (after_rebalance : Prop) (p b : etf_bar) (i : nat) (d : Qc) : Prop :=
  (after_rebalance -> d = at_ (e_close b) i - at_ (e_open b) i + at_ (e_div b) i) /\
  (~ after_rebalance -> d = at_ (e_close b) i - at_ (e_close p) i + at_ (e_div b) i).

(** holdings [h] spend [value] in the proportions of [w] at unit cost [cost i] *)
Definition spends (n : nat) (w : list Qc) (cost : nat -> Qc) (value : Qc) (h : list Qc) : Prop :=
  length h = n /\
  forall i, (i < n)%nat ->
    cost i <> 0 /\ at_ h i * cost i = at_ w i / over n (fun j => qabs (at_ w j)) * value.

(** the contract differs from that of the previous bar *)
Definition contract_changes (cs : list Z) (i : nat) : Prop :=
  exists c c', nth_error cs (S i) = Some c /\ nth_error cs i = Some c' /\ c <> c'.
(** a contract that was left is never held again *)
Definition no_return (cs : list Z) : Prop :=
  forall i j k c, (i < j < k)%nat -> nth_error cs i = Some c -> nth_error cs k = Some c -> nth_error cs j = Some c.
