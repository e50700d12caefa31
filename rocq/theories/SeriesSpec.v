(** Specification vocabulary for moving averages and trade signs. *)
From Verif Require Import Num.
Set Implicit Arguments.
Open Scope Qc_scope.

(** sum over j = 0..n-1 of [r^j * x_j] for a list [x_0; x_1; ...] *)
Fixpoint power_sum (r : Qc) (j : nat) (l : list Qc) : Qc :=
  match l with [] => 0 | x :: l' => r ^ j * x + power_sum r (S j) l' end.

(** Exponentially weighted mean of the values seen so far, newest value first weight 1, the value j
    steps back weight [r^j]. *)
Definition exp_weighted_mean (r : Qc) (seen : list Qc) : Qc :=
  power_sum r 0 (rev seen) / power_sum r 0 (map (fun _ => 1) seen).

(** sign of a price move *)
Definition move_sign (from to : Qc) : Qc := if qlt from to then 1 else - (1).
