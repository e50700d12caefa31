(** Specifications for C140, C141 and C142. *)
From Verif Require Import Py RNum.
Set Implicit Arguments.
Unset Strict Implicit.
Open Scope R_scope.

(** [i] and [j] are joined by a chain of items, each within [t] of the next *)
Inductive connected (n : nat) (d : nat -> nat -> R) (t : R) : nat -> nat -> Prop :=
| connected_refl i : (i < n)%nat -> connected n d t i i
| connected_step i j k : connected n d t i j -> (k < n)%nat -> d j k <= t -> connected n d t i k.

(** the return of the portfolio [w] in the observation [r] *)
Definition portfolio_return (n : nat) (w : nat -> Qc) (r : list Qc) : Qc := qsum (map (fun i => w i * nth i r 0)%Qc (seq 0 n)).
(** no portfolio other than the empty one earns the same in every observation *)
Definition no_riskless_portfolio (n : nat) (returns : list (list Qc)) : Prop :=
  forall w, (forall r r', In r returns -> In r' returns -> portfolio_return n w r = portfolio_return n w r') -> forall i, (i < n)%nat -> w i = 0%Qc.
(** the sample correlation, written out *)
Definition mean_of (xs : list R) : R := rsum xs / INR (length xs).
Definition pearson (xs ys : list R) : R :=
  let mx := mean_of xs in let my := mean_of ys in
  rsum (map (fun p => (fst p - mx) * (snd p - my)) (combine xs ys)) /
  (sqrt (rsum (map (fun x => (x - mx) ^ 2) xs)) * sqrt (rsum (map (fun y => (y - my) ^ 2) ys))).
