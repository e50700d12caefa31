(** Vocabulary for combinatorial cross-validation. *)
From Verif Require Import Py.
Set Implicit Arguments.
Unset Strict Implicit.
Open Scope nat_scope.

(** binomial coefficients by Pascal's rule *)
Fixpoint binom (n k : nat) : nat :=
  match k, n with
  | O, _ => 1
  | S _, O => 0
  | S k', S n' => binom n' k' + binom n' k
  end.

(** a choice of [k] of the groups [0 .. N-1], listed in increasing order *)
Definition choice (N k : nat) (c : list nat) : Prop := StronglySorted lt c /\ length c = k /\ forall g, In g c -> g < N.

(** the test period of an event: up to its end, or with bar times up to the bar [step] bars later *)
Definition test_window (bars : option (list Z)) (step : nat) (t w : Z * Z) : Prop :=
  match bars with
  | None => w = t
  | Some bs => fst w = fst t /\ exists i, nth_error bs i = Some (snd t) /\ nth_error bs (Nat.min (i + step) (length bs - 1)) = Some (snd w)
  end.

(** the contract of [np.argsort]: a permutation of the positions that lists the values in ascending order *)
Definition sorts_ascending (l : list Qc) (p : list nat) : Prop :=
  Permutation p (seq 0 (length l)) /\
  forall i j a b x y, i < j -> nth_error p i = Some a -> nth_error p j = Some b -> nth_error l a = Some x -> nth_error l b = Some y -> (x <= y)%Qc.

Definition count {A} (f : A -> bool) (l : list A) : nat := length (filter f l).
