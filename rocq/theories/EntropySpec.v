(** Vocabulary for the entropy properties. *)
From Verif Require Import Py RNum.
Set Implicit Arguments.
Unset Strict Implicit.
Open Scope nat_scope.

(** the words of length [w], one per position *)
Definition windows (w : nat) (msg : list nat) : list (list nat) := map (fun i => firstn w (skipn i msg)) (seq 0 (S (length msg) - w)).
(** occurrences of a word *)
Definition occurrences (x : list nat) (l : list (list nat)) : nat := count_occ (list_eq_dec Nat.eq_dec) l x.

Definition prefix (p s : list nat) : Prop := exists r, s = p ++ r.
Definition substring (p s : list nat) : Prop := exists a b, s = a ++ p ++ b.

(** LZ78 parsing: with dictionary [lib], cut off the shortest prefix that is not in it, add it, and go on; what is left
    when no prefix is new is dropped *)
Inductive lz78 : list (list nat) -> list nat -> list (list nat) -> Prop :=
| lz_stop lib rest : (forall p, prefix p rest -> p <> [] -> In p lib) -> lz78 lib rest lib
| lz_phrase lib p rest out : p <> [] -> ~ In p lib -> (forall p', prefix p' p -> p' <> p -> p' <> [] -> In p' lib) ->
    lz78 (lib ++ [p]) rest out -> lz78 lib (p ++ rest) out.

(** the [L] characters from [i] also occur from some [j] among the [n] positions before [i] *)
Definition matches (msg : list nat) (i n L : nat) : Prop :=
  exists j, i - n <= j < i /\ forall k, k < L -> nth_error msg (j + k) = nth_error msg (i + k).
