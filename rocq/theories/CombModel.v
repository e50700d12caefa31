(** Model of evaluation/backtest.py: combinatorial purged cross-validation and the PBO combinations. *)
From Coq Require Import Reals.
From Coq Require Floats.SpecFloat.
From Verif Require Import Py CVModel.
Set Implicit Arguments.
Unset Strict Implicit.
Open Scope nat_scope.

(** [itertools.combinations(l, k)], lexicographic order *)
Fixpoint combinations {A} (k : nat) (l : list A) : list (list A) :=
  match k with
  | O => [[]]
  | S k' => match l with
            | [] => []
            | x :: l' => map (cons x) (combinations k' l') ++ combinations k l'
            end
  end.

(** backtest.py:91-94: group [g] is [range(int(g*size), int((g+1)*size))]; [bnd g] stands for [int(g*size)]. *)
Definition group_range (bnd : nat -> nat) (g : nat) : list nat := seq (bnd g) (bnd (g + 1) - bnd g).

(** backtest.py:80 with exact division: [int(g * (n / N))] *)
Definition exact_bnd (n N g : nat) : nat := Z.to_nat (qtrunc (qn g * (qn n / qn N))%Qc).

(** backtest.py:80 with float64: [n / N] and [g * size] are rounded to binary64, [int] truncates. *)
Definition float_of_nat (n : nat) : SpecFloat.spec_float :=
  SpecFloat.binary_normalize 53 1024 (Z.of_nat n) 0 false.
Definition float_trunc (f : SpecFloat.spec_float) : Z :=
  match f with
  | SpecFloat.S754_finite s m e =>
      let v := (if Z.leb 0 e then Z.pos m * 2 ^ e else Z.pos m / 2 ^ (- e))%Z in if s then (- v)%Z else v
  | _ => 0%Z
  end.
Definition float_bnd (n N g : nat) : nat :=
  Z.to_nat (float_trunc (SpecFloat.SFmul 53 1024 (float_of_nat g) (SpecFloat.SFdiv 53 1024 (float_of_nat n) (float_of_nat N)))).

(** The mutable object: [_split_of_test_group], one list of split indices per group (backtest.py:81-82). *)
Definition cpcv_state := list (list nat).
Definition cpcv_init (N : nat) : cpcv_state := repeat [] N.

(** backtest.py:99-100 [for g in test_grps: self._split_of_test_group[g].append(split_idx)] *)
Fixpoint append_at (st : cpcv_state) (g idx : nat) : cpcv_state :=
  match st, g with
  | [], _ => []
  | l :: st', O => (l ++ [idx]) :: st'
  | l :: st', S g' => l :: append_at st' g' idx
  end.
Definition record_split (st : cpcv_state) (idx : nat) (grps : list nat) : cpcv_state :=
  fold_left (fun s g => append_at s g idx) grps st.

(** backtest.py:91-98, the test and train indices of one choice of test groups *)
Definition cpcv_split (bnd : nat -> nat) (events : list event) (bars : option (list Z)) (pct : Qc) (grps : list nat)
  : res (list nat * list nat) :=
  let test := concat (map (group_range bnd) grps) in
  do tests <- iloc events test;
  do train <- apply_purging_and_embargo events tests bars pct;
  Ok (train, test).

(** backtest.py:85-102, a complete run of the generator [split()]: the new state and the yielded splits.
    An exception leaves the state of the splits completed before it; the model returns the state of a complete run only. *)
Definition cpcv_run (bnd : nat -> nat) (N k : nat) (events : list event) (bars : option (list Z)) (pct : Qc) (st : cpcv_state)
  : res (cpcv_state * list (list nat * list nat)) :=
  let combs := combinations k (seq 0 N) in
  do splits <- mapM (cpcv_split bnd events bars pct) combs;
  Ok (fold_left (fun s ic => record_split s (fst ic) (snd ic)) (combine (seq 0 (length combs)) combs) st, splits).

(** [m] complete runs of [split()] on one object, one after the other *)
Fixpoint cpcv_runs (bnd : nat -> nat) (N k : nat) (events : list event) (bars : option (list Z)) (pct : Qc) (m : nat) (st : cpcv_state)
  : res cpcv_state :=
  match m with
  | O => Ok st
  | S m' => do r <- cpcv_run bnd N k events bars pct st; cpcv_runs bnd N k events bars pct m' (fst r)
  end.

(** backtest.py:104-115 [get_backtest_paths]; [min] of no groups raises ValueError.  Each path pairs the test indices of
    every group with a split index. *)
Definition backtest_paths (bnd : nat -> nat) (N : nat) (st : cpcv_state) : res (list (list (list nat * nat))) :=
  match map (@length nat) st with
  | [] => Err ValueError
  | m :: ms =>
      mapM (fun i => do splits <- mapM (fun l => get l i) st; Ok (combine (map (group_range bnd) (seq 0 N)) splits))
           (seq 0 (fold_left Nat.min ms m))
  end.

(** ** PBO *)

(** backtest.py:32-36: train rows and test rows of one combination of partitions *)
Definition pbo_train (size : nat) (parts : list nat) : list nat :=
  concat (map (fun p => seq (p * size) ((p + 1) * size - p * size)) parts).
Definition pbo_test (n_obs : nat) (train : list nat) : list nat :=
  filter (fun i => negb (existsb (Nat.eqb i) train)) (seq 0 n_obs).

(** [np.argmax]: the first position of the maximum *)
Fixpoint argmax_from (best_i : nat) (best : Qc) (i : nat) (l : list Qc) : nat :=
  match l with
  | [] => best_i
  | x :: l' => if qlt best x then argmax_from i x (S i) l' else argmax_from best_i best (S i) l'
  end.
Definition argmax (l : list Qc) : res nat := match l with [] => Err ValueError | x :: l' => Ok (argmax_from 0 x 1 l') end.

(** position of [x] in [l]; the loop at backtest.py:47-50 keeps 0 when absent *)
Fixpoint position (x : nat) (l : list nat) (i : nat) : nat :=
  match l with [] => 0 | y :: l' => if y =? x then i else position x l' (S i) end.

(** backtest.py:12-56 [compute_pbo] up to the kernel density estimate: per combination the out-of-sample rank of the
    strategy that was best in sample, its in-sample and its out-of-sample performance.
    [eval_fn] maps the selected rows to one performance per strategy, [argsort] is [np.argsort]. *)
Section PBO.
  Variable row : Type.
  Variable eval_fn : list row -> list Qc.
  Variable argsort : list Qc -> list nat.

  Definition pbo_combination (perm : list row) (n_parts : nat) (parts : list nat) : res (nat * Qc * Qc) :=
    let train_idx := pbo_train (length perm / n_parts) parts in
    let test_idx := pbo_test (length perm) train_idx in
    do train <- iloc perm train_idx;
    do test <- iloc perm test_idx;
    let train_perm := eval_fn train in
    do best <- argmax train_perm;
    do tp <- get train_perm best;
    let test_perm := eval_fn test in
    do sp <- get test_perm best;
    Ok (position best (argsort test_perm) 0, tp, sp).

  Definition compute_pbo_ranks (perm : list row) (n_parts : nat) : res (list (nat * Qc * Qc)) :=
    if negb (Nat.even n_parts) then Err AssertionError
    else if n_parts =? 0 then Err ZeroDivisionError
    else mapM (pbo_combination perm n_parts) (combinations (n_parts / 2) (seq 0 n_parts)).
End PBO.

(** backtest.py:51-53: [log(r / (1 - r) + 1e-3)] with [r = rank / N] *)
Definition rank_logit (rank N : nat) : R :=
  let r := (INR rank / INR N)%R in ln (r / (1 - r) + / 1000)%R.
