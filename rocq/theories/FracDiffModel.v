(** Model of features/frac_diff.py for one column.  A column is the list of its values, [None] for NaN; positions stand for
    the (sorted, unique) index labels, which are times: with integer labels pandas takes the assignments [col_res[loc] = ...] to an empty
    Series as positions.  [run_adf_tests] is in StatsModel.v. *)
From Verif Require Import Py.
Set Implicit Arguments.
Unset Strict Implicit.
Open Scope Qc_scope.

(** ** frac_diff.py:8-19 [_get_weights] *)
Definition next_w (order : Qc) (k : nat) (w : Qc) : Qc := - w * (order - qn k + 1) / qn k.
(** the loop [for k in range(k, k + n)]; [w] is [weights[-1]] *)
Fixpoint weights_loop (order : Qc) (n k : nat) (w : Qc) : list Qc :=
  match n with O => [] | S n' => let w' := next_w order k w in w' :: weights_loop order n' (S k) w' end.
Definition get_weights (order : Qc) (size : nat) : list Qc := rev (1 :: weights_loop order (size - 1) 1 1).

(** [Series.fillna(method='ffill')] *)
Fixpoint ffill (prev : option Qc) (l : list (option Qc)) : list (option Qc) :=
  match l with [] => [] | x :: l' => let y := match x with Some _ => x | None => prev end in y :: ffill y l' end.
(** [dropna()], keeping positions *)
Fixpoint dropna_from (i : nat) (l : list (option Qc)) : list (nat * Qc) :=
  match l with [] => [] | Some x :: l' => (i, x) :: dropna_from (S i) l' | None :: l' => dropna_from (S i) l' end.
Definition prepared (col : list (option Qc)) : list (nat * Qc) := dropna_from 0 (ffill None col).
Definition dot (a b : list Qc) : Qc := qsum (map (fun p => fst p * snd p) (combine a b)).

(** ** frac_diff.py:22-50 [frac_diff_expanding]; the finiteness test always holds after ffill and dropna.
    The result lists (position, value). *)
Definition weight_losses (weights : list Qc) : list Qc :=
  let c := cumsum (map qabs weights) in map (fun x => x / last c 0) c.
Definition num_skips (weights : list Qc) (threshold : Qc) : nat := length (filter (fun x => qlt threshold x) (removelast (weight_losses weights))).
Definition frac_diff_expanding (col : list (option Qc)) (order threshold : Qc) : res (list (nat * Qc)) :=
  if qle 0 threshold && qle threshold 1 then
    let weights := get_weights order (length col) in
    let s := prepared col in
    let skips := num_skips weights threshold in
    Ok (map (fun iloc => (fst (nth iloc s (0%nat, 0)), dot (skipn (length weights - (iloc + 1)) weights) (map snd (firstn (iloc + 1) s))))
            (seq skips (length s - skips)))
  else Err AssertionError.

(** ** frac_diff.py:53-68 [_get_weights_fixed]; [n] is the number of rounds left *)
Fixpoint weights_fixed_loop (order threshold : Qc) (n k : nat) (w : Qc) : list Qc :=
  match n with
  | O => []
  | S n' => let w' := next_w order k w in if qlt (qabs w') threshold then [] else w' :: weights_fixed_loop order threshold n' (S k) w'
  end.
Definition get_weights_fixed (order threshold : Qc) (max_width : nat) : list Qc := rev (1 :: weights_fixed_loop order threshold (max_width - 1) 1 1).

(** ** frac_diff.py:71-96 [frac_diff_fixed]; points missing in the original column are skipped *)
Definition frac_diff_fixed (col : list (option Qc)) (order threshold : Qc) : list (nat * Qc) :=
  let weights := get_weights_fixed order threshold (length col) in
  let width := (length weights - 1)%nat in
  let s := prepared col in
  flat_map (fun iloc => let e := fst (nth iloc s (0%nat, 0)) in
                        match nth e col None with
                        | None => []
                        | Some _ => [(e, dot weights (map snd (slice s (iloc - width) (iloc + 1))))]
                        end) (seq width (length s - width)).
