(** Model of labeling/weighting.py.  Times are [Z]; indexes are duplicate-free. *)
From Verif Require Import Py RNum BarrierModel.
Set Implicit Arguments.
Unset Strict Implicit.
Open Scope Qc_scope.

(** ** weighting.py:7-21 [drop_rare_labels].  A row is (label, rest); a NaN label ([None]) is not counted by [value_counts] and
    differs from every label.  [tie] picks the row [argmin] finds first among equally rare labels (the order of ties in
    [value_counts] is an accident of its sort). *)
Section DropRare.
  Variable A : Type.
  Variable tie : list Z -> Z.
  Definition label_is (z : Z) (r : option Z * A) : bool := match fst r with Some y => (y =? z)%Z | None => false end.
  Definition count_label (z : Z) (rows : list (option Z * A)) : nat := length (filter (label_is z) rows).
  Definition labels_of (rows : list (option Z * A)) : list Z := zset (somes (map fst rows)).
  Definition n_labelled (rows : list (option Z * A)) : nat := length (somes (map fst rows)).
  Definition share (rows : list (option Z * A)) (z : Z) : Qc := qn (count_label z rows) / qn (n_labelled rows).
  (** smallest number of occurrences of a label *)
  Definition list_min_nat (l : list nat) : nat := match l with [] => 0%nat | x :: l' => fold_right Nat.min x l' end.
  Definition min_count (rows : list (option Z * A)) : nat := list_min_nat (map (fun z => count_label z rows) (labels_of rows)).
  Definition rarest (rows : list (option Z * A)) : Z := tie (filter (fun z => (count_label z rows =? min_count rows)%nat) (labels_of rows)).
  (** [None]: out of fuel *)
  Fixpoint drop_rare (fuel : nat) (min_pct : Qc) (min_classes : nat) (rows : list (option Z * A)) : option (list (option Z * A)) :=
    let ls := labels_of rows in
    (* the minimum of an empty frequency table is NaN *)
    if (negb (length ls =? 0)%nat && forallb (fun z => qlt min_pct (share rows z)) ls) || (length ls <=? min_classes)%nat then Some rows
    else match fuel with
         | O => None
         | S f => drop_rare f min_pct min_classes (filter (fun r => negb (label_is (rarest rows) r)) rows)
         end.
  Definition drop_rare_labels min_pct min_classes rows := drop_rare (length rows) min_pct min_classes rows.
End DropRare.

(** ** weighting.py:26-39 [count_events_per_bar]; an event is (start, end), NaT end = [None] *)
Definition fill_ends (last_bar : Z) (events : list (Z * option Z)) : list (Z * Z) := map (fun e => (fst e, match snd e with Some t => t | None => last_bar end)) events.
Definition covers (e : Z * Z) (t : Z) : bool := (fst e <=? t)%Z && (t <=? snd e)%Z.
Definition bump (res : list (Z * nat)) (e : Z * Z) : list (Z * nat) := map (fun r => (fst r, if covers e (fst r) then S (snd r) else snd r)) res.
Definition count_events_per_bar (bars : list Z) (events : list (Z * option Z)) : res (list (Z * nat)) :=
  do last_bar <- py_last bars;
  let evs := fill_ends last_bar events in
  match evs with
  | [] => Err IndexError
  | e0 :: es =>
      let i0 := searchsorted_left bars (fst e0) in
      let i1 := searchsorted_left bars (fold_right (fun e m => Z.max (snd e) m) (snd e0) es) in
      Ok (fold_left bump evs (map (fun t => (t, 0%nat)) (slice bars i0 (i1 + 1))))
  end.

(** ** weighting.py:42-59 [label_avg_uniqueness]; all ends are known here (NaT ends are only filled inside the counting).
    The mean of no bars is NaN; a zero count would give inf; both are [None]. *)
Definition avg_inverse (counts : list nat) : option Qc :=
  if (length counts =? 0)%nat || existsb (Nat.eqb 0) counts then None else Some (qmean (map (fun c => 1 / qn c) counts)).
Definition label_avg_uniqueness (bars : list Z) (events : list (Z * Z)) : res (list (Z * option Qc)) :=
  do counts <- count_events_per_bar bars (map (fun e => (fst e, Some (snd e))) events);
  let filled := map (fun t => (t, match lookup t counts with Some c => c | None => 0%nat end)) bars in
  Ok (map (fun e => (fst e, avg_inverse (map snd (filter (fun r => covers e (fst r)) filled)))) events).

(** ** weighting.py:64-75 [get_event_indicators]: one column (over the bars) per event *)
Definition indicators (bars : list Z) (events : list (Z * Z)) : list (list nat) := map (fun e => map (fun t => if covers e t then 1%nat else 0%nat) bars) events.
(** weighting.py:78-86 [_get_avg_uniqueness]; entry/row sum, NaN for 0/0; mean of the positive entries of each column *)
Definition row_sums (n_bars : nat) (cols : list (list nat)) : list nat := map (fun i => list_sum (map (fun c => nth i c 0%nat) cols)) (seq 0 n_bars).
Definition mean_opt (l : list Qc) : option Qc := if (length l =? 0)%nat then None else Some (qmean l).
Definition col_uniqueness (sums : list nat) (col : list nat) : option Qc :=
  mean_opt (filter (qlt 0) (map (fun p => qn (fst p) / qn (snd p)) (filter (fun p => negb (snd p =? 0)%nat) (combine col sums)))).
Definition avg_uniqueness (n_bars : nat) (cols : list (list nat)) : list (option Qc) := map (col_uniqueness (row_sums n_bars cols)) cols.

(** ** weighting.py:89-107 [sample_sequential_boostrap].  [choose history probs] is [np.random.choice]; NaN probabilities make it raise.
    [Series.sum] skips NaN. *)
Section SeqBootstrap.
  Variable choose : list nat -> list Qc -> nat.
  Variable n_bars : nat.
  Variable cols : list (list nat).
  Definition trial_uniqueness (samples : list nat) (k : nat) : option Qc :=
    last (avg_uniqueness n_bars (map (fun i => nth i cols []) (samples ++ [k]))) None.
  Definition sum_skipna (l : list (option Qc)) : Qc := qsum (somes l).
  Definition draw_probs (samples : list nat) : list (option Qc) :=
    let u := map (trial_uniqueness samples) (seq 0 (length cols)) in
    map (fun o => option_map (fun x => x / sum_skipna u) o) u.
  Fixpoint sequential_bootstrap (size : nat) (samples : list nat) : res (list nat) :=
    match size with
    | O => Ok samples
    | S m =>
        let ps := draw_probs samples in
        if (length ps =? 0)%nat || existsb (fun o => match o with None => true | Some _ => false end) ps then Err ValueError
        else sequential_bootstrap m (samples ++ [choose samples (somes ps)])
    end.
  Definition sample_sequential_bootstrap (size : option nat) : res (list nat) :=
    sequential_bootstrap (match size with Some n => n | None => length cols end) [].
End SeqBootstrap.

(** ** weighting.py:112-139: return attribution.  [bars]: (time, price), prices positive; sums skip NaN.
    A missing count is NaN.  The code gives inf for a zero count and NaN for a zero total attribution; the theorems exclude both. *)
Open Scope R_scope.
Fixpoint log_returns (prev : option R) (bars : list (Z * R)) : list (Z * option R) :=
  match bars with [] => [] | (t, p) :: bars' => (t, match prev with None => None | Some q => Some (ln p - ln q) end) :: log_returns (Some p) bars' end.
Definition attributed (counts : list (Z * nat)) (r : Z * option R) : R :=
  match snd r, lookup (fst r) counts with Some x, Some c => x / INR c | _, _ => 0 end.
Definition signed_attribution (counts : list (Z * nat)) (bars : list (Z * R)) (e : Z * Z) : R :=
  rsum (map (attributed counts) (filter (fun r => covers e (fst r)) (log_returns None bars))).
Definition return_attributions (events : list (Z * Z)) (counts : list (Z * nat)) (bars : list (Z * R)) : list R :=
  map (fun e => Rabs (signed_attribution counts bars e)) events.
Definition weights_by_returns (events : list (Z * Z)) (counts : list (Z * nat)) (bars : list (Z * R)) : list R :=
  let raw := return_attributions events counts bars in
  map (fun w => w * (INR (length raw) / rsum raw)) raw.
Close Scope R_scope.

(** ** weighting.py:144-165 [apply_time_decay_to_weights]; a zero denominator (inf/NaN weights) is [ZeroDivisionError] here *)
Fixpoint insert_row {A} (x : Z * A) (l : list (Z * A)) : list (Z * A) := match l with [] => [x] | y :: l' => if (fst x <=? fst y)%Z then x :: l else y :: insert_row x l' end.
Definition sort_index {A} (l : list (Z * A)) : list (Z * A) := fold_right insert_row [] l.
Definition time_decay (uniq : list (Z * Qc)) (oldest : Qc) : res (list (Z * Qc)) :=
  let rows := sort_index uniq in
  let cum := cumsum (map snd rows) in
  do total <- py_last cum;
  let den := if qle 0 oldest then total else (oldest + 1) * total in
  if qeq den 0 then Err ZeroDivisionError
  else let slope := if qle 0 oldest then (1 - oldest) / total else 1 / ((oldest + 1) * total) in
       let const := 1 - slope * total in
       Ok (combine (map fst rows) (map (fun c => let w := const + slope * c in if qlt w 0 then 0 else w) cum)).
