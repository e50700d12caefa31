(** Model of evaluation/cross_validation.py, evaluation/backtest.py and assets_allocation/position_sizing.py when the bar times come as a
    pandas Series, the type that backtest.py:73, position_sizing.py:17 and :45 give for them.  CVModel.v and PositionModel.v model them as an array.  A missing time (NaT) is [None]. *)
From Verif Require Import Py RNum CVModel CombModel BarrierModel WeightModel UtilsModel PositionModel.
Set Implicit Arguments.
Unset Strict Implicit.
Open Scope Z_scope.

(** the labels of a Series: numbers (the default) or times *)
Inductive label := Num (z : Z) | Time (t : Z).
Definition label_eqb (a b : label) : bool := match a, b with Num x, Num y => x =? y | Time x, Time y => x =? y | _, _ => false end.
Definition series := list (label * Z).
Fixpoint by_label (l : label) (s : series) : option Z :=
  match s with [] => None | (k, v) :: s' => if label_eqb l k then Some v else by_label l s' end.
(** [pd.Series(s, index=idx)] of a Series [s]: the values of [s] at the labels [idx], NaT where [s] has no such label *)
Definition reindexed (s : series) (idx : list Z) : list (Z * option Z) := map (fun t => (t, by_label (Time t) s)) idx.
(** [s[-1]]: by label if the labels are numbers, by position otherwise; all labels are of one kind *)
Definition item_minus_one (s : series) : res Z :=
  match s with
  | [] => Err IndexError
  | (Num _, _) :: _ => match by_label (Num (-1)) s with Some v => Ok v | None => Err KeyError end
  | (Time _, v) :: s' => Ok (last (map snd s') v)
  end.
(** cross_validation.py:40-46 [_get_embargo_times]; slices of a Series are by position and keep the labels.  pct >= 0. *)
Definition embargo_times_series (s : series) (pct : Qc) : res (list (Z * option Z)) :=
  let n := length s in
  let times := map snd s in
  let step := embargo_step n pct in
  if (step =? 0)%nat then Ok (reindexed s times)
  else do last_bar <- item_minus_one s;
       Ok (reindexed (skipn step s) (firstn (n - step) times) ++ map (fun b => (b, Some last_bar)) (skipn (n - step) times)).
Fixpoint lookup_time (m : list (Z * option Z)) (k : Z) : res (option Z) :=
  match m with [] => Err KeyError | (k', v) :: m' => if k' =? k then Ok v else lookup_time m' k end.
(** cross_validation.py:22-24; every mask compares with the end of the test interval, and a comparison with NaT is false *)
Definition overlaps_series (test_start : Z) (test_end : option Z) (e : CVModel.event) : bool :=
  match test_end with Some te => overlaps test_start te e | None => false end.
(** cross_validation.py:49-71 [apply_purging_and_embargo] *)
Definition apply_purging_series (events tests : list CVModel.event) (s : series) (pct : Qc) : res (list nat) :=
  do emb <- embargo_times_series s pct;
  do adj <- mapM (fun t => do e <- lookup_time emb (snd t); Ok (fst t, e)) tests;
  Ok (map fst (fold_left (fun rows t => filter (fun r => negb (overlaps_series (fst t) (snd t) (snd r))) rows) adj (combine (seq 0 (length events)) events))).
(** backtest.py:85-102, one split of [CombinatorialPurgedCV] *)
Definition cpcv_split_series (bnd : nat -> nat) (events : list CVModel.event) (s : series) (pct : Qc) (grps : list nat) : res (list nat * list nat) :=
  let test := concat (map (group_range bnd) grps) in
  do tests <- iloc events test;
  do train <- apply_purging_series events tests s pct;
  Ok (train, test).

(** ** position_sizing.py with a Series of bar times *)
(** weighting.py:26-39 [count_events_per_bar]: [searchsorted] and the slice of the Series are by position *)
Definition count_events_series (s : series) (events : list (Z * option Z)) : res (list (Z * nat)) :=
  let bars := map snd s in
  do last_bar <- item_minus_one s;
  let evs := fill_ends last_bar events in
  match evs with
  | [] => Err IndexError
  | e0 :: es =>
      let i0 := searchsorted_left bars (fst e0) in
      let i1 := searchsorted_left bars (fold_right (fun e m => Z.max (snd e) m) (snd e0) es) in
      Ok (fold_left bump evs (map (fun t => (t, 0%nat)) (slice bars i0 (i1 + 1))))
  end.
(** position_sizing.py:39-56 *)
Definition budgeted_size_series (s : series) (events : list PositionModel.event) (budget_fn : list nat -> res Qc) : res (list (Z * Qc)) :=
  let bars := map snd s in
  do lc <- count_events_series s (of_side 1 events);
  do sc <- count_events_series s (of_side (-1) events);
  do lb <- budget_fn (map snd lc);
  do sb <- budget_fn (map snd sc);
  let ls := map (fun r => (fst r, budget_share (snd r) lb)) lc in
  let ss := map (fun r => (fst r, budget_share (snd r) sb)) sc in
  Ok (map (fun t => (t, (filled bars ls t - filled bars ss t)%Qc)) bars).
(** position_sizing.py:11-36 *)
Definition mixture_size_series (s : series) (events : list PositionModel.event) (fit : list Z -> list (R * (R -> R))) : res (list (Z * R)) :=
  let bars := map snd s in
  do lc <- count_events_series s (of_side 1 events);
  do sc <- count_events_series s (of_side (-1) events);
  let conc := map (fun t => (count_at lc t - count_at sc t)) bars in
  let mix := fit conc in
  Ok (combine bars (map (mixture_size mix) conc)).
