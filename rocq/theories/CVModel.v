(** Model of evaluation/cross_validation.py and of the permutation importance in explain/feature_importance.py. *)
From Verif Require Import Py.
Set Implicit Arguments.
Unset Strict Implicit.
Open Scope Z_scope.

(** An event: start time (the index of the Series) and end time (its value). *)
Notation event := (Z * Z)%type.

(** cross_validation.py:22-24, the three overlap masks for one event and one test interval. *)
Definition overlaps (test_start test_end : Z) (e : event) : bool :=
  ((test_start <=? fst e) && (fst e <=? test_end)) ||
  ((test_start <=? snd e) && (snd e <=? test_end)) ||
  ((fst e <=? test_start) && (test_end <=? snd e)).

(** cross_validation.py:9-26 [_get_purged_train_indices]: rows are dropped test interval by test interval. *)
Definition purged_train_indices (events : list event) (tests : list event) : list nat :=
  map fst (fold_left (fun rows t => filter (fun r => negb (overlaps (fst t) (snd t) (snd r))) rows)
                     tests (combine (seq 0 (length events)) events)).

(** cross_validation.py:40-46 [_get_embargo_times] as (bar, shifted bar) pairs.
    [step = int(n * pct)]; [bar_times[:-step]] and [bar_times[-step:]] for [step > 0].  pct >= 0. *)
Definition embargo_step (n : nat) (pct : Qc) : nat := Z.to_nat (qtrunc (qn n * pct)%Qc).
Definition embargo_times (bars : list Z) (pct : Qc) : list (Z * Z) :=
  let n := length bars in
  let step := embargo_step n pct in
  if (step =? 0)%nat then combine bars bars
  else combine (firstn (n - step) bars) (skipn step bars) ++ map (fun b => (b, last bars 0)) (skipn (n - step) bars).

(** [series[label]]; bar times are unique, KeyError for a missing label *)
Fixpoint lookup (m : list (Z * Z)) (k : Z) : res Z :=
  match m with
  | [] => Err KeyError
  | (k', v) :: m' => if k' =? k then Ok v else lookup m' k
  end.

(** cross_validation.py:49-71 [apply_purging_and_embargo] *)
Definition apply_purging_and_embargo (events tests : list event) (bars : option (list Z)) (pct : Qc) : res (list nat) :=
  match bars with
  | None => Ok (purged_train_indices events tests)
  | Some bt =>
      do adj <- mapM (fun t => do e <- lookup (embargo_times bt pct) (snd t); Ok (fst t, e)) tests;
      Ok (purged_train_indices events adj)
  end.

(** ** PurgedKFold *)

(** [np.array_split(indices, k)]: the first [n mod k] parts have [n / k + 1] entries, the others [n / k]. *)
Fixpoint split_sizes (sizes : list nat) (from : nat) : list (list nat) :=
  match sizes with
  | [] => []
  | s :: rest => seq from s :: split_sizes rest (from + s)
  end.
Definition array_split (n k : nat) : list (list nat) :=
  split_sizes (repeat (n / k + 1) (n mod k) ++ repeat (n / k) (k - n mod k))%nat 0.

(** cross_validation.py:107-118, one iteration of the loop for the fold [i:j]. *)
Definition kfold_train (events : list event) (embargo i j : nat) : res (list nat) :=
  let n := length events in
  do ev <- get events i;
  let test_start := fst ev in
  let train_1 := filter (fun x => match nth_error events x with Some e => snd e <? test_start | None => false end) (seq 0 n) in
  match slice (map snd events) i j with
  | [] => Err ValueError
  | e :: es =>
      let test_end := fold_left Z.max es e in
      let train_2_start := (searchsorted_right (map fst events) test_end + 1)%nat in
      Ok (if (train_2_start <? n)%nat then train_1 ++ skipn (train_2_start + embargo) (seq 0 n) else train_1)
  end.

(** cross_validation.py:91-118 [PurgedKFold.split] on a Series with a DatetimeIndex.  An empty part of [array_split] raises
    IndexError at [i[0]]; zero parts raise ValueError.  embargo_pct >= 0. *)
Definition kfold_split (n_splits : nat) (pct : Qc) (events : list event) : res (list (list nat * list nat)) :=
  let n := length events in
  let embargo := embargo_step n pct in
  if (n_splits =? 0)%nat then Err ValueError
  else
    do bounds <- mapM (fun p => match p with [] => Err IndexError | i :: _ => Ok (i, last p 0 + 1)%nat end) (array_split n n_splits);
    mapM (fun ij => do tr <- kfold_train events embargo (fst ij) (snd ij); Ok (tr, slice (seq 0 n) (fst ij) (snd ij))) bounds.

(** ** Scoring *)

(** What is passed as [embargo_pct] and [event_times] of [timeseries_cv_score]; [None] is Python's default None. *)
Inductive splitter :=
| Kfold (n_splits : nat) (pct : option Qc)       (* PurgedKFold *)
| Combinatorial                                  (* CombinatorialPurgedCV: its split() takes no argument *)
| Custom (splits : list (list nat * list nat)).  (* any object whose split(event_times) yields these *)

(** cross_validation.py:98-105: the checks of [PurgedKFold.split], then [int(num_obs * self.embargo_pct)], where
    [num_obs * None] raises TypeError. *)
Definition run_splitter (sp : splitter) (event_times : option (list event)) : res (list (list nat * list nat)) :=
  match sp with
  | Custom l => Ok l
  | Combinatorial => Err TypeError
  | Kfold n pct =>
      match event_times with
      | None => Err ValueError
      | Some ev => match pct with None => Err TypeError | Some p => kfold_split n p ev end
      end
  end.

Section Scoring.
  Variables X Y W M S : Type.
  (** [clf.fit], and prediction plus metric ([-log_loss] of the probabilities or the accuracy), with sample weights. *)
  Variable fit : list X -> list Y -> list W -> M.
  Variable score : M -> list X -> list Y -> list W -> S.

  (** [frame.iloc[indices]] *)
  Definition iloc {A} (l : list A) (idx : list nat) : res (list A) := mapM (get l) idx.

  (** cross_validation.py:148-163, one split *)
  Definition score_split (xs : list X) (ys : list Y) (ws : list W) (sp : list nat * list nat) : res S :=
    do xtr <- iloc xs (fst sp); do ytr <- iloc ys (fst sp); do wtr <- iloc ws (fst sp);
    do xte <- iloc xs (snd sp); do yte <- iloc ys (snd sp); do wte <- iloc ws (snd sp);
    Ok (score (fit xtr ytr wtr) xte yte wte).

  (** cross_validation.py:121-165 [timeseries_cv_score]; [cv] and [embargo_pct] are used when no splitter is given. *)
  Definition timeseries_cv_score (xs : list X) (ys : list Y) (ws : list W) (event_times : option (list event))
      (cv : nat) (cv_splitter : option splitter) (embargo_pct : option Qc) : res (list S) :=
    do splits <- run_splitter (match cv_splitter with Some s => s | None => Kfold cv embargo_pct end) event_times;
    mapM (score_split xs ys ws) splits.

  (** feature_importance.py:98-117 [get_single_feature_importance]: scores per feature; [project] selects one column.
      The caller never passes event_times. *)
  Definition single_feature_scores {F} (project : F -> X -> X) (features : list F) (xs : list X) (ys : list Y) (ws : list W)
      (sp : splitter) : res (list (list S)) :=
    mapM (fun f => timeseries_cv_score (map (project f) xs) ys ws None 0 (Some sp) None) features.
End Scoring.

(** ** Mean decrease accuracy, feature_importance.py:34-95 *)
Section MDA.
  Variables Y W M : Type.
  (** A row of X is the list of its feature values. *)
  Variable fit : list (list Qc) -> list Y -> list W -> M.
  Variable score : M -> list (list Qc) -> list Y -> list W -> Qc.
  (** [np.random.shuffle] of one column in one fold: the entries in a new order *)
  Variable shuffle : nat -> nat -> list Qc -> list Qc.

  Definition column (j : nat) (rows : list (list Qc)) : list Qc := map (fun r => nth j r 0%Qc) rows.
  Definition set_nth (j : nat) (v : Qc) (r : list Qc) : list Qc := firstn j r ++ match skipn j r with [] => [] | _ :: t => v :: t end.
  Definition set_column (j : nat) (vals : list Qc) (rows : list (list Qc)) : list (list Qc) :=
    map (fun p => set_nth j (fst p) (snd p)) (combine vals rows).

  (** feature_importance.py:60-84, one fold: the score and the scores with each column shuffled *)
  Definition mda_fold (n_features : nat) (xs : list (list Qc)) (ys : list Y) (ws : list W) (fold : nat) (sp : list nat * list nat)
    : res (Qc * list Qc) :=
    do xtr <- iloc xs (fst sp); do ytr <- iloc ys (fst sp); do wtr <- iloc ws (fst sp);
    do xte <- iloc xs (snd sp); do yte <- iloc ys (snd sp); do wte <- iloc ws (snd sp);
    let m := fit xtr ytr wtr in
    Ok (score m xte yte wte,
        map (fun j => score m (set_column j (shuffle fold j (column j xte)) xte) yte wte) (seq 0 n_features)).

  (** feature_importance.py:86-90, one cell: (score - perm) / (best - perm) with best 0 for neg_log_loss, 1 for accuracy;
      [None] for 0/0 or x/0. *)
  Definition mda_cell (best score perm : Qc) : option Qc :=
    if qeq (best - perm) 0 then None else Some ((score - perm) / (best - perm))%Qc.

  (** feature_importance.py:34-95 without the final mean and std over folds: one row of importances per fold.
      The mean over folds skips NaN cells. *)
  Definition mda_importances (best : Qc) (n_features : nat) (xs : list (list Qc)) (ys : list Y) (ws : list W)
      (events : list event) (cv : nat) (pct : Qc) : res (list (Qc * list (option Qc))) :=
    do splits <- kfold_split cv pct events;
    mapM (fun fs => do r <- mda_fold n_features xs ys ws (fst fs) (snd fs);
                    Ok (fst r, map (mda_cell best (fst r)) (snd r)))
         (combine (seq 0 (length splits)) splits).
End MDA.
