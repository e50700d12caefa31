(** Model of the aggregation in financial_ml/explain/feature_importance.py (the folds are in CVModel). *)
From Verif Require Import Py RNum.
Set Implicit Arguments.
Unset Strict Implicit.
Open Scope R_scope.

Definition nonzero (x : R) : bool := if Req_EM_T x 0 then false else true.
(** pandas mean (skipna) and std (ddof 1, skipna) of the non-missing values of a column; NaN = None *)
Definition pd_mean (l : list R) : option R := match l with [] => None | _ => Some (rmean l) end.
Definition sq_dev (l : list R) : R := rsum (map (fun x => (x - rmean l) * (x - rmean l)) l).
Definition pd_std (l : list R) : option R := if (length l <? 2)%nat then None else Some (sqrt (sq_dev l / (INR (length l) - 1))).
Definition opt_sum (l : list (option R)) : R := rsum (map (fun o => match o with Some v => v | None => 0 end) l).
(** feature_importance.py:9-31 [get_mean_decrease_impurity]; [trees] holds feature_importances_ of each tree, [k] is the number of names.  Rows (mean, std).
    pandas raises ValueError if the number of names differs from the number of columns (no tree: no column).
    A zero sum of means divides by zero (None); without negative importances this only happens when every mean is NaN. *)
Definition mdi_column (trees : list (list R)) (j : nat) : list R := filter nonzero (map (fun t => nth j t 0) trees).
Definition divide_by (s : R) (o : option R) : option R := match o with None => None | Some v => if Req_EM_T s 0 then None else Some (v / s) end.
Definition mdi (trees : list (list R)) (k : nat) : res (list (option R * option R)) :=
  if negb (forallb (fun t => length t =? k)%nat trees) || match trees with [] => negb (k =? 0)%nat | _ => false end then Err ValueError
  else let cols := map (mdi_column trees) (seq 0 k) in
       let s := opt_sum (map pd_mean cols) in
       Ok (map (fun c => (divide_by s (pd_mean c), divide_by s (option_map (fun d => d / sqrt (INR (length trees))) (pd_std c)))) cols).

(** feature_importance.py:86-94, MDA cells and their mean over folds, with the infinities of a division by zero
    (IEEE division; a column holding Python floats as objects would raise ZeroDivisionError instead, which is also no finite importance). *)
Inductive ext := Fin (r : R) | PosInf | NegInf | NaN.
Definition mda_cell (best score perm : R) : ext :=
  if Req_EM_T perm best then (if Req_EM_T score perm then NaN else if Rlt_dec score perm then NegInf else PosInf) else Fin ((score - perm) / (best - perm)).
Definition ext_add (a b : ext) : ext :=
  match a, b with
  | NaN, _ | _, NaN => NaN
  | Fin x, Fin y => Fin (x + y)
  | PosInf, NegInf | NegInf, PosInf => NaN
  | PosInf, _ | _, PosInf => PosInf
  | NegInf, _ | _, NegInf => NegInf
  end.
Definition is_nan (e : ext) : bool := match e with NaN => true | _ => false end.
Definition ext_mean (l : list ext) : ext :=
  match filter (fun e => negb (is_nan e)) l with
  | [] => NaN
  | l' => match fold_left ext_add l' (Fin 0) with Fin s => Fin (s / INR (length l')) | e => e end
  end.
Definition mda_mean (best : R) (folds : list (R * R)) : ext := ext_mean (map (fun sp => mda_cell best (fst sp) (snd sp)) folds).

(** feature_importance.py:98-117 [get_single_feature_importance] given the cross-validation scores of a feature; ndarray.std has ddof 0.
    [importances.loc[feature] = ...] replaces the row of a repeated feature. *)
Fixpoint set_row (F : Type) (eqb : F -> F -> bool) (f : F) (v : R * R) (rows : list (F * (R * R))) : list (F * (R * R)) :=
  match rows with [] => [(f, v)] | (g, w) :: rows' => if eqb f g then (g, v) :: rows' else (g, w) :: set_row eqb f v rows' end.
Definition sfi_row (scores : list R) : R * R := (rmean scores, sqrt (sq_dev scores / INR (length scores)) / sqrt (INR (length scores))).
Definition sfi (F : Type) (eqb : F -> F -> bool) (cv_score : F -> res (list R)) (features : list F) : res (list (F * (R * R))) :=
  fold_left (fun acc f => do rows <- acc; do sc <- cv_score f; Ok (set_row eqb f (sfi_row sc) rows)) features (Ok []).
