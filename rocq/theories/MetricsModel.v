(** Model of evaluation/metrics.py, the parts without square roots. *)
From Verif Require Import Py.
Set Implicit Arguments.
Unset Strict Implicit.
Open Scope Qc_scope.

(** A time series: (timestamp in ns, value); the index is strictly increasing and there are no NaN values. *)
Notation series := (list (Z * Qc)).

(** ** metrics.py:13-26 [get_position_timings] *)

Fixpoint zinsert (x : Z) (l : list Z) : list Z :=
  match l with [] => [x] | y :: l' => if (x <=? y)%Z then x :: l else y :: zinsert x l' end.
Definition zsort (l : list Z) : list Z := fold_right zinsert [] l.

(** [series.shift(1)]: the previous value, [None] (NaN) at the first row *)
Definition shift1 {A} (l : list A) : list (option A) :=
  match l with [] => [] | _ => None :: map Some (removelast l) end.

Definition position_timings (ps : series) : list Z :=
  let no_pos_times := map fst (filter (fun r => qeq (snd r) 0) ps) in
  (* NaN != 0 holds *)
  let prev_pos := map fst (filter (fun r => match snd r with None => true | Some p => negb (qeq p 0) end)
                                  (combine (map fst ps) (shift1 (map snd ps)))) in
  let res := filter (fun t => existsb (Z.eqb t) prev_pos) no_pos_times in
  let flips := map fst (filter (fun r => qlt (snd r) 0)
                 (map (fun x => (fst (fst x), snd (fst x) * snd x)) (combine (tl ps) (map snd (removelast ps))))) in
  (* Index.union: sorted, without duplicates *)
  zsort (nodup Z.eq_dec (res ++ flips)).

(** ** metrics.py:29-53 [compute_holding_period] *)

Definition ns_per_day : Qc := qz 86400000000000.

(** state of the loop: t_entry and the rows (dT, w) of hp *)
Definition hp_state := (Qc * list (Qc * Qc))%type.
Definition hp_step (t0 : Z) (st : hp_state) (prev cur : Z * Qc) : hp_state :=
  let '(t_entry, hp) := st in
  let p_diff := snd cur - snd prev in
  let t_diff := qz (fst cur - t0) / ns_per_day in
  if qle 0 (p_diff * snd prev)
  then if qeq (snd cur) 0 then st else ((t_entry * snd prev + t_diff * p_diff) / snd cur, hp)
  else if qlt (snd cur * snd prev) 0 then (t_diff, hp ++ [(t_diff - t_entry, qabs (snd prev))])
       else (t_entry, hp ++ [(t_diff - t_entry, qabs p_diff)]).
Fixpoint hp_loop (t0 : Z) (st : hp_state) (prev : Z * Qc) (rest : series) : hp_state :=
  match rest with [] => st | cur :: rest' => hp_loop t0 (hp_step t0 st prev cur) cur rest' end.
Definition holding_period (ps : series) : res (option Qc) :=
  match ps with
  | [] => Err IndexError
  | first :: rest =>
      let hp := snd (hp_loop (fst first) (0, []) first rest) in
      let w := qsum (map snd hp) in
      Ok (if qlt 0 w then Some (qsum (map (fun r => fst r * snd r) hp) / w) else None)
  end.

(** ** metrics.py:56-68 [compute_time_weighted_return] on rows (BEGIN_VALUE, CASHFLOW).
    [None] when a begin balance is 0: pandas then computes with inf or skips a NaN. *)
Fixpoint twr_rets (prev : Qc * Qc) (rows : list (Qc * Qc)) : option (list Qc) :=
  match rows with
  | [] => Some []
  | r :: rows' =>
      let begin_balance := fst prev + snd prev in
      let pnl := fst r - begin_balance in
      if qeq begin_balance 0 then None
      else match twr_rets r rows' with None => None | Some l => Some (pnl / begin_balance :: l) end
  end.
Definition qprod (l : list Qc) : Qc := fold_right Qcmult 1 l.
(** the first return is NaN and [product] skips it; of no rows it is 1 *)
Definition time_weighted_return (rows : list (Qc * Qc)) : option Qc :=
  match rows with
  | [] => Some (1 - 1)
  | r :: rows' => match twr_rets r rows' with None => None | Some l => Some (qprod (map (fun x => 1 + x) l) - 1) end
  end.

(** ** metrics.py:71-92 [compute_hhi_returns_concentration]; [None] is NaN (for a single return the code divides by
    zero: NaN, or -inf if that return is 0; both are [None] here) *)
Definition get_hhi (rets : list Qc) : option Qc :=
  let s := qsum rets in
  let n := qn (length rets) in
  (* 0/0 is NaN; the weights are all NaN when the sum is 0; [sum] skips them and the result 0 - 1/n over 1 - 1/n remains *)
  let hhi := if qeq s 0 then 0 else qsum (map (fun r => (r / s) * (r / s)) rets) in
  if qeq (1 - 1 / n) 0 then None else Some ((hhi - 1 / n) / (1 - 1 / n)).
Definition hhi_concentration (returns : list Qc) : option Qc * option Qc :=
  if (length returns <=? 2)%nat then (None, None)
  else
    let pos := filter (fun r => qle 0 r) returns in
    let neg := filter (fun r => qlt r 0) returns in
    (match pos with [] => None | _ => get_hhi pos end, match neg with [] => None | _ => get_hhi neg end).

(** ** metrics.py:95-116 [compute_dd_and_tuw] *)

(** [returns.expanding().max()] *)
Fixpoint running_max (m : Qc) (l : list Qc) : list Qc :=
  match l with [] => [] | x :: l' => let m' := qmax m x in m' :: running_max m' l' end.
Definition expanding_max (l : list Qc) : list Qc := match l with [] => [] | x :: l' => x :: running_max x l' end.

Fixpoint qinsert (x : Qc) (l : list Qc) : list Qc :=
  match l with [] => [x] | y :: l' => if qle x y then x :: l else y :: qinsert x l' end.
Definition qsort (l : list Qc) : list Qc := fold_right qinsert [] l.

(** first occurrences, [drop_duplicates(keep='first')], as (label, value) *)
Fixpoint drop_duplicates (seen : list Qc) (l : list (Z * Qc)) : list (Z * Qc) :=
  match l with
  | [] => []
  | r :: l' => if existsb (qeq (snd r)) seen then drop_duplicates seen l' else r :: drop_duplicates (snd r :: seen) l'
  end.

(** [groupby('hwm').min()]: keys ascending, each with the smallest value of its rows *)
Definition group_min (hwm pnl : list Qc) (key : Qc) : Qc :=
  match map snd (filter (fun r => qeq (fst r) key) (combine hwm pnl)) with [] => 0 | x :: l => lmin x l end.

Record dd_row := { dd_time : Z; dd_hwm : Qc; dd_min : Qc }.
Definition dd_rows (rets : series) : list dd_row :=
  let hwm := expanding_max (map snd rets) in
  let first := drop_duplicates [] (combine (map fst rets) hwm) in
  let keys := qsort (map snd first) in
  filter (fun r => qlt (dd_min r) (dd_hwm r))
    (map (fun p => {| dd_time := fst p; dd_hwm := snd p; dd_min := group_min hwm (map snd rets) (snd p) |})
         (combine (map fst first) keys)).

(** drawdowns in dollars *)
Definition drawdowns_dollars (rets : series) : list (Z * Qc) := map (fun r => (dd_time r, dd_hwm r - dd_min r)) (dd_rows rets).
(** drawdowns as fractions; [None] stands for the division by a zero high-water mark *)
Definition drawdowns (rets : series) : list (Z * option Qc) :=
  map (fun r => (dd_time r, if qeq (dd_hwm r) 0 then None else Some (1 - dd_min r / dd_hwm r))) (dd_rows rets).
(** time under water, per row but the last: the time to the next row *)
Fixpoint under_water (l : list Z) : list (Z * Qc) :=
  match l with
  | a :: ((b :: _) as l') => (a, qz (b - a) / ns_per_day) :: under_water l'
  | _ => []
  end.
Definition time_under_water (rets : series) : list (Z * Qc) := under_water (map dd_time (dd_rows rets)).
