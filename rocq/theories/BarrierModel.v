(** Model of labeling/triple_barrier.py.  Timestamps and timedeltas are [Z]; NaN/NaT is [None]. *)
From Verif Require Import Py RNum.
Set Implicit Arguments.
Unset Strict Implicit.
Open Scope Qc_scope.

Record ohlc := { b_open : Qc; b_high : Qc; b_low : Qc; b_close : Qc }.
(** a price table; a label after the last bar has no prices ([None]) *)
Notation prices := (list (Z * option ohlc)).
Record event := { ev_start : Z; ev_expiry : option Z; ev_target : option Qc; ev_side : option Z }.
Record outcome := { oc_event : event; oc_pt : option Z; oc_sl : option Z; oc_end : Z; oc_ret : option Qc }.

Fixpoint lookup {A} (t : Z) (l : list (Z * A)) : option A :=
  match l with [] => None | (t', a) :: l' => if (t =? t')%Z then Some a else lookup t l' end.
(** [Index.min()], NaT when empty *)
Fixpoint index_min (l : list Z) : option Z :=
  match l with [] => None | t :: l' => match index_min l' with None => Some t | Some m => Some (Z.min t m) end end.

(** ** triple_barrier.py:27-60, one round of the loop of [_get_triple_barrier_returns] *)
Definition path (ps : prices) (start expiry : Z) : prices := filter (fun p => (start <=? fst p)%Z && (fst p <=? expiry)%Z) ps.
(** profit and loss returns of a bar; NaN prices give NaN *)
Definition pt_return (side : Z) (start_price : option Qc) (bar : option ohlc) : option Qc :=
  match start_price, bar with
  | Some s, Some b => Some (if (side =? 1)%Z then b_high b / s - 1 else - (b_low b / s - 1))
  | _, _ => None
  end.
Definition sl_return (side : Z) (start_price : option Qc) (bar : option ohlc) : option Qc :=
  match start_price, bar with
  | Some s, Some b => Some (if (side =? 1)%Z then b_low b / s - 1 else - (b_high b / s - 1))
  | _, _ => None
  end.
(** comparisons with NaN are false *)
Definition ogt (a b : option Qc) : bool := match a, b with Some x, Some y => qlt y x | _, _ => false end.
Definition limit (sign : Qc) (mult : Qc) (target : option Qc) : option Qc := if qlt 0 mult then option_map (Qcmult (sign * mult)) target else None.
Definition barrier_event (ps : prices) (last_label : Z) (pt_mult sl_mult : Qc) (ev : event) : res outcome :=
  let start := ev_start ev in
  let expiry := match ev_expiry ev with Some e => e | None => last_label end in
  match lookup start ps with
  | None => Err KeyError
  | Some row =>
      let start_price := option_map b_open row in
      match ev_side ev with
      | None => Err ValueError
      | Some side =>
          if (side =? 1)%Z || (side =? -1)%Z then
            let rows := path ps start expiry in
            let pts := map (fun p => (fst p, pt_return side start_price (snd p))) rows in
            let sls := map (fun p => (fst p, sl_return side start_price (snd p))) rows in
            let pt_time := index_min (map fst (filter (fun p => ogt (snd p) (limit 1 pt_mult (ev_target ev))) pts)) in
            let sl_time := index_min (map fst (filter (fun p => ogt (limit (- (1)) sl_mult (ev_target ev)) (snd p)) sls)) in
            let mk t r := {| oc_event := ev; oc_pt := pt_time; oc_sl := sl_time; oc_end := t; oc_ret := r |} in
            match pt_time, sl_time with
            | None, None =>
                match lookup expiry ps with
                | None => Err KeyError
                | Some b => Ok (mk expiry (match option_map b_close b, start_price with Some c, Some s => Some (c / s - 1) | _, _ => None end))
                end
            | Some t, None => Ok (mk t (match lookup t pts with Some r => r | None => None end))
            | None, Some t => Ok (mk t (match lookup t sls with Some r => r | None => None end))
            | Some t, Some t' => if (t <? t')%Z then Ok (mk t (match lookup t pts with Some r => r | None => None end))
                                 else Ok (mk t' (match lookup t' sls with Some r => r | None => None end))
            end
          else Err AssertionError
      end
  end.
(** triple_barrier.py:7-60 [_get_triple_barrier_returns], for unique event starts (as the TODO there says) *)
Definition triple_barrier (ps : prices) (evs : list event) (pt_mult sl_mult : Qc) : res (list outcome) :=
  if qle 0 pt_mult && qle 0 sl_mult then
    match rev ps with
    | [] => Err IndexError
    | (last_label, _) :: _ => mapM (barrier_event ps last_label pt_mult sl_mult) evs
    end
  else Err AssertionError.

(** ** triple_barrier.py:63-109 [get_event_returns] *)
Definition zmem (t : Z) (l : list Z) : bool := existsb (Z.eqb t) l.
(** sorted union of labels *)
Fixpoint zset_insert (t : Z) (l : list Z) : list Z :=
  match l with [] => [t] | u :: l' => if (t <? u)%Z then t :: l else if (t =? u)%Z then l else u :: zset_insert t l' end.
Definition zset (l : list Z) : list Z := fold_right zset_insert [] l.
(** [reindex(labels, method='bfill')]: the next bar at or after each label *)
Definition bfill (bars : list (Z * ohlc)) (t : Z) : option ohlc := match filter (fun b => (t <=? fst b)%Z) bars with [] => None | b :: _ => Some (snd b) end.
Definition somes {A} (l : list (option A)) : list A := flat_map (fun o => match o with Some a => [a] | None => [] end) l.
(** [expiries]: None disables the vertical barriers; [sides]: None if unknown.  The rows of the outer join are sorted by label
    (pandas keeps the given order if all indexes agree; starts are assumed sorted). *)
Definition get_event_returns (bars : list (Z * ohlc)) (starts : list Z) (targets : list (Z * option Qc)) (pt_mult sl_mult : Qc)
    (expiries : option (list (Z * option Z))) (min_target : Qc) (sides : option (list (Z * Z))) : res (list outcome) :=
  bind (mapM (fun t => match lookup t targets with Some v => Ok (t, v) | None => Err KeyError end) starts) (fun ts =>
  let kept := filter (fun p => ogt (snd p) (Some min_target)) ts in
  let exps := match expiries with Some l => l | None => map (fun t => (t, None)) starts end in
  let labels := zset (map fst bars ++ starts ++ somes (map snd exps)) in
  let ps := map (fun t => (t, bfill bars t)) labels in
  let mults := match sides with None => (pt_mult, pt_mult) | Some _ => (pt_mult, sl_mult) end in
  bind (match sides with
        | None => Ok (map (fun p => (fst p, 1%Z)) kept)
        | Some l => mapM (fun p => match lookup (fst p) l with Some s => Ok (fst p, s) | None => Err KeyError end) kept
        end) (fun event_sides =>
  let keys := zset (map fst exps ++ map fst kept ++ map fst event_sides) in
  let evs := map (fun t => {| ev_start := t;
                              ev_expiry := match lookup t exps with Some e => e | None => None end;
                              ev_target := match lookup t kept with Some v => v | None => None end;
                              ev_side := lookup t event_sides |}) keys in
  triple_barrier ps evs (fst mults) (snd mults))).

(** ** triple_barrier.py:112-131 [get_event_labels]; every outcome has an end time, so [dropna] drops nothing.
    [has_side]: whether the SIDE column is present.  A NaN return has a NaN label. *)
Definition event_label (has_side cancel_expired : bool) (oc : outcome) : option Z :=
  let l0 := option_map qsign (oc_ret oc) in
  let l1 := if has_side then match oc_ret oc with Some r => if qle r 0 then Some 0%Z else l0 | None => l0 end else l0 in
  if cancel_expired then match ev_expiry (oc_event oc) with Some e => if (e <=? oc_end oc)%Z then Some 0%Z else l1 | None => l1 end else l1.

(** ** triple_barrier.py:134-185 [get_fixed_window_events] *)
Record rbar := { r_open : R; r_close : R }.
(** [events] rows: (label, start, end) *)
Definition window_events (times : list Z) (window gap : Z) (drop_partial align : bool) : list (Z * (Z * Z)) :=
  let evs := map (fun t => (t, ((t + gap)%Z, (t + window)%Z))) times in
  let evs := if drop_partial then filter (fun e => (snd (snd e) <=? last times 0)%Z) evs else evs in
  if align then
    map (fun e => (fst e, (nth (searchsorted_left times (fst (snd e))) times 0%Z,
                           nth (Nat.min (searchsorted_left times (snd (snd e))) (length times - 1)) times 0%Z)))
        (filter (fun e => (searchsorted_left times (fst (snd e)) <? length times)%nat) evs)
  else evs.
(** column 'c' of [rets]: log close differences, NaN first; sums skip NaN *)
Fixpoint log_diffs (prev : option R) (bars : list (Z * rbar)) : list (Z * (option R * R)) :=
  match bars with
  | [] => []
  | (t, b) :: bars' => (t, (match prev with None => None | Some p => Some (ln (r_close b) - ln p)%R end, ln (r_close b / r_open b)%R)) :: log_diffs (Some (r_close b)) bars'
  end.
Definition ret_in_period (rets : list (Z * (option R * R))) (start stop : Z) : res R :=
  let period := filter (fun r => (start <=? fst r)%Z && (fst r <=? stop)%Z) rets in
  match period with
  | [] => Err IndexError
  | (_, (_, oc)) :: _ => Ok (rsum (map (fun r => match fst (snd r) with Some c => c | None => 0%R end) period) + oc)%R
  end.
(** with [with_return=True].  [bars.index[-1]] (line 161) raises on no bars; [DataFrame.apply] of a function that cannot be applied to an empty
    row (line 180) returns the empty frame itself, whose two columns cannot be assigned to one *)
Definition fixed_window_events (bars : list (Z * rbar)) (window gap : Z) (drop_partial align : bool) : res (list (Z * (Z * Z) * R)) :=
  match bars, window_events (map fst bars) window gap drop_partial align with
  | [], _ => if drop_partial then Err IndexError else Err ValueError
  | _, [] => Err ValueError
  | _, evs => mapM (fun e => match ret_in_period (log_diffs None bars) (fst (snd e)) (snd (snd e)) with Ok r => Ok (e, r) | Err x => Err x end) evs
  end.
