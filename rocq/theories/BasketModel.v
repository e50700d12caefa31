(** Model of data_structures/basket.py: the ETF trick and rolled futures series. *)
From Verif Require Import Py.
Set Implicit Arguments.
Unset Strict Implicit.
Open Scope Qc_scope.

(** Element-wise operation on two rows of equal width. *)
Definition map2 {A B C} (f : A -> B -> C) (xs : list A) (ys : list B) : list C :=
  map (fun p => f (fst p) (snd p)) (combine xs ys).

(** float64 quotient: [x / 0] is an infinity or NaN, which is a value and not an exception. *)
Inductive xq := Fin (x : Qc) | PInf | NInf | NaN.
Definition xdiv (a b : Qc) : xq :=
  if qeq b 0 then (if qlt 0 a then PInf else if qlt a 0 then NInf else NaN) else Fin (a / b).

(** One row of the six input frames: weights, open, close, usd_ex_rate, volumes and dividends of every instrument. *)
Record etf_bar := EtfBar {
  e_w : list Qc; e_open : list Qc; e_close : list Qc; e_fx : list Qc; e_vol : list Qc; e_div : list Qc }.

(** basket.py:41 [weights.abs().sum(axis=1)], one row. *)
Definition sum_abs (w : list Qc) : Qc := qsum (map qabs w).

(** basket.py:48-49 and 60-61: holdings bought with [value], [w * value / sum|w| / (price * fx)].
    A zero denominator makes the holdings infinite or NaN; the model stops with [None] there. *)
Definition buy (w price fx : list Qc) (value : Qc) : option (list Qc) :=
  if qeq (sum_abs w) 0 then None
  else if existsb (fun p => qeq p 0) (map2 Qcmult price fx) then None
  else Some (map2 (fun a b => a / b) (map (fun x => x * value / sum_abs w) w) (map2 Qcmult price fx)).

(** basket.py:51-54, row [t >= 1] of [net_val_changes]; [after] is [is_after_rebalancing[t]]. *)
Definition net_val_change (after : bool) (prev b : etf_bar) : list Qc :=
  map2 Qcplus (if after then map2 Qcminus (e_close b) (e_open b) else map2 Qcminus (e_close b) (e_close prev)) (e_div b).

(** basket.py:56-64, the loop from bar [t] on.  [prev] is bar [t-1], [V] is [basket_vals[t-1]] and [h] is [holdings[t-1]].
    Returns the values and holdings of the remaining bars. *)
Fixpoint etf_loop (rebalancing : list nat) (t : nat) (prev : etf_bar) (V : Qc) (h : list Qc) (bars : list etf_bar)
  : option (list (Qc * list Qc)) :=
  match bars with
  | [] => Some []
  | b :: rest =>
      let after := existsb (fun r => (r + 1 =? t)%nat) rebalancing in
      let V' := V + qsum (map2 Qcmult (map2 Qcmult h (net_val_change after prev b)) (e_fx b)) in
      match (match rest with
             | next :: _ =>
                 if existsb (Nat.eqb t) rebalancing then buy (e_w b) (e_open next) (e_fx b) V' else Some h
             | [] => Some h
             end) with
      | None => None
      | Some h' =>
          match etf_loop rebalancing (S t) b V' h' rest with
          | None => None
          | Some r => Some ((V', h') :: r)
          end
      end
  end.

(** basket.py:66 [np.min(volumes / abs(holdings), axis=1)], one row; NaN wins, [+inf] is neutral. *)
Definition xmin (a b : xq) : xq :=
  match a, b with
  | NaN, _ | _, NaN => NaN
  | NInf, _ | _, NInf => NInf
  | PInf, x | x, PInf => x
  | Fin x, Fin y => Fin (qmin x y)
  end.
Definition etf_volume (vol h : list Qc) : xq :=
  fold_left xmin (map2 (fun v x => xdiv v (qabs x)) vol h) PInf.

(** basket.py:13-67 [basket_to_etf]: one (close, volume) pair per bar.  [None]: a zero weight sum or a zero price is
    divided by.  The empty frame raises IndexError at [basket_vals[0]] and is modelled as [None] as well. *)
Definition basket_to_etf (bars : list etf_bar) (rebalancing : list nat) : option (list (Qc * xq)) :=
  match bars with
  | [] => None
  | b :: rest =>
      match buy (e_w b) (e_close b) (e_fx b) 1 with
      | None => None
      | Some h0 =>
          match etf_loop rebalancing 1 b 1 h0 rest with
          | None => None
          | Some r => Some (map2 (fun b' Vh => (fst Vh, etf_volume (e_vol b') (snd Vh))) bars ((1, h0) :: r))
          end
      end
  end.

(** ** Rolled futures *)

Inductive column := COpen | CHigh | CLow | CClose | CVwap.
Definition column_eqb (a b : column) : bool :=
  match a, b with
  | COpen, COpen | CHigh, CHigh | CLow, CLow | CClose, CClose | CVwap, CVwap => true
  | _, _ => false
  end.
(** A bar is the row of its price columns. *)
Definition row := column -> Qc.

(** basket.py:77-82, the gap entered at each bar: at the first occurrence of every contract but the first one
    ([drop_duplicates(keep='first').index[1:]]) open minus previous close, 0 elsewhere.  [seen] are the contracts of
    the earlier bars.  The index is assumed free of duplicate dates, so [loc] addresses single rows. *)
Fixpoint raw_gaps (seen : list Z) (prev_close : Qc) (bars : list (row * Z)) : list Qc :=
  match bars with
  | [] => []
  | (b, c) :: rest =>
      (if existsb (Z.eqb c) seen then 0 else b COpen - prev_close) :: raw_gaps (c :: seen) (b CClose) rest
  end.

(** basket.py:69-85 [_compute_roll_gaps]; [gaps.iloc[-2]] raises IndexError on fewer than two bars. *)
Definition compute_roll_gaps (bars : list (row * Z)) (match_end : bool) : res (list Qc) :=
  let gaps := match bars with
              | [] => []
              | (b, c) :: rest => cumsum (0 :: raw_gaps [c] (b CClose) rest)
              end in
  if match_end then
    match rev gaps with
    | _ :: g :: _ => Ok (map (fun x => x - g) gaps)
    | _ => Err IndexError
    end
  else Ok gaps.

(** basket.py:103-105: [for col in adjust_columns: res[col] -= gaps], on one bar. *)
Definition adjust_row (cols : list column) (gap : Qc) (b : row) : row :=
  fold_left (fun b' col => fun c => if column_eqb c col then b' c - gap else b' c) cols b.

(** basket.py:107-108 [res.close.diff() / bars.close.shift(1)] with the first entry set to 0; [raw] are the raw closes.
    [None]: a zero previous close. *)
Fixpoint roll_returns (adj raw : list Qc) : option (list Qc) :=
  match adj, raw with
  | a :: ((a' :: _) as adj'), r :: raw' =>
      if qeq r 0 then None
      else match roll_returns adj' raw' with None => None | Some l => Some ((a' - a) / r :: l) end
  | _, _ => Some []
  end.
(** [Series.cumprod] of [1 + returns] *)
Fixpoint cumprod_from (acc : Qc) (l : list Qc) : list Qc :=
  match l with [] => [] | x :: l' => acc * x :: cumprod_from (acc * x) l' end.

(** basket.py:88-112 [adjust_rolled_series]: the adjusted bars and, with [non_negative], the rolled price column.
    [returns.iloc[0] = 0] raises IndexError on an empty frame. *)
Definition adjusted_bars (bars : list (row * Z)) (cols : list column) (match_end : bool) : res (list row) :=
  do gaps <- compute_roll_gaps bars match_end;
  Ok (map2 (adjust_row cols) gaps (map fst bars)).
Definition rolled_prices (bars : list (row * Z)) (cols : list column) (match_end : bool) : res (option (list Qc)) :=
  do adj <- adjusted_bars bars cols match_end;
  match bars with
  | [] => Err IndexError
  | _ =>
      Ok (match roll_returns (map (fun b : row => b CClose) adj) (map (fun b : row * Z => fst b CClose) bars) with
          | None => None
          | Some r => Some (cumprod_from 1 (map (fun x => 1 + x) (0 :: r)))
          end)
  end.
