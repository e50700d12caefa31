(** Model of basket.py:13-67 on frames whose columns carry labels: which of its steps match the instruments by label and which by position. *)
From Verif Require Import Py BasketModel.
Set Implicit Arguments.
Unset Strict Implicit.
Open Scope Qc_scope.

(** The column labels of the six frames of [basket_to_etf]; rows are [etf_bar]s, each in the column order of its own frame. *)
Record etf_cols := EtfCols { c_w : list Z; c_open : list Z; c_close : list Z; c_fx : list Z; c_vol : list Z; c_div : list Z }.

(** [Index.equals]: same labels in the same order *)
Fixpoint same_labels (a b : list Z) : bool :=
  match a, b with
  | [], [] => true
  | x :: a', y :: b' => (x =? y)%Z && same_labels a' b'
  | _, _ => false
  end.
(** sorted labels *)
Fixpoint insert_label (x : Z) (l : list Z) : list Z :=
  match l with [] => [x] | y :: l' => if (x <=? y)%Z then x :: l else y :: insert_label x l' end.
Definition sort_labels (l : list Z) : list Z := fold_right insert_label [] l.

(** [a op b] of two pandas objects: operands whose columns are equal are combined as they stand, others are aligned on the
    sorted union of their labels ([Index.join(how='outer')]).  Simplification: a label that only one operand has gives NaN,
    and a repeated label a product of rows; both are outside the model ([None]). *)
Fixpoint distinct_labels (l : list Z) : bool :=
  match l with [] => true | x :: l' => negb (existsb (Z.eqb x) l') && distinct_labels l' end.
Definition joined (a b : list Z) : option (list Z) :=
  if same_labels a b then Some a
  else if distinct_labels a && distinct_labels b && same_labels (sort_labels a) (sort_labels b) then Some (sort_labels a) else None.
(** the entry of label [l] *)
Fixpoint entry (cols : list Z) (r : list Qc) (l : Z) : Qc :=
  match cols, r with
  | c :: cols', x :: r' => if (c =? l)%Z then x else entry cols' r' l
  | _, _ => 0
  end.
(** row [r] with columns [cols] rearranged to the columns [target] *)
Definition arrange (cols : list Z) (r : list Qc) (target : list Z) : list Qc :=
  if same_labels cols target then r else map (entry cols r) target.

(** basket.py:48-49 and 60-61: [weights.iloc[t] * value / sum|w| / (price.iloc * usd_ex_rate.iloc)] aligned by label, stored
    by position in a row of the array [holdings] *)
Definition buy_labelled (wc pc fc : list Z) (w price fx : list Qc) (value : Qc) : option (list Qc) :=
  match joined pc fc with
  | None => None
  | Some jc =>
      let cost := map2 Qcmult (arrange pc price jc) (arrange fc fx jc) in
      match joined wc jc with
      | None => None
      | Some hc =>
          if qeq (sum_abs w) 0 then None
          else if existsb (fun p => qeq p 0) cost then None
          else Some (map2 (fun a b => a / b) (arrange wc (map (fun x => x * value / sum_abs w) w) hc) (arrange jc cost hc))
      end
  end.

(** basket.py:51-54: [close_prices - open_prices] is aligned by label, [close_prices.diff()] keeps the columns of the closes,
    [dividends.values] is added by position *)
Definition net_val_change_labelled (cc oc : list Z) (after : bool) (prev b : etf_bar) : option (list Qc) :=
  match joined cc oc with
  | None => None
  | Some jc =>
      Some (map2 Qcplus (if after then map2 Qcminus (arrange cc (e_close b) jc) (arrange oc (e_open b) jc)
                         else map2 Qcminus (e_close b) (e_close prev)) (e_div b))
  end.

(** basket.py:56-64, the loop; [usd_ex_rate.iloc[t].values] is multiplied by position *)
Fixpoint etf_loop_labelled (c : etf_cols) (rebalancing : list nat) (t : nat) (prev : etf_bar) (V : Qc) (h : list Qc) (bars : list etf_bar)
  : option (list (Qc * list Qc)) :=
  match bars with
  | [] => Some []
  | b :: rest =>
      let after := existsb (fun r => (r + 1 =? t)%nat) rebalancing in
      match net_val_change_labelled (c_close c) (c_open c) after prev b with
      | None => None
      | Some d =>
          let V' := V + qsum (map2 Qcmult (map2 Qcmult h d) (e_fx b)) in
          match (match rest with
                 | next :: _ =>
                     if existsb (Nat.eqb t) rebalancing
                     then buy_labelled (c_w c) (c_open c) (c_fx c) (e_w b) (e_open next) (e_fx b) V' else Some h
                 | [] => Some h
                 end) with
          | None => None
          | Some h' =>
              match etf_loop_labelled c rebalancing (S t) b V' h' rest with
              | None => None
              | Some r => Some ((V', h') :: r)
              end
          end
      end
  end.

(** basket.py:13-67 [basket_to_etf] on labelled frames; [volumes.values] is divided by position *)
Definition basket_to_etf_labelled (c : etf_cols) (bars : list etf_bar) (rebalancing : list nat) : option (list (Qc * xq)) :=
  match bars with
  | [] => None
  | b :: rest =>
      match buy_labelled (c_w c) (c_close c) (c_fx c) (e_w b) (e_close b) (e_fx b) 1 with
      | None => None
      | Some h0 =>
          match etf_loop_labelled c rebalancing 1 b 1 h0 rest with
          | None => None
          | Some r => Some (map2 (fun b' Vh => (fst Vh, etf_volume (e_vol b') (snd Vh))) bars ((1, h0) :: r))
          end
      end
  end.
