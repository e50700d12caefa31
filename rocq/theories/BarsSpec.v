(** Specification vocabulary for bars. *)
From Verif Require Import Num BarsModel SeriesSpec.
Set Implicit Arguments.
Open Scope Qc_scope.

(** [groups] is a division of the stream [l] into consecutive non-empty groups. *)
Definition divides_into {A} (l : list A) (groups : list (list A)) : Prop :=
  concat groups = l /\ Forall (fun g => g <> []) groups.

(** Number of the group that holds position [i] of the concatenated stream. *)
Fixpoint group_index {A} (groups : list (list A)) (i : nat) : nat :=
  match groups with
  | [] => 0
  | g :: gs => if (i <? length g)%nat then 0 else S (group_index gs (i - length g))
  end.

(** [b] is the OHLCV bar of the ticks [g]. *)
Definition is_bar_of (g : list tick) (b : bar) : Prop :=
  (exists t, nth_error g 0 = Some t /\ b_time b = t_time t /\ b_open b = t_price t) /\
  (exists t, nth_error g (length g - 1) = Some t /\ b_close b = t_price t) /\
  (exists t, In t g /\ b_high b = t_price t) /\ (forall t, In t g -> t_price t <= b_high b) /\
  (exists t, In t g /\ b_low b = t_price t) /\ (forall t, In t g -> b_low b <= t_price t) /\
  b_vol b = qsum (map t_vol g) /\
  (b_vwap b = None <-> b_vol b = 0) /\
  (forall v, b_vwap b = Some v -> v * b_vol b = qsum (map (fun t => t_price t * t_vol t) g)).

(** ** Information-driven bars *)

(** Cut a stream after each of the given (increasing) end positions. *)
Fixpoint cut {A} (start : nat) (ends : list nat) (l : list A) : list (list A) :=
  match ends with
  | [] => []
  | e :: es => firstn (S e - start) (skipn start l) :: cut (S e) es l
  end.

(** number of ticks of each bar *)
Fixpoint bar_lengths (start : nat) (ends : list nat) : list nat :=
  match ends with [] => [] | e :: es => (S e - start)%nat :: bar_lengths (S e) es end.

(** position of the first tick after the bars that ended at [hist] *)
Definition next_start (hist : list nat) : nat := match hist with [] => 0 | _ => S (last hist 0%nat) end.

(** sum of the entries at positions s..i *)
Definition range_sum (l : list Qc) (s i : nat) : Qc := qsum (firstn (S i - s) (skipn s l)).

(** A closing rule: [trig hist s i] - with earlier bars ended at [hist] and the current bar started at s,
    the trigger fires at tick i; [big s i] - the bar s..i has the minimum size.  The bar may be closed at i
    if it is big enough and the trigger has fired at some tick of the bar (tick 0 is never tested). *)
Definition may_close (trig : list nat -> nat -> nat -> Prop) (big : nat -> nat -> Prop)
    (hist : list nat) (i : nat) : Prop :=
  let s := next_start hist in
  (Nat.max 1 s <= i)%nat /\ big s i /\ exists j, (Nat.max 1 s <= j <= i)%nat /\ trig hist s j.

(** [ends] is the list of bar ends of an n-tick stream under the closing rule: every bar ends at the first tick
    where it may close; only the last bar can be cut short by the end of the stream. *)
Definition ends_at_first_close trig big (n : nat) (ends : list nat) : Prop :=
  (0 < n)%nat /\ nth_error ends (length ends - 1) = Some (n - 1)%nat /\
  forall k e, nth_error ends k = Some e ->
    (next_start (firstn k ends) <= e)%nat /\ (e < n)%nat /\
    (forall i, (i < e)%nat -> ~ may_close trig big (firstn k ends) i) /\
    (may_close trig big (firstn k ends) e \/ (S k = length ends /\ e = n - 1)%nat).

(** Imbalance bars: signed flow [flow]; the threshold is E[T] * |E[b]|. *)
Section ImbalanceRule.
  Variables (E_T_init T_span : nat) (b_span : Z) (E_b_init : option Qc) (min : Qc) (max : option Qc).
  Variable flow : list Qc.

  Definition ewma_ratio (span : Z) : Qc := 1 - 2 / qz (span + 1).

  Definition imbalance_threshold (hist : list nat) : option Qc :=
    match hist with
    | [] => option_map (fun e => qn E_T_init * e) E_b_init
    | _ =>
        let i := last hist 0%nat in
        let t_span := if (T_span =? 0)%nat then length hist else T_span in
        Some (exp_weighted_mean (ewma_ratio (Z.of_nat t_span)) (map qn (bar_lengths 0 hist)) *
              qabs (exp_weighted_mean (ewma_ratio (Z.min b_span (Z.of_nat (i + 1)))) (firstn i flow)))
    end.

  Definition imbalance_trigger (hist : list nat) (s i : nat) : Prop :=
    (exists t, imbalance_threshold hist = Some t /\ t <= qabs (range_sum flow s i)) \/
    (exists m, max = Some m /\ m <= range_sum (map qabs flow) s i).

  Definition size_reached (s i : nat) : Prop := min <= range_sum (map qabs flow) s i.
End ImbalanceRule.

(** Runs bars: rows are (direction, amount); direction >= 0 counts as a buy. *)
Section RunsRule.
  Variables (T_span : nat) (b_span : Z) (thr0 : option Qc) (min : Qc) (max : option Qc).
  Variable bv : list (Qc * Qc).

  Definition amounts := map snd bv.
  Definition buy_amounts := map (fun x => if qle 0 (fst x) then snd x else 0) bv.
  Definition sell_amounts := map (fun x => if qle 0 (fst x) then 0 else snd x) bv.
  (** 1 for each buy; the first row counts with its direction value [b0] (1 when b0 = 1, 0 when b0 < 0) *)
  Definition buy_counts : list Qc :=
    match bv with
    | [] => []
    | x :: l => (if qle 0 (fst x) then fst x else 0) :: map (fun y => if qle 0 (fst y) then 1 else 0) l
    end.
  (** amounts of the buys / sells at positions 1..i *)
  Definition buys_upto (i : nat) : list Qc := map snd (filter (fun x => qle 0 (fst x)) (tl (firstn (S i) bv))).
  Definition sells_upto (i : nat) : list Qc := map snd (filter (fun x => negb (qle 0 (fst x))) (tl (firstn (S i) bv))).
  (** share of buys in each bar *)
  Fixpoint buy_shares (start : nat) (ends : list nat) : list Qc :=
    match ends with
    | [] => []
    | e :: es => range_sum buy_counts start e / qn (S e - start) :: buy_shares (S e) es
    end.

  (** E[T] * max (P[buy] * E[v | buy], (1 - P[buy]) * E[v | sell]) *)
  Definition runs_bar_threshold (hist : list nat) : option Qc :=
    match hist with
    | [] => thr0
    | _ =>
        let i := last hist 0%nat in
        let t_span := Z.of_nat (if (T_span =? 0)%nat then length hist else T_span) in
        let E_T := exp_weighted_mean (ewma_ratio t_span) (map qn (bar_lengths 0 hist)) in
        let p := exp_weighted_mean (ewma_ratio t_span) (buy_shares 0 hist) in
        let eb := exp_weighted_mean (ewma_ratio (Z.min (Z.of_nat (length (buys_upto i))) b_span)) (buys_upto i) in
        let es := exp_weighted_mean (ewma_ratio (Z.min (Z.of_nat (length (sells_upto i))) b_span)) (sells_upto i) in
        Some (E_T * qmax (p * eb) ((1 - p) * es))
    end.

  Definition runs_trigger (hist : list nat) (s i : nat) : Prop :=
    (exists t, runs_bar_threshold hist = Some t /\
        (t <= range_sum buy_amounts s i \/ t <= range_sum sell_amounts s i)) \/
    (exists m, max = Some m /\ m <= range_sum amounts s i).

  Definition runs_size_reached (s i : nat) : Prop := min <= range_sum amounts s i.
End RunsRule.

(** ** Defaults of the optional parameters, as documented *)
(** averaging span for flows: [b_ewma_span], or 3*E_T_init when not given *)
Definition imb_span (b_span : option Z) (E_T_init : nat) : Z :=
  match b_span with Some z => z | None => (3 * Z.of_nat E_T_init)%Z end.
(** initial |E[b]|: given, or |mean of the first E_T_init flows| *)
Definition imb_E_b (E_b : option Qc) (E_T_init : nat) (flow : list Qc) : option Qc :=
  match E_b with
  | Some e => Some e
  | None => match np_mean (firstn E_T_init flow) with Some m => Some (qabs m) | None => None end
  end.


(** initial P[buy], E[v|buy], E[v|sell]: given, or estimated on the first E_T_init ticks *)
Definition runs_inits (E_T_init : nat) (P_buy0 E_buy0 E_sell0 : option Qc) (bv : list (Qc * Qc)) : option Qc * option Qc * option Qc :=
  let head := firstn E_T_init bv in
  (match P_buy0 with Some p => Some p
   | None => np_div (qn (length (filter (fun x => qlt 0 (fst x)) head))) (qn (length head)) end,
   match E_buy0 with Some e => Some e | None => np_mean (map snd (filter (fun x => qlt 0 (fst x)) head)) end,
   match E_sell0 with Some e => Some e | None => np_mean (map snd (filter (fun x => qlt (fst x) 0) head)) end).

