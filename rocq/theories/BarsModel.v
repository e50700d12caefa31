(** Model of financial_ml/data_structures/bars.py. *)
From Verif Require Import Py SeriesModel.
Set Implicit Arguments.
Open Scope Qc_scope.

(** data_structures/constants.py:4-8 [TickCol]: one row of a tick DataFrame. *)
Record tick := Tick { t_time : Z; t_price : Qc; t_vol : Qc }.

(** data_structures/constants.py:11-19 [BarCol]: one row of a bar DataFrame.  The VWAP is [None]
    when pandas would store NaN or an infinity (total volume zero). *)
Record bar := Bar {
  b_time : Z; b_open : Qc; b_high : Qc; b_low : Qc; b_close : Qc; b_vol : Qc; b_vwap : option Qc }.

(** numpy float division; a zero denominator gives NaN or an infinity, both [None]. *)
Definition np_div (a b : Qc) : option Qc := if qeq b 0 then None else Some (a / b).

(** bars.py:9-17 [_compute_vwap] *)
Definition compute_vwap (ticks : list tick) : option Qc :=
  np_div (qsum (map (fun t => t_price t * t_vol t) ticks)) (qsum (map t_vol ticks)).

(** bars.py:20-40 [_compute_bar_stats(ticks, timestamp='first')]; [iloc[0]] of an empty frame raises
    IndexError. *)
Definition compute_bar_stats (ticks : list tick) : res bar :=
  match ticks with
  | [] => Err IndexError
  | t :: ts =>
      Ok {| b_time := t_time t;
            b_open := t_price t;
            b_high := lmax (t_price t) (map t_price ts);
            b_low := lmin (t_price t) (map t_price ts);
            b_close := t_price (last ts t);
            b_vol := qsum (map t_vol ticks);
            b_vwap := compute_vwap ticks |}
  end.

(** bars.py:43-47 [_group_ticks_to_bars]; the input rows are (Bar_ID, tick).  Bar ids are floats with
    integer values, modelled by [Z]. *)
Definition group_ticks_to_bars (rows : list (Z * tick)) : res (list bar) :=
  mapM compute_bar_stats (map snd (groupby rows)).

(** bars.py:70 [df.index // freq] *)
Definition tick_bar_ids (n : nat) (freq : Qc) : list Z :=
  map (fun i => qfloor (qn i / freq)) (seq 0 n).
(** bars.py:63-71 [aggregate_tick_bars] (freq non-zero) *)
Definition aggregate_tick_bars (ticks : list tick) (freq : Qc) : res (list bar) :=
  group_ticks_to_bars (combine (tick_bar_ids (length ticks) freq) ticks).

(** bars.py:82-83, 97-98: [cumsum() // freq] *)
Definition cum_bar_ids (amounts : list Qc) (freq : Qc) : list Z :=
  map (fun c => qfloor (c / freq)) (cumsum amounts).
(** bars.py:74-87 [aggregate_volume_bars] (freq non-zero) *)
Definition aggregate_volume_bars (ticks : list tick) (freq : Qc) : res (list bar) :=
  group_ticks_to_bars (combine (cum_bar_ids (map t_vol ticks) freq) ticks).
(** bars.py:90-99 [aggregate_dollar_bars] (freq non-zero) *)
Definition aggregate_dollar_bars (ticks : list tick) (freq : Qc) : res (list bar) :=
  group_ticks_to_bars (combine (cum_bar_ids (map (fun t => t_vol t * t_price t) ticks) freq) ticks).

(** bars.py:50-60 [aggregate_time_bars], for a fixed-width frequency.  [pd.Grouper(freq)] makes one bin per
    interval from the interval of the first tick to that of the last one, including intervals without
    ticks, and applies the function to each.  [origin] is pandas' bin origin (midnight of the first day).
    Simplification: ticks sorted by time; calendar frequencies (months, business days) not modelled.
    The bar's time is the bin's left edge. *)
Definition time_bin (origin width t : Z) : Z := ((t - origin) / width)%Z.
Definition set_time (z : Z) (b : bar) : bar :=
  {| b_time := z; b_open := b_open b; b_high := b_high b; b_low := b_low b; b_close := b_close b;
     b_vol := b_vol b; b_vwap := b_vwap b |}.
Definition aggregate_time_bars (ticks : list tick) (origin width : Z) : res (list bar) :=
  match ticks with
  | [] => Ok []
  | t :: ts =>
      let k0 := time_bin origin width (t_time t) in
      let k1 := time_bin origin width (t_time (last ts t)) in
      mapM (fun j =>
              let k := (k0 + Z.of_nat j)%Z in
              do b <- compute_bar_stats (filter (fun x => (time_bin origin width (t_time x) =? k)%Z) ticks);
              Ok (set_time (origin + k * width) b))
           (seq 0 (Z.to_nat (k1 - k0 + 1)))
  end.

(** bars.py:445-453 [_resample_vwap]; [np.sum] of a pandas Series skips NaN. *)
Definition resample_vwap (bars : list bar) : option Qc :=
  np_div (qsum (map (fun b => match b_vwap b with Some p => p * b_vol b | None => 0 end) bars))
         (qsum (map b_vol bars)).

(** bars.py:456-476 [_resample_bar_stats(bars, timestamp='first')] *)
Definition resample_bar_stats (bars : list bar) : res bar :=
  match bars with
  | [] => Err IndexError
  | b :: bs =>
      Ok {| b_time := b_time b;
            b_open := b_open b;
            b_high := lmax (b_high b) (map b_high bs);
            b_low := lmin (b_low b) (map b_low bs);
            b_close := b_close (last bs b);
            b_vol := qsum (map b_vol bars);
            b_vwap := resample_vwap bars |}
  end.

(** bars.py:479-493 [_group_resampled_bars], [resample_time_to_volume_bars] (freq non-zero) *)
Definition resample_time_to_volume_bars (bars : list bar) (freq : Qc) : res (list bar) :=
  mapM resample_bar_stats (map snd (groupby (combine (cum_bar_ids (map b_vol bars) freq) bars))).

(** ** Information-driven bars *)

(** constants.py:22-27 [BarUnit] *)
Inductive bar_unit := TIME | TICK | VOLUME | DOLLARS.

(** Comparison with a threshold that may be NaN ([None]): NaN compares false. *)
Definition ge_thr (x : Qc) (thr : option Qc) : bool :=
  match thr with Some t => qle t x | None => false end.
(** [max_bar_size] defaults to infinity ([None]). *)
Definition ge_max (x : Qc) (m : option Qc) : bool :=
  match m with Some t => qle t x | None => false end.

(** bars.py:102-110 [_compute_tick_bar_id], from tick [i] on with [m] ticks to go *)
Fixpoint tick_bar_id_loop (ends : list nat) (m i cur : nat) : res (list Z) :=
  match m with
  | O => Ok []
  | S m' =>
      do e <- get ends cur;
      let cur' := if (e <? i)%nat then S cur else cur in
      do r <- tick_bar_id_loop ends m' (S i) cur';
      Ok (Z.of_nat cur' :: r)
  end.
Definition compute_tick_bar_id (num_ticks : nat) (ends : list nat) : res (list Z) :=
  tick_bar_id_loop ends num_ticks 0 0.

(** Parameters of bars.py:198-209.  [T_ewma_span]: [None] is encoded as 0, since the code tests
    [not T_ewma_span]. *)
Record imb_params := ImbParams {
  im_min : Qc; im_max : option Qc; im_E_T_init : nat; im_T_span : nat; im_b_span : Z }.

(** Loop variables of bars.py:144-159; lists are kept in reverse order of appending.  [i_thetas] and
    [i_thrs] are the debugging arrays. *)
Record imb_state := ImbState {
  i_ends : list nat; i_T : list Qc; i_start : nat; i_size : Qc; i_theta : Qc;
  i_thr : option Qc; i_pad : bool; i_thetas : list Qc; i_thrs : list (option Qc) }.

(** bars.py:148-159 *)
Definition imb_init (P : imb_params) (abs_E_b_init : option Qc) (b0 : Qc) : imb_state :=
  let thr := match abs_E_b_init with Some e => Some (qn (im_E_T_init P) * e) | None => None end in
  {| i_ends := []; i_T := []; i_start := 0; i_size := qabs b0; i_theta := b0; i_thr := thr;
     i_pad := false; i_thetas := [qabs b0]; i_thrs := [thr] |}.

(** last element of an averaged series *)
Definition ewma_last (series : list Qc) (span : Z) : res Qc :=
  do ys <- fast_ewma series span true; py_last ys.

(** bars.py:183-188: expectations after closing a bar at tick [i]; [Ts] in order of appending *)
Definition imb_threshold (P : imb_params) (b_arr : list Qc) (Ts : list Qc) (i : nat) : res Qc :=
  let T_span := if (im_T_span P =? 0)%nat then length Ts else im_T_span P in
  do E_T <- ewma_last Ts (Z.of_nat T_span);
  do E_b <- ewma_last (firstn i b_arr) (Z.min (im_b_span P) (Z.of_nat (i + 1)));
  Ok (E_T * qabs E_b).

(** bars.py:163-189: one iteration for tick [i] with signed flow [b] *)
Definition imb_step (P : imb_params) (b_arr : list Qc) (i : nat) (b : Qc) (s : imb_state) : res imb_state :=
  let size := i_size s + qabs b in
  let theta := i_theta s + b in
  let abs_theta := qabs theta in
  let thetas := abs_theta :: i_thetas s in
  let thrs := i_thr s :: i_thrs s in
  if ge_thr abs_theta (i_thr s) || ge_max size (im_max P) || i_pad s then
    if qlt size (im_min P) then
      Ok {| i_ends := i_ends s; i_T := i_T s; i_start := i_start s; i_size := size; i_theta := theta;
            i_thr := i_thr s; i_pad := true; i_thetas := thetas; i_thrs := thrs |}
    else
      let Ts := qn (i - i_start s + 1) :: i_T s in
      do thr <- imb_threshold P b_arr (rev Ts) i;
      Ok {| i_ends := i :: i_ends s; i_T := Ts; i_start := S i; i_size := 0; i_theta := 0;
            i_thr := Some thr; i_pad := false; i_thetas := thetas; i_thrs := thrs |}
  else
    Ok {| i_ends := i_ends s; i_T := i_T s; i_start := i_start s; i_size := size; i_theta := theta;
          i_thr := i_thr s; i_pad := i_pad s; i_thetas := thetas; i_thrs := thrs |}.

Fixpoint imb_loop (P : imb_params) (b_arr rest : list Qc) (i : nat) (s : imb_state) : res imb_state :=
  match rest with
  | [] => Ok s
  | b :: rest' => do s' <- imb_step P b_arr i b s; imb_loop P b_arr rest' (S i) s'
  end.

(** bars.py:191-195: close the last, incomplete bar *)
Definition imb_finish (n : nat) (s : imb_state) : list nat * list Qc :=
  if (i_start s <? n)%nat
  then (rev (i_ends s) ++ [(n - 1)%nat], rev (i_T s) ++ [qn (n - i_start s)])
  else (rev (i_ends s), rev (i_T s)).

(** bars.py:113-195 [_compute_imbalance_bar_sizes]: end indices, bar sizes in ticks, |theta| and
    thresholds per tick.  [abs_E_b_init] is [None] when it is NaN. *)
Definition compute_imbalance_bar_sizes (P : imb_params) (b_arr : list Qc) (abs_E_b_init : option Qc)
  : res ((list nat * list Qc) * (list Qc * list (option Qc))) :=
  match b_arr with
  | [] => Err IndexError
  | b0 :: rest =>
      do s <- imb_loop P b_arr rest 1 (imb_init P abs_E_b_init b0);
      Ok (imb_finish (length b_arr) s, (rev (i_thetas s), rev (i_thrs s)))
  end.

(** numpy [mean]; NaN ([None]) on an empty array *)
Definition np_mean (l : list Qc) : option Qc :=
  match l with [] => None | _ => Some (qmean l) end.

(** bars.py:226-234: signed flow of each tick in the bar unit *)
Definition signed_flow (unit : bar_unit) (b0 : Qc) (ticks : list tick) : res (list Qc) :=
  let b_arr := tick_rule (map t_price ticks) b0 in
  match unit with
  | VOLUME => Ok (map (fun bt => fst bt * t_vol (snd bt)) (combine b_arr ticks))
  | DOLLARS => Ok (map (fun bt => fst bt * (t_price (snd bt) * t_vol (snd bt))) (combine b_arr ticks))
  | TICK => Ok b_arr
  | TIME => Err NotImplementedError
  end.

(** bars.py:198-251 [aggregate_imblance_bars].  [E_b] is the [abs_E_b_init] argument ([None] = not given);
    [b_span] is [None] when not given. *)
Definition aggregate_imbalance_bars (unit : bar_unit) (min : Qc) (max : option Qc) (b0 : Qc)
    (E_T_init : nat) (E_b : option Qc) (T_span : nat) (b_span : option Z) (ticks : list tick)
  : res (list bar) :=
  do b_arr <- signed_flow unit b0 ticks;
  let E_b_init := match E_b with
                  | Some e => Some e
                  | None => match np_mean (firstn E_T_init b_arr) with Some m => Some (qabs m) | None => None end
                  end in
  let span := match b_span with Some z => z | None => (3 * Z.of_nat E_T_init)%Z end in
  do r <- compute_imbalance_bar_sizes (ImbParams min max E_T_init T_span span) b_arr E_b_init;
  do ids <- compute_tick_bar_id (length ticks) (fst (fst r));
  group_ticks_to_bars (combine ids ticks).

(** ** Runs bars *)

(** Python [max(a, b)] on floats that may be NaN: returns [b] only if [b > a]. *)
Definition py_max (a b : option Qc) : option Qc :=
  match a, b with
  | Some x, Some y => if qlt x y then Some y else Some x
  | _, _ => a
  end.

Definition omul (a b : option Qc) : option Qc :=
  match a, b with Some x, Some y => Some (x * y) | _, _ => None end.

(** bars.py:288-289 [_update_threshold] *)
Definition runs_threshold (E_T : Qc) (P_buy E_buy E_sell : option Qc) : option Qc :=
  omul (Some E_T)
       (py_max (omul P_buy E_buy)
               (omul (match P_buy with Some p => Some (1 - p) | None => None end) E_sell)).

(** Loop variables of bars.py:291-315, lists in reverse order of appending *)
Record runs_state := RunsState {
  r_ends : list nat; r_T : list Qc; r_ratio : list Qc; r_vbuys : list Qc; r_vsells : list Qc;
  r_start : nat; r_size : Qc; r_buys : Qc; r_vb : Qc; r_vs : Qc; r_thr : option Qc; r_pad : bool;
  r_thetas : list Qc; r_thrs : list (option Qc) }.

Definition qmax_py (a b : Qc) : Qc := if qlt a b then b else a.

(** bars.py:298-315 *)
Definition runs_init (P : imb_params) (P_buy E_buy E_sell : option Qc) (b0 v0 : Qc) : runs_state :=
  let thr := runs_threshold (qn (im_E_T_init P)) P_buy E_buy E_sell in
  let vb := if qle 0 b0 then v0 else 0 in
  let vs := if qlt b0 0 then v0 else 0 in
  {| r_ends := []; r_T := []; r_ratio := []; r_vbuys := []; r_vsells := []; r_start := 0; r_size := v0;
     r_buys := if qle 0 b0 then b0 else 0; r_vb := vb; r_vs := vs; r_thr := thr; r_pad := false;
     r_thetas := [qmax_py vb vs]; r_thrs := [thr] |}.

(** bars.py:320-358: one iteration for tick [i] with direction [b] and amount [v] *)
Definition runs_step (P : imb_params) (i : nat) (b v : Qc) (s : runs_state) : res runs_state :=
  let size := r_size s + v in
  let vbuys := if qle 0 b then v :: r_vbuys s else r_vbuys s in
  let vsells := if qlt b 0 then v :: r_vsells s else r_vsells s in
  let buys := r_buys s + (if qle 0 b then 1 else 0) in
  let vb := r_vb s + (if qle 0 b then v else 0) in
  let vs := r_vs s + (if qlt b 0 then v else 0) in
  let theta := qmax_py vb vs in
  let thetas := theta :: r_thetas s in
  let thrs := r_thr s :: r_thrs s in
  if ge_thr theta (r_thr s) || ge_max size (im_max P) || r_pad s then
    if qlt size (im_min P) then
      Ok {| r_ends := r_ends s; r_T := r_T s; r_ratio := r_ratio s; r_vbuys := vbuys; r_vsells := vsells;
            r_start := r_start s; r_size := size; r_buys := buys; r_vb := vb; r_vs := vs; r_thr := r_thr s;
            r_pad := true; r_thetas := thetas; r_thrs := thrs |}
    else
      let nticks := qn (i - r_start s + 1) in
      let Ts := nticks :: r_T s in
      let ratios := buys / nticks :: r_ratio s in
      let T_span := Z.of_nat (if (im_T_span P =? 0)%nat then length Ts else im_T_span P) in
      do E_T <- ewma_last (rev Ts) T_span;
      do P_buy <- ewma_last (rev ratios) T_span;
      do E_buy <- ewma_last (rev vbuys) (Z.min (Z.of_nat (length vbuys)) (im_b_span P));
      do E_sell <- ewma_last (rev vsells) (Z.min (Z.of_nat (length vsells)) (im_b_span P));
      Ok {| r_ends := i :: r_ends s; r_T := Ts; r_ratio := ratios; r_vbuys := vbuys; r_vsells := vsells;
            r_start := S i; r_size := 0; r_buys := 0; r_vb := 0; r_vs := 0;
            r_thr := runs_threshold E_T (Some P_buy) (Some E_buy) (Some E_sell);
            r_pad := false; r_thetas := thetas; r_thrs := thrs |}
  else
    Ok {| r_ends := r_ends s; r_T := r_T s; r_ratio := r_ratio s; r_vbuys := vbuys; r_vsells := vsells;
          r_start := r_start s; r_size := size; r_buys := buys; r_vb := vb; r_vs := vs; r_thr := r_thr s;
          r_pad := r_pad s; r_thetas := thetas; r_thrs := thrs |}.

Fixpoint runs_loop (P : imb_params) (rest : list (Qc * Qc)) (i : nat) (s : runs_state) : res runs_state :=
  match rest with
  | [] => Ok s
  | (b, v) :: rest' => do s' <- runs_step P i b v s; runs_loop P rest' (S i) s'
  end.

(** bars.py:362-366 *)
Definition runs_finish (n : nat) (s : runs_state) : list nat * list Qc :=
  if (r_start s <? n)%nat
  then (rev (r_ends s) ++ [(n - 1)%nat], rev (r_T s) ++ [qn (n - r_start s)])
  else (rev (r_ends s), rev (r_T s)).

(** bars.py:254-366 [_compute_runs_bar_sizes]; rows are (direction, amount) *)
Definition compute_runs_bar_sizes (P : imb_params) (bv : list (Qc * Qc)) (P_buy E_buy E_sell : option Qc)
  : res ((list nat * list Qc) * (list Qc * list (option Qc))) :=
  match bv with
  | [] => Err IndexError
  | (b0, v0) :: rest =>
      do s <- runs_loop P rest 1 (runs_init P P_buy E_buy E_sell b0 v0);
      Ok (runs_finish (length bv) s, (rev (r_thetas s), rev (r_thrs s)))
  end.

(** bars.py:403-411: amounts in the bar unit.  Simplification: the tick DataFrame has the default
    integer index, so that [v_arr[i]] is positional. *)
Definition tick_amounts (unit : bar_unit) (ticks : list tick) : res (list Qc) :=
  match unit with
  | VOLUME => Ok (map t_vol ticks)
  | DOLLARS => Ok (map (fun t => t_price t * t_vol t) ticks)
  | TICK => Ok (map (fun _ => 1) ticks)
  | TIME => Err NotImplementedError
  end.

(** bars.py:369-442 [aggregate_runs_bars]; initial expectations [None] = not given *)
Definition aggregate_runs_bars (unit : bar_unit) (min : Qc) (max : option Qc) (b0 : Qc) (E_T_init : nat)
    (P_buy0 E_buy0 E_sell0 : option Qc) (T_span : nat) (b_span : option Z) (ticks : list tick)
  : res (list bar) :=
  let b_arr := tick_rule (map t_price ticks) b0 in
  do v_arr <- tick_amounts unit ticks;
  let bv := combine b_arr v_arr in
  let head := firstn E_T_init bv in
  let P_buy := match P_buy0 with
               | Some p => Some p
               | None => np_div (qn (length (filter (fun x => qlt 0 (fst x)) head))) (qn (length head))
               end in
  let E_buy := match E_buy0 with
               | Some e => Some e
               | None => np_mean (map snd (filter (fun x => qlt 0 (fst x)) head)) end in
  let E_sell := match E_sell0 with
                | Some e => Some e
                | None => np_mean (map snd (filter (fun x => qlt (fst x) 0) head)) end in
  let span := match b_span with Some z => z | None => (3 * Z.of_nat E_T_init)%Z end in
  do r <- compute_runs_bar_sizes (ImbParams min max E_T_init T_span span) bv P_buy E_buy E_sell;
  do ids <- compute_tick_bar_id (length ticks) (fst (fst r));
  group_ticks_to_bars (combine ids ticks).
