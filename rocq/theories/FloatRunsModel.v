(** data_structures/bars.py in binary64: runs bars.  The exact version is in BarsModel; the arrays returned for debugging are left out here. *)
From Coq Require Import ZArith List Bool.
From Flocq Require Import BinarySingleNaN.
From Verif Require Import Float64 FloatBarsModel FloatSeriesModel BarsModel FloatInfoModel.
Import ListNotations.
Set Implicit Arguments.
Unset Strict Implicit.

(** Python's max(a, b) of two floats: b only if it is larger *)
Definition fmax_py (a b : f64) : f64 := if flt a b then b else a.
(** bars.py:288-289 [_update_threshold] *)
Definition fruns_threshold (E_T P_buy E_buy E_sell : f64) : f64 := fmul E_T (fmax_py (fmul P_buy E_buy) (fmul (fsub (fz 1) P_buy) E_sell)).
(** the loop variables of bars.py:291-315, lists in reverse order of appending.  Simplification: the counter of buys is an int in later bars; as a float it is
    the same number up to 2^53. *)
Record fruns_state := FRunsState { fr_ends : list nat; fr_T : list f64; fr_ratio : list f64; fr_vbuys : list f64; fr_vsells : list f64; fr_start : nat; fr_size : f64;
  fr_buys : f64; fr_vb : f64; fr_vs : f64; fr_thr : f64; fr_pad : bool }.
(** bars.py:298-315 *)
Definition fruns_init (P : fimb_params) (P_buy E_buy E_sell b0 v0 : f64) : fruns_state :=
  FRunsState [] [] [] [] [] 0 v0 (if fle (fz 0) b0 then b0 else fz 0) (if fle (fz 0) b0 then v0 else fz 0) (if flt b0 (fz 0) then v0 else fz 0)
    (fruns_threshold (fz (Z.of_nat (fm_E_T_init P))) P_buy E_buy E_sell) false.
(** bars.py:320-358: tick [i] with direction [b] and amount [v]; [None] is the IndexError of averaging an empty array *)
Definition fruns_step (P : fimb_params) (i : nat) (b v : f64) (s : fruns_state) : option fruns_state :=
  let size := fadd (fr_size s) v in
  let vbuys := if fle (fz 0) b then v :: fr_vbuys s else fr_vbuys s in
  let vsells := if flt b (fz 0) then v :: fr_vsells s else fr_vsells s in
  let buys := fadd (fr_buys s) (if fle (fz 0) b then fz 1 else fz 0) in
  let vb := fadd (fr_vb s) (if fle (fz 0) b then v else fz 0) in
  let vs := fadd (fr_vs s) (if flt b (fz 0) then v else fz 0) in
  if fle (fr_thr s) (fmax_py vb vs) || fle (fm_max P) size || fr_pad s then
    if flt size (fm_min P) then Some (FRunsState (fr_ends s) (fr_T s) (fr_ratio s) vbuys vsells (fr_start s) size buys vb vs (fr_thr s) true)
    else
      let nticks := fz (Z.of_nat (i - fr_start s + 1)) in
      let Ts := nticks :: fr_T s in
      let ratios := fdiv buys nticks :: fr_ratio s in
      let T_span := Z.of_nat (if (fm_T_span P =? 0)%nat then length Ts else fm_T_span P) in
      match vbuys, vsells with
      | [], _ | _, [] => None
      | _, _ =>
          let thr := fruns_threshold (fewma_last (rev Ts) T_span) (fewma_last (rev ratios) T_span)
                       (fewma_last (rev vbuys) (Z.min (Z.of_nat (length vbuys)) (fm_b_span P)))
                       (fewma_last (rev vsells) (Z.min (Z.of_nat (length vsells)) (fm_b_span P))) in
          Some (FRunsState (i :: fr_ends s) Ts ratios vbuys vsells (S i) (fz 0) (fz 0) (fz 0) (fz 0) thr false)
      end
  else Some (FRunsState (fr_ends s) (fr_T s) (fr_ratio s) vbuys vsells (fr_start s) size buys vb vs (fr_thr s) (fr_pad s)).
Fixpoint fruns_loop (P : fimb_params) (rest : list (f64 * f64)) (i : nat) (s : fruns_state) : option fruns_state :=
  match rest with [] => Some s | (b, v) :: rest' => match fruns_step P i b v s with Some s' => fruns_loop P rest' (S i) s' | None => None end end.
(** bars.py:254-366 [_compute_runs_bar_sizes]: the end of each bar and its number of ticks; rows are (direction, amount), [None] is IndexError *)
Definition fruns_sizes (P : fimb_params) (bv : list (f64 * f64)) (P_buy E_buy E_sell : f64) : option (list nat * list f64) :=
  match bv with
  | [] => None
  | (b0, v0) :: rest =>
      let n := length bv in
      match fruns_loop P rest 1 (fruns_init P P_buy E_buy E_sell b0 v0) with
      | None => None
      | Some s => Some (if (fr_start s <? n)%nat then (rev (fr_ends s) ++ [(n - 1)%nat], rev (fr_T s) ++ [fz (Z.of_nat (n - fr_start s))])
                        else (rev (fr_ends s), rev (fr_T s)))
      end
  end.

(** bars.py:402-411: the rows in the unit of the bars; [None] is NotImplementedError *)
Definition fruns_rows (unit : bar_unit) (b0 : f64) (ticks : list ftick) : option (list (f64 * f64)) :=
  let b := ftick_rule (map ft_price ticks) b0 in
  match unit with
  | VOLUME => Some (combine b (map ft_vol ticks))
  | DOLLARS => Some (combine b (map (fun t => fmul (ft_price t) (ft_vol t)) ticks))
  | TICK => Some (combine b (map (fun _ => fz 1) ticks))
  | TIME => None
  end.
(** np.mean: the sum divided by the number of elements, 0/0 = NaN for none *)
Definition fnp_mean (sum : list f64 -> f64) (l : list f64) : f64 := fdiv (sum l) (fz (Z.of_nat (length l))).
(** bars.py:413-435 [aggregate_runs_bars]: where the bars end; [sum] is the sum of np.mean, [None] an argument that is not given *)
Definition fruns_ends (sum : list f64 -> f64) (unit : bar_unit) (min max b0 : f64) (E_T_init : nat) (P0 B0 S0 : option f64) (T_span : nat) (b_span : option Z)
    (ticks : list ftick) : option (list nat) :=
  match fruns_rows unit b0 ticks with
  | None => None
  | Some bv =>
      let head := firstn E_T_init bv in
      let buys := filter (fun x => flt (fz 0) (fst x)) head in
      let sells := filter (fun x => flt (fst x) (fz 0)) head in
      let P_buy := match P0 with Some p => p | None => fdiv (fz (Z.of_nat (length buys))) (fz (Z.of_nat (length head))) end in
      let E_buy := match B0 with Some e => e | None => fnp_mean sum (map snd buys) end in
      let E_sell := match S0 with Some e => e | None => fnp_mean sum (map snd sells) end in
      let span := match b_span with Some z => z | None => (3 * Z.of_nat E_T_init)%Z end in
      option_map fst (fruns_sizes (FImbParams min max E_T_init T_span span) bv P_buy E_buy E_sell)
  end.
