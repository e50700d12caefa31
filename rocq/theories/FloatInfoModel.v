(** data_structures/bars.py in binary64: imbalance bars.  The exact version is in BarsModel; the arrays returned for debugging are left out here. *)
From Coq Require Import ZArith List Bool.
From Flocq Require Import BinarySingleNaN.
From Verif Require Import Float64 FloatBarsModel FloatSeriesModel BarsModel.
Import ListNotations.
Set Implicit Arguments.
Unset Strict Implicit.

(** bars.py:198-209: the parameters; a missing [max_bar_size] is infinity, [T_ewma_span] None is 0 *)
Record fimb_params := FImbParams { fm_min : f64; fm_max : f64; fm_E_T_init : nat; fm_T_span : nat; fm_b_span : Z }.
(** the loop variables of bars.py:144-159, lists in reverse order of appending *)
Record fimb_state := FImbState { fi_ends : list nat; fi_T : list f64; fi_start : nat; fi_size : f64; fi_theta : f64; fi_thr : f64; fi_pad : bool }.
(** bars.py:148-159 *)
Definition fimb_init (P : fimb_params) (abs_E_b b0 : f64) : fimb_state :=
  FImbState [] [] 0 (fabs b0) b0 (fmul (fz (Z.of_nat (fm_E_T_init P))) abs_E_b) false.
(** the last element of the averaged series, for a series that is not empty *)
Definition fewma_last (series : list f64) (span : Z) : f64 := last (fewma fpow series span) (fz 0).
(** bars.py:183-188, for spans >= 1; [Ts] in order of appending *)
Definition fimb_threshold (P : fimb_params) (flow Ts : list f64) (i : nat) : f64 :=
  fmul (fewma_last Ts (Z.of_nat (if (fm_T_span P =? 0)%nat then length Ts else fm_T_span P)))
       (fabs (fewma_last (firstn i flow) (Z.min (fm_b_span P) (Z.of_nat (i + 1))))).
(** bars.py:163-189: tick [i] with signed flow [b] *)
Definition fimb_step (P : fimb_params) (flow : list f64) (i : nat) (b : f64) (s : fimb_state) : fimb_state :=
  let size := fadd (fi_size s) (fabs b) in
  let theta := fadd (fi_theta s) b in
  if fle (fi_thr s) (fabs theta) || fle (fm_max P) size || fi_pad s then
    if flt size (fm_min P) then FImbState (fi_ends s) (fi_T s) (fi_start s) size theta (fi_thr s) true
    else let Ts := fz (Z.of_nat (i - fi_start s + 1)) :: fi_T s in
         FImbState (i :: fi_ends s) Ts (S i) (fz 0) (fz 0) (fimb_threshold P flow (rev Ts) i) false
  else FImbState (fi_ends s) (fi_T s) (fi_start s) size theta (fi_thr s) (fi_pad s).
Fixpoint fimb_loop (P : fimb_params) (flow rest : list f64) (i : nat) (s : fimb_state) : fimb_state :=
  match rest with [] => s | b :: rest' => fimb_loop P flow rest' (S i) (fimb_step P flow i b s) end.
(** bars.py:113-195 [_compute_imbalance_bar_sizes]: the end of each bar and its number of ticks; [None] is IndexError *)
Definition fimbalance_sizes (P : fimb_params) (flow : list f64) (abs_E_b : f64) : option (list nat * list f64) :=
  match flow with
  | [] => None
  | b0 :: rest =>
      let n := length flow in
      let s := fimb_loop P flow rest 1 (fimb_init P abs_E_b b0) in
      Some (if (fi_start s <? n)%nat then (rev (fi_ends s) ++ [(n - 1)%nat], rev (fi_T s) ++ [fz (Z.of_nat (n - fi_start s))])
            else (rev (fi_ends s), rev (fi_T s)))
  end.

(** bars.py:226-234: the signed flow in the unit of the bars; [None] is NotImplementedError *)
Definition fsigned_flow (unit : bar_unit) (b0 : f64) (ticks : list ftick) : option (list f64) :=
  let b := ftick_rule (map ft_price ticks) b0 in
  match unit with
  | VOLUME => Some (map (fun x => fmul (fst x) (ft_vol (snd x))) (combine b ticks))
  | DOLLARS => Some (map (fun x => fmul (fst x) (fmul (ft_price (snd x)) (ft_vol (snd x)))) (combine b ticks))
  | TICK => Some b
  | TIME => None
  end.
(** bars.py:235-243 [aggregate_imblance_bars]: where the bars end; [sum] is the sum of np.mean, [None] an argument that is not given *)
Definition fimbalance_ends (sum : list f64 -> f64) (unit : bar_unit) (min max b0 : f64) (E_T_init : nat) (abs_E_b : option f64) (T_span : nat)
    (b_span : option Z) (ticks : list ftick) : option (list nat) :=
  match fsigned_flow unit b0 ticks with
  | None => None
  | Some flow =>
      let head := firstn E_T_init flow in
      let E_b := match abs_E_b with Some e => e | None => fabs (fdiv (sum head) (fz (Z.of_nat (length head)))) end in
      let span := match b_span with Some z => z | None => (3 * Z.of_nat E_T_init)%Z end in
      option_map fst (fimbalance_sizes (FImbParams min max E_T_init T_span span) flow E_b)
  end.
