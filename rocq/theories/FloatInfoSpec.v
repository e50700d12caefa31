(** When imbalance bars close in binary64: the sums and the threshold the code compares, written over the whole bar. *)
From Coq Require Import ZArith List Bool.
From Flocq Require Import BinarySingleNaN.
From Verif Require Import Float64 FloatBarsModel FloatSeriesModel BarsSpec FloatInfoModel.
Import ListNotations.
Set Implicit Arguments.
Unset Strict Implicit.

(** the sum of a bar's flow in the order of the ticks; the first bar starts from its first value, the later ones from 0 *)
Definition fbar_sum (l : list f64) (s i : nat) : f64 :=
  match firstn (S i - s) (skipn s l) with [] => fz 0 | x :: r => fold_left fadd r (if (s =? 0)%nat then x else fadd (fz 0) x) end.
Section ImbalanceRule.
  Variables (P : fimb_params) (E_b : f64) (flow : list f64).
  (** the threshold after bars that ended at [hist] *)
  Definition fimbalance_threshold (hist : list nat) : f64 :=
    match hist with
    | [] => fmul (fz (Z.of_nat (fm_E_T_init P))) E_b
    | _ => let i := last hist 0%nat in
           fmul (fewma_last (map (fun T => fz (Z.of_nat T)) (bar_lengths 0 hist)) (Z.of_nat (if (fm_T_span P =? 0)%nat then length hist else fm_T_span P)))
                (fabs (fewma_last (firstn i flow) (Z.min (fm_b_span P) (Z.of_nat (i + 1)))))
    end.
  Definition fimbalance_trigger (hist : list nat) (s i : nat) : Prop :=
    fle (fimbalance_threshold hist) (fabs (fbar_sum flow s i)) = true \/ fle (fm_max P) (fbar_sum (map fabs flow) s i) = true.
  Definition fsize_reached (s i : nat) : Prop := flt (fbar_sum (map fabs flow) s i) (fm_min P) = false.
End ImbalanceRule.
