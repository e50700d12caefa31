(** When runs bars close in binary64: the sums and the threshold the code compares, written over the whole bar. *)
From Coq Require Import ZArith List Bool.
From Flocq Require Import BinarySingleNaN.
From Verif Require Import Float64 FloatBarsModel FloatSeriesModel BarsSpec FloatInfoModel FloatInfoSpec FloatRunsModel.
Import ListNotations.
Set Implicit Arguments.
Unset Strict Implicit.

Section RunsRule.
  Variables (P : fimb_params) (thr0 : f64) (bv : list (f64 * f64)).
  Definition fbuy_amounts := map (fun x => if fle (fz 0) (fst x) then snd x else fz 0) bv.
  Definition fsell_amounts := map (fun x => if flt (fst x) (fz 0) then snd x else fz 0) bv.
  (** 1 for each buy; the first row counts with its direction *)
  Definition fbuy_counts : list f64 :=
    match bv with [] => [] | x :: l => (if fle (fz 0) (fst x) then fst x else fz 0) :: map (fun y => if fle (fz 0) (fst y) then fz 1 else fz 0) l end.
  (** amounts of the buys / sells at positions 1..i *)
  Definition fbuys_upto (i : nat) : list f64 := map snd (filter (fun x => fle (fz 0) (fst x)) (tl (firstn (S i) bv))).
  Definition fsells_upto (i : nat) : list f64 := map snd (filter (fun x => flt (fst x) (fz 0)) (tl (firstn (S i) bv))).
  (** share of buys in each bar *)
  Fixpoint fbuy_shares (start : nat) (ends : list nat) : list f64 :=
    match ends with [] => [] | e :: es => fdiv (fbar_sum fbuy_counts start e) (fz (Z.of_nat (S e - start))) :: fbuy_shares (S e) es end.
  (** the threshold after bars that ended at [hist] *)
  Definition fruns_bar_threshold (hist : list nat) : f64 :=
    match hist with
    | [] => thr0
    | _ =>
        let i := last hist 0%nat in
        let t_span := Z.of_nat (if (fm_T_span P =? 0)%nat then length hist else fm_T_span P) in
        let p := fewma_last (fbuy_shares 0 hist) t_span in
        let buy := fmul p (fewma_last (fbuys_upto i) (Z.min (Z.of_nat (length (fbuys_upto i))) (fm_b_span P))) in
        let sell := fmul (fsub (fz 1) p) (fewma_last (fsells_upto i) (Z.min (Z.of_nat (length (fsells_upto i))) (fm_b_span P))) in
        fmul (fewma_last (map (fun T => fz (Z.of_nat T)) (bar_lengths 0 hist)) t_span) (if flt buy sell then sell else buy)
    end.
  (** the larger of the two runs *)
  Definition frun (s i : nat) : f64 := if flt (fbar_sum fbuy_amounts s i) (fbar_sum fsell_amounts s i) then fbar_sum fsell_amounts s i else fbar_sum fbuy_amounts s i.
  Definition fruns_trigger (hist : list nat) (s i : nat) : Prop :=
    fle (fruns_bar_threshold hist) (frun s i) = true \/ fle (fm_max P) (fbar_sum (map snd bv) s i) = true.
  Definition fruns_size_reached (s i : nat) : Prop := flt (fbar_sum (map snd bv) s i) (fm_min P) = false.
  Definition fboth_sides (i : nat) : Prop := fbuys_upto i <> [] /\ fsells_upto i <> [].
End RunsRule.
