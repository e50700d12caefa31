(** weighting.py [drop_rare_labels], [sample_sequential_boostrap] (the probabilities), [compute_weights_by_returns] and [apply_time_decay_to_weights] in binary64.  Finite input. *)
From Coq Require Import ZArith List Bool.
From Flocq Require Import BinarySingleNaN.
From Verif Require Import Py Float64 FloatBarsModel WeightModel.
Import ListNotations.
Set Implicit Arguments.
Unset Strict Implicit.

(** weighting.py:7-21 [drop_rare_labels]; as [WeightModel.drop_rare], the shares being quotients of floats *)
Section FDropRare.
  Variable A : Type.
  Variable tie : list Z -> Z.
  Definition fshare (rows : list (option Z * A)) (z : Z) : f64 := fdiv (fz (Z.of_nat (count_label z rows))) (fz (Z.of_nat (n_labelled rows))).
  Fixpoint fdrop_rare (fuel : nat) (min_pct : f64) (min_classes : nat) (rows : list (option Z * A)) : option (list (option Z * A)) :=
    let ls := labels_of rows in
    if (negb (length ls =? 0)%nat && forallb (fun z => flt min_pct (fshare rows z)) ls) || (length ls <=? min_classes)%nat then Some rows
    else match fuel with
         | O => None
         | S f => fdrop_rare f min_pct min_classes (filter (fun r => negb (label_is (rarest tie rows) r)) rows)
         end.
  Definition fdrop_rare_labels min_pct min_classes rows := fdrop_rare (length rows) min_pct min_classes rows.
End FDropRare.

(** weighting.py:107 [probs = trial_avg_uniq / trial_avg_uniq.sum()] *)
Definition fprobs (sum : list f64 -> f64) (uniq : list f64) : list f64 := let s := sum uniq in map (fun x => fdiv x s) uniq.
(** weighting.py:139-141 [raw_weights * (raw_weights.shape[0] / raw_weights.sum())] *)
Definition fnormalize (sum : list f64 -> f64) (raw : list f64) : list f64 := let k := fdiv (fz (Z.of_nat (length raw))) (sum raw) in map (fun x => fmul x k) raw.

(** weighting.py:144-165 [apply_time_decay_to_weights]; [iloc[-1]] raises IndexError for no rows *)
Definition ftime_decay (uniq : list (Z * f64)) (oldest : f64) : res (list (Z * f64)) :=
  let rows := sort_index uniq in
  let cum := fcumsum (map snd rows) in
  do total <- py_last cum;
  let slope := if fle (fz 0) oldest then fdiv (fsub (fz 1) oldest) total else fdiv (fz 1) (fmul (fadd oldest (fz 1)) total) in
  let const := fsub (fz 1) (fmul slope total) in
  Ok (combine (map fst rows) (map (fun c => let w := fadd const (fmul slope c) in if flt w (fz 0) then fz 0 else w) cum)).
