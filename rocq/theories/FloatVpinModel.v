(** features/microstructure.py [volume_synchronized_pin] in binary64. *)
From Coq Require Import ZArith List Bool.
From Flocq Require Import BinarySingleNaN.
From Verif Require Import Py Float64 SysDefaultModel FloatBarsModel.
Import ListNotations.
Set Implicit Arguments.
Unset Strict Implicit.

(** microstructure.py:184-187, one tick: the volume times the two comparisons, subtracted *)
Definition fbool (b : bool) : f64 := if b then fz 1 else fz 0.
Definition ftick_net (v b : f64) : f64 := fsub (fmul v (fbool (feq b (fz 1)))) (fmul v (fbool (feq b (fz (-1))))).
(** microstructure.py:183-190, net volume per bar; [gsum] is the sum of a group *)
Definition fnet_volumes (gsum : list f64 -> f64) (ids : list Z) (ticks : list ftick) (b0 : f64) : list (Z * f64) :=
  map (fun g => (fst g, gsum (snd g))) (groupby (combine ids (zip_with ftick_net (map ft_vol ticks) (ftick_rule (map ft_price ticks) b0)))).
(** microstructure.py:173-192; [roll] is pandas' [rolling(n).sum()] *)
Definition fvpin (gsum : list f64 -> f64) (roll : nat -> list f64 -> list (option f64)) (ids : list Z) (ticks : list ftick) (volume_per_bar : f64) (n : nat) (b0 : f64) : list (Z * option f64) :=
  let nets := fnet_volumes gsum ids ticks b0 in
  combine (map fst nets) (map (option_map (fun s => fdiv (fabs s) (fmul (fz (Z.of_nat n)) volume_per_bar))) (roll n (map snd nets))).

(** ** pandas' compensated sums *)
(** one addition: the sum and the compensation *)
Definition kahan_step (st : f64 * f64) (v : f64) : f64 * f64 :=
  let y := fsub v (snd st) in
  let t := fadd (fst st) y in
  (t, fsub (fsub t (fst st)) y).
(** pandas' group_sum (what the groupby of microstructure.py:190 calls) *)
Definition kahan_sum (l : list f64) : f64 := fst (fold_left kahan_step l (fz 0, fz 0)).
(** pandas' roll_sum (what microstructure.py:191 calls) over fixed windows: remove what leaves the window, add what enters, with a compensation each; [window] starts with the
    current window, of which there are [k] entries.  Left out: the fresh start of windows that do not overlap (n = 1), and runs of equal values. *)
Definition kahan_remove (n k : nat) (sum cr : f64) (window : list f64) : f64 * f64 * nat * list f64 :=
  if (k <? n)%nat then (sum, cr, k, window)
  else match window with [] => (sum, cr, k, window) | o :: w => (fst (kahan_step (sum, cr) (Bopp o)), snd (kahan_step (sum, cr) (Bopp o)), Nat.pred k, w) end.
Fixpoint kahan_roll_from (n k : nat) (sum ca cr : f64) (window rest : list f64) : list (option f64) :=
  match rest with
  | [] => []
  | v :: rest' =>
      let '(sum1, cr1, k1, window1) := kahan_remove n k sum cr window in
      let st := kahan_step (sum1, ca) v in
      (if (S k1 <? n)%nat then None else Some (fst st)) :: kahan_roll_from n (S k1) (fst st) (snd st) cr1 window1 rest'
  end.
Definition kahan_roll (n : nat) (l : list f64) : list (option f64) := kahan_roll_from n 0 (fz 0) (fz 0) (fz 0) l l.
