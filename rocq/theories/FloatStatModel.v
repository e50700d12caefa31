(** filters.py [get_mmi] and metrics.py [get_position_timings], [sharpe_ratio] in binary64.  Finite input. *)
From Coq Require Import ZArith List Bool.
From Flocq Require Import BinarySingleNaN.
From Verif Require Import Py Float64 FloatBarsModel FloatPosModel MetricsModel.
Import ListNotations.
Set Implicit Arguments.
Unset Strict Implicit.

(** numba's np.median: the middle element, or half the sum of the two middle elements *)
Fixpoint finsert (x : f64) (l : list f64) : list f64 := match l with [] => [x] | y :: l' => if fle x y then x :: l else y :: finsert x l' end.
Definition fsort (l : list f64) : list f64 := fold_right finsert [] l.
Definition fmedian (l : list f64) : f64 :=
  let s := fsort l in let h := Nat.div (length l) 2 in
  if Nat.even (length l) then fdiv (fadd (nth (h - 1) s (fz 0)) (nth h s (fz 0))) (fz 2) else nth h s (fz 0).
(** filters.py:29-38 [get_mmi]; the counts are whole numbers, divided as floats; numba raises on a division by zero *)
Fixpoint fsteps (prev : f64) (l : list f64) : list (f64 * f64) := match l with [] => [] | x :: l' => (prev, x) :: fsteps x l' end.
Definition fget_mmi (series : list f64) : res f64 :=
  match series with
  | [] => Err ValueError
  | x :: l =>
      let m := fmedian series in
      let n_hi := length (filter (fun p => flt m (snd p) && flt (fz 0) (fsub (snd p) (fst p))) (fsteps x l)) in
      let n_lo := length (filter (fun p => flt (snd p) m && flt (fsub (snd p) (fst p)) (fz 0)) (fsteps x l)) in
      match l with [] => Err ZeroDivisionError | _ => Ok (fdiv (fz (Z.of_nat (n_hi + n_lo))) (fz (Z.of_nat (length series - 1)))) end
  end.

(** metrics.py:13-26 [get_position_timings]; as [MetricsModel.position_timings], with float comparisons and products *)
Definition fposition_timings (ps : list (Z * f64)) : list Z :=
  let no_pos_times := map fst (filter (fun r => feq (snd r) (fz 0)) ps) in
  let prev_pos := map fst (filter (fun r => match snd r with None => true | Some p => negb (feq p (fz 0)) end) (combine (map fst ps) (shift1 (map snd ps)))) in
  let res := filter (fun t => existsb (Z.eqb t) prev_pos) no_pos_times in
  let flips := map fst (filter (fun r => flt (snd r) (fz 0)) (map (fun x => (fst (fst x), fmul (snd (fst x)) (snd x))) (combine (tl ps) (map snd (removelast ps))))) in
  zsort (nodup Z.eq_dec (res ++ flips)).

(** metrics.py:119-127 [sharpe_ratio] of an array without axis: np.mean / np.std (population); [sum] is np.sum, in any order *)
Definition fmean (sum : list f64 -> f64) (l : list f64) : f64 := fdiv (sum l) (fz (Z.of_nat (length l))).
Definition fstd (sum : list f64 -> f64) (l : list f64) : f64 :=
  let m := fmean sum l in fsqrt (fdiv (sum (map (fun x => let d := fsub x m in fmul d d) l)) (fz (Z.of_nat (length l)))).
Definition fsharpe_ratio (sum : list f64 -> f64) (l : list f64) : f64 := fdiv (fmean sum l) (fstd sum l).
