(** metrics.py [compute_holding_period] in binary64.  The timestamps of the positions are distinct nanoseconds: a repeated one would overwrite its row of hp. *)
From Coq Require Import ZArith List Bool.
From Flocq Require Import BinarySingleNaN.
From Verif Require Import Py Float64.
Import ListNotations.
Set Implicit Arguments.
Unset Strict Implicit.

(** metrics.py:39, one entry: numpy divides the two numbers of nanoseconds as floats *)
Definition fdays (t0 t : Z) : f64 := fdiv (fz (t - t0)) (fz 86400000000000).
(** metrics.py:40-49, one turn of the loop; the state is t_entry and the rows (dT, w) of hp *)
Definition fhp_step (t0 : Z) (st : f64 * list (f64 * f64)) (prev cur : Z * f64) : f64 * list (f64 * f64) :=
  let '(t_entry, hp) := st in
  let p_diff := fsub (snd cur) (snd prev) in
  let t_diff := fdays t0 (fst cur) in
  if fle (fz 0) (fmul p_diff (snd prev))
  then if feq (snd cur) (fz 0) then st else (fdiv (fadd (fmul t_entry (snd prev)) (fmul t_diff p_diff)) (snd cur), hp)
  else if flt (fmul (snd cur) (snd prev)) (fz 0) then (t_diff, hp ++ [(fsub t_diff t_entry, fabs (snd prev))])
       else (t_entry, hp ++ [(fsub t_diff t_entry, fabs p_diff)]).
Fixpoint fhp_loop (t0 : Z) (st : f64 * list (f64 * f64)) (prev : Z * f64) (rest : list (Z * f64)) : f64 * list (f64 * f64) :=
  match rest with [] => st | cur :: rest' => fhp_loop t0 (fhp_step t0 st prev cur) cur rest' end.
(** metrics.py:36-49, the rows of hp *)
Definition fhp_rows (ps : list (Z * f64)) : res (list (f64 * f64)) :=
  match ps with [] => Err IndexError | first :: rest => Ok (snd (fhp_loop (fst first) (fz 0, []) first rest)) end.
(** metrics.py:29-53 [compute_holding_period]; [sum] is the sum of a column *)
Definition fholding_period (sum : list f64 -> f64) (ps : list (Z * f64)) : res (option f64) :=
  do hp <- fhp_rows ps;
  let w := sum (map snd hp) in
  Ok (if flt (fz 0) w then Some (fdiv (sum (map (fun r => fmul (fst r) (snd r)) hp)) w) else None).
