(** scipy's root finders as option.py calls them, written out: [brentq] (scipy/optimize/Zeros/brentq.c) for implied volatilities and [newton]
    without derivative (the secant method of scipy/optimize/_zeros_py.py) for implied asset prices.  Real numbers stand for floats. *)
From Verif Require Import Py RNum OptionModel.
Set Implicit Arguments.
Unset Strict Implicit.
Open Scope R_scope.

(** ** brentq *)
Record bstate := { b_xpre : R; b_fpre : R; b_xcur : R; b_fcur : R; b_xblk : R; b_fblk : R; b_spre : R; b_scur : R }.
(** signbit(fpre) != signbit(fcur), both not zero *)
Definition opposite (a b : R) : bool := if Rlt_dec (a * b) 0 then true else false.
(** the previous point is on the other side of zero: it becomes the other end of the bracket *)
Definition rebracket (s : bstate) : bstate :=
  if opposite (b_fpre s) (b_fcur s) then
    {| b_xpre := b_xpre s; b_fpre := b_fpre s; b_xcur := b_xcur s; b_fcur := b_fcur s; b_xblk := b_xpre s; b_fblk := b_fpre s;
       b_spre := b_xcur s - b_xpre s; b_scur := b_xcur s - b_xpre s |}
  else s.
(** the end with the smaller value becomes the current point *)
Definition better_end (s : bstate) : bstate :=
  if Rlt_dec (Rabs (b_fblk s)) (Rabs (b_fcur s)) then
    {| b_xpre := b_xcur s; b_fpre := b_fcur s; b_xcur := b_xblk s; b_fcur := b_fblk s; b_xblk := b_xcur s; b_fblk := b_fcur s;
       b_spre := b_spre s; b_scur := b_scur s |}
  else s.
(** secant step, or inverse quadratic extrapolation through three points *)
Definition trial_step (s : bstate) : R :=
  if Req_EM_T (b_xpre s) (b_xblk s) then - b_fcur s * (b_xcur s - b_xpre s) / (b_fcur s - b_fpre s)
  else let dpre := (b_fpre s - b_fcur s) / (b_xpre s - b_xcur s) in
       let dblk := (b_fblk s - b_fcur s) / (b_xblk s - b_xcur s) in
       - b_fcur s * (b_fblk s * dblk - b_fpre s * dpre) / (dblk * dpre * (b_fblk s - b_fpre s)).
(** the new (spre, scur): the trial step if it is short enough, bisection otherwise *)
Definition next_steps (delta sbis : R) (s : bstate) : R * R :=
  if Rlt_dec delta (Rabs (b_spre s)) then
    if Rlt_dec (Rabs (b_fcur s)) (Rabs (b_fpre s)) then
      if Rlt_dec (2 * Rabs (trial_step s)) (Rmin (Rabs (b_spre s)) (3 * Rabs sbis - delta)) then (b_scur s, trial_step s) else (sbis, sbis)
    else (sbis, sbis)
  else (sbis, sbis).
Fixpoint brent_loop (f : R -> R) (xtol rtol : R) (n : nat) (s0 : bstate) : res R :=
  match n with
  | O => Err RuntimeError
  | S n' =>
    let s := better_end (rebracket s0) in
    let delta := (xtol + rtol * Rabs (b_xcur s)) / 2 in
    let sbis := (b_xblk s - b_xcur s) / 2 in
    if Req_EM_T (b_fcur s) 0 then Ok (b_xcur s)
    else if Rlt_dec (Rabs sbis) delta then Ok (b_xcur s)
    else let steps := next_steps delta sbis s in
         let x := b_xcur s + (if Rlt_dec delta (Rabs (snd steps)) then snd steps else if Rlt_dec 0 sbis then delta else - delta) in
         brent_loop f xtol rtol n' {| b_xpre := b_xcur s; b_fpre := b_fcur s; b_xcur := x; b_fcur := f x; b_xblk := b_xblk s; b_fblk := b_fblk s;
                                      b_spre := fst steps; b_scur := snd steps |}
  end.
(** a root at an end is returned; ends on the same side of zero: ValueError; not done after maxiter rounds: RuntimeError *)
Definition brentq (xtol rtol : R) (maxiter : nat) (f : R -> R) (a b : R) : res R :=
  if Req_EM_T (f a) 0 then Ok a else if Req_EM_T (f b) 0 then Ok b
  else if opposite (f a) (f b) then
    brent_loop f xtol rtol maxiter {| b_xpre := a; b_fpre := f a; b_xcur := b; b_fcur := f b; b_xblk := 0; b_fblk := 0; b_spre := 0; b_scur := 0 |}
  else Err ValueError.
(** the defaults: xtol = 2e-12, rtol = 4 * 2^-52; maxiter = 100 from option.py:276 *)
Definition scipy_brentq : (R -> R) -> R -> R -> res R := brentq (2 / 10 ^ 12) (4 / 2 ^ 52) 100.

(** ** newton: a function value that is not a number (None) makes every later iterate NaN, so that the search ends with RuntimeError *)
Definition secant (p0 q0 p1 q1 : R) : R :=
  if Rlt_dec (Rabs q0) (Rabs q1) then (- q0 / q1 * p1 + p0) / (1 - q0 / q1) else (- q1 / q0 * p0 + p1) / (1 - q1 / q0).
Fixpoint secant_loop (f : R -> option R) (tol : R) (n : nat) (p0 q0 p1 q1 : R) : res R :=
  match n with
  | O => Err RuntimeError
  | S n' =>
    if Req_EM_T q1 q0 then if Req_EM_T p1 p0 then Ok ((p1 + p0) / 2) else Err RuntimeError
    else let p := secant p0 q0 p1 q1 in
         if Rle_dec (Rabs (p - p1)) tol then Ok p
         else match f p with None => Err RuntimeError | Some q => secant_loop f tol n' p1 q1 p q end
  end.
(** the second point: x0 * (1 + 1e-4) + or - 1e-4 *)
Definition second_point (x0 : R) : R :=
  let p := x0 * (1 + 1 / 10 ^ 4) in if Rle_dec 0 p then p + 1 / 10 ^ 4 else p - 1 / 10 ^ 4.
Definition newton (tol : R) (maxiter : nat) (f : R -> option R) (x0 : R) : res R :=
  if Rle_dec tol 0 then Err ValueError else if (maxiter <? 1)%nat then Err ValueError
  else match f x0, f (second_point x0) with
       | Some q0, Some q1 => if Rlt_dec (Rabs q1) (Rabs q0) then secant_loop f tol maxiter (second_point x0) q1 x0 q0 else secant_loop f tol maxiter x0 q0 (second_point x0) q1
       | _, _ => Err RuntimeError
       end.
(** option.py:295-307 [implied_asset_price] with its defaults tol = 1e-2, maxiter = 100.  Pricing functions take the logarithm of the asset price; simplified:
    an asset price of zero, where numpy has the limit, counts as NaN like a negative one. *)
Definition positive_part (f : R -> R) (s : R) : option R := if Rlt_dec 0 s then Some (f s) else None.
Definition scipy_newton (f : R -> R) (x0 : R) : res R := newton (1 / 100) 100 (positive_part f) x0.
