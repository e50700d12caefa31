(** scipy's CubicSpline and gaussian_filter1d as tools/option.py calls them, written out.  Real numbers stand for floats. *)
From Verif Require Import Py RNum StructModel OptionModel RegModel RootModel KDEModel.
Set Implicit Arguments.
Unset Strict Implicit.
Open Scope R_scope.

(** ** scipy/interpolate/_cubic.py [CubicSpline] with the default bc_type 'not-a-knot' *)
Definition gap (x : nat -> R) (i : nat) : R := x (S i) - x i.
Definition secant_slope (x y : nat -> R) (i : nat) : R := (y (S i) - y i) / gap x i.
(** the tridiagonal system for the slopes at the knots, four or more of them *)
Definition slope_matrix (n : nat) (x : nat -> R) (i j : nat) : R :=
  if (i =? 0)%nat then (if (j =? 0)%nat then gap x 1 else if (j =? 1)%nat then x 2%nat - x 0%nat else 0)
  else if (i =? n - 1)%nat then (if (j =? n - 1)%nat then gap x (n - 3) else if (j =? n - 2)%nat then x (n - 1)%nat - x (n - 3)%nat else 0)
  else (if (j =? i - 1)%nat then gap x i else if (j =? i)%nat then 2 * (gap x (i - 1) + gap x i) else if (j =? i + 1)%nat then gap x (i - 1) else 0).
Definition slope_rhs (n : nat) (x y : nat -> R) (i : nat) : R :=
  let h := gap x in let m := secant_slope x y in
  if (i =? 0)%nat then let d := x 2%nat - x 0%nat in ((h 0%nat + 2 * d) * h 1%nat * m 0%nat + h 0%nat ^ 2 * m 1%nat) / d
  else if (i =? n - 1)%nat then let d := x (n - 1)%nat - x (n - 3)%nat in (h (n - 2)%nat ^ 2 * m (n - 3)%nat + (2 * d + h (n - 2)%nat) * h (n - 3)%nat * m (n - 2)%nat) / d
  else 3 * (h i * m (i - 1)%nat + h (i - 1)%nat * m i).
(** three knots: a parabola *)
Definition parabola_matrix (x : nat -> R) (i j : nat) : R :=
  if (i =? 0)%nat then (if (j =? 0)%nat then 1 else if (j =? 1)%nat then 1 else 0)
  else if (i =? 1)%nat then (if (j =? 0)%nat then gap x 1 else if (j =? 1)%nat then 2 * (gap x 0 + gap x 1) else gap x 0)
  else (if (j =? 1)%nat then 1 else if (j =? 2)%nat then 1 else 0).
Definition parabola_rhs (x y : nat -> R) (i : nat) : R :=
  let h := gap x in let m := secant_slope x y in
  if (i =? 0)%nat then 2 * m 0%nat else if (i =? 1)%nat then 3 * (h 0%nat * m 1%nat + h 1%nat * m 0%nat) else 2 * m 1%nat.
(** two knots: the system is slope, slope.  solve_banded and solve raise LinAlgError, a ValueError, for a singular matrix. *)
Definition knot_slopes (n : nat) (x y : nat -> R) : res (nat -> R) :=
  if (n =? 2)%nat then Ok (fun _ => secant_slope x y 0)
  else match (if (n =? 3)%nat then gesv 3 (parabola_matrix x) (parabola_rhs x y) else gesv n (slope_matrix n x) (slope_rhs n x y)) with
       | Some s => Ok s
       | None => Err ValueError
       end.
(** [CubicHermiteSpline]: the coefficients of a piece, in powers of the distance from its left knot *)
Definition piece_t (x y s : nat -> R) (i : nat) : R := (s i + s (S i) - 2 * secant_slope x y i) / gap x i.
Definition piece_c0 (x y s : nat -> R) (i : nat) : R := piece_t x y s i / gap x i.
Definition piece_c1 (x y s : nat -> R) (i : nat) : R := (secant_slope x y i - s i) / gap x i - piece_t x y s i.
Definition piece (x y s : nat -> R) (i : nat) (v : R) : R :=
  let u := v - x i in piece_c0 x y s i * u ^ 3 + piece_c1 x y s i * u ^ 2 + s i * u + y i.
Definition piece2 (x y s : nat -> R) (i : nat) (v : R) : R := 6 * piece_c0 x y s i * (v - x i) + 2 * piece_c1 x y s i.
(** [PPoly]: the last inner knot not above the point; the end pieces extrapolate *)
Fixpoint interval (x : nat -> R) (k : nat) (v : R) : nat :=
  match k with O => O | S k' => if Rle_dec (x k) v then k else interval x k' v end.
Definition strictly_increasing (l : list R) : bool :=
  forallb (fun p => if Rlt_dec (fst p) (snd p) then true else false) (combine l (tl l)).
(** the curve and its second derivative ([derivative(2)]); ValueError for fewer than two knots, another number of ordinates or knots out of order *)
Definition cubic_spline (xs ys : list R) : res ((R -> R) * (R -> R)) :=
  let n := length xs in
  let x := fun i => nth i xs 0 in
  let y := fun i => nth i ys 0 in
  if (n <? 2)%nat then Err ValueError
  else if negb (length ys =? n)%nat then Err ValueError
  else if negb (strictly_increasing xs) then Err ValueError
  else do s <- knot_slopes n x y;
       Ok (fun v => piece x y s (interval x (n - 2) v) v, fun v => piece2 x y s (interval x (n - 2) v) v).

(** ** scipy/ndimage/_filters.py [gaussian_filter1d] with mode 'reflect' and truncate 4: a width of zero divides by zero; a negative one
    leaves no filter weights (RuntimeError) unless the radius is 0 *)
Definition bump (sigma : R) (d : Z) : R := exp (- (1 / 2) / (sigma * sigma) * IZR d ^ 2).
(** int(4 * sigma + 0.5), towards zero *)
Definition filter_radius (sigma : R) : Z := let q := 4 * sigma + 1 / 2 in if Rle_dec 0 q then Int_part q else (- Int_part (- q))%Z.
(** offsets -r .. r *)
Definition offsets (r : nat) : list Z := map (fun j => (Z.of_nat j - Z.of_nat r)%Z) (seq 0 (2 * r + 1)).
(** (d c b a | a b c d | d c b a), without end *)
Definition reflect (n : nat) (z : Z) : nat :=
  let m := Z.modulo z (2 * Z.of_nat n) in if (m <? Z.of_nat n)%Z then Z.to_nat m else Z.to_nat (2 * Z.of_nat n - 1 - m).
Definition gaussian_filter1d (sigma : R) (l : list R) : res (list R) :=
  if Req_EM_T sigma 0 then Err ZeroDivisionError else
  if (filter_radius sigma <? 0)%Z then Err RuntimeError else
  let off := offsets (Z.to_nat (filter_radius sigma)) in
  let total := rsum (map (bump sigma) off) in
  Ok (map (fun i => rsum (map (fun d => bump sigma d / total * nth (reflect (length l) (Z.of_nat i + d)) l 0) off)) (seq 0 (length l))).
