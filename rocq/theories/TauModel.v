(** Model of the rank correlation and normality wrappers of utils/stats.py together with the library functions they call:
    scipy's [kendalltau] (variant b) and [weightedtau] (hyperbolic, additive, rank=True) and statsmodels' [jarque_bera].
    Exact real arithmetic; NaN is [None].  Input with NaN is not modelled. *)
From Verif Require Import Py RNum.
Set Implicit Arguments.
Unset Strict Implicit.
Open Scope R_scope.

(** all pairs of elements at different positions, the earlier one first *)
Fixpoint pairs (A : Type) (l : list A) : list (A * A) := match l with [] => [] | a :: l' => map (fun b => (a, b)) l' ++ pairs l' end.
Definition r_eqb (a b : R) : bool := if Req_EM_T a b then true else false.
Definition r_ltb (a b : R) : bool := if Rlt_dec a b then true else false.

Section TAU.
  Variables (A : Type) (x y : A -> R) (w : A -> A -> R).
  (** total weight of the pairs that pass a test; scipy finds these totals from sorted runs and a merge sort or a Fenwick tree, here they are sums over all pairs *)
  Definition pair_weight (test : A -> A -> bool) (l : list A) : R := rsum (map (fun p => if test (fst p) (snd p) then w (fst p) (snd p) else 0) (pairs l)).
  Definition x_tie (a b : A) : bool := r_eqb (x a) (x b).
  Definition y_tie (a b : A) : bool := r_eqb (y a) (y b).
  Definition discordant (a b : A) : bool := (r_ltb (x a) (x b) && r_ltb (y b) (y a)) || (r_ltb (x b) (x a) && r_ltb (y a) (y b)).
  Definition total (l : list A) : R := pair_weight (fun _ _ => true) l.
  (** scipy: ((tot - (v + u - t)) - 2 * exchanges) / sqrt(tot - u) / sqrt(tot - v), clipped to [-1, 1] *)
  Definition tau_value (l : list A) : R :=
    let tot := total l in let u := pair_weight x_tie l in let v := pair_weight y_tie l in
    let t := pair_weight (fun a b => x_tie a b && y_tie a b) l in
    Rmin 1 (Rmax (-1) (((tot - (v + u - t)) - 2 * pair_weight discordant l) / sqrt (tot - u) / sqrt (tot - v))).
End TAU.

(** scipy.stats.kendalltau with its defaults, a (statistic, p-value) pair; [pvalue] computes the p-value, which the library does not read *)
Definition kendalltau (pvalue : list R -> list R -> option R) (x y : list R) : res (option R * option R) :=
  if negb (length x =? length y)%nat then Err ValueError
  else
    let l := combine x y in let one := fun _ _ => 1 in
    if (length x =? 0)%nat then Ok (None, None)
    else if r_eqb (pair_weight one (x_tie fst) l) (total one l) || r_eqb (pair_weight one (y_tie snd) l) (total one l) then Ok (None, None)
    else Ok (Some (tau_value fst snd one l), pvalue x y).

(** scipy.stats.weightedtau: elements carry their position.  [after a b]: b comes after a in np.lexsort((y, x)) *)
Definition item := (nat * (R * R))%type.
Definition item_x (a : item) : R := fst (snd a).
Definition item_y (a : item) : R := snd (snd a).
Definition after (a b : item) : bool :=
  if r_ltb (item_x a) (item_x b) then true else if r_ltb (item_x b) (item_x a) then false
  else if r_ltb (item_y a) (item_y b) then true else if r_ltb (item_y b) (item_y a) then false else (fst a <? fst b)%nat.
(** ranks count from the largest element, which has rank 0 *)
Definition rank (l : list item) (a : item) : nat := length (filter (after a) l).
(** the default weigher 1 / (1 + rank), weights of a pair added *)
Definition item_weight (l : list item) (a b : item) : R := 1 / (1 + INR (rank l a)) + 1 / (1 + INR (rank l b)).
Definition constant (xs : list R) : bool := match xs with [] => true | a :: xs' => forallb (r_eqb a) xs' end.
(** _weightedrankedtau(x, y, None, ...) *)
Definition ranked_tau (x y : list R) : option R :=
  let l := combine (seq 0 (length x)) (combine x y) in
  if constant x || constant y then None else Some (tau_value item_x item_y (item_weight l) l).
Definition weightedtau (x y : list R) : res (option R * option R) :=
  if negb (length x =? length y)%nat then Err ValueError
  else match ranked_tau x y, ranked_tau y x with Some a, Some b => Ok (Some ((a + b) / 2), None) | _, _ => Ok (None, None) end.

(** stats.py:17-18 [kendall_tau_pval] and stats.py:21-22 [weighted_tau_pval]: element 0 of the pair *)
Definition kendall_tau_pval (pvalue : list R -> list R -> option R) (x y : list R) : res (option R) := do r <- kendalltau pvalue x y; Ok (fst r).
Definition weighted_tau_pval (x y : list R) : res (option R) := do r <- weightedtau x y; Ok (fst r).

(** statsmodels.stats.stattools.jarque_bera: (statistic, p-value); at least two observations are required; skew and kurtosis are the biased ones of
    scipy, NaN for constant data; [chi2.sf(jb, 2)] is exp(-jb/2) *)
Definition central_moment (k : nat) (l : list R) : R := rmean (map (fun v => (v - rmean l) ^ k) l).
Definition jarque_bera (l : list R) : res (option R * option R) :=
  if (length l <? 2)%nat then Err ValueError
  else
    let m2 := central_moment 2 l in
    if Req_EM_T m2 0 then Ok (None, None)
    else
      let skew := central_moment 3 l / (m2 * sqrt m2) in let kurtosis := central_moment 4 l / (m2 * m2) in
      let jb := INR (length l) / 6 * (skew ^ 2 + 1 / 4 * (kurtosis - 3) ^ 2) in
      Ok (Some jb, Some (exp (- jb / 2))).
(** stats.py:26-27 [jarque_bera_pval]: element 1 *)
Definition jarque_bera_pval (l : list R) : res (option R) := do r <- jarque_bera l; Ok (snd r).
