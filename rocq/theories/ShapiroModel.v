(** utils/stats.py, the Shapiro-Wilk wrapper. *)
From Verif Require Import Py RNum OptionModel.
Set Implicit Arguments.
Unset Strict Implicit.
Open Scope R_scope.

(** scipy.stats.shapiro: (statistic, p-value) by the routine [swilk] (Royston's algorithm AS R94, an argument) on the sorted sample; fewer than three
    observations are refused.  The warnings for a zero range and for more than 5000 observations are left out *)
Definition shapiro (swilk : list R -> R * R) (l : list R) : res (R * R) := if (length l <? 3)%nat then Err ValueError else Ok (swilk (rsort l)).
(** stats.py:30-31 [shapiro_wilk_pval]: element 1 *)
Definition shapiro_wilk_pval (swilk : list R -> R * R) (l : list R) : res R := do r <- shapiro swilk l; Ok (snd r).
