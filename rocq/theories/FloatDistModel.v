(** HRP.py [_corr_to_dist] and one entry of numpy's corrcoef in binary64. *)
From Coq Require Import ZArith.
From Verif Require Import Float64 FloatPosModel.
Set Implicit Arguments.
Unset Strict Implicit.

(** HRP.py:13-21 [_corr_to_dist], one entry *)
Definition fcorr_to_dist (c : f64) : f64 := fsqrt (fdiv (fsub (fz 1) c) (fz 2)).
(** [np.corrcoef] as HRP.py:106 calls it, entry (i, j) from the entries of the covariance matrix: [c /= stddev[:, None]; c /= stddev[None, :]; np.clip(c, -1, 1)] *)
Definition fclip1 (x : f64) : f64 := if flt (fz 1) x then fz 1 else if flt x (fz (-1)) then fz (-1) else x.
Definition fcorr (cov_ij var_i var_j : f64) : f64 := fclip1 (fdiv (fdiv cov_ij (fsqrt var_i)) (fsqrt var_j)).
(** HRP.py:106-107, entry (i, j) of [dist_mat] *)
Definition fdist (cov_ij var_i var_j : f64) : f64 := fcorr_to_dist (fcorr cov_ij var_i var_j).
