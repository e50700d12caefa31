(** Model of assets_allocation/HRP.py and assets_allocation/pca_hedge.py.
    Items are numbered from 0; a covariance matrix is a function of two indices (it is n x n and only indexed with items).
    [np.cov], [np.corrcoef], scipy's [linkage] and [np.linalg.eigh] are external: their results are arguments (the first three are written out in LinkModel.v). *)
From Verif Require Import Py RNum.
Set Implicit Arguments.
Unset Strict Implicit.
Open Scope Qc_scope.

(** HRP.py:13-21 [_corr_to_dist], one entry *)
Definition corr_to_dist (c : R) : R := sqrt ((1 - c) / 2).

(** A row of the linkage matrix: the two merged clusters and the number of items (the distance column is not used) *)
Record link := { l_left : nat; l_right : nat; l_count : nat }.

(** HRP.py:39-47: one pass of the loop, every cluster index is replaced in place by its two children *)
Definition expand (n : nat) (lm : list link) (l : list nat) : res (list nat) :=
  do ls <- mapM (fun x => if (n <=? x)%nat then do r <- get lm (x - n); Ok [l_left r; l_right r] else Ok [x]) l;
  Ok (concat ls).
(** HRP.py:38: [while sort_indices.max() >= n_items]; None = the loop is still running after [fuel] passes *)
Fixpoint quasi_loop (fuel : nat) (n : nat) (lm : list link) (l : list nat) : option (res (list nat)) :=
  if existsb (fun x => (n <=? x)%nat) l then
    match fuel with O => None | S f => match expand n lm l with Ok l' => quasi_loop f n lm l' | Err e => Some (Err e) end end
  else Some (Ok l).
(** HRP.py:24-49 [_quasi_diagonalize] *)
Definition quasi_diagonalize (fuel : nat) (lm : list link) : option (res (list nat)) :=
  match rev lm with [] => Some (Err IndexError) | r :: _ => quasi_loop fuel (l_count r) lm [l_left r; l_right r] end.

(** HRP.py:52-55 [_get_inverse_cov_portfolio] of the sub-matrix on [idx] *)
Definition inverse_cov_portfolio (cov : nat -> nat -> Qc) (idx : list nat) : list Qc :=
  let r := map (fun i => 1 / cov i i) idx in map (fun x => x / qsum r) r.
(** HRP.py:58-62 [_get_cluster_var]: w' cov w *)
Definition cluster_var (cov : nat -> nat -> Qc) (idx : list nat) : Qc :=
  let w := inverse_cov_portfolio cov idx in
  qsum (map (fun p => snd p * qsum (map (fun q => snd q * cov (fst q) (fst p)) (combine idx w))) (combine idx w)).

(** HRP.py:76-81: every partition of at least two items is cut at len//2 *)
Definition bisect (parts : list (list nat)) : list (list nat) :=
  flat_map (fun p => if (1 <? length p)%nat then [firstn (length p / 2) p; skipn (length p / 2) p] else []) parts.
(** [weights[part] *= a] *)
Definition scale (part : list nat) (a : Qc) (ws : list (nat * Qc)) : list (nat * Qc) :=
  map (fun e => (fst e, if existsb (Nat.eqb (fst e)) part then snd e * a else snd e)) ws.
(** HRP.py:82-89: consecutive partitions in pairs *)
Fixpoint split_pairs (cov : nat -> nat -> Qc) (parts : list (list nat)) (ws : list (nat * Qc)) : list (nat * Qc) :=
  match parts with
  | p1 :: p2 :: rest =>
      let v1 := cluster_var cov p1 in let v2 := cluster_var cov p2 in
      let alpha := 1 - v1 / (v1 + v2) in
      split_pairs cov rest (scale p2 (1 - alpha) (scale p1 alpha ws))
  | _ => ws
  end.
(** HRP.py:75: [while len(partitions) > 0] *)
Fixpoint bisect_loop (fuel : nat) (cov : nat -> nat -> Qc) (parts : list (list nat)) (ws : list (nat * Qc)) : option (list (nat * Qc)) :=
  match parts with
  | [] => Some ws
  | _ => match fuel with O => None | S f => let parts' := bisect parts in bisect_loop f cov parts' (split_pairs cov parts' ws) end
  end.
(** HRP.py:65-90 [_recursive_bisection] *)
Definition recursive_bisection (fuel : nat) (cov : nat -> nat -> Qc) (sort_indices : list nat) : option (list (nat * Qc)) :=
  bisect_loop fuel cov [sort_indices] (map (fun i => (i, 1)) sort_indices).
(** HRP.py:93-112 [hrp_allocations], given the covariance and the linkage matrix *)
Definition hrp_allocations (fuel : nat) (cov : nat -> nat -> Qc) (lm : list link) : option (res (list (nat * Qc))) :=
  match quasi_diagonalize fuel lm with
  | Some (Ok idx) => match recursive_bisection fuel cov idx with Some ws => Some (Ok ws) | None => None end
  | Some (Err e) => Some (Err e)
  | None => None
  end.

(** ** pca_hedge.py *)
Open Scope R_scope.
(** pca_hedge.py:5-7: eigenpairs by decreasing eigenvalue ([argsort()[::-1]]; equal eigenvalues may come in any order) *)
Fixpoint einsert (e : R * (nat -> R)) (l : list (R * (nat -> R))) : list (R * (nat -> R)) :=
  match l with [] => [e] | x :: l' => if Rle_lt_dec (fst e) (fst x) then e :: l else x :: einsert e l' end.
Fixpoint esort (l : list (R * (nat -> R))) : list (R * (nat -> R)) := match l with [] => [] | e :: l' => einsert e (esort l') end.
Definition eig_desc l := rev (esort l).
(** pca_hedge.py:4-14 [pca_weights]; [eig] is the list of (eigenvalue, eigenvector) of [np.linalg.eigh] *)
Definition pca_loads (eig : list (R * (nat -> R))) (risk_dist : option (list R)) (target : R) : list R :=
  let rd := match risk_dist with Some d => d | None => repeat 0 (length eig - 1) ++ [1] end in
  map (fun p => target * sqrt (fst p / fst (snd p))) (combine rd (eig_desc eig)).
Definition pca_weights (eig : list (R * (nat -> R))) (risk_dist : option (list R)) (target : R) : nat -> R :=
  fun i => rsum (map (fun p => fst p * snd (snd p) i) (combine (pca_loads eig risk_dist target) (eig_desc eig))).
Close Scope R_scope.
