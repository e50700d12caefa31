(** Model of assets_allocation/HRP.py:93-112 [hrp_allocations] from the matrix of returns on, with scipy's
    [linkage(y, method='single', metric='euclidean')] (the defaults) written out. *)
From Verif Require Import Py RNum HRPModel.
Set Implicit Arguments.
Unset Strict Implicit.

(** scipy/cluster/hierarchy.py [linkage] with method 'single': _hierarchy.pyx [mst_single_linkage] and [label].
    Distances have any type with a strict order; they are finite, since [linkage] raises otherwise. *)
Section Linkage.
  Variables (D : Type) (lt : D -> D -> bool) (d : nat -> nat -> D).
  (** [dists[condensed_index(n, i, j)]]: [pdist] keeps one entry per pair *)
  Definition pair_dist (i j : nat) : D := d (Nat.min i j) (Nat.max i j).
  (** inner loop of [mst_single_linkage]: the best distance of each node outside the tree ([None] is infinity), after adding [x] *)
  Definition relax (x : nat) (rest : list (nat * option D)) : list (nat * D) :=
    map (fun e => (fst e, match snd e with Some v => if lt (pair_dist x (fst e)) v then pair_dist x (fst e) else v | None => pair_dist x (fst e) end)) rest.
  (** the first node with the smallest one *)
  Definition nearest (rest : list (nat * D)) : option (nat * D) :=
    fold_left (fun best e => match best with Some b => if lt (snd e) (snd b) then Some e else best | None => Some e end) rest None.
  (** outer loop; a row joins the node added last to the node added now *)
  Fixpoint prim (m x : nat) (rest : list (nat * option D)) : list (nat * nat * D) :=
    match m with
    | O => []
    | S m' =>
        let rest' := relax x rest in
        match nearest rest' with
        | None => []
        | Some (y, v) => (x, y, v) :: prim m' y (map (fun e => (fst e, Some (snd e))) (filter (fun e => negb (fst e =? y)%nat) rest'))
        end
    end.
  (** [argsort(kind='mergesort')], which is stable *)
  Fixpoint row_insert (r : nat * nat * D) (l : list (nat * nat * D)) : list (nat * nat * D) :=
    match l with [] => [r] | x :: l' => if lt (snd x) (snd r) then x :: row_insert r l' else r :: l end.
  Fixpoint row_sort (l : list (nat * nat * D)) : list (nat * nat * D) := match l with [] => [] | r :: l' => row_insert r (row_sort l') end.
  (** [label]: the rows refer to nodes, the linkage matrix to clusters.  Simplification: [root] lists the cluster of each node
      (scipy keeps a union-find forest and follows it to the root). *)
  Fixpoint label (next : nat) (root : list nat) (rows : list (nat * nat * D)) : list (link * D) :=
    match rows with
    | [] => []
    | (x, y, v) :: rows' =>
        let a := nth x root 0%nat in let b := nth y root 0%nat in
        let root' := map (fun c => if (c =? a)%nat || (c =? b)%nat then next else c) root in
        ({| l_left := Nat.min a b; l_right := Nat.max a b; l_count := count_occ Nat.eq_dec root' next |}, v) :: label (S next) root' rows'
    end.
  Definition single_linkage (n : nat) : list (link * D) :=
    label n (seq 0 n) (row_sort (prim (n - 1) 0 (map (fun i => (i, None)) (seq 1 (n - 1))))).
End Linkage.

(** ** From the returns on *)
Open Scope Qc_scope.
(** [np.cov(returns_mat, rowvar=False)]: one row per observation *)
Definition col (returns : list (list Qc)) (i : nat) : list Qc := map (fun r => nth i r 0) returns.
Definition sample_cov (returns : list (list Qc)) (i j : nat) : Qc :=
  qsum (map (fun r => (nth i r 0 - qmean (col returns i)) * (nth j r 0 - qmean (col returns j))) returns) / (qn (length returns) - 1).
Open Scope R_scope.
(** [np.corrcoef(returns_mat, rowvar=False)], clipped to [-1,1] *)
Definition sample_corr (returns : list (list Qc)) (i j : nat) : R :=
  let c := fun i j => Q2R (this (sample_cov returns i j)) in Rmax (-1) (Rmin 1 (c i j / sqrt (c i i) / sqrt (c j j))).
(** [linkage] takes a square matrix for observations, one per row: the distance of two assets is the Euclidean distance of
    their rows of the distance matrix. *)
Definition row_dist (n : nat) (m : nat -> nat -> R) (i j : nat) : R := sqrt (rsum (map (fun k => (m i k - m j k) ^ 2) (seq 0 n))).
Definition Rltb (x y : R) : bool := if Rlt_dec x y then true else false.
(** HRP.py:93-112 [hrp_allocations] with default arguments, for [n] assets.  One asset gives a matrix without dimensions, fewer than
    two observations or an asset of constant return give NaN: [linkage] raises ValueError. *)
Definition hrp_of_returns (fuel n : nat) (returns : list (list Qc)) : option (res (list (nat * Qc))) :=
  if ((n <? 2) || (length returns <? 2))%nat || existsb (fun i => qeq (sample_cov returns i i) 0%Qc) (seq 0 n) then Some (Err ValueError)
  else
    let dist_mat := fun i j => corr_to_dist (sample_corr returns i j) in
    let lm := map fst (single_linkage Rltb (row_dist n dist_mat) n) in
    hrp_allocations fuel (sample_cov returns) lm.
