(** Specifications for C65, C66, C85 and C93. *)
From Verif Require Import Py RNum HRPModel.
Set Implicit Arguments.
Unset Strict Implicit.

(** A linkage matrix of [n] items: n-1 rows; row k merges two clusters made before it (items are 0..n-1, row k makes cluster n+k);
    every item and every cluster except the last is merged exactly once; the last row counts all items. *)
Record linkage_ok (n : nat) (lm : list link) : Prop := {
  lk_items : (2 <= n)%nat;
  lk_rows : length lm = (n - 1)%nat;
  lk_before : forall k r, nth_error lm k = Some r -> (l_left r < n + k)%nat /\ (l_right r < n + k)%nat;
  lk_once : Permutation (flat_map (fun r => [l_left r; l_right r]) lm) (seq 0 (2 * n - 2));
  lk_count : forall r, nth_error lm (n - 2) = Some r -> l_count r = n }.

(** Items below a cluster, left to right *)
Inductive leaves (n : nat) (lm : list link) : nat -> list nat -> Prop :=
| leaves_item x : (x < n)%nat -> leaves n lm x [x]
| leaves_node k r l1 l2 : nth_error lm k = Some r -> leaves n lm (l_left r) l1 -> leaves n lm (l_right r) l2 -> leaves n lm (n + k) (l1 ++ l2).

(** The share of item [i] in the recursive allocation of a list of items: split in halves, each half gets the share of the
    other half's variance. *)
Inductive share (cov : nat -> nat -> Qc) : list nat -> nat -> Qc -> Prop :=
| share_one i : share cov [i] i 1
| share_left p1 p2 i m : length p1 = (length (p1 ++ p2) / 2)%nat -> p1 <> [] -> share cov p1 i m ->
    share cov (p1 ++ p2) i (cluster_var cov p2 / (cluster_var cov p1 + cluster_var cov p2) * m)
| share_right p1 p2 i m : length p1 = (length (p1 ++ p2) / 2)%nat -> p1 <> [] -> share cov p2 i m ->
    share cov (p1 ++ p2) i (cluster_var cov p1 / (cluster_var cov p1 + cluster_var cov p2) * m).

(** w' cov w for weights on distinct items *)
Definition quad (cov : nat -> nat -> Qc) (idx : list nat) (w : nat -> Qc) : Qc :=
  qsum (map (fun i => w i * qsum (map (fun j => w j * cov j i) idx)) idx).
Definition pos_def (cov : nat -> nat -> Qc) (idx : list nat) : Prop :=
  forall s w, NoDup s -> incl s idx -> (exists i, In i s /\ w i <> 0) -> 0 < quad cov s w.

Open Scope R_scope.
Definition rdot (n : nat) (u v : nat -> R) : R := rsum (map (fun i => u i * v i) (seq 0 n)).
Definition mat_vec (n : nat) (c : nat -> nat -> R) (v : nat -> R) : nat -> R := fun i => rsum (map (fun j => c i j * v j) (seq 0 n)).
(** eigenpairs of [c] with orthonormal eigenvectors, as [np.linalg.eigh] documents *)
Definition eigen_system (n : nat) (c : nat -> nat -> R) (eig : list (R * (nat -> R))) : Prop :=
  length eig = n /\ (forall l v, In (l, v) eig -> rdot n v v = 1 /\ forall i, (i < n)%nat -> mat_vec n c v i = l * v i) /\
  ForallOrdPairs (fun a b => rdot n (snd a) (snd b) = 0) eig.
