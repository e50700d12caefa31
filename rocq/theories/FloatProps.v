(** Property C31: the float64 groups of CombinatorialPurgedCV. *)
From Coq Require Import Reals.
From Verif Require Import Py CVModel CombModel CombSpec CombProofs FloatProofs.
Set Implicit Arguments.
Unset Strict Implicit.
Open Scope nat_scope.

(** C31 is false: with 7 groups the last of 61 events is in no group, because 7 * (61 / 7) < 61 in float64. *)
Theorem c31_float_groups_refuted : exists n N i, 1 <= N /\ i < n /\
  ~ In i (concat (map (group_range (float_bnd n N)) (seq 0 N))).
Proof.
  exists 61, 7, 60. split; [lia|]. split; [lia|]. vm_compute. intro H. repeat (destruct H as [H|H]; [discriminate|]). exact H.
Qed.
Print Assumptions c31_float_groups_refuted.

Example c31_sample : float_bnd 15 7 7 = 15 /\ float_bnd 15 11 11 = 14 /\ float_bnd 98 49 49 = 98 /\ float_bnd 1 49 49 = 0.
Proof. vm_compute. auto. Qed.

(** C31, what holds: the float64 groups are contiguous, disjoint and cover every event, except possibly the last one. *)
Theorem c31_float_groups_cover_all_but_last : forall n N,
  1 <= n -> 1 <= N -> (Z.of_nat n < 2 ^ 52)%Z -> (Z.of_nat N <= 2 ^ 52)%Z ->
  exists n', n - 1 <= n' <= n /\ concat (map (group_range (float_bnd n N)) (seq 0 N)) = seq 0 n'.
Proof.
  intros n N Hn HN Bn BN. exists (float_bnd n N N). split; [now apply float_bnd_last|].
  destruct (@groups_concat (float_bnd n N) N) as [E _].
  - intros g Hg. apply float_bnd_mono; auto. lia.
  - rewrite E, float_bnd_0 by (auto; lia). now rewrite Nat.sub_0_r.
Qed.
Print Assumptions c31_float_groups_cover_all_but_last.

(** C31, what holds: when the number of groups divides the number of events the float64 boundaries are exact. *)
Theorem c31_float_groups_divisible : forall m N,
  1 <= N -> (Z.of_nat (N * m) <= 2 ^ 52)%Z -> (Z.of_nat N <= 2 ^ 52)%Z ->
  concat (map (group_range (float_bnd (N * m) N)) (seq 0 N)) = seq 0 (N * m) /\
  forall g, g <= N -> float_bnd (N * m) N g = exact_bnd (N * m) N g.
Proof.
  intros m N HN Bn BN. split.
  - destruct (@groups_concat (float_bnd (N * m) N) N) as [E _].
    + intros g Hg. apply float_bnd_mono; auto.
    + rewrite E, float_bnd_0 by auto. rewrite float_bnd_divisible by auto. now rewrite Nat.sub_0_r.
  - intros g Hg. rewrite float_bnd_divisible by auto. rewrite exact_bnd_floor by auto.
    replace (g * (N * m)) with (g * m * N) by lia. now rewrite Nat.div_mul by lia.
Qed.
Print Assumptions c31_float_groups_divisible.
