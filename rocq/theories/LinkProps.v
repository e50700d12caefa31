(** C140, C141, C142: hierarchical risk parity from the matrix of returns on. *)
From Verif Require Import Py RNum HRPModel HRPSpec HRPProofs HRPProps LinkModel LinkSpec LinkProofs FloatCusumProps FloatEwmaProps FloatInfoProofs FloatTickBarsProps.
From Coq Require Import Permutation Sorted FunctionalExtensionality.
From Interval Require Import Tactic.
Set Implicit Arguments.
Unset Strict Implicit.
Open Scope R_scope.

Lemma Rltb_le a b : Rltb b a = false <-> a <= b.
Proof. unfold Rltb. destruct (Rlt_dec b a); split; intro H; auto; try discriminate; lra. Qed.
Lemma Rltb_lt a b : Rltb a b = true <-> a < b.
Proof. unfold Rltb. destruct (Rlt_dec a b); split; intro H; auto; try discriminate; lra. Qed.
Lemma Rltb_trans a b c : Rltb b a = false -> Rltb c b = false -> Rltb c a = false.
Proof. rewrite !Rltb_le. lra. Qed.
Lemma Rltb_asym a b : Rltb a b = true -> Rltb b a = false.
Proof. rewrite Rltb_lt, Rltb_le. lra. Qed.

Section Symmetric.
  Variables (n : nat) (d : nat -> nat -> R).
  Hypothesis Hn : (2 <= n)%nat.
  Hypothesis sym : forall i j, d i j = d j i.
  Lemma pair_dist_sym i j : pair_dist d i j = d i j.
  Proof. unfold pair_dist. destruct (Nat.le_ge_cases i j); [rewrite Nat.min_l, Nat.max_r by auto; auto|rewrite Nat.min_r, Nat.max_l by auto; auto]. Qed.
  Lemma linked_connected t i j : linked Rltb d n t i j <-> connected n d t i j.
  Proof.
    split; induction 1 as [i Hi|i j k H IH Hk Hd]; try (now constructor).
    - apply connected_step with j; auto. rewrite Rltb_le, pair_dist_sym in Hd. exact Hd.
    - apply linked_step with j; auto. now rewrite Rltb_le, pair_dist_sym.
  Qed.

  (** ** C140 *)
  Theorem c140_linkage_valid : linkage_ok n (map fst (single_linkage Rltb d n)).
  Proof. apply single_linkage_ok; auto; [exact Rltb_trans|exact Rltb_asym|lia]. Qed.
  (** two items are below a common cluster of height at most [t] exactly when a chain of steps of at most [t] joins them *)
  Theorem c140_single_linkage t i j : (i < n)%nat -> (j < n)%nat -> i <> j ->
    (connected n d t i j <-> exists k lk w L, nth_error (single_linkage Rltb d n) k = Some (lk, w) /\ w <= t /\
       leaves n (map fst (single_linkage Rltb d n)) (n + k) L /\ In i L /\ In j L).
  Proof.
    intros Hi Hj Hne. rewrite <- linked_connected, (@clusters_linked _ Rltb d Rltb_trans Rltb_asym n ltac:(lia) t i j Hi Hj Hne).
    split; intros (k & lk & w & L & H1 & H2 & H3); exists k, lk, w, L; (split; [auto|split; [now apply Rltb_le|auto]]).
  Qed.
  Theorem c140_heights_sorted k k' lk lk' w w' : (k <= k')%nat -> nth_error (single_linkage Rltb d n) k = Some (lk, w) -> nth_error (single_linkage Rltb d n) k' = Some (lk', w') -> w <= w'.
  Proof.
    intros Hk E E'. assert (G : forall q l v, nth_error (single_linkage Rltb d n) q = Some (l, v) -> exists r, nth_error (row_sort Rltb (prim Rltb d (n - 1) 0 (map (fun i => (i, None)) (seq 1 (n - 1))))) q = Some r /\ snd r = v).
    { intros q l v G. assert (G' : nth_error (map snd (single_linkage Rltb d n)) q = Some v) by (now rewrite nth_error_map, G). rewrite out_dists, nth_error_map in G'.
      destruct (nth_error (row_sort Rltb (prim Rltb d (n - 1) 0 (map (fun i => (i, None)) (seq 1 (n - 1))))) q) as [r|]; [|discriminate]. exists r. split; auto. cbn in G'. congruence. }
    destruct (G _ _ _ E) as (r & Er & <-). destruct (G _ _ _ E') as (r' & Er' & <-). apply Rltb_le.
    apply (@sorted_nth _ Rltb Rltb_asym _ (@row_sort_sorted _ Rltb Rltb_trans Rltb_asym _) _ _ _ _ Hk Er Er').
  Qed.
  (** a cluster is a block of the order *)
  Lemma cluster_block lm top : linkage_ok n lm -> leaves n lm (2 * n - 2) top -> forall m c L, (c + m = 2 * n - 2)%nat -> leaves n lm c L -> exists A B, top = A ++ L ++ B.
  Proof.
    intros LK HT. induction m as [m IH] using lt_wf_ind. intros c L Hc HL. destruct m as [|m].
    - assert (c = 2 * n - 2)%nat by lia. subst c. rewrite (leaves_unique HL HT). exists [], []. now rewrite app_nil_r.
    - assert (Hin : In c (flat_map (fun r => [l_left r; l_right r]) lm)) by (apply (Permutation_in _ (Permutation_sym (lk_once LK))), in_seq; lia).
      apply in_flat_map in Hin as (r & Hr & Hcr). apply In_nth_error in Hr as (k & Er). pose proof (lk_before LK Er) as [B1 B2].
      assert (Hk : (k < n - 1)%nat) by (rewrite <- (lk_rows LK); apply nth_error_Some; congruence).
      assert (LV : forall x, (x < n + length lm)%nat -> leaves n lm x (lv (length lm) n lm x)) by (intros; apply lv_leaves; auto; exact (lk_before LK)).
      rewrite (lk_rows LK) in LV. set (W := lv (n - 1) n lm) in LV.
      assert (HN : leaves n lm (n + k) (W (l_left r) ++ W (l_right r))) by (apply leaves_node with r; auto; apply LV; lia).
      assert (Hck : (c < n + k)%nat) by (destruct Hcr as [<-|[<-|[]]]; auto).
      destruct (IH (2 * n - 2 - (n + k))%nat ltac:(lia) (n + k)%nat _ ltac:(lia) HN) as (A & B & ->). destruct Hcr as [<-|[<-|[]]].
      + rewrite (leaves_unique HL (LV (l_left r) ltac:(lia))). exists A, (W (l_right r) ++ B). now rewrite <- !app_assoc.
      + rewrite (leaves_unique HL (LV (l_right r) ltac:(lia))). exists (A ++ W (l_left r)), B. now rewrite <- !app_assoc.
  Qed.
  (** the order keeps every group together, at every threshold *)
  Theorem c140_order_keeps_groups fuel : (n - 1 <= fuel)%nat ->
    exists idx, quasi_diagonalize fuel (map fst (single_linkage Rltb d n)) = Some (Ok idx) /\ Permutation idx (seq 0 n) /\
      forall t a b c i j k, (a <= b <= c)%nat -> nth_error idx a = Some i -> nth_error idx b = Some j -> nth_error idx c = Some k ->
        connected n d t i k -> connected n d t i j.
  Proof.
    intro Hf. destruct (c65_quasi_diagonalize c140_linkage_valid Hf) as (idx & E & HT & P). exists idx. split; auto. split; auto.
    intros t a b c i j k Hab Ei Ej Ek H.
    assert (LT : forall q x, nth_error idx q = Some x -> (x < n)%nat) by (intros q x Ex; apply nth_error_In, (Permutation_in _ P), in_seq in Ex; lia).
    pose proof (LT _ _ Ei) as Hi. pose proof (LT _ _ Ej) as Hj. pose proof (LT _ _ Ek) as Hk. destruct (Nat.eq_dec i j) as [<-|Hij]; [now constructor|].
    assert (ND : NoDup idx) by (apply (Permutation_NoDup (Permutation_sym P)), seq_NoDup).
    assert (POS : forall q q' x, nth_error idx q = Some x -> nth_error idx q' = Some x -> q = q') by (intros q q' x E1 E2; apply (proj1 (NoDup_nth_error idx) ND); [apply nth_error_Some; congruence|congruence]).
    destruct (Nat.eq_dec i k) as [<-|Hik]; [assert (a = c) by (apply (POS a c i); auto); assert (a = b) by lia; subst; congruence|].
    apply (c140_single_linkage t Hi Hk Hik) in H as (m & lk & w & L & Eo & Hw & HL & Ii & Ik). apply c140_single_linkage; auto. exists m, lk, w, L. repeat split; auto.
    assert (Hm : (m < n - 1)%nat). { assert (m < length (map fst (single_linkage Rltb d n)))%nat by (rewrite map_length; apply nth_error_Some; congruence). rewrite (lk_rows c140_linkage_valid) in *. lia. }
    destruct (@cluster_block _ _ c140_linkage_valid HT (2 * n - 2 - (n + m))%nat (n + m)%nat L ltac:(lia) HL) as (A & B & EQ).
    assert (IN : forall q x, nth_error idx q = Some x -> (In x L <-> (length A <= q < length A + length L)%nat)).
    { intros q x Ex. split.
      - intro Hx. apply In_nth_error in Hx as (u & Eu). assert (u < length L)%nat by (apply nth_error_Some; congruence). assert (q = length A + u)%nat; [|lia]. apply (POS q _ x); auto.
        rewrite EQ, nth_error_app2, nth_error_app1 by lia. now replace (length A + u - length A)%nat with u by lia.
      - intro Hq. rewrite EQ, nth_error_app2, nth_error_app1 in Ex by lia. exact (nth_error_In _ _ Ex). }
    apply (IN _ _ Ei) in Ii. apply (IN _ _ Ek) in Ik. apply (IN _ _ Ej). lia.
  Qed.

  (** ** C142 *)
  (** if one pair is closer than all others it is merged first *)
  Theorem c142_closest_pair_first i0 j0 : (i0 < j0 < n)%nat -> (forall i j, (i < j < n)%nat -> (i, j) <> (i0, j0) -> d i0 j0 < d i j) ->
    exists lk w, nth_error (single_linkage Rltb d n) 0 = Some (lk, w) /\ l_left lk = i0 /\ l_right lk = j0 /\ w = d i0 j0.
  Proof.
    intros H0 Hmin. set (m := d i0 j0).
    assert (CON : forall t i j, connected n d t i j -> t <= m -> i <> j -> t = m /\ ((i = i0 /\ j = j0) \/ (i = j0 /\ j = i0))).
    { assert (ST : forall t x y, (x < n)%nat -> (y < n)%nat -> x <> y -> d x y <= t -> t <= m -> t = m /\ ((x = i0 /\ y = j0) \/ (x = j0 /\ y = i0))).
      { intros t x y Hx Hy Hne Hd Ht. destruct (Nat.lt_trichotomy x y) as [L|[->|L]]; [|congruence|].
        - assert (P : {(x, y) = (i0, j0)} + {(x, y) <> (i0, j0)}) by (decide equality; apply Nat.eq_dec). destruct P as [P|P]; [assert (x = i0 /\ y = j0) as [-> ->] by (split; congruence); fold m in Hd; split; [lra|tauto]|].
          exfalso. assert (G := Hmin x y ltac:(lia) P). fold m in G. lra.
        - rewrite sym in Hd. assert (P : {(y, x) = (i0, j0)} + {(y, x) <> (i0, j0)}) by (decide equality; apply Nat.eq_dec). destruct P as [P|P]; [assert (y = i0 /\ x = j0) as [-> ->] by (split; congruence); fold m in Hd; split; [lra|tauto]|].
          exfalso. assert (G := Hmin y x ltac:(lia) P). fold m in G. lra. }
      intros t i j H. induction H as [i Hi|i j k H IH Hk Hd]; intros Ht Hne; [congruence|]. assert (Bj : (j < n)%nat /\ (i < n)%nat) by (clear - H; induction H; tauto).
      destruct (Nat.eq_dec i j) as [<-|Hij]; [apply (ST t i k); tauto|]. destruct (Nat.eq_dec j k) as [<-|Hjk]; [auto|].
      destruct (IH Ht Hij) as (_ & [[-> ->]|[-> ->]]); destruct (ST t _ k (proj1 Bj) Hk Hjk Hd Ht) as (E & [[? ->]|[? ->]]); try congruence; lia. }
    assert (C0 : connected n d m i0 j0) by (apply connected_step with i0; [constructor; lia|lia|unfold m; lra]).
    apply (proj1 (@c140_single_linkage m i0 j0 ltac:(lia) ltac:(lia) ltac:(lia))) in C0 as (k & lk & w & L & Eo & Hw & _).
    destruct (nth_error (single_linkage Rltb d n) 0) as [[lk0 w0]|] eqn:E0; [|apply nth_error_None in E0; assert (k < length (single_linkage Rltb d n))%nat by (apply nth_error_Some; congruence); lia].
    pose proof (c140_heights_sorted (k := 0) (k' := k) ltac:(lia) E0 Eo) as Hw0. exists lk0, w0. split; auto.
    assert (E0' : nth_error (map fst (single_linkage Rltb d n)) 0 = Some lk0) by (now rewrite nth_error_map, E0). pose proof (lk_before c140_linkage_valid E0') as [B1 B2]. rewrite Nat.add_0_r in B1, B2.
    assert (HL : leaves n (map fst (single_linkage Rltb d n)) (n + 0) ([l_left lk0] ++ [l_right lk0])) by (apply leaves_node with lk0; auto; now constructor).
    assert (LT : (l_left lk0 < l_right lk0)%nat).
    { assert (LE : (l_left lk0 <= l_right lk0)%nat).
      { clear - E0. unfold single_linkage in E0. destruct (row_sort Rltb _) as [|[[x y] v] rest]; [discriminate|]. cbn [label nth_error] in E0. injection E0 as <- <-. cbn [l_left l_right]. lia. }
      assert (NE : l_left lk0 <> l_right lk0).
      { pose proof (Permutation_NoDup (Permutation_sym (lk_once c140_linkage_valid)) (seq_NoDup _ _)) as N. destruct (map fst (single_linkage Rltb d n)) as [|x rest]; [discriminate|]. cbn in E0'. injection E0' as ->.
        cbn [flat_map app] in N. inversion_clear N as [|? ? N1 _]. intro E. apply N1. left. auto. }
      lia. }
    assert (C1 : connected n d w0 (l_left lk0) (l_right lk0)).
    { apply c140_single_linkage; auto; [lia|]. exists 0%nat, lk0, w0, ([l_left lk0] ++ [l_right lk0]). split; auto. split; [lra|]. split; auto. cbn. auto. }
    assert (W0 : w0 <= m) by lra. assert (NE : l_left lk0 <> l_right lk0) by lia. destruct (CON _ _ _ C1 W0 NE) as (Ew & [[E1 E2]|[E1 E2]]); [auto|lia].
  Qed.
End Symmetric.
Print Assumptions c140_linkage_valid.
Print Assumptions c140_single_linkage.
Print Assumptions c140_heights_sorted.
Print Assumptions c140_order_keeps_groups.
Print Assumptions c142_closest_pair_first.

(** ** the correlation matrix *)
Lemma qr_sample_cov returns i j : (2 <= length returns)%nat ->
  qr (sample_cov returns i j) = rsum (map (fun r => (qr (nth i r 0%Qc) - mean_of (map qr (col returns i))) * (qr (nth j r 0%Qc) - mean_of (map qr (col returns j)))) returns) / (INR (length returns) - 1).
Proof.
  intro HT. assert (HN : INR (length returns) - 1 <> 0) by (assert (2 <= INR (length returns)) by (apply (le_INR 2); exact HT); lra).
  assert (QN : (qn (length returns) - 1)%Qc <> 0%Qc) by (intro E; apply HN; rewrite <- qr_n, <- qr_1, <- qr_sub, E; apply qr_0).
  assert (M : forall k, qr (qmean (col returns k)) = mean_of (map qr (col returns k))).
  { intro k. unfold qmean, mean_of. rewrite qr_div; [|intro E; apply (f_equal qr) in E; rewrite qr_n, qr_0 in E; unfold col in E; rewrite map_length in E; assert (2 <= INR (length returns)) by (apply (le_INR 2); exact HT); lra].
    rewrite qr_sum, qr_n, map_length. reflexivity. }
  unfold sample_cov. rewrite qr_div by exact QN. rewrite qr_sub, qr_n, qr_1, qr_sum, map_map. do 2 f_equal. apply map_ext. intro r. now rewrite qr_mul, !qr_sub, !M.
Qed.
Lemma rsum_scale_div l c : rsum (map (fun x => x / c) l) = rsum l / c.
Proof. induction l as [|x l IH]; cbn [map rsum]; [lra|]. rewrite IH. lra. Qed.
Lemma cs_list A (f g : A -> R) l : (rsum (map (fun x => f x * g x) l)) ^ 2 <= rsum (map (fun x => f x ^ 2) l) * rsum (map (fun x => g x ^ 2) l).
Proof.
  induction l as [|x l IH]; cbn [map rsum]; [lra|]. set (a := rsum (map (fun x => f x * g x) l)) in *. set (b := rsum (map (fun x => f x ^ 2) l)) in *. set (c := rsum (map (fun x => g x ^ 2) l)) in *.
  assert (NN : forall h : A -> R, 0 <= rsum (map (fun x => h x ^ 2) l)). { intro h. clear. induction l as [|y l IH]; cbn [map rsum]; [lra|]. assert (0 <= h y ^ 2) by apply pow2_ge_0. lra. }
  assert (Hb : 0 <= b) by apply NN. assert (Hc : 0 <= c) by apply NN. set (u := f x). set (v := g x). clearbody a b c u v.
  assert (AM : 2 * a * (u * v) <= b * v ^ 2 + c * u ^ 2).
  { destruct (Rle_dec (a * (u * v)) 0); [assert (0 <= b * v ^ 2) by (apply Rmult_le_pos; [auto|apply pow2_ge_0]); assert (0 <= c * u ^ 2) by (apply Rmult_le_pos; [auto|apply pow2_ge_0]); lra|].
    apply Rnot_le_lt in n. assert (S : (2 * a * (u * v)) ^ 2 <= (b * v ^ 2 + c * u ^ 2) ^ 2).
    { assert (4 * a ^ 2 * (u * v) ^ 2 <= 4 * (b * c) * (u * v) ^ 2) by (assert (0 <= (u * v) ^ 2) by apply pow2_ge_0; nra). assert (0 <= (b * v ^ 2 - c * u ^ 2) ^ 2) by apply pow2_ge_0. nra. }
    assert (0 <= b * v ^ 2 + c * u ^ 2) by (assert (0 <= b * v ^ 2) by (apply Rmult_le_pos; [auto|apply pow2_ge_0]); assert (0 <= c * u ^ 2) by (apply Rmult_le_pos; [auto|apply pow2_ge_0]); lra).
    apply (@Rsqr_incr_0 (2 * a * (u * v))); try lra. unfold Rsqr. nra. }
  nra.
Qed.
Lemma corr_raw returns i j : (2 <= length returns)%nat -> sample_cov returns i i <> 0%Qc -> sample_cov returns j j <> 0%Qc ->
  let c := qr (sample_cov returns i j) / sqrt (qr (sample_cov returns i i)) / sqrt (qr (sample_cov returns j j)) in
  c = pearson (map qr (col returns i)) (map qr (col returns j)) /\ -1 <= c <= 1.
Proof.
  intros HT Hi Hj. assert (HN : 1 <= INR (length returns) - 1) by (assert (2 <= INR (length returns)) by (apply (le_INR 2); exact HT); lra). set (N := INR (length returns) - 1) in *.
  set (mx := mean_of (map qr (col returns i))). set (my := mean_of (map qr (col returns j))).
  set (Sxy := rsum (map (fun r => (qr (nth i r 0%Qc) - mx) * (qr (nth j r 0%Qc) - my)) returns)).
  set (Sxx := rsum (map (fun r => (qr (nth i r 0%Qc) - mx) ^ 2) returns)). set (Syy := rsum (map (fun r => (qr (nth j r 0%Qc) - my) ^ 2) returns)).
  assert (C1 : qr (sample_cov returns i j) = Sxy / N) by (now apply qr_sample_cov).
  assert (SQ : forall k m, rsum (map (fun r => (qr (nth k r 0%Qc) - m) * (qr (nth k r 0%Qc) - m)) returns) = rsum (map (fun r => (qr (nth k r 0%Qc) - m) ^ 2) returns)) by (intros k m; f_equal; apply map_ext; intro; ring).
  assert (C2 : qr (sample_cov returns i i) = Sxx / N) by (rewrite qr_sample_cov by exact HT; fold mx N; now rewrite SQ).
  assert (C3 : qr (sample_cov returns j j) = Syy / N) by (rewrite qr_sample_cov by exact HT; fold my N; now rewrite SQ).
  assert (NN : forall k m, 0 <= rsum (map (fun r : list Qc => (qr (nth k r 0%Qc) - m) ^ 2) returns)).
  { intros k m. clear. induction returns as [|y l IH]; cbn [map rsum]; [lra|]. assert (0 <= (qr (nth k y 0%Qc) - m) ^ 2) by apply pow2_ge_0. lra. }
  assert (Px : 0 < Sxx) by (destruct (NN i mx) as [H|H]; [exact H|]; exfalso; apply Hi, qr_eq_0; rewrite C2; unfold Sxx; rewrite <- H; field; lra).
  assert (Py : 0 < Syy) by (destruct (NN j my) as [H|H]; [exact H|]; exfalso; apply Hj, qr_eq_0; rewrite C3; unfold Syy; rewrite <- H; field; lra).
  assert (V : qr (sample_cov returns i j) / sqrt (qr (sample_cov returns i i)) / sqrt (qr (sample_cov returns j j)) = Sxy / (sqrt Sxx * sqrt Syy)).
  { rewrite C1, C2, C3, !sqrt_div by lra. assert (0 < sqrt Sxx) by now apply sqrt_lt_R0. assert (0 < sqrt Syy) by now apply sqrt_lt_R0. assert (0 < sqrt N) by (apply sqrt_lt_R0; lra).
    replace N with (sqrt N * sqrt N) at 1 by (apply sqrt_sqrt; lra). field. lra. }
  assert (PE : pearson (map qr (col returns i)) (map qr (col returns j)) = Sxy / (sqrt Sxx * sqrt Syy)).
  { unfold pearson. fold mx my. unfold col. rewrite !map_map. f_equal.
    unfold Sxy. f_equal. clearbody mx my. clear. induction returns as [|r l IH]; auto. cbn [map combine]. now rewrite IH. }
  assert (B : -1 <= Sxy / (sqrt Sxx * sqrt Syy) <= 1).
  { assert (0 < sqrt Sxx) by now apply sqrt_lt_R0. assert (0 < sqrt Syy) by now apply sqrt_lt_R0. set (s := sqrt Sxx * sqrt Syy). assert (Hs : 0 < s) by (now apply Rmult_lt_0_compat).
    assert (CS : Sxy ^ 2 <= s ^ 2). { replace (s ^ 2) with (Sxx * Syy); [apply cs_list|]. unfold s. replace ((sqrt Sxx * sqrt Syy) ^ 2) with ((sqrt Sxx * sqrt Sxx) * (sqrt Syy * sqrt Syy)) by ring. rewrite !sqrt_sqrt; lra. }
    assert (AB : Rabs Sxy <= s) by (apply Rsqr_le_abs_0 in CS || (rewrite <- (Rabs_right s) by lra; apply Rsqr_le_abs_0; unfold Rsqr; nra)).
    assert (-s <= Sxy <= s) by (pose proof (Rle_abs Sxy) as A1; pose proof (Rle_abs (- Sxy)) as A2; rewrite Rabs_Ropp in A2; lra). split; [apply Rmult_le_reg_r with s; [auto|]; unfold Rdiv; rewrite Rmult_assoc, Rinv_l by lra; lra|]. apply Rmult_le_reg_r with s; [auto|]. unfold Rdiv. rewrite Rmult_assoc, Rinv_l by lra. lra. }
  cbv zeta. rewrite V. split; [symmetry; exact PE|exact B].
Qed.
(** [np.corrcoef] is Pearson's correlation; the clip changes nothing *)
Theorem c142_correlation returns i j : (2 <= length returns)%nat -> sample_cov returns i i <> 0%Qc -> sample_cov returns j j <> 0%Qc ->
  sample_corr returns i j = pearson (map qr (col returns i)) (map qr (col returns j)) /\ -1 <= sample_corr returns i j <= 1.
Proof.
  intros HT Hi Hj. destruct (corr_raw HT Hi Hj) as [E B]. unfold sample_corr. fold (qr (sample_cov returns i j)) (qr (sample_cov returns i i)) (qr (sample_cov returns j j)).
  rewrite Rmin_right, Rmax_right by lra. split; [exact E|exact B].
Qed.
Print Assumptions c142_correlation.
