(** Theorems about fractional differencing (C50-C52). *)
From Verif Require Import Py FracDiffModel FracDiffSpec FracDiffProofs.
Set Implicit Arguments.
Unset Strict Implicit.
Open Scope Qc_scope.

(** ** C51: expanding window and weight-loss threshold *)
(** Position [a] is the first observation.  The point [j] steps later is skipped exactly when the share of weights it cannot use
    exceeds the threshold; otherwise its value is the truncated fractional difference of the forward-filled column. *)
Theorem c51_expanding_skips_exactly (col : list (option Qc)) (order threshold : Qc) : 0 <= threshold -> threshold <= 1 ->
  exists a y skips, (a <= length col)%nat /\ (forall i, (i < a)%nat -> nth_error col i = Some None) /\
  (forall j, (a + j < length col)%nat -> last_seen col (a + j) (y j)) /\
  (forall j, (j < length col)%nat -> ((j < skips)%nat <-> threshold < omitted_share order (length col) j)) /\
  frac_diff_expanding col order threshold = Ok (map (fun j => ((a + j)%nat, fdiff order y j)) (seq skips (length col - a - skips))).
Proof.
  intros T0 T1. destruct (prepared_spec col) as [a [vs [EP [L [HN HS]]]]]. set (n := length col) in *. exists a, (fun j => nth j vs 0), (num_skips (get_weights order n) threshold).
  split; [lia|]. split; auto. split; [intros j Hj; apply HS, nth_error_nth'; lia|]. split; [intros j Hj; apply num_skips_spec; auto; lia|].
  unfold frac_diff_expanding. apply qle_iff in T0, T1. rewrite T0, T1. cbn [andb]. fold n. f_equal. set (sk := num_skips _ _). rewrite EP.
  assert (LP : length (combine (seq a (length vs)) vs) = length vs) by (rewrite combine_length, seq_length; lia). rewrite LP. replace (n - a - sk)%nat with (length vs - sk)%nat by lia.
  apply map_ext_in. intros j Hj. apply in_seq in Hj. assert (J : (j < length vs)%nat) by lia. rewrite nth_combine_seq by auto. cbn [fst]. f_equal.
  rewrite get_weights_coeff. replace (S (n - 1)) with n by lia. rewrite rev_length, map_length, seq_length, skipn_weights by lia.
  assert (EV : map snd (firstn (j + 1) (combine (seq a (length vs)) vs)) = firstn (S j) vs).
  { rewrite <- firstn_map. replace (j + 1)%nat with (S j) by lia. f_equal. apply combine_snd. now rewrite seq_length. }
  rewrite EV, dot_rev by (rewrite firstn_length; lia). unfold fdiff. apply sum_to_ext. intros k Hk. f_equal. rewrite <- (firstn_skipn (S j) vs) at 2. rewrite app_nth1; auto. rewrite firstn_length. lia.
Qed.
Print Assumptions c51_expanding_skips_exactly.
Theorem c51_threshold_range (col : list (option Qc)) (order threshold : Qc) : threshold < 0 \/ 1 < threshold -> frac_diff_expanding col order threshold = Err AssertionError.
Proof.
  intros [H|H]; unfold frac_diff_expanding.
  - apply qle_false in H. now rewrite H.
  - apply qle_false in H. now rewrite H, andb_false_r.
Qed.
Print Assumptions c51_threshold_range.
(** later points never lose more weight, so the skipped points come first *)
Theorem c51_loss_decreases (order : Qc) (n i j : nat) : (i <= j)%nat -> omitted_share order n j <= omitted_share order n i.
Proof. apply omitted_antitone. Qed.
Print Assumptions c51_loss_decreases.
Example c51_example : exists out, frac_diff_expanding (map Some (qs [1; 2; 4; 3]%Q)) (q 1 2) (q 1 10) = Ok out /\ map (fun p => (fst p, this (snd p))) out = [(2%nat, (23#8)%Q); (3%nat, (11#16)%Q)].
Proof. eexists. split; [reflexivity|]. vm_compute. reflexivity. Qed.

(** ** C50: group action *)
Lemma expanding_full (xs : list Qc) (order : Qc) :
  frac_diff_expanding (map Some xs) order 1 = Ok (map (fun j => (j, fdiff order (fun i => nth i xs 0) j)) (seq 0 (length xs))).
Proof.
  destruct (@c51_expanding_skips_exactly (map Some xs) order 1) as [a [y [sk [A [HN [HS [SK ->]]]]]]]; [discriminate|apply Qcle_refl|]. rewrite map_length in *. f_equal. destruct xs as [|x xs].
  - cbn. reflexivity.
  - assert (a = 0%nat). { destruct a as [|a]; auto. specialize (HN 0%nat ltac:(lia)). discriminate. } subst a. cbn [Nat.add] in *.
    assert (sk = 0%nat). { destruct sk as [|sk]; auto. destruct (SK 0%nat ltac:(cbn; lia)) as [C _]. specialize (C ltac:(lia)). exfalso. apply (Qclt_not_le _ _ C), omitted_le1. } subst sk.
    replace (length (x :: xs) - 0 - 0)%nat with (length (x :: xs)) by lia. set (l := x :: xs) in *. apply map_ext_in. intros j Hj. apply in_seq in Hj. f_equal. unfold fdiff. apply sum_to_ext. intros k Hk. f_equal.
    destruct (HS (j - k)%nat ltac:(lia)) as [i [I1 [I2 I3]]]. destruct (Nat.eq_dec i (j - k)) as [->|N].
    + rewrite nth_error_map in I2. destruct (nth_error l (j - k)) eqn:E; [|discriminate]. cbn in I2. injection I2 as <-. symmetry. now apply nth_error_nth.
    + specialize (I3 (j - k)%nat ltac:(lia)). rewrite nth_error_map in I3. destruct (nth_error l (j - k)); discriminate.
Qed.
Theorem c50_composition (xs : list Qc) (d1 d2 : Qc) : exists out1 out2,
  frac_diff_expanding (map Some xs) d1 1 = Ok out1 /\ frac_diff_expanding (map Some (map snd out1)) d2 1 = Ok out2 /\ frac_diff_expanding (map Some xs) (d1 + d2) 1 = Ok out2.
Proof.
  rewrite !expanding_full. eexists. eexists. split; [reflexivity|]. rewrite !expanding_full. split; [reflexivity|]. rewrite !map_length, seq_length. f_equal. apply map_ext_in. intros j Hj. apply in_seq in Hj. f_equal.
  rewrite <- fdiff_compose. unfold fdiff at 1 3. apply sum_to_ext. intros k Hk. f_equal. rewrite map_map. cbn [snd].
  rewrite nth_indep with (d' := fdiff d1 (fun i => nth i xs 0) 0%nat) by (rewrite map_length, seq_length; lia). rewrite (map_nth (fun j => fdiff d1 (fun i => nth i xs 0) j)), seq_nth by lia. reflexivity.
Qed.
Print Assumptions c50_composition.
Theorem c50_order0_identity (xs : list Qc) : exists out, frac_diff_expanding (map Some xs) 0 1 = Ok out /\ map snd out = xs.
Proof.
  rewrite expanding_full. eexists. split; [reflexivity|]. rewrite map_map. cbn [snd]. apply nth_error_ext. intro i. rewrite nth_error_map. destruct (Nat.lt_ge_cases i (length xs)) as [C|C].
  - rewrite nth_error_nth' with (d := 0%nat) by now rewrite seq_length. rewrite seq_nth by auto. cbn [option_map Nat.add]. rewrite fdiff_0. symmetry. now apply nth_error_nth'.
  - rewrite !(proj2 (nth_error_None _ _)); auto. now rewrite seq_length.
Qed.
Print Assumptions c50_order0_identity.
Theorem c50_order1_first_difference (xs : list Qc) : exists out, frac_diff_expanding (map Some xs) 1 1 = Ok out /\ length out = length xs /\
  forall i p, nth_error out i = Some p -> fst p = i /\ snd p = match i with O => nth 0 xs 0 | S i' => nth i xs 0 - nth i' xs 0 end.
Proof.
  rewrite expanding_full. eexists. split; [reflexivity|]. split; [now rewrite map_length, seq_length|]. intros i p H. rewrite nth_error_map in H. destruct (nth_error (seq 0 (length xs)) i) as [j|] eqn:E; [|discriminate].
  cbn [option_map] in H. injection H as <-. assert (L : (i < length xs)%nat) by (rewrite <- (seq_length (length xs) 0); apply nth_error_Some; congruence).
  rewrite nth_error_nth' with (d := 0%nat) in E by now rewrite seq_length. rewrite seq_nth in E by auto. injection E as <-. cbn [fst snd Nat.add]. split; auto. destruct i; [apply fdiff_1_0|apply fdiff_1_S].
Qed.
Print Assumptions c50_order1_first_difference.
(** differencing of order -d undoes differencing of order d *)
Theorem c50_inverse (xs : list Qc) (d : Qc) : exists out1 out2,
  frac_diff_expanding (map Some xs) d 1 = Ok out1 /\ frac_diff_expanding (map Some (map snd out1)) (- d) 1 = Ok out2 /\ map snd out2 = xs.
Proof.
  destruct (c50_composition xs d (- d)) as [o1 [o2 [H1 [H2 H3]]]]. exists o1, o2. split; auto. split; auto. destruct (c50_order0_identity xs) as [o [H4 H5]]. replace (d + - d) with 0 in H3 by ring. congruence.
Qed.
Print Assumptions c50_inverse.
Example c50_example : exists out, frac_diff_expanding (map Some (qs [1; 2; 4]%Q)) (q 1 2) 1 = Ok out /\ map (fun p => this (snd p)) out = [1#1; 3#2; 23#8]%Q.
Proof. eexists. split; [reflexivity|]. vm_compute. reflexivity. Qed.

(** ** C52: fixed window *)
(** the weights used are the leading ones; each has magnitude at least the threshold (but the first is always there); when the
    width limit is not reached, no omitted weight reaches the threshold *)
Theorem c52_fixed_weights (order threshold : Qc) (max_width : nat) : exists m, (0 < m <= Nat.max 1 max_width)%nat /\
  get_weights_fixed order threshold max_width = rev (map (coeff order) (seq 0 m)) /\
  (forall k, (0 < k < m)%nat -> threshold <= qabs (coeff order k)) /\
  ((m < max_width)%nat -> qabs (coeff order m) < threshold) /\
  ((m < max_width)%nat -> threshold <= 1 -> forall k, (m <= k)%nat -> qabs (coeff order k) < threshold).
Proof.
  destruct (@fixed_loop_prefix order threshold (max_width - 1) 1 ltac:(lia)) as [m [A [B [C D]]]]. rewrite coeff_0 in B. exists (S m). split; [lia|]. split.
  - unfold get_weights_fixed. f_equal. cbn [seq map]. rewrite coeff_0. f_equal. exact B.
  - split; [intros k Hk; apply C; lia|]. assert (E : (S m < max_width)%nat -> qabs (coeff order (S m)) < threshold) by (intro H; apply D; lia). split; [exact E|].
    intros H T k Hk. specialize (E H). assert (L1 : qabs (coeff order (S m)) < 1) by (eapply Qclt_le_trans; eauto). eapply Qcle_lt_trans; [|exact E]. now apply (coeff_decreasing_le L1).
Qed.
Print Assumptions c52_fixed_weights.
(** with a threshold above 1 a small weight can be followed by a larger one *)
Example c52_large_threshold : exists order threshold m, get_weights_fixed order threshold 10 = rev (map (coeff order) (seq 0 m)) /\ (m < 10)%nat /\
  threshold <= qabs (coeff order (S m)).
Proof. exists (qz 4), (qz 5), 1%nat. split; [|split; [lia|]]; vm_compute; [reflexivity|discriminate]. Qed.

(** one value per observed position from the window length on: the weighted sum of the last values of the filled column *)
Theorem c52_fixed_values (col : list (option Qc)) (order threshold : Qc) :
  let m := length (get_weights_fixed order threshold (length col)) in
  exists a y, (a <= length col)%nat /\ (forall i, (i < a)%nat -> nth_error col i = Some None) /\ (forall j, (a + j < length col)%nat -> last_seen col (a + j) (y j)) /\
  forall i v, In (i, v) (frac_diff_fixed col order threshold) <->
    (a + (m - 1) <= i < length col)%nat /\ (exists x, nth_error col i = Some (Some x)) /\ v = sum_to (m - 1) (fun k => coeff order k * y (i - a - k)%nat).
Proof.
  intro m. destruct (c52_fixed_weights order threshold (length col)) as [m' [M1 [EW _]]]. assert (EM : m = m') by (unfold m; rewrite EW, rev_length, map_length, seq_length; reflexivity).
  destruct (prepared_spec col) as [a [vs [EP [L [HN HS]]]]]. exists a, (fun j => nth j vs 0). split; [lia|]. split; auto. split; [intros j Hj; apply HS, nth_error_nth'; lia|].
  intros i v. unfold frac_diff_fixed. fold m. rewrite in_flat_map. rewrite EP. assert (LP : length (combine (seq a (length vs)) vs) = length vs) by (rewrite combine_length, seq_length; lia). rewrite LP.
  assert (DOT : forall j, (m - 1 <= j < length vs)%nat -> dot (get_weights_fixed order threshold (length col)) (map snd (slice (combine (seq a (length vs)) vs) (j - (m - 1)) (j + 1))) = sum_to (m - 1) (fun k => coeff order k * nth (j - k) vs 0)).
  { intros j Hj. rewrite EW. replace m' with (S (m - 1)) by lia. unfold slice. rewrite <- firstn_map, <- skipn_map, combine_snd by now rewrite seq_length. rewrite dot_rev by (rewrite firstn_length, skipn_length; lia).
    apply sum_to_ext. intros k Hk. f_equal. transitivity (nth (m - 1 - k) (skipn (j - (m - 1)) vs) 0).
    - rewrite <- (firstn_skipn (j + 1 - (j - (m - 1))) (skipn (j - (m - 1)) vs)) at 2. rewrite app_nth1; auto. rewrite firstn_length, skipn_length. lia.
    - assert (NS : forall (l : list Qc) p q, nth q (skipn p l) 0 = nth (p + q) l 0) by (induction l as [|x l IH]; intros [|p] q; cbn; auto; destruct q; auto). rewrite NS. f_equal. lia. }
  split.
  - intros [j [Hj HI]]. apply in_seq in Hj. assert (J : (m - 1 <= j < length vs)%nat) by lia. rewrite nth_combine_seq in HI by lia. cbn [fst] in HI. destruct (nth (a + j) col None) as [x|] eqn:EX; [|destruct HI].
    destruct HI as [HI|[]]. injection HI as <- <-. split; [lia|]. split; [exists x; rewrite <- EX; apply nth_error_nth'; lia|]. rewrite DOT by auto. apply sum_to_ext. intros k Hk. do 2 f_equal. lia.
  - intros [H1 [[x Hx] ->]]. exists (i - a)%nat. split; [apply in_seq; lia|]. rewrite nth_combine_seq by lia. cbn [fst]. replace (a + (i - a))%nat with i by lia.
    rewrite (nth_error_nth _ _ _ Hx). left. f_equal. apply DOT. lia.
Qed.
Print Assumptions c52_fixed_values.

(** cutting the weights changes the value by less than threshold times the sum of the absolute dropped values *)
Theorem c52_truncation_error (order threshold : Qc) (max_width i : nat) (x : nat -> Qc) : threshold <= 1 ->
  let m := length (get_weights_fixed order threshold max_width) in (m < max_width)%nat -> (m <= i)%nat ->
  qabs (fdiff order x i - sum_to (m - 1) (fun k => coeff order k * x (i - k)%nat)) <= threshold * qsum (map (fun k => qabs (x (i - k)%nat)) (seq m (S i - m))).
Proof.
  intros T m MW MI. destruct (c52_fixed_weights order threshold max_width) as [m' [M1 [EW [_ [_ H]]]]]. assert (EM : m = m') by (unfold m; rewrite EW, rev_length, map_length, seq_length; reflexivity). subst m'. specialize (H MW T).
  assert (E : fdiff order x i - sum_to (m - 1) (fun k => coeff order k * x (i - k)%nat) = qsum (map (fun k => coeff order k * x (i - k)%nat) (seq m (S i - m)))).
  { unfold fdiff, sum_to. replace (S (m - 1)) with m by lia. replace (seq 0 (S i)) with (seq 0 m ++ seq m (S i - m)) by (change (seq m (S i - m)) with (seq (0 + m) (S i - m)); rewrite <- seq_app; f_equal; lia). rewrite map_app, qsum_app. ring. }
  rewrite E. eapply Qcle_trans; [apply qsum_map_abs|]. rewrite <- qsum_map_scale. apply qsum_map_le. intros k Hk. apply in_seq in Hk. specialize (H k ltac:(lia)). rewrite qabs_mul.
  pose proof (qabs_nonneg (x (i - k)%nat)) as N. set (u := qabs (coeff order k)) in *. set (w := qabs (x (i - k)%nat)) in *. clearbody u w. assert (0 <= (threshold - u) * w) by (apply Qcmul_nonneg; qlra). qnra.
Qed.
Print Assumptions c52_truncation_error.
Example c52_example : map (fun p => (fst p, this (snd p))) (frac_diff_fixed [None; Some (qz 1); Some (qz 2); None; Some (qz 4); Some (qz 3)] (q 1 2) (q 1 10)) = [(4%nat, (11#4)%Q); (5%nat, (3#4)%Q)].
Proof. vm_compute. reflexivity. Qed.
