(** Properties C28-C30, C32, C33: combinatorial purged cross-validation, backtest paths and PBO combinations. *)
From Coq Require Import Reals Lra.
From Verif Require Import Py CVModel CVSpec CVProofs CVProps CombModel CombSpec CombProofs.
Set Implicit Arguments.
Unset Strict Implicit.
Open Scope nat_scope.

(** C28: the groups partition the events into runs of almost equal size. *)
Theorem c28_groups_partition : forall n N, 1 <= N ->
  concat (map (group_range (exact_bnd n N)) (seq 0 N)) = seq 0 n /\
  forall g, n / N <= length (group_range (exact_bnd n N) g) <= n / N + 1.
Proof.
  intros n N H. split.
  - destruct (@groups_concat (exact_bnd n N) N) as [E _].
    + intros g _. now apply exact_bnd_step.
    + rewrite E, exact_bnd_0, exact_bnd_N by auto. now rewrite Nat.sub_0_r.
  - intro g. unfold group_range. rewrite seq_length, Nat.add_1_r. now apply exact_bnd_step.
Qed.
Print Assumptions c28_groups_partition.
(** exactly the rows i whose end (i + 1) lies in the g-th of N equal parts of the n rows *)
Theorem c28_group_rows : forall n N g i, 1 <= N -> (In i (group_range (exact_bnd n N) g) <-> g * n < (i + 1) * N <= (g + 1) * n).
Proof.
  intros n N g i H. unfold group_range. rewrite in_seq, !exact_bnd_floor by auto. assert (NZ : N <> 0) by lia.
  assert (A : forall x, x / N <= i <-> x < (i + 1) * N).
  { intro x. split; intro L.
    - pose proof (Nat.mul_succ_div_gt x N NZ). nia.
    - apply Nat.lt_succ_r, Nat.div_lt_upper_bound; auto. lia. }
  assert (B := A (g * n)). assert (C := A ((g + 1) * n)). assert (g * n / N <= (g + 1) * n / N) by (apply Nat.div_le_mono; lia). lia.
Qed.
Print Assumptions c28_group_rows.
Example c28_group_rows_ex : group_range (exact_bnd 10 4) 1 = [2; 3; 4] /\ 1 * 10 < (2 + 1) * 4 <= (1 + 1) * 10.
Proof. vm_compute. repeat split; auto; lia. Qed.

(** C28: a complete run succeeds. *)
Theorem c28_split_total : forall N k events bars pct st,
  1 <= N -> (forall bs, bars = Some bs -> forall e, In e events -> In (snd e) bs) ->
  exists st' splits, cpcv_run (exact_bnd (length events) N) N k events bars pct st = Ok (st', splits).
Proof.
  intros N k events bars pct st HN HB. unfold cpcv_run.
  assert (B0 := @exact_bnd_0 (length events) N HN). assert (BN := @exact_bnd_N (length events) N HN).
  assert (BM : forall g, g < N -> exact_bnd (length events) N g <= exact_bnd (length events) N (S g)) by (intros; now apply exact_bnd_step).
  destruct (@mapM_all_ok _ _ (cpcv_split (exact_bnd (length events) N) events bars pct) (combinations k (seq 0 N))) as [sp E].
  - intros c Hc. apply combinations_choice in Hc. destruct Hc as [_ [_ Hc]]. unfold cpcv_split.
    destruct (@iloc_in_range _ events (concat (map (group_range (exact_bnd (length events) N)) c))) as [tests ET].
    { intros i Hi. apply in_concat in Hi. destruct Hi as [r [Hr Hi]]. apply in_map_iff in Hr. destruct Hr as [g [<- Hg]].
      apply (@group_below (exact_bnd (length events) N) N (length events) B0 BM ltac:(lia) g); auto. }
    rewrite ET. cbn [bind]. destruct bars as [bs|]; cbn [apply_purging_and_embargo]; [|cbn [bind]; eauto].
    destruct (@mapM_all_ok _ _ (fun t => do e <- lookup (embargo_times bs pct) (snd t); Ok (fst t, e)) tests) as [adj EA].
    { intros t Ht. assert (I : In (snd t) bs).
      { apply (HB bs eq_refl). apply mapM_ok in ET. apply In_nth_error in Ht. destruct Ht as [j Hj]. clear -ET Hj.
        revert j Hj. induction ET as [|i a is l Hi _ IH]; intros [|j] Hj; try discriminate; cbn in Hj.
        - inversion Hj; subst. apply get_ok in Hi. eapply nth_error_In; eauto.
        - eapply IH; eauto. }
      destruct (lookup (embargo_times bs pct) (snd t)) as [v|e] eqn:EL; [cbn [bind]; eauto|].
      exfalso. apply lookup_err in EL. rewrite embargo_keys in EL. tauto. }
    rewrite EA. cbn [bind]. eauto.
  - rewrite E. cbn [bind]. eauto.
Qed.
Print Assumptions c28_split_total.

(** C28: what the splits are. *)
Theorem c28_splits : forall N k events bars pct step st st' splits,
  1 <= N -> (forall e, In e events -> proper e) ->
  (forall bs, bars = Some bs -> zssorted bs /\ embargo_bars (length bs) pct step) ->
  cpcv_run (exact_bnd (length events) N) N k events bars pct st = Ok (st', splits) ->
  length splits = binom N k /\
  exists choices, NoDup choices /\ (forall c, In c choices <-> choice N k c) /\
    Forall2 (fun c (s : list nat * list nat) =>
      snd s = concat (map (group_range (exact_bnd (length events) N)) c) /\ increasing (snd s) /\ increasing (fst s) /\
      (forall i, In i (fst s) \/ In i (snd s) -> i < length events) /\
      forall i e, nth_error events i = Some e ->
        (In i (fst s) <-> forall t u w, In t (snd s) -> nth_error events t = Some u -> test_window bars step u w -> ~ meets e w))
      choices splits.
Proof.
  intros N k events bars pct step st st' splits HN HP HB HR.
  apply cpcv_run_state in HR. destruct HR as [_ HF].
  assert (B0 := @exact_bnd_0 (length events) N HN). assert (BN := @exact_bnd_N (length events) N HN).
  assert (BM : forall g, g < N -> exact_bnd (length events) N g <= exact_bnd (length events) N (S g)) by (intros; now apply exact_bnd_step).
  split.
  { rewrite <- (Forall2_length HF), combinations_length, seq_length. reflexivity. }
  exists (combinations k (seq 0 N)). split; [apply combinations_NoDup, seq_NoDup|]. split; [intro; apply combinations_choice|].
  assert (HC : forall c, In c (combinations k (seq 0 N)) -> choice N k c) by (intros; now apply combinations_choice).
  induction HF as [|c s cs ss H _ IH]; constructor; [|apply IH; intros; apply HC; now right].
  specialize (HC c (or_introl eq_refl)). destruct HC as [C1 [C2 C3]]. clear IH.
  unfold cpcv_split in H. set (te := concat (map (group_range (exact_bnd (length events) N)) c)) in *.
  destruct (iloc events te) as [tests|] eqn:ET; [|discriminate]. cbn [bind] in H. apply iloc_rows in ET.
  destruct (apply_purging_and_embargo events tests bars pct) as [tr|] eqn:EP; [|discriminate]. cbn [bind] in H. inversion H; subst s. cbn [fst snd].
  assert (TE : forall t, In t tests -> exists i, In i te /\ nth_error events i = Some t).
  { clear -ET. induction ET as [|i a is l Hi _ IH]; intros t Ht; [destruct Ht|]. destruct Ht as [<-|Ht].
    - exists i. split; auto. now left.
    - destruct (IH t Ht) as [j [J1 J2]]. exists j. split; auto. now right. }
  assert (TE2 : forall i t, In i te -> nth_error events i = Some t -> In t tests).
  { clear -ET. induction ET as [|i a is l Hi _ IH]; intros j t Hj Ht; [destruct Hj|]. destruct Hj as [<-|Hj].
    - left. congruence.
    - right. eapply IH; eauto. }
  assert (PT : forall t, In t tests -> proper t).
  { intros t Ht. destruct (TE t Ht) as [i [_ Hi]]. apply HP. eapply nth_error_In; eauto. }
  assert (TB : forall i, In i te -> i < length events).
  { intros i Hi. unfold te in Hi. apply in_concat in Hi. destruct Hi as [r [Hr Hi]]. apply in_map_iff in Hr. destruct Hr as [g [<- Hg]].
    apply (@group_below (exact_bnd (length events) N) N (length events) B0 BM ltac:(lia) g); auto. }
  assert (IT : increasing te) by (eapply test_rows_increasing; eauto).
  split; auto. split; auto.
  destruct bars as [bs|].
  - destruct (HB bs eq_refl) as [Hbs Hst].
    assert (IN : forall t, In t tests -> In (snd t) bs).
    { intros t Ht. destruct (in_dec Z.eq_dec (snd t) bs) as [|NI]; auto. exfalso.
      rewrite (c22_unknown_bar events pct Ht NI) in EP. discriminate. }
    destruct (c22_embargo_exact Hst Hbs HP PT IN) as [tr' [E [I1 I2]]]. assert (tr' = tr) by congruence. subst tr'.
    split; auto. split.
    { intros i [Hi|Hi]; auto. apply I2 in Hi. destruct Hi as [e [He _]]. apply nth_error_Some. congruence. }
    intros i e He. rewrite I2. split.
    + intros [e' [He' K]] t u w Ht Hu [W1 W2]. assert (e' = e) by congruence. subst e'. destruct w as [w1 w2]. cbn in W1. subst w1.
      apply (K u w2); [eauto|]. exact W2.
    + intro K. exists e. split; auto. intros t b' Ht Hb. destruct (TE t Ht) as [i' [A1 A2]].
      apply (K i' t (fst t, b') A1 A2). split; auto.
  - destruct (@c21_purging_exact events tests pct HP PT) as [tr' [E [I1 I2]]]. assert (tr' = tr) by congruence. subst tr'.
    split; auto. split.
    { intros i [Hi|Hi]; auto. apply I2 in Hi. destruct Hi as [e [He _]]. apply nth_error_Some. congruence. }
    intros i e He. rewrite I2. split.
    + intros [e' [He' K]] t u w Ht Hu ->. assert (e' = e) by congruence. subst e'. apply K. eauto.
    + intro K. exists e. split; auto. intros t Ht. destruct (TE t Ht) as [i' [A1 A2]]. apply (K i' t t A1 A2). reflexivity.
Qed.
Print Assumptions c28_splits.

(** C29: after one complete run on a fresh object. *)
Theorem c29_backtest_paths : forall N k events bars pct st splits,
  1 <= k <= N ->
  cpcv_run (exact_bnd (length events) N) N k events bars pct (cpcv_init N) = Ok (st, splits) ->
  exists paths, backtest_paths (exact_bnd (length events) N) N st = Ok paths /\
    length paths = binom (N - 1) (k - 1) /\
    (forall p, In p paths ->
       length p = N /\ concat (map fst p) = seq 0 (length events) /\
       forall g rows s, nth_error p g = Some (rows, s) ->
         rows = group_range (exact_bnd (length events) N) g /\
         exists tr te c, nth_error splits s = Some (tr, te) /\ choice N k c /\ In g c /\
           te = concat (map (group_range (exact_bnd (length events) N)) c)) /\
    (forall s c g, nth_error (combinations k (seq 0 N)) s = Some c -> In g c ->
       exists j p rows, nth_error paths j = Some p /\ nth_error p g = Some (rows, s) /\
         forall j' p' rows', nth_error paths j' = Some p' -> nth_error p' g = Some (rows', s) -> j' = j).
Proof.
  intros N k events bars pct st splits HK HR. set (bnd := exact_bnd (length events) N) in *.
  pose proof (cpcv_run_state HR) as [ES HF].
  assert (ER : st = runs N k 1) by (rewrite ES; reflexivity).
  set (P := binom (N - 1) (k - 1)).
  assert (EP : backtest_paths bnd N st = Ok (map (path_at bnd N k) (seq 0 P))).
  { rewrite ER, paths_after_runs by lia. fold P. rewrite Nat.mul_1_l. f_equal. apply map_ext_in. intros i Hi. apply in_seq in Hi.
    now rewrite Nat.mod_small by lia. }
  exists (map (path_at bnd N k) (seq 0 P)). split; auto. split; [now rewrite map_length, seq_length|].
  assert (NTH : forall i g, g < N -> nth_error (path_at bnd N k i) g =
             Some (group_range bnd g, nth i (splits_testing g 0 (combinations k (seq 0 N))) 0)).
  { intros i g Hg. unfold path_at. apply nth_error_combine2; rewrite nth_error_map, nth_error_seq0 by auto; reflexivity. }
  assert (LEN : forall i, length (path_at bnd N k i) = N).
  { intro i. unfold path_at. rewrite combine_length, !map_length, !seq_length. apply Nat.min_id. }
  split.
  - intros p Hp. apply in_map_iff in Hp. destruct Hp as [i [<- Hi]]. apply in_seq in Hi. split; [apply LEN|]. split.
    + unfold path_at. rewrite combine_fst by now rewrite !map_length. apply c28_groups_partition. lia.
    + intros g rows s Hg. assert (Lg : g < N) by (rewrite <- (LEN i); apply nth_error_Some; congruence).
      rewrite NTH in Hg by auto. inversion Hg; subst rows. split; auto.
      assert (IN : In s (splits_testing g 0 (combinations k (seq 0 N)))).
      { subst s. apply nth_In. rewrite testing_count by lia. fold P. lia. }
      rewrite H1. apply splits_testing_In in IN. destruct IN as [c [Hc Hin]].
      destruct (@Forall2_nth _ _ _ _ _ s c HF Hc) as [[tr te] [Hs Hcs]].
      exists tr, te, c. split; auto. split; [apply combinations_choice; eapply nth_error_In; eauto|]. split; auto.
      unfold cpcv_split in Hcs. destruct (iloc events _) as [tests|]; [|discriminate]. cbn [bind] in Hcs.
      destruct (apply_purging_and_embargo _ _ _ _); [|discriminate]. cbn [bind] in Hcs. now inversion Hcs.
  - intros s c g Hc Hg.
    assert (Lg : g < N) by (apply nth_error_In, combinations_choice in Hc; now apply Hc).
    assert (IN : In s (splits_testing g 0 (combinations k (seq 0 N)))) by (apply splits_testing_In; eauto).
    apply In_nth_error in IN. destruct IN as [j Hj].
    assert (Lj : j < P) by (unfold P; rewrite <- (@testing_count N k g) by lia; apply nth_error_Some; congruence).
    exists j, (path_at bnd N k j), (group_range bnd g). split.
    { rewrite nth_error_map, nth_error_seq0 by auto. reflexivity. }
    split.
    { rewrite NTH by auto. f_equal. f_equal. now apply nth_error_nth with (d := 0) in Hj. }
    intros j' p' rows' Hj' Hp'. rewrite nth_error_map in Hj'.
    destruct (Nat.lt_ge_cases j' P) as [L|L].
    + rewrite nth_error_seq0 in Hj' by auto. cbn in Hj'. inversion Hj'; subst p'. rewrite NTH in Hp' by auto. inversion Hp'.
      assert (ND : NoDup (splits_testing g 0 (combinations k (seq 0 N)))) by apply increasing_NoDup, splits_testing_increasing.
      rewrite NoDup_nth_error in ND. apply ND; [rewrite testing_count by lia; auto|]. rewrite Hj.
      rewrite (nth_error_nth' _ 0) by (rewrite testing_count by lia; auto). congruence.
    + replace (nth_error (seq 0 P) j') with (@None nat) in Hj' by (symmetry; apply nth_error_None; now rewrite seq_length). discriminate.
Qed.
Print Assumptions c29_backtest_paths.

Example c28_c29_sample : exists st splits paths,
  cpcv_run (exact_bnd 5 3) 3 2 [(0, 1); (1, 2); (3, 4); (5, 6); (7, 9)]%Z None 0 (cpcv_init 3) = Ok (st, splits) /\
  splits = [([3; 4], [0; 1; 2]); ([2], [0; 3; 4]); ([], [1; 2; 3; 4])] /\
  backtest_paths (exact_bnd 5 3) 3 st = Ok paths /\
  paths = [[([0], 0); ([1; 2], 0); ([3; 4], 1)]; [([0], 1); ([1; 2], 2); ([3; 4], 2)]].
Proof.
  eexists. eexists. eexists. split; [vm_compute; reflexivity|]. split; [vm_compute; reflexivity|].
  split; [vm_compute; reflexivity|]. vm_compute. reflexivity.
Qed.

(** C30 is false: every further run of split() repeats all paths. *)
Theorem c30_paths_refuted : exists bnd N k events st1 st2 p1 p2,
  cpcv_runs bnd N k events None 0 1 (cpcv_init N) = Ok st1 /\ cpcv_runs bnd N k events None 0 2 (cpcv_init N) = Ok st2 /\
  backtest_paths bnd N st1 = Ok p1 /\ backtest_paths bnd N st2 = Ok p2 /\ p1 <> p2.
Proof.
  exists (exact_bnd 2 2), 2, 1, [(0, 0); (1, 1)]%Z. do 4 eexists.
  split; [vm_compute; reflexivity|]. split; [vm_compute; reflexivity|]. split; [vm_compute; reflexivity|].
  split; [vm_compute; reflexivity|]. discriminate.
Qed.
Print Assumptions c30_paths_refuted.

(** C30, what holds: after m runs the paths are those of one run, repeated m times. *)
Theorem c30_paths_repeat : forall bnd N k events bars pct m st1 st paths,
  1 <= N -> 1 <= k ->
  cpcv_runs bnd N k events bars pct 1 (cpcv_init N) = Ok st1 -> backtest_paths bnd N st1 = Ok paths ->
  cpcv_runs bnd N k events bars pct m (cpcv_init N) = Ok st ->
  backtest_paths bnd N st = Ok (concat (repeat paths m)).
Proof.
  intros bnd N k events bars pct m st1 st paths HN HK H1 HP H.
  apply cpcv_runs_state in H1. apply cpcv_runs_state in H. subst st1 st.
  rewrite paths_after_runs in HP by auto. rewrite paths_after_runs by auto. f_equal.
  set (P := binom (N - 1) (k - 1)) in *. rewrite Nat.mul_1_l in HP. inversion HP; subst paths. clear HP.
  apply nth_error_ext. intro i. set (l := map (fun i0 => path_at bnd N k (i0 mod P)) (seq 0 P)).
  assert (LL : length l = P) by (unfold l; now rewrite map_length, seq_length).
  rewrite nth_error_map. destruct (Nat.lt_ge_cases i (m * P)) as [L|L].
  - rewrite nth_error_seq0 by auto. rewrite concat_repeat_nth by (rewrite LL; auto). rewrite LL. unfold l.
    assert (Q : i mod P < P) by (apply Nat.mod_upper_bound; lia).
    rewrite nth_error_map, nth_error_seq0 by auto. cbn. now rewrite Nat.mod_mod by lia.
  - replace (nth_error (seq 0 (m * P)) i) with (@None nat) by (symmetry; apply nth_error_None; now rewrite seq_length).
    symmetry. apply nth_error_None. rewrite concat_repeat_length, LL. auto.
Qed.
Print Assumptions c30_paths_repeat.

(** C32: the combinations examined by compute_pbo. *)
Theorem c32_pbo_combinations : forall T m, 1 <= m ->
  let S := 2 * m in
  length (combinations m (seq 0 S)) = binom S m /\
  (forall c, In c (combinations m (seq 0 S)) ->
     let train := pbo_train (T / S) c in let test := pbo_test T train in
     NoDup train /\ NoDup test /\ length train = m * (T / S) /\ length test = T - m * (T / S) /\
     forall i, (In i train \/ In i test <-> i < T) /\ ~ (In i train /\ In i test)) /\
  (forall p, p < S -> 2 * count (fun c => if in_dec Nat.eq_dec p c then true else false) (combinations m (seq 0 S)) = binom S m).
Proof.
  intros T m Hm S. split; [now rewrite combinations_length, seq_length|]. split.
  - intros c Hc train test. apply combinations_choice in Hc. destruct Hc as [C1 [C2 C3]].
    assert (ND : NoDup train) by (apply pbo_train_NoDup, increasing_NoDup; exact C1).
    assert (ND2 : NoDup test) by (apply NoDup_filter, seq_NoDup).
    assert (LT : length train = m * (T / S)) by (unfold train; now rewrite pbo_train_length, C2).
    assert (BT : forall i, In i train -> i < T).
    { intros i Hi. apply pbo_train_In in Hi. destruct Hi as [p [Hp Hi]]. apply C3 in Hp.
      pose proof (Nat.mul_div_le T S ltac:(lia)). nia. }
    assert (U : forall i, (In i train \/ In i test <-> i < T) /\ ~ (In i train /\ In i test)).
    { intro i. split; [split|].
      - intros [H|H]; auto. now apply pbo_test_In in H.
      - intro H. destruct (in_dec Nat.eq_dec i train); auto. right. now apply pbo_test_In.
      - intros [H1 H2]. now apply pbo_test_In in H2. }
    split; auto. split; auto. split; auto. split; auto.
    assert (PL : Permutation (train ++ test) (seq 0 T)).
    { apply NoDup_Permutation; [|apply seq_NoDup|].
      - apply NoDup_app_intro; auto. intros x H1 H2. apply (proj2 (U x)); auto.
      - intro x. rewrite in_app_iff, in_seq. rewrite (proj1 (U x)). lia. }
    apply Permutation_length in PL. rewrite app_length, seq_length in PL. lia.
  - intros p Hp. unfold count. rewrite (filter_ext_in _ (mem p)).
    2: { intros c _. destruct (in_dec Nat.eq_dec p c) as [I|I]; symmetry; [now apply mem_In|now apply mem_false]. }
    destruct m as [|m']; [lia|]. rewrite combinations_containing; [|apply seq_NoDup|apply in_seq; lia].
    rewrite seq_length. pose proof (@binom_half (Datatypes.S m') Hm) as B. unfold S. rewrite <- B.
    rewrite Nat.sub_succ, Nat.sub_0_r. reflexivity.
Qed.
Print Assumptions c32_pbo_combinations.

(** C32: the training rows are the rows of the chosen blocks, in the order of the blocks; the test rows are all others in order. *)
Theorem c32_train_rows : forall size parts n,
  (forall i, In i (pbo_train size parts) <-> exists p, In p parts /\ p * size <= i < (p + 1) * size) /\
  (forall j p k, nth_error parts j = Some p -> k < size -> nth_error (pbo_train size parts) (j * size + k) = Some (p * size + k)) /\
  StronglySorted lt (pbo_test n (pbo_train size parts)) /\
  (forall i, In i (pbo_test n (pbo_train size parts)) <-> i < n /\ ~ exists p, In p parts /\ p * size <= i < (p + 1) * size).
Proof.
  intros size parts n. split; [apply pbo_train_In|]. split; [|split].
  - induction parts as [|p0 parts IH]; intros j p k Hj Hk; [destruct j; discriminate|]. unfold pbo_train. cbn [map concat]. fold (pbo_train size parts).
    replace ((p0 + 1) * size - p0 * size) with size by nia. destruct j as [|j].
    + injection Hj as ->. rewrite nth_error_app1 by (rewrite seq_length; cbn; lia). cbn [Nat.mul Nat.add]. rewrite (nth_error_nth' _ 0) by (rewrite seq_length; lia). now rewrite seq_nth by lia.
    + rewrite nth_error_app2 by (rewrite seq_length; cbn; lia). rewrite seq_length. replace (Datatypes.S j * size + k - size) with (j * size + k) by nia. apply IH; auto.
  - unfold pbo_test. assert (G : forall f a m, StronglySorted lt (filter f (seq a m))).
    { intros f a m. revert a. induction m as [|m IH]; intros a; [constructor|]. cbn. destruct (f a); auto. constructor; auto. apply Forall_forall. intros x Hx. apply filter_In in Hx. destruct Hx as [Hx _]. apply in_seq in Hx. lia. }
    apply G.
  - intros i. rewrite pbo_test_In, pbo_train_In. reflexivity.
Qed.
Print Assumptions c32_train_rows.

(** C32: what is recorded for each combination: the strategy best in sample, its in-sample and out-of-sample
    performance, and its place in the out-of-sample order. *)
Theorem c32_pbo_records : forall row (eval_fn : list row -> list Qc) argsort perm S rs,
  (forall l, sorts_ascending l (argsort l)) -> (forall r1 r2, length (eval_fn r1) = length (eval_fn r2)) ->
  compute_pbo_ranks eval_fn argsort perm S = Ok rs ->
  Forall2 (fun c r => exists train test best,
     rows_at perm (pbo_train (length perm / S) c) train /\
     rows_at perm (pbo_test (length perm) (pbo_train (length perm / S) c)) test /\
     nth_error (eval_fn train) best = Some (snd (fst r)) /\ (forall x, In x (eval_fn train) -> (x <= snd (fst r))%Qc) /\
     nth_error (eval_fn test) best = Some (snd r) /\
     fst (fst r) < length (eval_fn test) /\
     count (fun y => qlt y (snd r)) (eval_fn test) <= fst (fst r) /\
     count (fun y => qlt (snd r) y) (eval_fn test) <= length (eval_fn test) - 1 - fst (fst r))
    (combinations (S / 2) (seq 0 S)) rs.
Proof.
  intros row eval_fn argsort perm S rs HA HL. unfold compute_pbo_ranks.
  destruct (negb (Nat.even S)); [discriminate|]. destruct (S =? 0); [discriminate|]. intro H. apply mapM_ok in H.
  induction H as [|c r cs rs' H _ IH]; constructor; auto. unfold pbo_combination in H.
  destruct (iloc perm (pbo_train _ c)) as [train|] eqn:E1; [|discriminate]. cbn [bind] in H.
  destruct (iloc perm (pbo_test _ _)) as [test|] eqn:E2; [|discriminate]. cbn [bind] in H.
  destruct (argmax (eval_fn train)) as [best|] eqn:E3; [|discriminate]. cbn [bind] in H.
  destruct (get (eval_fn train) best) as [tp|] eqn:E4; [|discriminate]. cbn [bind] in H.
  destruct (get (eval_fn test) best) as [sp|] eqn:E5; [|discriminate]. cbn [bind] in H. inversion H; subst r. cbn [fst snd].
  apply get_ok in E4. apply get_ok in E5. apply iloc_rows in E1. apply iloc_rows in E2.
  exists train, test, best. split; auto. split; auto. split; auto. split.
  { apply argmax_spec in E3. destruct E3 as [m [M1 M2]]. assert (m = tp) by congruence. now subst. }
  split; auto.
  assert (LB : best < length (eval_fn test)) by (apply nth_error_Some; congruence).
  assert (IN : In best (argsort (eval_fn test))).
  { eapply Permutation_in; [apply Permutation_sym, (HA (eval_fn test))|]. apply in_seq. lia. }
  destruct (@position_spec best (argsort (eval_fn test)) 0 IN) as [P1 _]. rewrite Nat.sub_0_r in P1.
  split.
  - assert (L : length (argsort (eval_fn test)) = length (eval_fn test)) by (rewrite (Permutation_length (proj1 (HA _))); apply seq_length).
    rewrite <- L. apply nth_error_Some. congruence.
  - eapply rank_bounds; eauto.
Qed.
Print Assumptions c32_pbo_records.

(** C32: no exception for a positive even number of partitions and at least one strategy. *)
Theorem c32_pbo_total : forall row (eval_fn : list row -> list Qc) argsort perm m n_strats,
  1 <= m -> 1 <= n_strats -> (forall r, length (eval_fn r) = n_strats) ->
  exists rs, compute_pbo_ranks eval_fn argsort perm (2 * m) = Ok rs /\ length rs = binom (2 * m) m.
Proof.
  intros row eval_fn argsort perm m ns Hm Hs HL. unfold compute_pbo_ranks.
  assert (EV : Nat.even (2 * m) = true) by (apply Nat.even_spec; exists m; lia). rewrite EV. cbn [negb].
  destruct (Nat.eqb_spec (2 * m) 0) as [|_]; [lia|].
  assert (D : 2 * m / 2 = m) by (rewrite Nat.mul_comm; apply Nat.div_mul; lia). rewrite D.
  destruct (@mapM_all_ok _ _ (pbo_combination eval_fn argsort perm (2 * m)) (combinations m (seq 0 (2 * m)))) as [rs E].
  - intros c Hc. unfold pbo_combination. pose proof (@c32_pbo_combinations (length perm) m Hm) as [_ [HC _]].
    specialize (HC c Hc). cbv zeta in HC. destruct HC as [_ [_ [_ [_ U]]]].
    destruct (@iloc_in_range _ perm (pbo_train (length perm / (2 * m)) c)) as [train ->]; [intros i Hi; apply U; now left|]. cbn [bind].
    destruct (@iloc_in_range _ perm (pbo_test (length perm) (pbo_train (length perm / (2 * m)) c))) as [test ->]; [intros i Hi; apply U; now right|].
    cbn [bind]. destruct (@argmax_ok (eval_fn train)) as [b E]; [intro C; specialize (HL train); rewrite C in HL; cbn in HL; lia|].
    rewrite E. cbn [bind]. apply argmax_spec in E. destruct E as [x [E _]].
    assert (G : get (eval_fn train) b = Ok x) by now apply get_ok. rewrite G. cbn [bind].
    assert (B : b < length (eval_fn test)) by (rewrite HL, <- (HL train); apply nth_error_Some; congruence).
    destruct (nth_error (eval_fn test) b) as [y|] eqn:EY; [|apply nth_error_None in EY; lia].
    apply get_ok in EY. rewrite EY. cbn [bind]. eauto.
  - exists rs. split; auto. apply mapM_ok in E. apply Forall2_length in E. rewrite <- E, combinations_length, seq_length. reflexivity.
Qed.
Print Assumptions c32_pbo_total.

Example c32_sample : binom 4 2 = 6 /\ combinations 2 (seq 0 4) = [[0;1];[0;2];[0;3];[1;2];[1;3];[2;3]] /\
  pbo_train (9 / 4) [0; 2] = [0; 1; 4; 5] /\ pbo_test 9 (pbo_train (9 / 4) [0; 2]) = [2; 3; 6; 7; 8].
Proof. repeat split. Qed.

(** C33: the logit is at most 0 exactly when the rank is below the median, for up to 1999 strategies. *)
Theorem c33_logit_sign : forall rank N, rank < N -> N <= 1999 -> ((rank_logit rank N <= 0)%R <-> 2 * rank < N).
Proof.
  intros rank N H HN. unfold rank_logit. cbv zeta.
  assert (N0 : (0 < INR N)%R) by (apply lt_0_INR; lia).
  assert (R0 : (0 <= INR rank)%R) by apply pos_INR.
  assert (D : (0 < INR N - INR rank)%R) by (apply lt_INR in H; lra).
  assert (E : (INR rank / INR N / (1 - INR rank / INR N) = INR rank / (INR N - INR rank))%R) by (field; lra).
  rewrite E. set (x := (INR rank / (INR N - INR rank))%R).
  assert (X0 : (0 <= x)%R) by (unfold x; apply Rmult_le_pos; auto; apply Rlt_le, Rinv_0_lt_compat; auto).
  assert (L : (ln (x + / 1000) <= 0 <-> x + / 1000 <= 1)%R).
  { split; intro Q.
    - apply Rnot_lt_le. intro C. rewrite <- ln_1 in Q. apply Rle_not_lt in Q. apply Q. apply ln_increasing; lra.
    - rewrite <- ln_1. destruct (Rle_lt_or_eq_dec _ _ Q) as [Q'|Q']; [|rewrite Q'; lra]. apply Rlt_le, ln_increasing; lra. }
  rewrite L. clear L.
  assert (X : (x * (INR N - INR rank) = INR rank)%R) by (unfold x; field; lra).
  assert (M : (x + / 1000 <= 1 <-> 1000 * INR rank <= 999 * (INR N - INR rank))%R).
  { split; intro Q.
    - assert (x <= 999 / 1000)%R by lra. assert ((999 / 1000 - x) * (INR N - INR rank) >= 0)%R by (apply Rle_ge, Rmult_le_pos; lra). lra.
    - apply Rnot_lt_le. intro C. assert (0 < (x - 999 / 1000) * (INR N - INR rank))%R by (apply Rmult_lt_0_compat; lra). lra. }
  rewrite M. split; intro Q.
  - assert (Q2 : (INR (1999 * rank) <= INR (999 * N))%R).
    { rewrite !mult_INR. replace (INR 1999) with 1999%R by (rewrite INR_IZR_INZ; reflexivity).
      replace (INR 999) with 999%R by (rewrite INR_IZR_INZ; reflexivity). lra. }
    apply INR_le in Q2. lia.
  - assert (Q2 : (INR (1999 * rank) <= INR (999 * N))%R) by (apply le_INR; lia).
    rewrite !mult_INR in Q2. replace (INR 1999) with 1999%R in Q2 by (rewrite INR_IZR_INZ; reflexivity).
    replace (INR 999) with 999%R in Q2 by (rewrite INR_IZR_INZ; reflexivity). lra.
Qed.
Print Assumptions c33_logit_sign.
Example c33_sample : 999 < 1999 /\ 2 * 999 < 1999 /\ ~ 2 * 1000 < 1999.
Proof. lia. Qed.
