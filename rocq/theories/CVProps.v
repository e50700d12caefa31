(** Properties C21-C27: purging, embargo, PurgedKFold and cross-validated scoring. *)
From Verif Require Import Py CVModel CVSpec CVProofs.
Set Implicit Arguments.
Unset Strict Implicit.
Open Scope Z_scope.

(** C21: without bar times exactly the events that meet no test interval are kept, in order. *)
Theorem c21_purging_exact : forall events tests pct,
  (forall e, In e events -> proper e) -> (forall t, In t tests -> proper t) ->
  exists train, apply_purging_and_embargo events tests None pct = Ok train /\ increasing train /\
    forall i, In i train <-> exists e, nth_error events i = Some e /\ forall t, In t tests -> ~ meets e t.
Proof.
  intros events tests pct He Ht. eexists. split; [reflexivity|]. split; [apply purged_increasing|].
  intro i. rewrite purged_in. split; intros [e [H1 H2]]; exists e; split; auto; intros t Hin.
  - intro C. specialize (H2 t Hin). assert (O : overlaps (fst t) (snd t) e = true); [|congruence].
    apply overlaps_meets; [now apply Ht|apply He; eapply nth_error_In; eauto|]. destruct t. exact C.
  - destruct (overlaps (fst t) (snd t) e) eqn:O; auto. exfalso. apply (H2 t Hin).
    apply overlaps_meets in O; [|now apply Ht|apply He; eapply nth_error_In; eauto]. destruct t. exact O.
Qed.
Print Assumptions c21_purging_exact.

(** C22: with bar times a test interval is extended to the bar int(n*pct) bars later (at most the last one). *)
Theorem c22_embargo_exact : forall events tests bars pct step,
  embargo_bars (length bars) pct step -> zssorted bars -> (forall e, In e events -> proper e) -> (forall t, In t tests -> proper t) ->
  (forall t, In t tests -> In (snd t) bars) ->
  exists train, apply_purging_and_embargo events tests (Some bars) pct = Ok train /\ increasing train /\
    forall i, In i train <-> exists e, nth_error events i = Some e /\
      forall t b', In t tests -> bar_after bars step (snd t) b' -> ~ meets e (fst t, b').
Proof.
  intros events tests bars pct step Hst Hb He Ht Hin. apply embargo_step_spec in Hst. subst step.
  assert (ND : NoDup bars).
  { clear -Hb. induction Hb as [|a l H IH HF]; constructor; auto. intro C. rewrite Forall_forall in HF. apply HF in C. lia. }
  assert (BA : forall t b', In t tests -> bar_after bars (embargo_step (length bars) pct) (snd t) b' -> snd t <= b').
  { intros t b' _ [i [H1 H2]]. assert (i < length bars)%nat by (apply nth_error_Some; congruence).
    apply (@sorted_nth_le bars i (Nat.min (i + embargo_step (length bars) pct) (length bars - 1))); auto; [now apply zssorted_sorted|lia]. }
  unfold apply_purging_and_embargo.
  assert (M : exists adj, mapM (fun t => do e <- lookup (embargo_times bars pct) (snd t); Ok (fst t, e)) tests = Ok adj /\
     forall t b', (In t tests /\ bar_after bars (embargo_step (length bars) pct) (snd t) b' -> In (fst t, b') adj) /\
                  (forall x, In x adj -> exists t b', In t tests /\ bar_after bars (embargo_step (length bars) pct) (snd t) b' /\ x = (fst t, b'))).
  { clear BA Ht He. induction tests as [|t tests IH].
    - exists []. split; auto. intros t b'. split; [intros [[] _]|intros x []].
    - destruct IH as [adj [E H]]; [intros; apply Hin; now right|].
      assert (K : In (snd t) bars) by (apply Hin; now left). apply In_nth_error in K. destruct K as [i K].
      destruct (embargo_times_nth pct K) as [b2 [_ H2]].
      assert (B2 : bar_after bars (embargo_step (length bars) pct) (snd t) b2) by (exists i; auto).
      pose proof (proj2 (lookup_embargo pct (snd t) b2 ND) B2) as LK.
      cbn [mapM]. rewrite LK. cbn [bind]. rewrite E. cbn [bind]. eexists. split; [reflexivity|].
      intros t0 b'. split.
      + intros [[<-|I] B]; [|right; apply H; auto]. left. f_equal.
        apply (proj2 (lookup_embargo pct (snd t) b' ND)) in B. congruence.
      + intros x [<-|I].
        * exists t, b2. split; [now left|]. auto.
        * destruct (proj2 (H t0 b') x I) as [u [v [A [B C]]]]. exists u, v. split; [now right|]. auto. }
  destruct M as [adj [E H]]. rewrite E. cbn [bind]. eexists. split; [reflexivity|]. split; [apply purged_increasing|].
  intro i. rewrite purged_in. split; intros [e [H1 H2]]; exists e; split; auto.
  - intros t b' I B C. assert (P : proper e) by (apply He; eapply nth_error_In; eauto).
    specialize (H2 _ (proj1 (H t b') (conj I B))). cbn [fst snd] in H2.
    assert (O : overlaps (fst t) b' e = true); [|congruence]. apply overlaps_meets; auto.
    specialize (Ht t I). specialize (BA t b' I B). unfold proper in Ht. lia.
  - intros x Hx. destruct (proj2 (H (0, 0) 0) x Hx) as [t [b' [I [B ->]]]]. cbn [fst snd].
    destruct (overlaps (fst t) b' e) eqn:O; auto. exfalso. apply (H2 t b' I B).
    apply overlaps_meets in O; auto; [|apply He; eapply nth_error_In; eauto].
    specialize (Ht t I). specialize (BA t b' I B). unfold proper in Ht. lia.
Qed.
Print Assumptions c22_embargo_exact.

(** C22: no kept event starts inside a test interval or the embargo window after it. *)
Theorem c22_no_start_in_embargo : forall events tests bars pct step train,
  embargo_bars (length bars) pct step -> zssorted bars -> (forall e, In e events -> proper e) -> (forall t, In t tests -> proper t) ->
  (forall t, In t tests -> In (snd t) bars) ->
  apply_purging_and_embargo events tests (Some bars) pct = Ok train ->
  forall i e t b', In i train -> nth_error events i = Some e -> In t tests ->
    bar_after bars step (snd t) b' -> ~ (fst t <= fst e <= b').
Proof.
  intros events tests bars pct step train Hst Hb He Ht Hin HT i e t b' Hi Hn I B C.
  destruct (@c22_embargo_exact events tests bars pct step Hst Hb He Ht Hin) as [tr [E [_ H]]].
  assert (tr = train) by congruence. subst tr. apply H in Hi. destruct Hi as [e' [H1 H2]].
  assert (e' = e) by congruence. subst e'. apply (H2 t b' I B).
  exists (fst e). assert (P : proper e) by (apply He; eapply nth_error_In; eauto). unfold proper in P. cbn. lia.
Qed.
Print Assumptions c22_no_start_in_embargo.

(** C22: a larger embargo never adds training events. *)
Theorem c22_embargo_monotone : forall events tests bars p1 p2 t1 t2,
  zssorted bars -> (forall e, In e events -> proper e) -> (forall t, In t tests -> proper t) ->
  (forall t, In t tests -> In (snd t) bars) -> (0 <= p1)%Qc -> (p1 <= p2)%Qc ->
  apply_purging_and_embargo events tests (Some bars) p1 = Ok t1 ->
  apply_purging_and_embargo events tests (Some bars) p2 = Ok t2 ->
  forall i, In i t2 -> In i t1.
Proof.
  intros events tests bars p1 p2 t1 t2 Hb He Ht Hin H0 Hp E1 E2 i Hi.
  destruct (@c22_embargo_exact events tests bars p1 _ (embargo_step_exists _ H0) Hb He Ht Hin) as [x1 [X1 [_ H1]]].
  destruct (@c22_embargo_exact events tests bars p2 _ (embargo_step_exists _ (Qcle_trans _ _ _ H0 Hp)) Hb He Ht Hin) as [x2 [X2 [_ H2]]].
  assert (x1 = t1) by congruence. assert (x2 = t2) by congruence. subst x1 x2.
  apply H1. apply H2 in Hi. destruct Hi as [e [N K]]. exists e. split; auto. intros t b' I B [x [X Y]].
  destruct B as [j [J1 J2]].
  assert (L : (j < length bars)%nat) by (apply nth_error_Some; congruence).
  destruct (embargo_times_nth p2 J1) as [b2 [_ B2]].
  apply (K t b2 I); [exists j; auto|]. exists x. split; auto. cbn in *.
  assert (b' <= b2); [|lia].
  pose proof (embargo_step_le (length bars) Hp H0).
  eapply sorted_nth_le; [apply zssorted_sorted; exact Hb|exact J2|exact B2|lia].
Qed.
Print Assumptions c22_embargo_monotone.

(** C22: a test end that is not a bar raises KeyError. *)
Theorem c22_unknown_bar : forall events tests bars pct t,
  In t tests -> ~ In (snd t) bars -> apply_purging_and_embargo events tests (Some bars) pct = Err KeyError.
Proof.
  intros events tests bars pct t I N. unfold apply_purging_and_embargo.
  assert (E : mapM (fun t => do e <- lookup (embargo_times bars pct) (snd t); Ok (fst t, e)) tests = Err KeyError); [|now rewrite E].
  induction tests as [|u tests IH]; [destruct I|]. cbn [mapM].
  destruct (lookup (embargo_times bars pct) (snd u)) as [v|e] eqn:E.
  - cbn [bind]. destruct I as [->|I].
    + exfalso. apply N. rewrite <- (embargo_keys bars pct). clear -E.
      induction (embargo_times bars pct) as [|[k' v'] m IH]; [discriminate|]. cbn [lookup] in E. cbn.
      destruct (Z.eqb_spec k' (snd t)); auto.
    + now rewrite IH.
  - apply lookup_err in E. destruct E as [-> _]. reflexivity.
Qed.
Print Assumptions c22_unknown_bar.

(** C23: the test folds. *)
Theorem c23_folds_partition : forall events k pct,
  zsorted (map fst events) -> (forall e, In e events -> proper e) -> (1 <= k <= length events)%nat ->
  exists splits, kfold_split k pct events = Ok splits /\ length splits = k /\
    concat (map snd splits) = seq 0 (length events) /\
    (forall f, In f (map snd splits) -> f <> [] /\ exists a, f = seq a (length f)) /\
    (forall f g, In f (map snd splits) -> In g (map snd splits) -> (length f <= length g + 1)%nat).
Proof.
  intros events k pct Hs Hp Hk. destruct (kfold_split_ok pct Hs Hp Hk) as [sp [E [E2 H]]]. exists sp.
  split; auto. split; [|rewrite E2; split; [|split]].
  - rewrite <- (map_length snd), E2. apply array_split_length. lia.
  - apply array_split_concat. lia.
  - intros f Hf. split.
    + apply array_split_sizes in Hf; [|lia]. assert (1 <= length events / k)%nat by (apply Nat.div_le_lower_bound; lia).
      intros ->. cbn in Hf. lia.
    + destruct (split_sizes_seq Hf) as [a [_ [A _]]]. eauto.
  - intros f g Hf Hg. apply array_split_sizes in Hf; [|lia]. apply array_split_sizes in Hg; [|lia]. lia.
Qed.
Print Assumptions c23_folds_partition.

(** C24: no leakage. *)
Theorem c24_kfold_no_leak : forall events k pct step splits,
  embargo_bars (length events) pct step -> zsorted (map fst events) -> (forall e, In e events -> proper e) -> (1 <= k <= length events)%nat ->
  kfold_split k pct events = Ok splits ->
  forall tr te, In (tr, te) splits ->
    increasing tr /\ (forall x, In x tr -> ~ In x te) /\
    exists last_end,
      (forall t e, In t te -> nth_error events t = Some e -> snd e <= last_end) /\
      (exists t e, In t te /\ nth_error events t = Some e /\ snd e = last_end) /\
      forall x e, In x tr -> nth_error events x = Some e ->
        (forall t u, In t te -> nth_error events t = Some u -> snd e < fst u) \/
        (last_end < fst e /\ (started_by events last_end + 1 + step <= x)%nat).
Proof.
  intros events k pct step splits Hst Hs Hp Hk HS tr te Hin.
  apply embargo_step_spec in Hst. subst step.
  destruct (kfold_split_ok pct Hs Hp Hk) as [sp [E [_ H]]]. assert (sp = splits) by congruence. subst sp.
  destruct (H tr te Hin) as [i [j [Hij [-> HT]]]].
  destruct (kfold_train_ok Hs Hp (embargo_step (length events) pct) Hij) as [tr' [f [m [T1 [T2 [T3 [T4 T5]]]]]]].
  assert (tr' = tr) by congruence. subst tr'. split; auto.
  assert (TE : forall t e, nth_error events t = Some e -> (i <= t < j)%nat -> In e (slice events i j)).
  { intros t e Ht Hr. apply nth_error_In with (t - i)%nat. unfold slice. rewrite nth_error_firstn_lt by lia.
    rewrite nth_error_skipn. replace (i + (t - i))%nat with t by lia. auto. }
  assert (MAX : forall t e, In t (seq i (j - i)) -> nth_error events t = Some e -> snd e <= m).
  { intros t e Ht He. apply in_seq in Ht. apply (proj2 T3). apply (TE t); auto. lia. }
  assert (SEP : forall x e, In x tr -> nth_error events x = Some e ->
        (forall t u, In t (seq i (j - i)) -> nth_error events t = Some u -> snd e < fst u) \/
        (m < fst e /\ (started_by events m + 1 + embargo_step (length events) pct <= x)%nat)).
  { intros x e Hx He. apply T5 in Hx. destruct Hx as [e' [He' K]]. assert (e' = e) by congruence. subst e'.
    destruct K as [K|K].
    - left. intros t u Ht Hu. apply in_seq in Ht. assert (fst f <= fst u) by (eapply (starts_le Hs (i := i) (j := t)); eauto; lia). lia.
    - right. split; auto. destruct (Z.lt_ge_cases m (fst e)) as [|G]; auto. exfalso.
      apply (started_before Hs m He) in G. lia. }
  split.
  - intros x Hx Ht. pose proof Hx as Hx'. apply T5 in Hx'. destruct Hx' as [e [He _]].
    assert (P : proper e) by (apply Hp; eapply nth_error_In; eauto). unfold proper in P.
    destruct (SEP x e Hx He) as [A|[A _]].
    + specialize (A x e Ht He). lia.
    + specialize (MAX x e Ht He). lia.
  - exists m. split; auto. split; auto.
    destruct (proj1 T3) as [e [I E2]]. apply In_nth_error in I. destruct I as [n I].
    assert (Ln : (n < length (slice events i j))%nat) by (apply nth_error_Some; congruence).
    unfold slice in Ln, I. rewrite firstn_length, skipn_length in Ln.
    rewrite nth_error_firstn_lt in I by lia. rewrite nth_error_skipn in I.
    exists (i + n)%nat, e. split; auto. apply in_seq. lia.
Qed.
Print Assumptions c24_kfold_no_leak.

(** C25 is false: the first event after the test labels end is dropped although it overlaps nothing. *)
Theorem c25_kfold_refuted : exists events splits tr te x e,
  zsorted (map fst events) /\ (forall e, In e events -> proper e) /\
  kfold_split 3 0 events = Ok splits /\ In (tr, te) splits /\
  nth_error events x = Some e /\ (forall t u, In t te -> nth_error events t = Some u -> ~ meets e u) /\
  ~ In x te /\ ~ In x tr.
Proof.
  exists [(0, 0); (10, 11); (20, 21); (30, 31)].
  eexists. eexists. eexists. exists 2%nat, (20, 21). split; [cbn; repeat constructor; discriminate|]. split.
  { intros e H. cbn in H. repeat destruct H as [<-|H]; try (unfold proper; cbn; lia). }
  split; [vm_compute; reflexivity|]. split; [left; reflexivity|]. split; [reflexivity|]. split.
  - intros t u Ht Hu. cbn in Ht. destruct Ht as [<-|[<-|[]]]; cbn in Hu; inversion Hu; subst; intros [x [A B]]; cbn in *; lia.
  - split; cbn; lia.
Qed.
Print Assumptions c25_kfold_refuted.

(** C25, what holds: without embargo every event that ends before the fold starts is kept, and every event that starts
    after the last test label ends is kept except the first one of them. *)
Theorem c25_kfold_keeps_all_but_one : forall events k pct splits,
  zsorted (map fst events) -> (forall e, In e events -> proper e) -> (1 <= k <= length events)%nat ->
  embargo_bars (length events) pct 0 ->
  kfold_split k pct events = Ok splits ->
  forall tr te, In (tr, te) splits ->
    exists first last_end, nth_error events (hd 0%nat te) = Some first /\
      (forall t e, In t te -> nth_error events t = Some e -> snd e <= last_end) /\
      (exists t e, In t te /\ nth_error events t = Some e /\ snd e = last_end) /\
      forall x e, nth_error events x = Some e ->
        (In x tr <-> snd e < fst first \/ (last_end < fst e /\ x <> started_by events last_end)).
Proof.
  intros events k pct splits Hs Hp Hk H0 HS tr te Hin. apply embargo_step_spec in H0.
  destruct (kfold_split_ok pct Hs Hp Hk) as [sp [E [_ H]]]. assert (sp = splits) by congruence. subst sp.
  destruct (H tr te Hin) as [i [j [Hij [-> HT]]]].
  destruct (kfold_train_ok Hs Hp (embargo_step (length events) pct) Hij) as [tr' [f [m [T1 [T2 [T3 [T4 T5]]]]]]].
  assert (tr' = tr) by congruence. subst tr'. exists f, m. split.
  { destruct (j - i)%nat eqn:D; [lia|]. exact T2. }
  assert (TE : forall t e, nth_error events t = Some e -> (i <= t < j)%nat -> In e (slice events i j)).
  { intros t e Ht Hr. apply nth_error_In with (t - i)%nat. unfold slice. rewrite nth_error_firstn_lt by lia.
    rewrite nth_error_skipn. replace (i + (t - i))%nat with t by lia. auto. }
  split; [|split].
  - intros t e Ht He. apply in_seq in Ht. apply (proj2 T3). apply (TE t); auto. lia.
  - destruct (proj1 T3) as [e [I E2]]. apply In_nth_error in I. destruct I as [n I].
    assert (Ln : (n < length (slice events i j))%nat) by (apply nth_error_Some; congruence).
    unfold slice in Ln, I. rewrite firstn_length, skipn_length in Ln.
    rewrite nth_error_firstn_lt in I by lia. rewrite nth_error_skipn in I.
    exists (i + n)%nat, e. split; auto. apply in_seq. lia.
  - intros x e He. rewrite T5, H0. pose proof (started_before Hs m He) as SB. split.
    + intros [e' [He' K]]. assert (e' = e) by congruence. subst e'. destruct K as [K|K]; [now left|]. right.
      destruct (Z.lt_ge_cases m (fst e)) as [L|L]; [split; auto; lia|]. apply SB in L. lia.
    + intros [K|[K1 K2]]; exists e; split; auto. right.
      destruct (Nat.lt_ge_cases x (started_by events m)) as [L|L]; [apply SB in L; lia|lia].
Qed.
Print Assumptions c25_kfold_keeps_all_but_one.

Definition sample_events : list event := [(0, 2); (1, 3); (4, 5); (5, 9); (7, 8); (10, 12); (11, 14); (13, 15); (16, 16)].
Example c24_sample_sorted : zsorted (map fst sample_events) /\ (forall e, In e sample_events -> proper e).
Proof.
  split; [cbn; repeat constructor; discriminate|]. intros e H. cbn in H.
  repeat destruct H as [<-|H]; try (unfold proper; cbn; lia).
Qed.
Example c24_sample : kfold_split 3 (q 1 9) sample_events =
  Ok [([6; 7; 8], [0; 1; 2]); ([0; 1], [3; 4; 5]); ([0; 1; 2; 3; 4], [6; 7; 8])]%nat.
Proof. vm_compute. reflexivity. Qed.
Example c22_sample : apply_purging_and_embargo sample_events [(4, 5)] (Some [0; 2; 3; 5; 7; 8; 9; 12; 14; 16]) (q 1 10) = Ok [0; 1; 5; 6; 7; 8]%nat.
Proof. vm_compute. reflexivity. Qed.

(** C26: every score is that of a model fitted on exactly the training rows and evaluated on exactly the test rows. *)
Theorem c26_cv_score_rows : forall X Y W M S (fit : list X -> list Y -> list W -> M) score xs ys ws events cv splitter pct scores,
  timeseries_cv_score fit score xs ys ws events cv splitter pct = Ok scores ->
  exists splits : list (list nat * list nat),
    run_splitter (match splitter with Some s => s | None => Kfold cv pct end) events = Ok splits /\
    Forall2 (fun (sp : list nat * list nat) (s : S) =>
      exists xtr ytr wtr xte yte wte,
        rows_at xs (fst sp) xtr /\ rows_at ys (fst sp) ytr /\ rows_at ws (fst sp) wtr /\
        rows_at xs (snd sp) xte /\ rows_at ys (snd sp) yte /\ rows_at ws (snd sp) wte /\
        s = score (fit xtr ytr wtr) xte yte wte) splits scores.
Proof.
  intros X Y W M S fit score xs ys ws events cv splitter pct scores. unfold timeseries_cv_score.
  destruct (run_splitter _ events) as [splits|e] eqn:E; [|discriminate]. cbn [bind]. intro H.
  exists splits. split; auto. apply mapM_ok in H. clear E.
  induction H as [|sp s sps ss H _ IH]; constructor; auto. unfold score_split in H.
  destruct (iloc xs (fst sp)) as [a1|] eqn:A1; [|discriminate]. cbn [bind] in H.
  destruct (iloc ys (fst sp)) as [a2|] eqn:A2; [|discriminate]. cbn [bind] in H.
  destruct (iloc ws (fst sp)) as [a3|] eqn:A3; [|discriminate]. cbn [bind] in H.
  destruct (iloc xs (snd sp)) as [a4|] eqn:A4; [|discriminate]. cbn [bind] in H.
  destruct (iloc ys (snd sp)) as [a5|] eqn:A5; [|discriminate]. cbn [bind] in H.
  destruct (iloc ws (snd sp)) as [a6|] eqn:A6; [|discriminate]. cbn [bind] in H.
  exists a1, a2, a3, a4, a5, a6. rewrite <- !iloc_rows. inversion H. auto 10.
Qed.
Print Assumptions c26_cv_score_rows.

(** C26: with PurgedKFold the call succeeds and returns one score per fold. *)
Theorem c26_cv_score_total : forall X Y W M S (fit : list X -> list Y -> list W -> M) (score : M -> list X -> list Y -> list W -> S)
    xs ys ws events cv pct,
  zsorted (map fst events) -> (forall e, In e events -> proper e) -> (1 <= cv <= length events)%nat ->
  length xs = length events -> length ys = length events -> length ws = length events ->
  exists scores, timeseries_cv_score fit score xs ys ws (Some events) cv None (Some pct) = Ok scores /\ length scores = cv.
Proof.
  intros X Y W M S fit score xs ys ws events cv pct Hs Hp Hk Lx Ly Lw.
  unfold timeseries_cv_score. cbn [run_splitter].
  destruct (kfold_split_ok pct Hs Hp Hk) as [sp [E [E2 H]]]. rewrite E. cbn [bind].
  assert (R : forall s, In s sp -> (forall i, In i (fst s) -> (i < length events)%nat) /\ (forall i, In i (snd s) -> (i < length events)%nat)).
  { intros [tr te] Hin. destruct (H tr te Hin) as [i [j [Hij [-> HT]]]].
    destruct (kfold_train_ok Hs Hp (embargo_step (length events) pct) Hij) as [tr' [f [m [T1 [T2 [T3 [T4 T5]]]]]]].
    assert (tr' = tr) by congruence. subst tr'. cbn. split.
    - intros x Hx. apply T5 in Hx. destruct Hx as [e [He _]]. apply nth_error_Some. congruence.
    - intros x Hx. apply in_seq in Hx. lia. }
  destruct (@mapM_all_ok _ _ (score_split fit score xs ys ws) sp) as [bs EB].
  - intros s Hs'. destruct (R s Hs') as [R1 R2]. unfold score_split.
    destruct (@iloc_in_range _ xs (fst s)) as [a1 ->]; [rewrite Lx; auto|].
    destruct (@iloc_in_range _ ys (fst s)) as [a2 ->]; [rewrite Ly; auto|].
    destruct (@iloc_in_range _ ws (fst s)) as [a3 ->]; [rewrite Lw; auto|].
    destruct (@iloc_in_range _ xs (snd s)) as [a4 ->]; [rewrite Lx; auto|].
    destruct (@iloc_in_range _ ys (snd s)) as [a5 ->]; [rewrite Ly; auto|].
    destruct (@iloc_in_range _ ws (snd s)) as [a6 ->]; [rewrite Lw; auto|]. cbn [bind]. eauto.
  - exists bs. split; auto. apply mapM_ok in EB. apply Forall2_length in EB.
    rewrite <- EB. rewrite <- (map_length snd), E2. apply array_split_length. lia.
Qed.
Print Assumptions c26_cv_score_total.

(** C26 for the mean decrease accuracy: same rows, and a shuffled column changes only that column of the test rows. *)
Theorem c26_mda_rows : forall Y W M (fit : list (list Qc) -> list Y -> list W -> M) score shuffle nf xs ys ws fold sp s perms,
  mda_fold fit score shuffle nf xs ys ws fold sp = Ok (s, perms) ->
  exists xtr ytr wtr xte yte wte,
    rows_at xs (fst sp) xtr /\ rows_at ys (fst sp) ytr /\ rows_at ws (fst sp) wtr /\
    rows_at xs (snd sp) xte /\ rows_at ys (snd sp) yte /\ rows_at ws (snd sp) wte /\
    s = score (fit xtr ytr wtr) xte yte wte /\ length perms = nf /\
    forall j, (j < nf)%nat -> nth_error perms j =
      Some (score (fit xtr ytr wtr) (set_column j (shuffle fold j (column j xte)) xte) yte wte).
Proof.
  intros Y W M fit score shuffle nf xs ys ws fold sp s perms H. unfold mda_fold in H.
  destruct (iloc xs (fst sp)) as [a1|] eqn:A1; [|discriminate]. cbn [bind] in H.
  destruct (iloc ys (fst sp)) as [a2|] eqn:A2; [|discriminate]. cbn [bind] in H.
  destruct (iloc ws (fst sp)) as [a3|] eqn:A3; [|discriminate]. cbn [bind] in H.
  destruct (iloc xs (snd sp)) as [a4|] eqn:A4; [|discriminate]. cbn [bind] in H.
  destruct (iloc ys (snd sp)) as [a5|] eqn:A5; [|discriminate]. cbn [bind] in H.
  destruct (iloc ws (snd sp)) as [a6|] eqn:A6; [|discriminate]. cbn [bind] in H.
  exists a1, a2, a3, a4, a5, a6. rewrite <- !iloc_rows. inversion H; subst. repeat (split; auto).
  - now rewrite map_length, seq_length.
  - intros j Hj. rewrite nth_error_map. rewrite nth_error_nth' with (d := 0%nat) by now rewrite seq_length.
    rewrite seq_nth by auto. reflexivity.
Qed.
Print Assumptions c26_mda_rows.

(** shuffling a column leaves the others alone *)
Theorem c26_shuffle_one_column : forall j vals rows i r j',
  length vals = length rows -> nth_error rows i = Some r -> (j < length r)%nat ->
  exists r', nth_error (set_column j vals rows) i = Some r' /\ length r' = length r /\
    nth j' r' 0%Qc = if (j' =? j)%nat then nth i vals 0%Qc else nth j' r 0%Qc.
Proof.
  intros j vals rows i r j' L Hr Hj.
  assert (Li : (i < length rows)%nat) by (apply nth_error_Some; congruence).
  assert (Hv : nth_error vals i = Some (nth i vals 0%Qc)) by (apply nth_error_nth'; lia).
  unfold set_column. rewrite nth_error_map, (nth_error_combine2 Hv Hr). cbn [option_map fst snd].
  eexists. split; [reflexivity|]. unfold set_nth.
  destruct (skipn j r) as [|x t] eqn:E; [apply (f_equal (@length _)) in E; rewrite skipn_length in E; cbn in E; lia|].
  pose proof (firstn_skipn j r) as FS. rewrite E in FS.
  assert (Lf : length (firstn j r) = j) by (rewrite firstn_length; lia). split.
  - rewrite <- FS at 2. rewrite !app_length. reflexivity.
  - destruct (Nat.eqb_spec j' j) as [->|N].
    + rewrite app_nth2, Lf, Nat.sub_diag by lia. reflexivity.
    + rewrite <- FS at 2. destruct (Nat.lt_ge_cases j' j).
      * rewrite !app_nth1 by lia. reflexivity.
      * rewrite !app_nth2 by lia. rewrite Lf. destruct (j' - j)%nat eqn:D; [lia|]. reflexivity.
Qed.
Print Assumptions c26_shuffle_one_column.

(** a feature the fitted model does not look at gets importance 0 in every fold *)
Theorem c26_mda_ignored_feature : forall Y W M (fit : list (list Qc) -> list Y -> list W -> M) score shuffle best nf xs ys ws events cv pct imps j,
  (forall m rows y w vals, length vals = length rows -> score m (set_column j vals rows) y w = score m rows y w) ->
  (forall f c l, Permutation (shuffle f c l) l) -> (j < nf)%nat ->
  mda_importances fit score shuffle best nf xs ys ws events cv pct = Ok imps ->
  forall s cells, In (s, cells) imps -> exists c, nth_error cells j = Some c /\ (c = None \/ c = Some 0%Qc).
Proof.
  intros Y W M fit score shuffle best nf xs ys ws events cv pct imps j Hig Hsh Hj. unfold mda_importances.
  destruct (kfold_split cv pct events) as [sp|]; [|discriminate]. cbn [bind]. intros H s cells Hin.
  apply mapM_ok in H. apply In_nth_error in Hin. destruct Hin as [n Hn].
  revert n Hn. induction H as [|[f x] [s' c'] l l' H _ IH]; intros n Hn; [destruct n; discriminate|].
  destruct n as [|n]; [|eapply IH; eauto]. cbn in Hn. inversion Hn; subst s' c'.
  cbn [fst snd] in H. destruct (mda_fold fit score shuffle nf xs ys ws f x) as [[s1 perms]|] eqn:EF; [|discriminate]. cbn [bind fst snd] in H.
  inversion H; subst s cells. destruct (c26_mda_rows EF) as (xtr & ytr & wtr & xte & yte & wte & _ & _ & _ & _ & _ & _ & Es & _ & P).
  rewrite nth_error_map, (P j Hj). cbn [option_map]. eexists. split; [reflexivity|].
  rewrite Hig.
  - rewrite <- Es. unfold mda_cell. destruct (qeq_spec (best - s1) 0) as [|NZ]; auto. right. f_equal. field. auto.
  - rewrite (Permutation_length (Hsh f j (column j xte))). unfold column. apply map_length.
Qed.
Print Assumptions c26_mda_ignored_feature.

(** C27 is false: the default embargo_pct=None raises TypeError on every data set, and get_single_feature_importance
    fails with both of the library's splitters. *)
Theorem c27_cv_defaults_refuted : forall X Y W M S (fit : list X -> list Y -> list W -> M) (score : M -> list X -> list Y -> list W -> S)
    xs ys ws events cv,
  timeseries_cv_score fit score xs ys ws (Some events) cv None None = Err TypeError /\
  (forall F (project : F -> X -> X) features n pct, features <> [] ->
     single_feature_scores fit score project features xs ys ws (Kfold n pct) = Err ValueError /\
     single_feature_scores fit score project features xs ys ws Combinatorial = Err TypeError).
Proof.
  intros X Y W M S fit score xs ys ws events cv. split; [reflexivity|]. intros F project features n pct H.
  destruct features; [congruence|]. split; reflexivity.
Qed.
Print Assumptions c27_cv_defaults_refuted.

(** C27, what holds: with a splitter that yields in-range splits by itself, single feature importance scores every
    feature on every split. *)
Theorem c27_single_feature_custom_splitter : forall X Y W M S (fit : list X -> list Y -> list W -> M) (score : M -> list X -> list Y -> list W -> S)
    F (project : F -> X -> X) features xs ys ws splits,
  length ys = length xs -> length ws = length xs ->
  (forall tr te, In (tr, te) splits -> forall i, In i tr \/ In i te -> (i < length xs)%nat) ->
  exists scores, single_feature_scores fit score project features xs ys ws (Custom splits) = Ok scores /\
    length scores = length features /\ forall s, In s scores -> length s = length splits.
Proof.
  intros X Y W M S fit score F project features xs ys ws splits Ly Lw HR.
  unfold single_feature_scores.
  assert (ONE : forall f, exists s, timeseries_cv_score fit score (map (project f) xs) ys ws None 0 (Some (Custom splits)) None = Ok s /\ length s = length splits).
  { intro f. unfold timeseries_cv_score. cbn [run_splitter bind].
    destruct (@mapM_all_ok _ _ (score_split fit score (map (project f) xs) ys ws) splits) as [bs EB].
    - intros [tr te] Hin. specialize (HR tr te Hin). unfold score_split. cbn [fst snd].
      destruct (@iloc_in_range _ (map (project f) xs) tr) as [a1 ->]; [rewrite map_length; auto|].
      destruct (@iloc_in_range _ ys tr) as [a2 ->]; [rewrite Ly; auto|].
      destruct (@iloc_in_range _ ws tr) as [a3 ->]; [rewrite Lw; auto|].
      destruct (@iloc_in_range _ (map (project f) xs) te) as [a4 ->]; [rewrite map_length; auto|].
      destruct (@iloc_in_range _ ys te) as [a5 ->]; [rewrite Ly; auto|].
      destruct (@iloc_in_range _ ws te) as [a6 ->]; [rewrite Lw; auto|]. cbn [bind]. eauto.
    - exists bs. split; auto. apply mapM_ok in EB. apply Forall2_length in EB. lia. }
  destruct (@mapM_all_ok _ _ (fun f => timeseries_cv_score fit score (map (project f) xs) ys ws None 0 (Some (Custom splits)) None) features) as [bs EB].
  - intros f _. destruct (ONE f) as [s [E _]]. eauto.
  - exists bs. split; auto. apply mapM_ok in EB. split; [apply Forall2_length in EB; lia|].
    intros s Hs. apply In_nth_error in Hs. destruct Hs as [n Hn]. revert n Hn.
    induction EB as [|f b fs bs' E _ IH]; intros n Hn; [destruct n; discriminate|].
    destruct n as [|n]; [|eapply IH; eauto]. cbn in Hn. inversion Hn; subst b. destruct (ONE f) as [s' [E' L']]. congruence.
Qed.
Print Assumptions c27_single_feature_custom_splitter.
