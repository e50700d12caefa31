(** Properties C06-C11: imbalance and runs bars. *)
From Verif Require Import Py SeriesModel SeriesSpec SeriesProofs BarsModel BarsSpec BarsProofs InfoBarsProofs RunsBarsProofs InfoBarsCausal.
Set Implicit Arguments.
Open Scope Qc_scope.

Definition sizes_add_up (ends : list nat) (n : nat) : Prop := list_sum (bar_lengths 0 ends) = n.
Lemma incr_lengths n s ends : incr_from n s ends -> (list_sum (bar_lengths s ends) = n - s)%nat.
Proof. induction 1 as [|s e es H1 H2 H3 IH]; cbn [bar_lengths list_sum fold_right]; [lia|]. unfold list_sum in IH. rewrite IH. lia. Qed.

(** C06 and C07 together: for every non-empty stream the call succeeds; cutting the ticks after each bar end gives a
    division of the stream whose bars are returned; each bar ends at the first tick where the closing rule allows it. *)
Theorem c06_c07_imbalance_bars : forall unit min max b0 E_T_init E_b T_span b_span ticks,
  ticks <> [] -> unit <> TIME -> (1 <= imb_span b_span E_T_init)%Z ->
  exists flow ends bars,
    signed_flow unit b0 ticks = Ok flow /\
    aggregate_imbalance_bars unit min max b0 E_T_init E_b T_span b_span ticks = Ok bars /\
    divides_into ticks (cut 0 ends ticks) /\ Forall2 is_bar_of (cut 0 ends ticks) bars /\
    ends_at_first_close
      (imbalance_trigger E_T_init T_span (imb_span b_span E_T_init) (imb_E_b E_b E_T_init flow) max flow)
      (size_reached min flow) (length ticks) ends.
Proof.
  intros unit min max b0 E_T_init E_b T_span b_span ticks Hne Hu Hs.
  destruct (signed_flow_ok b0 ticks Hu) as [flow [Ef El]].
  destruct (@aggregate_imbalance_ok unit min max b0 E_T_init E_b T_span b_span ticks flow Hne Ef El Hs)
    as [ends [bars [Ts [dbg [_ [H1 [H2 [H3 [_ [_ H4]]]]]]]]]].
  exists flow, ends, bars. auto 10.
Qed.
Print Assumptions c06_c07_imbalance_bars.

(** C06: the sizes reported by the bar-size routine are the tick counts of the bars and add up to the number of ticks. *)
Theorem c06_imbalance_sizes : forall P flow E_b,
  flow <> [] -> (1 <= im_b_span P)%Z ->
  exists ends Ts dbg, compute_imbalance_bar_sizes P flow E_b = Ok ((ends, Ts), dbg) /\
    Ts = map qn (map (@length _) (cut 0 ends flow)) /\
    qsum Ts = qn (length flow) /\ divides_into flow (cut 0 ends flow).
Proof.
  intros P flow E_b Hne Hs. destruct (@compute_imbalance_ok P E_b flow Hs Hne) as [ends [Ts [dbg [E [_ [H2 H3]]]]]].
  exists ends, Ts, dbg. split; auto.
  assert (EL : forall s es, incr_from (length flow) s es -> map (@length _) (cut s es flow) = bar_lengths s es).
  { intros s es H. induction H as [|s e es A B C IH]; [reflexivity|]. cbn [cut map bar_lengths]. f_equal; auto.
    rewrite firstn_length, skipn_length. lia. }
  rewrite EL by auto. split; auto. split; [|split].
  - rewrite H3. pose proof (incr_lengths H2) as L. rewrite Nat.sub_0_r in L. rewrite <- L.
    clear. generalize (bar_lengths 0 ends). induction l as [|a l IH]; [reflexivity|].
    cbn [map qsum list_sum fold_right]. rewrite IH. unfold list_sum. now rewrite qn_add.
  - apply (cut_concat flow eq_refl H2).
  - apply (cut_nonempty flow eq_refl H2).
Qed.
Print Assumptions c06_imbalance_sizes.

(** what ending at the first admissible tick means for the size of a bar *)
Lemma range_sum_nonneg_mono l s i j : (forall x, In x l -> 0 <= x) -> (i <= j)%nat -> range_sum l s i <= range_sum l s j.
Proof.
  intros Hn Hij. unfold range_sum.
  assert (E : firstn (S j - s) (skipn s l) = firstn (S i - s) (skipn s l) ++ skipn (S i - s) (firstn (S j - s) (skipn s l))).
  { rewrite <- (firstn_skipn (S i - s) (firstn (S j - s) (skipn s l))) at 1. f_equal.
    rewrite firstn_firstn. f_equal. lia. }
  rewrite E, qsum_app.
  assert (0 <= qsum (skipn (S i - s) (firstn (S j - s) (skipn s l)))).
  { apply qsum_nonneg. intros x Hx. apply Hn.
    assert (H1 : In x (firstn (S j - s) (skipn s l))).
    { rewrite <- (firstn_skipn (S i - s) (firstn (S j - s) (skipn s l))). apply in_app_iff. auto. }
    assert (H2 : In x (skipn s l)).
    { rewrite <- (firstn_skipn (S j - s) (skipn s l)). apply in_app_iff. auto. }
    rewrite <- (firstn_skipn s l). apply in_app_iff. auto. }
  qlra.
Qed.

(** C07, consequences: every bar but the last reaches min; below max before its last tick when min <= max. *)
Theorem c07_imbalance_sizes : forall E_T_init T_span b_span E_b min max flow ends k e,
  ends_at_first_close (imbalance_trigger E_T_init T_span b_span E_b max flow) (size_reached min flow) (length flow) ends ->
  nth_error ends k = Some e ->
  let s := next_start (firstn k ends) in
  ((S k < length ends)%nat -> min <= range_sum (map qabs flow) s e) /\
  (forall m i, max = Some m -> min <= m -> (Nat.max 1 s <= i < e)%nat -> range_sum (map qabs flow) s i < m).
Proof.
  intros E_T_init T_span b_span E_b min max flow ends k e [Hn [_ H]] Hk s.
  destruct (H k e Hk) as [H1 [H2 [H3 H4]]]. split.
  - intro L. destruct H4 as [[_ [Hb _]]|[C _]]; [exact Hb|lia].
  - intros m i Em Hm Hi. apply Qcnot_le_lt. intro C. apply (H3 i); [lia|].
    split; [fold s; lia|]. split.
    + unfold size_reached. fold s. qlra.
    + exists i. split; [fold s; lia|]. right. exists m. auto.
Qed.
Print Assumptions c07_imbalance_sizes.

(** C08 is false: a bar may exceed max_bar_size by its last tick (and by the whole first tick). *)
Theorem c08_max_bar_size_refuted : exists ticks max bars b,
  aggregate_imbalance_bars VOLUME 0 (Some max) 1 10 (Some 1) 0 None ticks = Ok bars /\
  In b bars /\ max < b_vol b /\ (forall t, In t ticks -> t_vol t <= max) /\ (1 < length bars)%nat.
Proof.
  exists (map (fun v => Tick 0 1 (qz v)) [3; 3; 4; 4; 1])%Z, 5.
  eexists. eexists. split; [vm_compute; reflexivity|]. split; [left; reflexivity|].
  split; [vm_compute; reflexivity|]. split.
  - intros t Ht. cbn in Ht. repeat destruct Ht as [<-|Ht]; try (vm_compute; discriminate). destruct Ht.
  - cbn. lia.
Qed.
Print Assumptions c08_max_bar_size_refuted.

(** C08, what holds: when min <= max and no single flow exceeds v < max, every bar is smaller than max + v. *)
Theorem c08_max_bar_size_overshoot : forall E_T_init T_span b_span E_b min m v flow ends k e,
  ends_at_first_close (imbalance_trigger E_T_init T_span b_span E_b (Some m) flow) (size_reached min flow) (length flow) ends ->
  (forall x, In x flow -> qabs x <= v) -> v < m -> min <= m ->
  nth_error ends k = Some e ->
  range_sum (map qabs flow) (next_start (firstn k ends)) e < m + v.
Proof.
  intros E_T_init T_span b_span E_b min m v flow ends k e HE Hv Hvm Hm Hk.
  destruct (c07_imbalance_sizes _ HE Hk) as [_ HB]. destruct HE as [Hn [_ H]].
  destruct (H k e Hk) as [H1 [H2 _]].
  set (s := next_start (firstn k ends)) in *.
  destruct (nth_error_some flow (i := e)) as [b Hb]; [lia|].
  assert (Hb' : nth_error (map qabs flow) e = Some (qabs b)) by now apply map_nth_error.
  pose proof (partial_sum_step _ H1 Hb') as E. rewrite E.
  assert (qabs b <= v) by (apply Hv; eapply nth_error_In; eauto).
  assert (partial_sum (map qabs flow) s e < m); [|qlra].
  unfold partial_sum. destruct (Nat.ltb_spec s e) as [L|L].
  - destruct (Nat.eq_dec e 1) as [->|N1].
    + assert (s = 0)%nat by lia. rewrite H3. 
      destruct (nth_error_some flow (i := 0)) as [b1 Hb1]; [lia|].
      assert (E0 : range_sum (map qabs flow) 0 (1 - 1) = qabs b1).
      { unfold range_sum. destruct flow; [discriminate|]. cbn in Hb1. inversion Hb1; subst. cbn [map skipn Nat.sub firstn qsum]. ring. }
      rewrite E0. assert (qabs b1 <= v) by (apply Hv; eapply nth_error_In; eauto). qlra.
    + apply (HB m (e - 1)%nat); auto. lia.
  - assert (0 <= qabs b) by apply qabs_nonneg. qlra.
Qed.
Print Assumptions c08_max_bar_size_overshoot.

(** C09: the bars completed on a prefix of the stream are not changed by later ticks. *)
Theorem c09_imbalance_bars_causal : forall unit min max b0 E_T_init E_b T_span b_span t1 t2 bars1 bars2,
  t1 <> [] -> unit <> TIME -> (1 <= imb_span b_span E_T_init)%Z ->
  (E_b <> None \/ (E_T_init <= length t1)%nat) ->
  aggregate_imbalance_bars unit min max b0 E_T_init E_b T_span b_span t1 = Ok bars1 ->
  aggregate_imbalance_bars unit min max b0 E_T_init E_b T_span b_span (t1 ++ t2) = Ok bars2 ->
  exists common last1 rest2, bars1 = common ++ last1 /\ bars2 = common ++ rest2 /\ (length last1 <= 1)%nat.
Proof.
  intros unit min max b0 E_T_init E_b T_span b_span t1 t2 bars1 bars2 Hne Hu Hs HE B1 B2.
  destruct (signed_flow_ok b0 t1 Hu) as [f1 [Ef1 El1]].
  destruct (@signed_flow_prefix _ _ _ t2 _ Ef1) as [f2 Ef2].
  destruct (signed_flow_ok b0 (t1 ++ t2) Hu) as [f12 [Ef12 El12]].
  assert (f12 = f1 ++ f2) by congruence. subst f12.
  assert (Hne2 : t1 ++ t2 <> []) by (destruct t1; [congruence|discriminate]).
  destruct (@aggregate_imbalance_ok unit min max b0 E_T_init E_b T_span b_span t1 f1 Hne Ef1 El1 Hs)
    as [e1 [bb1 [Ts1 [d1 [C1 [A1 [D1 [F1 [_ [I1 _]]]]]]]]]].
  destruct (@aggregate_imbalance_ok unit min max b0 E_T_init E_b T_span b_span (t1 ++ t2) (f1 ++ f2) Hne2 Ef2 El12 Hs)
    as [e2 [bb2 [Ts2 [d2 [C2 [A2 [D2 [F2 _]]]]]]]].
  assert (bb1 = bars1) by congruence. assert (bb2 = bars2) by congruence. subst bb1 bb2.
  assert (EE : imb_E_b E_b E_T_init (f1 ++ f2) = imb_E_b E_b E_T_init f1).
  { unfold imb_E_b. destruct E_b; auto. destruct HE as [HE|HE]; [congruence|].
    rewrite firstn_app. replace (E_T_init - length f1)%nat with 0%nat by lia. cbn [firstn]. now rewrite app_nil_r. }
  rewrite EE in C2. destruct (@compute_imbalance_prefix _ _ _ _ _ _ _ _ C1 C2) as [c [x1 [x2 [X1 [X2 X3]]]]].
  cbn in X1, X2. subst e1 e2.
  destruct (@common_bars t1 t2 c x1 x2 bars1 bars2) as [cm [r1 [r2 [R1 [R2 [R3 R4]]]]]]; auto.
  - intros e He. assert (K : In e (c ++ x1)) by (apply in_app_iff; auto).
    revert I1 K. generalize (c ++ x1) 0%nat. clear. intros l s G. induction G as [|s e' es A B C IH]; intros []; [subst; auto|auto].
  - exists cm, r1, r2. rewrite R4. auto.
Qed.
Print Assumptions c09_imbalance_bars_causal.

Lemma runs_rows_ok unit b0 ticks : unit <> TIME -> exists bv, runs_rows unit b0 ticks = Ok bv /\ length bv = length ticks.
Proof.
  intro Hu. destruct (tick_amounts_ok ticks Hu) as [v [Ev Lv]]. unfold runs_rows. rewrite Ev. cbn [bind].
  eexists. split; [reflexivity|]. rewrite combine_length, tick_rule_length, map_length. lia.
Qed.
Lemma runs_rows_prefix unit b0 t1 t2 bv : runs_rows unit b0 t1 = Ok bv -> exists bv2, runs_rows unit b0 (t1 ++ t2) = Ok (bv ++ bv2).
Proof.
  unfold runs_rows. destruct (tick_amounts unit t1) as [v|] eqn:Ev; cbn [bind]; [|discriminate]. intro H. inversion H; subst.
  destruct (@tick_amounts_prefix _ _ t2 _ Ev) as [v2 ->]. cbn [bind]. rewrite map_app.
  destruct (tick_rule_prefix (map t_price t1) (map t_price t2) b0) as [l ->].
  assert (L : length v = length t1).
  { destruct unit; cbn in Ev; try discriminate; inversion Ev; now rewrite map_length. }
  rewrite combine_app by (rewrite tick_rule_length, map_length; auto). eauto.
Qed.

Theorem c09_runs_bars_causal : forall unit min max b0 E_T_init p eb es T_span b_span t1 t2 bars1 bars2,
  t1 <> [] -> unit <> TIME -> (1 <= imb_span b_span E_T_init)%Z ->
  ((p <> None /\ eb <> None /\ es <> None) \/ (E_T_init <= length t1)%nat) ->
  aggregate_runs_bars unit min max b0 E_T_init p eb es T_span b_span t1 = Ok bars1 ->
  aggregate_runs_bars unit min max b0 E_T_init p eb es T_span b_span (t1 ++ t2) = Ok bars2 ->
  exists common last1 rest2, bars1 = common ++ last1 /\ bars2 = common ++ rest2 /\ (length last1 <= 1)%nat.
Proof.
  intros unit min max b0 E_T_init p eb es T_span b_span t1 t2 bars1 bars2 Hne Hu Hs HE B1 B2.
  destruct (runs_rows_ok b0 t1 Hu) as [f1 [Ef1 El1]].
  destruct (@runs_rows_prefix _ _ _ t2 _ Ef1) as [f2 Ef2].
  destruct (runs_rows_ok b0 (t1 ++ t2) Hu) as [f12 [Ef12 El12]].
  assert (f12 = f1 ++ f2) by congruence. subst f12.
  assert (Hne2 : t1 ++ t2 <> []) by (destruct t1; [congruence|discriminate]).
  assert (EI : runs_inits E_T_init p eb es (f1 ++ f2) = runs_inits E_T_init p eb es f1).
  { unfold runs_inits. destruct HE as [[H1 [H2 H3]]|HE].
    - destruct p, eb, es; (congruence || reflexivity).
    - rewrite firstn_app. replace (E_T_init - length f1)%nat with 0%nat by lia. cbn [firstn]. now rewrite app_nil_r. }
  destruct (@aggregate_runs_ok unit min max b0 E_T_init p eb es T_span b_span t1 f1 Hne Ef1 El1 Hs)
    as [[e1 [bb1 [Ts1 [d1 [C1 [A1 [D1 [F1 [_ [I1 _]]]]]]]]]]|[X _]]; [|congruence].
  destruct (@aggregate_runs_ok unit min max b0 E_T_init p eb es T_span b_span (t1 ++ t2) (f1 ++ f2) Hne2 Ef2 El12 Hs)
    as [[e2 [bb2 [Ts2 [d2 [C2 [A2 [D2 [F2 _]]]]]]]]|[X _]]; [|congruence].
  assert (bb1 = bars1) by congruence. assert (bb2 = bars2) by congruence. subst bb1 bb2.
  rewrite EI in C2. destruct (@compute_runs_prefix _ _ _ _ _ _ _ _ _ _ C1 C2) as [c [x1 [x2 [X1 [X2 X3]]]]].
  cbn in X1, X2. subst e1 e2.
  destruct (@common_bars t1 t2 c x1 x2 bars1 bars2) as [cm [r1 [r2 [R1 [R2 [R3 R4]]]]]]; auto.
  - intros e He. assert (K : In e (c ++ x1)) by (apply in_app_iff; auto).
    revert I1 K. generalize (c ++ x1) 0%nat. clear. intros l s G. induction G as [|s e' es A B C IH]; intros []; [subst; auto|auto].
  - exists cm, r1, r2. rewrite R4. auto.
Qed.
Print Assumptions c09_runs_bars_causal.

(** C10: when the call succeeds, the runs bars divide the ticks and close at the first tick the closing rule allows;
    with all initial expectations given, the first threshold is E_T * max(P*E_buy, (1-P)*E_sell). *)
Theorem c10_runs_bars : forall unit min max b0 E_T_init p eb es T_span b_span ticks bars,
  ticks <> [] -> unit <> TIME -> (1 <= imb_span b_span E_T_init)%Z ->
  aggregate_runs_bars unit min max b0 E_T_init p eb es T_span b_span ticks = Ok bars ->
  exists amount ends thr0,
    tick_amounts unit ticks = Ok amount /\
    let bv := combine (tick_rule (map t_price ticks) b0) amount in
    divides_into ticks (cut 0 ends ticks) /\ Forall2 is_bar_of (cut 0 ends ticks) bars /\
    ends_at_first_close (runs_trigger T_span (imb_span b_span E_T_init) thr0 max bv) (runs_size_reached min bv)
      (length ticks) ends /\
    (forall P0 B0 S0, p = Some P0 -> eb = Some B0 -> es = Some S0 ->
       thr0 = Some (qn E_T_init * qmax (P0 * B0) ((1 - P0) * S0))).
Proof.
  intros unit min max b0 E_T_init p eb es T_span b_span ticks bars Hne Hu Hs HB.
  destruct (tick_amounts_ok ticks Hu) as [v [Ev Lv]].
  destruct (runs_rows_ok b0 ticks Hu) as [bv [Ebv Lbv]].
  assert (E : bv = combine (tick_rule (map t_price ticks) b0) v).
  { unfold runs_rows in Ebv. rewrite Ev in Ebv. cbn in Ebv. congruence. }
  destruct (@aggregate_runs_ok unit min max b0 E_T_init p eb es T_span b_span ticks bv Hne Ebv Lbv Hs)
    as [[e1 [bb1 [Ts1 [d1 [C1 [A1 [D1 [F1 [_ [I1 H1]]]]]]]]]]|[X _]]; [|congruence].
  assert (bb1 = bars) by congruence. subst bb1.
  eexists. exists e1. eexists. split; [exact Ev|]. rewrite <- E. cbv zeta. split; [exact D1|]. split; [exact F1|].
  split; [exact H1|].
  intros P0 B0 S0 -> -> ->. cbn [runs_inits fst snd]. unfold runs_threshold, omul, py_max. f_equal.
  set (A := P0 * B0). set (B := (1 - P0) * S0). clearbody A B.
  unfold qmax. destruct (qlt_spec A B), (qle_spec A B); auto; try (exfalso; qlra).
  do 2 f_equal. apply Qcle_antisym; qlra.
Qed.
Print Assumptions c10_runs_bars.

(** C10: the buy share of every bar is a proportion. *)
Theorem c10_buy_shares_are_proportions : forall bv ends n,
  length bv = n -> (forall x, nth_error bv 0 = Some x -> fst x <= 1) -> incr_from n 0 ends ->
  forall x, In x (buy_shares bv 0 ends) -> 0 <= x /\ x <= 1.
Proof.
  intros bv ends n Hl Hb H.
  assert (C : forall y, In y (buy_counts bv) -> 0 <= y /\ y <= 1).
  { unfold buy_counts. destruct bv as [|x l]; [intros ? []|]. specialize (Hb x eq_refl).
    intros y [<-|Hy].
    - destruct (qle_spec 0 (fst x)); split; auto; qlra.
    - apply in_map_iff in Hy. destruct Hy as [z [<- _]]. destruct (qle 0 (fst z)); split; qlra. }
  clear Hb. induction H as [|s e es H1 H2 H3 IH]; intros x Hx; [destruct Hx|].
  cbn [buy_shares] in Hx. destruct Hx as [<-|Hx]; auto.
  assert (Lp : 0 < qn (S e - s)) by (apply qn_pos; lia).
  assert (B : forall l, (forall y, In y l -> 0 <= y /\ y <= 1) -> 0 <= qsum l /\ qsum l <= qn (length l)).
  { clear. induction l as [|a l IH]; intro H; cbn [qsum length].
    - split; apply Qcle_refl.
    - destruct (H a (or_introl eq_refl)). destruct IH as [A B]; [intros; apply H; now right|].
      rewrite qn_S. split; qlra. }
  destruct (B (firstn (S e - s) (skipn s (buy_counts bv)))) as [B1 B2].
  { intros y Hy. apply C. rewrite <- (firstn_skipn s (buy_counts bv)). apply in_app_iff. right.
    rewrite <- (firstn_skipn (S e - s) (skipn s (buy_counts bv))). apply in_app_iff. auto. }
  fold (range_sum (buy_counts bv) s e) in B1, B2.
  assert (L : (length (firstn (S e - s) (skipn s (buy_counts bv))) <= S e - s)%nat) by (rewrite firstn_length; lia).
  apply qn_le in L.
  split.
  - apply Qcdiv_nonneg; auto.
  - apply Qcdiv_le_iff; auto. qlra.
Qed.
Print Assumptions c10_buy_shares_are_proportions.

(** C11 is false: on a rising price stream the first completed bar needs the mean of an empty list of sells. *)
Theorem c11_runs_bars_refuted : exists ticks,
  ticks <> [] /\ (forall t, In t ticks -> 0 < t_price t /\ 0 < t_vol t) /\
  aggregate_runs_bars TICK 0 None 1 2 None None None 0 None ticks = Err IndexError.
Proof.
  exists (map (fun p => Tick 0 (qz p) 1) [10; 11; 12; 13])%Z. split; [discriminate|]. split.
  - intros t Ht. cbn in Ht. repeat destruct Ht as [<-|Ht]; try (split; vm_compute; reflexivity). destruct Ht.
  - vm_compute. reflexivity.
Qed.
Print Assumptions c11_runs_bars_refuted.

(** C11, what holds: the only failure is IndexError, and the call succeeds when min_bar_size is larger than everything
    traded before both an up-tick and a down-tick have been seen. *)
Theorem c11_runs_bars_two_sided : forall unit min max b0 E_T_init p eb es T_span b_span ticks amount,
  ticks <> [] -> unit <> TIME -> (1 <= imb_span b_span E_T_init)%Z ->
  tick_amounts unit ticks = Ok amount -> (forall v, In v amount -> 0 <= v) ->
  (exists m i j bi bj,
     (1 <= i <= m)%nat /\ nth_error (tick_rule (map t_price ticks) b0) i = Some bi /\ 0 <= bi /\
     (1 <= j <= m)%nat /\ nth_error (tick_rule (map t_price ticks) b0) j = Some bj /\ bj < 0 /\
     range_sum amount 0 (m - 1) < min) ->
  exists bars, aggregate_runs_bars unit min max b0 E_T_init p eb es T_span b_span ticks = Ok bars.
Proof.
  intros unit min max b0 E_T_init p eb es T_span b_span ticks v Hne Hu Hs Ev Hv
    [m [i [j [bi [bj [Hi [Ni [Bi [Hj [Nj [Bj Hm]]]]]]]]]]].
  destruct (runs_rows_ok b0 ticks Hu) as [bv [Ebv Lbv]].
  assert (E : bv = combine (tick_rule (map t_price ticks) b0) v).
  { unfold runs_rows in Ebv. rewrite Ev in Ebv. cbn in Ebv. congruence. }
  assert (Lv : length v = length ticks).
  { destruct (tick_amounts_ok ticks Hu) as [v' [Ev' Lv]]. congruence. }
  assert (Lt : length (tick_rule (map t_price ticks) b0) = length v) by (rewrite tick_rule_length, map_length; auto).
  destruct (@aggregate_runs_ok unit min max b0 E_T_init p eb es T_span b_span ticks bv Hne Ebv Lbv Hs)
    as [[e1 [bb1 [Ts1 [d1 [C1 [A1 _]]]]]]|[_ OS]]; [eauto|exfalso].
  destruct OS as [h [k [Hfirst [Hopen [Hclose [Hk Hboth]]]]]].
  (* both sides are seen from m on *)
  assert (BS : forall k', (m <= k')%nat -> (k' < length bv)%nat -> both_sides bv k').
  { intros k' Hk' Hl.
    assert (IN : forall x, (1 <= x <= k')%nat -> forall r, nth_error bv x = Some r -> In r (tl (firstn (S k') bv))).
    { intros x Hx r Hr. clear -Hx Hr. destruct bv as [|y l]; [destruct x; discriminate|]. destruct x as [|x]; [lia|].
      cbn in Hr |- *. apply nth_error_In with x. rewrite nth_error_firstn_lt by lia. auto. }
    destruct (nth_error_some v (i := i)) as [vi Vi]; [rewrite <- Lt; apply nth_error_Some; congruence|].
    destruct (nth_error_some v (i := j)) as [vj Vj]; [rewrite <- Lt; apply nth_error_Some; congruence|].
    pose proof (nth_error_combine _ _ _ Ni Vi) as Ci. pose proof (nth_error_combine _ _ _ Nj Vj) as Cj.
    rewrite <- E in Ci, Cj. apply IN in Ci; [|lia]. apply IN in Cj; [|lia].
    unfold both_sides, buys_upto, sells_upto. split; intro C; apply map_eq_nil in C.
    - assert (F : In (bi, vi) (filter (fun x => qle 0 (fst x)) (tl (firstn (S k') bv)))).
      { apply filter_In. split; auto. now apply qle_iff. }
      now rewrite C in F.
    - assert (F : In (bj, vj) (filter (fun x => negb (qle 0 (fst x))) (tl (firstn (S k') bv)))).
      { apply filter_In. split; auto. cbn. destruct (qle_spec 0 bj); auto. exfalso; qlra. }
      now rewrite C in F. }
  apply Hboth. apply BS; auto.
  assert (AM : amounts bv = v) by (unfold amounts; rewrite E; now apply combine_snd).
  (* a bar that starts at 0 cannot close before m *)
  assert (F0 : forall x, may_close (runs_trigger T_span (imb_span b_span E_T_init)
      (runs_threshold (qn E_T_init) (fst (fst (runs_inits E_T_init p eb es bv))) (snd (fst (runs_inits E_T_init p eb es bv))) (snd (runs_inits E_T_init p eb es bv)))
      max bv) (runs_size_reached min bv) [] x -> (m <= x)%nat).
  { intros x [_ [Hb _]]. unfold runs_size_reached in Hb. rewrite AM in Hb. cbn [next_start] in Hb.
    destruct (Nat.le_gt_cases m x) as [|L]; auto. exfalso.
    assert (range_sum v 0 x <= range_sum v 0 (m - 1)) by (apply range_sum_nonneg_mono; auto; lia). qlra. }
  cbn [im_T_span im_b_span im_E_T_init im_max im_min] in *.
  destruct h as [|e0 h]; [now apply F0|].
  destruct (Hfirst 0%nat e0 eq_refl) as [_ [_ Hc0]]. cbn [firstn] in Hc0. apply F0 in Hc0.
  destruct Hclose as [Hge _].
  assert (INC : (S e0 <= next_start (e0 :: h))%nat).
  { clear -Hfirst. induction h as [|x h IH] using rev_ind; [cbn; lia|].
    rewrite app_comm_cons, next_start_snoc.
    assert (Hf' : all_first (runs_trigger T_span (imb_span b_span E_T_init)
      (runs_threshold (qn E_T_init) (fst (fst (runs_inits E_T_init p eb es bv))) (snd (fst (runs_inits E_T_init p eb es bv))) (snd (runs_inits E_T_init p eb es bv)))
      max bv) (runs_size_reached min bv) (e0 :: h)).
    { intros k y Hk. assert (L : (k < length (e0 :: h))%nat) by (apply nth_error_Some; congruence).
      specialize (Hfirst k y). rewrite app_comm_cons, nth_error_app1 in Hfirst by auto. specialize (Hfirst Hk).
      rewrite firstn_app in Hfirst. replace (k - length (e0 :: h))%nat with 0%nat in Hfirst by lia. cbn [firstn] in Hfirst.
      now rewrite app_nil_r in Hfirst. }
    specialize (IH Hf').
    destruct (Hfirst (length (e0 :: h)) x) as [H1 _].
    { rewrite app_comm_cons, nth_error_app2, Nat.sub_diag by lia. reflexivity. }
    rewrite app_comm_cons, firstn_app, firstn_all, Nat.sub_diag in H1. cbn [firstn] in H1. rewrite app_nil_r in H1. lia. }
  lia.
Qed.
Print Assumptions c11_runs_bars_two_sided.

(** concrete runs *)
Definition zigzag : list tick := map (fun p => Tick p (qz (10 + p mod 3)) 2) [0; 1; 2; 3; 4; 5; 6; 7; 8]%Z.
Example c06_sample : exists b, aggregate_imbalance_bars TICK 0 None 1 3 None 0 None zigzag = Ok b /\ map b_time b = [0; 3]%Z.
Proof. eexists. split; [vm_compute; reflexivity|]. vm_compute. reflexivity. Qed.
Example c10_sample : exists b, aggregate_runs_bars VOLUME 8 None 1 3 None None None 0 None zigzag = Ok b /\ map b_time b = [0; 4; 8]%Z.
Proof. eexists. split; [vm_compute; reflexivity|]. vm_compute. reflexivity. Qed.

(** ** The flow of a tick: its sign (of the last price move, C14) times 1, its volume or its value *)
Definition amount_of (unit : bar_unit) (t : tick) : Qc := match unit with VOLUME => t_vol t | DOLLARS => t_price t * t_vol t | _ => 1 end.
Theorem c06_signed_flow unit b0 ticks i t s : unit <> TIME -> nth_error ticks i = Some t -> nth_error (tick_rule (map t_price ticks) b0) i = Some s ->
  exists flow amounts, signed_flow unit b0 ticks = Ok flow /\ tick_amounts unit ticks = Ok amounts /\ length flow = length ticks /\ length amounts = length ticks /\
    nth_error flow i = Some (s * amount_of unit t) /\ nth_error amounts i = Some (amount_of unit t).
Proof.
  intros Hu Ht Hs. pose proof (tick_rule_length (map t_price ticks) b0) as LT. rewrite map_length in LT.
  assert (HC : nth_error (combine (tick_rule (map t_price ticks) b0) ticks) i = Some (s, t)) by now apply nth_error_combine.
  unfold signed_flow, tick_amounts. destruct unit; [congruence| | |]; do 2 eexists; (split; [reflexivity|]); (split; [reflexivity|]); rewrite ?map_length, ?combine_length, ?LT, ?Nat.min_id;
    (split; [reflexivity|]); (split; [reflexivity|]); rewrite ?nth_error_map, ?HC, ?Ht; cbn [option_map fst snd amount_of]; split; auto. rewrite Hs. f_equal. ring.
Qed.
Print Assumptions c06_signed_flow.
Theorem c06_time_unit b0 ticks : signed_flow TIME b0 ticks = Err NotImplementedError /\ tick_amounts TIME ticks = Err NotImplementedError.
Proof. split; reflexivity. Qed.
Print Assumptions c06_time_unit.

(** the first threshold, from the initial expectations; a missing expectation of the sells leaves the buy side, other missing ones make it NaN *)
Definition initial_runs_threshold (E_T_init : nat) (I : option Qc * option Qc * option Qc) : option Qc :=
  match I with
  | (Some p, Some eb, Some es) => Some (qn E_T_init * qmax (p * eb) ((1 - p) * es))
  | (Some p, Some eb, None) => Some (qn E_T_init * (p * eb))
  | _ => None
  end.
(** C11: the exception exactly.  The call fails if and only if the first bar would close at a tick up to which - the first tick aside - all ticks were buys or all were sells. *)
Theorem c11_runs_error_exactly : forall unit min max b0 E_T_init p eb es T_span b_span ticks amount,
  ticks <> [] -> unit <> TIME -> (1 <= imb_span b_span E_T_init)%Z -> tick_amounts unit ticks = Ok amount ->
  let dirs := tick_rule (map t_price ticks) b0 in
  let bv := combine dirs amount in
  let first := may_close (runs_trigger T_span (imb_span b_span E_T_init) (initial_runs_threshold E_T_init (runs_inits E_T_init p eb es bv)) max bv) (runs_size_reached min bv) [] in
  aggregate_runs_bars unit min max b0 E_T_init p eb es T_span b_span ticks = Err IndexError <->
  exists i, (i < length ticks)%nat /\ first i /\ (forall j, (j < i)%nat -> ~ first j) /\
    ((forall j b, (1 <= j <= i)%nat -> nth_error dirs j = Some b -> 0 <= b) \/ (forall j b, (1 <= j <= i)%nat -> nth_error dirs j = Some b -> b < 0)).
Proof.
  intros unit min max b0 E_T_init p eb es T_span b_span ticks v Hne Hu Hs Ev dirs bv first.
  destruct (runs_rows_ok b0 ticks Hu) as [bv' [Ebv Lbv]]. assert (E : bv' = bv) by (unfold runs_rows in Ebv; rewrite Ev in Ebv; cbn [bind] in Ebv; unfold bv, dirs; congruence). subst bv'.
  assert (Lv : length v = length ticks) by (destruct (tick_amounts_ok ticks Hu) as [v' [Ev' Lv]]; congruence).
  assert (Ld : length dirs = length v) by (unfold dirs; rewrite tick_rule_length, map_length; auto).
  assert (NB : bv <> []) by (intro C; apply Hne; apply length_zero_iff_nil; rewrite <- Lbv, C; reflexivity).
  set (I := runs_inits E_T_init p eb es bv) in *. set (P := ImbParams min max E_T_init T_span (imb_span b_span E_T_init)).
  pose proof (@compute_runs_error P (fst (fst I)) (snd (fst I)) (snd I) bv Hs NB) as CE.
  assert (T0 : runs_threshold (qn (im_E_T_init P)) (fst (fst I)) (snd (fst I)) (snd I) = initial_runs_threshold E_T_init I).
  { destruct I as [[[p0|] [e0|]] [s0|]]; cbn [fst snd initial_runs_threshold im_E_T_init P]; auto. unfold runs_threshold, omul, py_max. f_equal. rewrite <- qmax_py_eq. unfold qmax_py. now destruct (qlt (p0 * e0) ((1 - p0) * s0)). }
  assert (AG : aggregate_runs_bars unit min max b0 E_T_init p eb es T_span b_span ticks = Err IndexError <-> compute_runs_bar_sizes P bv (fst (fst I)) (snd (fst I)) (snd I) = Err IndexError).
  { rewrite (@aggregate_runs_unfold unit min max b0 E_T_init p eb es T_span b_span ticks bv Ebv). fold I P.
    destruct (@compute_runs_ok P (fst (fst I)) (snd (fst I)) (snd I) bv Hs NB) as [(ends & Ts & dbg & EC & H1 & H2 & H3)|[EC _]]; rewrite EC; cbn [bind fst]; [|split; auto].
    rewrite Lbv in H2. destruct (group_by_ends Hne H2) as [bars [EB _]]. rewrite EB. split; discriminate. }
  rewrite AG, CE. clear AG CE. unfold first_close_one_sided. cbn [im_T_span im_b_span im_max im_min P]. unfold first. rewrite T0. clear T0.
  assert (BS : forall i, (i < length bv)%nat -> (~ both_sides bv i <-> ((forall j b, (1 <= j <= i)%nat -> nth_error dirs j = Some b -> 0 <= b) \/ (forall j b, (1 <= j <= i)%nat -> nth_error dirs j = Some b -> b < 0)))).
  { intros i Hi. assert (IN : forall r, In r (tl (firstn (S i) bv)) <-> exists j, (1 <= j <= i)%nat /\ nth_error bv j = Some r).
    { intro r. clear - Hi NB. destruct bv as [|y l]; [congruence|]. cbn [firstn tl]. split.
      - intro H. apply In_nth_error in H. destruct H as [j Hj]. assert (L : (j < length (firstn i l))%nat) by (apply nth_error_Some; congruence). rewrite firstn_length in L. exists (S j). split; [lia|]. cbn [nth_error]. rewrite <- Hj. symmetry. apply nth_error_firstn_lt. lia.
      - intros (j & Hj & E). destruct j as [|j]; [lia|]. cbn [nth_error] in E. apply nth_error_In with j. rewrite nth_error_firstn_lt by lia. auto. }
    assert (DB : forall j b, (j < length bv)%nat -> nth_error dirs j = Some b -> exists r, nth_error bv j = Some r /\ fst r = b).
    { intros j b Hj E. destruct (nth_error_some v (i := j)) as [vj Vj]; [rewrite Lv, <- Lbv; auto|]. exists (b, vj). split; auto. unfold bv. now apply nth_error_combine. }
    assert (BD : forall j r, nth_error bv j = Some r -> nth_error dirs j = Some (fst r)).
    { intros j r E. rewrite <- (@combine_fst _ _ dirs v Ld). fold bv. now apply map_nth_error. }
    unfold both_sides, buys_upto, sells_upto. split.
    - intro N. destruct (filter (fun x => qle 0 (fst x)) (tl (firstn (S i) bv))) as [|x xs] eqn:FB.
      + right. intros j b Hj E. destruct (DB j b) as (r & Er & <-); [lia|auto|]. destruct (qle_spec 0 (fst r)) as [Q|Q]; [|qlra]. exfalso.
        assert (F : In r []) by (rewrite <- FB; apply filter_In; split; [apply IN; eauto|now apply qle_iff]). destruct F.
      + destruct (filter (fun x => negb (qle 0 (fst x))) (tl (firstn (S i) bv))) as [|y ys] eqn:FS; [|exfalso; apply N; split; discriminate].
        left. intros j b Hj E. destruct (DB j b) as (r & Er & <-); [lia|auto|]. destruct (qle_spec 0 (fst r)) as [Q|Q]; auto. exfalso.
        assert (F : In r []) by (rewrite <- FS; apply filter_In; split; [apply IN; eauto|destruct (qle_spec 0 (fst r)); auto; qlra]). destruct F.
    - intros [H|H] [N1 N2]; [apply N2|apply N1].
      + destruct (filter (fun x => negb (qle 0 (fst x))) (tl (firstn (S i) bv))) as [|y ys] eqn:FS; [reflexivity|]. exfalso. assert (F : In y (y :: ys)) by now left. rewrite <- FS in F. apply filter_In in F. destruct F as [F1 F2]. apply IN in F1. destruct F1 as (j & Hj & Ej).
        specialize (H j (fst y) Hj (BD _ _ Ej)). apply qle_iff in H. rewrite H in F2. discriminate.
      + destruct (filter (fun x => qle 0 (fst x)) (tl (firstn (S i) bv))) as [|y ys] eqn:FS; [reflexivity|]. exfalso. assert (F : In y (y :: ys)) by now left. rewrite <- FS in F. apply filter_In in F. destruct F as [F1 F2]. apply IN in F1. destruct F1 as (j & Hj & Ej).
        specialize (H j (fst y) Hj (BD _ _ Ej)). apply qle_iff in F2. qlra. }
  split; [intros (i & H3 & H2 & H1 & H4)|intros (i & H1 & H2 & H3 & H4)]; exists i.
  - rewrite <- Lbv. split; auto. split; auto. split; auto. now apply BS.
  - rewrite <- Lbv in H1. split; auto. split; auto. split; auto. now apply BS.
Qed.
Print Assumptions c11_runs_error_exactly.
