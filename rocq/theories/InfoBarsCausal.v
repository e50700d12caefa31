From Verif Require Import Py SeriesModel SeriesSpec SeriesProofs BarsModel BarsSpec BarsProofs InfoBarsProofs RunsBarsProofs.
Set Implicit Arguments.
Open Scope Qc_scope.

(** *** flows *)
Lemma tick_rule_prefix ps ps2 b0 : exists l, tick_rule (ps ++ ps2) b0 = tick_rule ps b0 ++ l.
Proof.
  exists (skipn (length ps) (tick_rule (ps ++ ps2) b0)).
  rewrite <- (tick_rule_app ps ps2 b0). symmetry. apply firstn_skipn.
Qed.

Lemma map_combine_length A B C (f : A * B -> C) a b : length a = length b -> length (map f (combine a b)) = length b.
Proof. intro H. rewrite map_length, combine_length. lia. Qed.

Lemma signed_flow_ok unit b0 ticks : unit <> TIME ->
  exists f, signed_flow unit b0 ticks = Ok f /\ length f = length ticks.
Proof.
  intro H. assert (L : length (tick_rule (map t_price ticks) b0) = length ticks) by now rewrite tick_rule_length, map_length.
  unfold signed_flow. destruct unit; [congruence| | |]; eexists; (split; [reflexivity|]); auto; now rewrite map_combine_length.
Qed.

Lemma signed_flow_prefix unit b0 t1 t2 f : signed_flow unit b0 t1 = Ok f ->
  exists f2, signed_flow unit b0 (t1 ++ t2) = Ok (f ++ f2).
Proof.
  intro E. assert (L : length (tick_rule (map t_price t1) b0) = length t1) by now rewrite tick_rule_length, map_length.
  unfold signed_flow in *. rewrite map_app. destruct (tick_rule_prefix (map t_price t1) (map t_price t2) b0) as [l El].
  rewrite El. destruct unit; [discriminate| | |]; inversion E; subst; clear E;
    rewrite ?combine_app, ?map_app by auto; eauto.
Qed.

(** *** cutting a longer stream *)
Lemma cut_app A (l : list A) a b s :
  cut s (a ++ b) l = cut s a l ++ cut (match a with [] => s | _ => S (last a 0%nat) end) b l.
Proof.
  revert s. induction a as [|e a IH]; intro s; [reflexivity|].
  cbn [app cut]. rewrite IH. do 2 f_equal. destruct a; reflexivity.
Qed.
Lemma cut_prefix A (l1 l2 : list A) c : forall s,
  (forall e, In e c -> (e < length l1)%nat) -> incr_from (length l1) s c \/ True ->
  cut s c (l1 ++ l2) = cut s c l1.
Proof.
  induction c as [|e c IH]; intros s H _; [reflexivity|]. cbn [cut]. f_equal.
  - assert (e < length l1)%nat by (apply H; now left).
    rewrite skipn_app, firstn_app. rewrite skipn_length.
    replace (firstn (S e - s - (length l1 - s)) (skipn (s - length l1) l2)) with (@nil A); [apply app_nil_r|].
    replace (S e - s - (length l1 - s))%nat with 0%nat by lia. reflexivity.
  - apply IH; auto. intros; apply H; now right.
Qed.

Lemma bars_unique gs b1 b2 : Forall2 is_bar_of gs b1 -> Forall2 is_bar_of gs b2 -> b1 = b2.
Proof.
  intro H. revert b2. induction H as [|g b gs bs Hb _ IH]; intros b2 H2; inversion H2; subst; auto.
  f_equal; eauto using is_bar_of_unique.
Qed.

Lemma common_bars t1 t2 c e1 e2 bars1 bars2 :
  (forall e, In e c -> (e < length t1)%nat) ->
  Forall2 is_bar_of (cut 0 (c ++ e1) t1) bars1 -> Forall2 is_bar_of (cut 0 (c ++ e2) (t1 ++ t2)) bars2 ->
  exists common r1 r2, bars1 = common ++ r1 /\ bars2 = common ++ r2 /\
    length common = length c /\ length r1 = length e1.
Proof.
  intros Hc F1 F2. rewrite cut_app in F1, F2. rewrite cut_prefix in F2 by auto.
  apply Forall2_app_inv_l in F1. destruct F1 as [x1 [y1 [A1 [B1 ->]]]].
  apply Forall2_app_inv_l in F2. destruct F2 as [x2 [y2 [A2 [B2 ->]]]].
  assert (x1 = x2) by (eapply bars_unique; eauto). subst x2.
  assert (CL : forall s es (l : list tick), length (cut s es l) = length es).
  { intros s es l. revert s. induction es; intro; cbn; auto. }
  exists x1, y1, y2. split; [auto|]. split; [auto|].
  apply Forall2_length in A1. apply Forall2_length in B1. rewrite CL in A1, B1. auto.
Qed.

(** *** imbalance loop on a longer stream *)
Lemma imb_step_prefix P f1 f2 i b s : (i <= length f1)%nat -> imb_step P (f1 ++ f2) i b s = imb_step P f1 i b s.
Proof.
  intro H. unfold imb_step, imb_threshold. rewrite firstn_app. replace (i - length f1)%nat with 0%nat by lia.
  cbn [firstn]. rewrite app_nil_r. reflexivity.
Qed.
Lemma imb_loop_prefix P f1 f2 rest : forall i s, (i + length rest <= length f1)%nat ->
  imb_loop P (f1 ++ f2) rest i s = imb_loop P f1 rest i s.
Proof.
  induction rest as [|b rest IH]; intros i s H; [reflexivity|]. cbn [imb_loop length] in *.
  rewrite imb_step_prefix by lia. destruct (imb_step P f1 i b s); cbn [bind]; auto. apply IH. lia.
Qed.
Lemma imb_loop_app P f r1 r2 : forall i s,
  imb_loop P f (r1 ++ r2) i s = (do s' <- imb_loop P f r1 i s; imb_loop P f r2 (i + length r1) s').
Proof.
  induction r1 as [|b r1 IH]; intros i s; cbn [imb_loop app length].
  - cbn [bind]. now rewrite Nat.add_0_r.
  - destruct (imb_step P f i b s); cbn [bind]; auto. rewrite IH. now rewrite Nat.add_succ_r.
Qed.
Lemma imb_step_grows P f i b s s' : imb_step P f i b s = Ok s' -> exists l, i_ends s' = l ++ i_ends s.
Proof.
  unfold imb_step. cbv zeta. destruct (_ || _); [destruct (qlt _ _)|]; intro H.
  - inversion H. exists []. reflexivity.
  - destruct (imb_threshold _ _ _ _); cbn [bind] in H; inversion H. exists [i]. reflexivity.
  - inversion H. exists []. reflexivity.
Qed.
Lemma imb_loop_grows P f r : forall i s s', imb_loop P f r i s = Ok s' -> exists l, i_ends s' = l ++ i_ends s.
Proof.
  induction r as [|b r IH]; intros i s s' H; cbn [imb_loop] in H.
  - inversion H. exists []. reflexivity.
  - destruct (imb_step P f i b s) as [s1|] eqn:E; cbn [bind] in H; [|discriminate].
    apply imb_step_grows in E. apply IH in H. destruct E as [l1 E], H as [l2 H].
    exists (l2 ++ l1). rewrite H, E. apply app_assoc.
Qed.

Lemma imb_finish_shape n s : exists e, fst (imb_finish n s) = rev (i_ends s) ++ e /\ (length e <= 1)%nat.
Proof.
  unfold imb_finish. destruct (_ <? _)%nat; cbn [fst].
  - exists [(n - 1)%nat]. auto.
  - exists []. rewrite app_nil_r. auto.
Qed.

Lemma compute_imbalance_prefix P f1 f2 E_b r1 d1 r2 d2 :
  compute_imbalance_bar_sizes P f1 E_b = Ok (r1, d1) ->
  compute_imbalance_bar_sizes P (f1 ++ f2) E_b = Ok (r2, d2) ->
  exists c e1 e2, fst r1 = c ++ e1 /\ fst r2 = c ++ e2 /\ (length e1 <= 1)%nat.
Proof.
  unfold compute_imbalance_bar_sizes. destruct f1 as [|b0 f1]; [discriminate|]. cbn [app].
  change (b0 :: f1 ++ f2) with ((b0 :: f1) ++ f2). intros H1 H2.
  rewrite imb_loop_app in H2. rewrite imb_loop_prefix in H2 by (cbn; lia).
  destruct (imb_loop P (b0 :: f1) f1 1 (imb_init P E_b b0)) as [s|]; cbn [bind] in *; [|discriminate].
  destruct (imb_loop P ((b0 :: f1) ++ f2) f2 (1 + length f1) s) as [s'|] eqn:E; cbn [bind] in *; [|discriminate].
  apply imb_loop_grows in E. destruct E as [l El]. inversion H1; inversion H2; subst.
  destruct (imb_finish_shape (length (b0 :: f1)) s) as [e1 [A1 A2]].
  destruct (imb_finish_shape (length ((b0 :: f1) ++ f2)) s') as [e2 [B1 B2]].
  rewrite El, rev_app_distr, <- app_assoc in B1.
  exists (rev (i_ends s)), e1, (rev l ++ e2). auto.
Qed.

(** *** runs loop on a longer stream *)
Lemma runs_loop_app P r1 r2 : forall i s,
  runs_loop P (r1 ++ r2) i s = (do s' <- runs_loop P r1 i s; runs_loop P r2 (i + length r1) s').
Proof.
  induction r1 as [|[b v] r1 IH]; intros i s; cbn [runs_loop app length].
  - cbn [bind]. now rewrite Nat.add_0_r.
  - destruct (runs_step P i b v s); cbn [bind]; auto. rewrite IH. now rewrite Nat.add_succ_r.
Qed.
Lemma runs_step_grows P i b v s s' : runs_step P i b v s = Ok s' -> exists l, r_ends s' = l ++ r_ends s.
Proof.
  unfold runs_step. cbv zeta. destruct (_ || _); [destruct (qlt _ (im_min P))|]; intro H.
  - inversion H. exists []. reflexivity.
  - repeat match type of H with context [bind ?x _] => destruct x; cbn [bind] in H; [|discriminate] end.
    inversion H. exists [i]. reflexivity.
  - inversion H. exists []. reflexivity.
Qed.
Lemma runs_loop_grows P r : forall i s s', runs_loop P r i s = Ok s' -> exists l, r_ends s' = l ++ r_ends s.
Proof.
  induction r as [|[b v] r IH]; intros i s s' H; cbn [runs_loop] in H.
  - inversion H. exists []. reflexivity.
  - destruct (runs_step P i b v s) as [s1|] eqn:E; cbn [bind] in H; [|discriminate].
    apply runs_step_grows in E. apply IH in H. destruct E as [l1 E], H as [l2 H].
    exists (l2 ++ l1). rewrite H, E. apply app_assoc.
Qed.
Lemma runs_finish_shape n s : exists e, fst (runs_finish n s) = rev (r_ends s) ++ e /\ (length e <= 1)%nat.
Proof.
  unfold runs_finish. destruct (_ <? _)%nat; cbn [fst].
  - exists [(n - 1)%nat]. auto.
  - exists []. rewrite app_nil_r. auto.
Qed.
Lemma compute_runs_prefix P f1 f2 pb eb es r1 d1 r2 d2 :
  compute_runs_bar_sizes P f1 pb eb es = Ok (r1, d1) ->
  compute_runs_bar_sizes P (f1 ++ f2) pb eb es = Ok (r2, d2) ->
  exists c e1 e2, fst r1 = c ++ e1 /\ fst r2 = c ++ e2 /\ (length e1 <= 1)%nat.
Proof.
  unfold compute_runs_bar_sizes. destruct f1 as [|[b0 v0] f1]; [discriminate|]. cbn [app].
  intros H1 H2. rewrite runs_loop_app in H2.
  destruct (runs_loop P f1 1 (runs_init P pb eb es b0 v0)) as [s|]; cbn [bind] in *; [|discriminate].
  destruct (runs_loop P f2 (1 + length f1) s) as [s'|] eqn:E; cbn [bind] in *; [|discriminate].
  apply runs_loop_grows in E. destruct E as [l El]. inversion H1; inversion H2; subst.
  destruct (runs_finish_shape (length ((b0, v0) :: f1)) s) as [e1 [A1 A2]].
  destruct (runs_finish_shape (length ((b0, v0) :: f1 ++ f2)) s') as [e2 [B1 B2]].
  rewrite El, rev_app_distr, <- app_assoc in B1.
  exists (rev (r_ends s)), e1, (rev l ++ e2). auto.
Qed.

(** *** the whole functions *)
Lemma aggregate_imbalance_ok unit min max b0 E_T_init E_b T_span b_span ticks flow :
  ticks <> [] -> signed_flow unit b0 ticks = Ok flow -> length flow = length ticks ->
  (1 <= imb_span b_span E_T_init)%Z ->
  exists ends bars Ts dbg,
    compute_imbalance_bar_sizes (ImbParams min max E_T_init T_span (imb_span b_span E_T_init)) flow
       (imb_E_b E_b E_T_init flow) = Ok ((ends, Ts), dbg) /\
    aggregate_imbalance_bars unit min max b0 E_T_init E_b T_span b_span ticks = Ok bars /\
    divides_into ticks (cut 0 ends ticks) /\ Forall2 is_bar_of (cut 0 ends ticks) bars /\
    Ts = map qn (bar_lengths 0 ends) /\ incr_from (length ticks) 0 ends /\
    ends_at_first_close
      (imbalance_trigger E_T_init T_span (imb_span b_span E_T_init) (imb_E_b E_b E_T_init flow) max flow)
      (size_reached min flow) (length ticks) ends.
Proof.
  intros Hne Ef El Hs. set (P := ImbParams min max E_T_init T_span (imb_span b_span E_T_init)).
  assert (Hfne : flow <> []) by (intro; subst; destruct ticks; [congruence|discriminate]).
  destruct (@compute_imbalance_ok P (imb_E_b E_b E_T_init flow) flow Hs Hfne) as [ends [Ts [dbg [EC [H1 [H2 H3]]]]]].
  rewrite El in *.
  destruct (group_by_ends Hne H2) as [bars [EB [HD HF]]].
  exists ends, bars, Ts, dbg. split; auto. split; auto.
  unfold aggregate_imbalance_bars. rewrite Ef. cbn [bind]. fold (imb_E_b E_b E_T_init flow). fold (imb_span b_span E_T_init).
  fold P. rewrite EC. cbn [bind fst]. exact EB.
Qed.

Lemma tick_amounts_ok unit ticks : unit <> TIME -> exists v, tick_amounts unit ticks = Ok v /\ length v = length ticks.
Proof. intro H. destruct unit; [congruence| | |]; eexists; (split; [reflexivity|]); now rewrite map_length. Qed.
Lemma tick_amounts_prefix unit t1 t2 v : tick_amounts unit t1 = Ok v -> exists v2, tick_amounts unit (t1 ++ t2) = Ok (v ++ v2).
Proof. unfold tick_amounts. destruct unit; [discriminate| | |]; intro H; inversion H; rewrite map_app; eauto. Qed.

Definition runs_rows unit b0 ticks : res (list (Qc * Qc)) :=
  do v <- tick_amounts unit ticks; Ok (combine (tick_rule (map t_price ticks) b0) v).

Lemma aggregate_runs_unfold unit min max b0 E_T_init p eb es T_span b_span ticks bv :
  runs_rows unit b0 ticks = Ok bv ->
  aggregate_runs_bars unit min max b0 E_T_init p eb es T_span b_span ticks =
  (do r <- compute_runs_bar_sizes (ImbParams min max E_T_init T_span (imb_span b_span E_T_init)) bv
       (fst (fst (runs_inits E_T_init p eb es bv))) (snd (fst (runs_inits E_T_init p eb es bv))) (snd (runs_inits E_T_init p eb es bv));
   do ids <- compute_tick_bar_id (length ticks) (fst (fst r));
   group_ticks_to_bars (combine ids ticks)).
Proof.
  unfold runs_rows, aggregate_runs_bars. destruct (tick_amounts unit ticks) as [v|]; cbn [bind]; [|discriminate].
  intro H. inversion H; subst. reflexivity.
Qed.

Lemma aggregate_runs_ok unit min max b0 E_T_init p eb es T_span b_span ticks bv :
  ticks <> [] -> runs_rows unit b0 ticks = Ok bv -> length bv = length ticks ->
  (1 <= imb_span b_span E_T_init)%Z ->
  let I := runs_inits E_T_init p eb es bv in
  let P := ImbParams min max E_T_init T_span (imb_span b_span E_T_init) in
  let thr0 := runs_threshold (qn E_T_init) (fst (fst I)) (snd (fst I)) (snd I) in
  let trig := runs_trigger T_span (imb_span b_span E_T_init) thr0 max bv in
  (exists ends bars Ts dbg,
    compute_runs_bar_sizes P bv (fst (fst I)) (snd (fst I)) (snd I) = Ok ((ends, Ts), dbg) /\
    aggregate_runs_bars unit min max b0 E_T_init p eb es T_span b_span ticks = Ok bars /\
    divides_into ticks (cut 0 ends ticks) /\ Forall2 is_bar_of (cut 0 ends ticks) bars /\
    Ts = map qn (bar_lengths 0 ends) /\ incr_from (length ticks) 0 ends /\
    ends_at_first_close trig (runs_size_reached min bv) (length ticks) ends) \/
  (aggregate_runs_bars unit min max b0 E_T_init p eb es T_span b_span ticks = Err IndexError /\
   one_sided_close P (fst (fst I)) (snd (fst I)) (snd I) bv).
Proof.
  intros Hne Ef El Hs I P thr0 trig.
  assert (Hfne : bv <> []) by (intro; subst; destruct ticks; [congruence|discriminate]).
  rewrite (@aggregate_runs_unfold unit min max b0 E_T_init p eb es T_span b_span ticks bv Ef). fold I P.
  destruct (@compute_runs_ok P (fst (fst I)) (snd (fst I)) (snd I) bv Hs Hfne)
    as [[ends [Ts [dbg [EC [H1 [H2 H3]]]]]]|[EC HC]]; rewrite EC; cbn [bind fst].
  - left. rewrite El in *. destruct (group_by_ends Hne H2) as [bars [EB [HD HF]]].
    exists ends, bars, Ts, dbg. split; [auto|]. split; auto.
  - right. auto.
Qed.
