From Verif Require Import Py SeriesModel SeriesSpec SeriesProofs BarsModel BarsSpec BarsProofs InfoBarsProofs.
Set Implicit Arguments.
Open Scope Qc_scope.

Lemma qmax_py_eq a b : qmax_py a b = qmax a b.
Proof. unfold qmax_py, qmax. destruct (qlt_spec a b), (qle_spec a b); auto; try (exfalso; qlra). apply Qcle_antisym; qlra. Qed.

Lemma firstn_S_snoc A (l : list A) i b : nth_error l i = Some b -> firstn (S i) l = firstn i l ++ [b].
Proof.
  revert l. induction i as [|i IH]; intros [|x l] N; cbn in N; try discriminate.
  - inversion N; subst. reflexivity.
  - cbn [firstn app]. f_equal. now apply IH.
Qed.

Lemma buy_shares_snoc bv h e : forall s,
  buy_shares bv s (h ++ [e]) =
  buy_shares bv s h ++ [let st := match h with [] => s | _ => S (last h 0%nat) end in
                        range_sum (buy_counts bv) st e / qn (S e - st)].
Proof.
  induction h as [|a h IH]; intro s; [reflexivity|].
  cbn [app buy_shares]. rewrite IH. cbn [app]. do 2 f_equal. destruct h; reflexivity.
Qed.
Lemma buy_shares_snoc0 bv h e :
  buy_shares bv 0 (h ++ [e]) = buy_shares bv 0 h ++ [range_sum (buy_counts bv) (next_start h) e / qn (S e - next_start h)].
Proof. rewrite buy_shares_snoc. destruct h; reflexivity. Qed.
Lemma buy_shares_length bv s h : length (buy_shares bv s h) = length h.
Proof. revert s. induction h; intro; cbn; auto. Qed.

Lemma tl_app A (l m : list A) : l <> [] -> tl (l ++ m) = tl l ++ m.
Proof. destruct l; [congruence|reflexivity]. Qed.

Section Runs.
  Variables (P : imb_params) (P_buy E_buy E_sell : option Qc) (bv : list (Qc * Qc)).
  Hypothesis Hspan : (1 <= im_b_span P)%Z.
  Let thr0 := runs_threshold (qn (im_E_T_init P)) P_buy E_buy E_sell.
  Let thr := runs_bar_threshold (im_T_span P) (im_b_span P) thr0 bv.
  Let trig := runs_trigger (im_T_span P) (im_b_span P) thr0 (im_max P) bv.
  Let big := runs_size_reached (im_min P) bv.

  (** both a buy and a sell among ticks 1..i *)
  Definition both_sides (i : nat) : Prop := buys_upto bv i <> [] /\ sells_upto bv i <> [].

  Record runs_inv (i : nat) (s : runs_state) : Prop := {
    ri_start : r_start s = next_start (rev (r_ends s));
    ri_le : (r_start s <= i)%nat;
    ri_pos : (1 <= i)%nat;
    ri_T : rev (r_T s) = map qn (bar_lengths 0 (rev (r_ends s)));
    ri_ratio : rev (r_ratio s) = buy_shares bv 0 (rev (r_ends s));
    ri_vbuys : rev (r_vbuys s) = buys_upto bv (i - 1);
    ri_vsells : rev (r_vsells s) = sells_upto bv (i - 1);
    ri_size : r_size s = partial_sum (amounts bv) (r_start s) i;
    ri_buys : r_buys s = partial_sum (buy_counts bv) (r_start s) i;
    ri_vb : r_vb s = partial_sum (buy_amounts bv) (r_start s) i;
    ri_vs : r_vs s = partial_sum (sell_amounts bv) (r_start s) i;
    ri_thr : r_thr s = thr (rev (r_ends s));
    ri_pad : r_pad s = true <-> exists j, (Nat.max 1 (r_start s) <= j < i)%nat /\ trig (rev (r_ends s)) (r_start s) j;
    ri_open : forall j, (j < i)%nat -> ~ may_close trig big (rev (r_ends s)) j;
    ri_first : all_first trig big (rev (r_ends s));
    ri_both : forall e, In e (rev (r_ends s)) -> both_sides e }.

  Lemma qlt_qle_neg a : qlt a 0 = negb (qle 0 a).
  Proof. destruct (qlt_spec a 0), (qle_spec 0 a); auto; exfalso; qlra. Qed.

  Lemma runs_init_inv b0 v0 rest : bv = (b0, v0) :: rest -> runs_inv 1 (runs_init P P_buy E_buy E_sell b0 v0).
  Proof.
    intro Ef. constructor; unfold runs_init;
      cbn [r_start r_ends r_T r_ratio r_vbuys r_vsells r_size r_buys r_vb r_vs r_thr r_pad rev bar_lengths map]; auto; try lia.
    - unfold buys_upto. rewrite Ef. reflexivity.
    - unfold sells_upto. rewrite Ef. reflexivity.
    - unfold partial_sum, range_sum, amounts. rewrite Ef. cbn. ring.
    - unfold partial_sum, range_sum, buy_counts. rewrite Ef.
      cbn [map skipn firstn Nat.ltb Nat.leb Nat.sub qsum fst]. destruct (qle 0 b0); ring.
    - unfold partial_sum, range_sum, buy_amounts. rewrite Ef.
      cbn [map skipn firstn Nat.ltb Nat.leb Nat.sub qsum fst snd]. destruct (qle 0 b0); ring.
    - unfold partial_sum, range_sum, sell_amounts. rewrite Ef. rewrite qlt_qle_neg.
      cbn [map skipn firstn Nat.ltb Nat.leb Nat.sub qsum fst snd]. destruct (qle 0 b0); cbn [negb]; ring.
    - split; [discriminate|]. intros [j [H _]]. lia.
    - intros j Hj [H _]. cbn in H. lia.
    - intros [|k] e; discriminate.
    - intros ? [].
  Qed.

  Lemma runs_fire_iff i h s :
    ge_thr (qmax_py (range_sum (buy_amounts bv) s i) (range_sum (sell_amounts bv) s i)) (thr h) = true \/
    ge_max (range_sum (amounts bv) s i) (im_max P) = true <-> trig h s i.
  Proof.
    unfold trig, runs_trigger. fold thr. unfold ge_thr, ge_max. rewrite qmax_py_eq.
    set (a := range_sum (buy_amounts bv) s i). set (b := range_sum (sell_amounts bv) s i). split.
    - intros [H|H].
      + destruct (thr h) as [t|]; [|discriminate]. left. exists t. split; auto. apply qle_iff in H.
        unfold qmax in H. destruct (qle a b); auto.
      + destruct (im_max P) as [m|]; [|discriminate]. right. exists m. split; auto. now apply qle_iff.
    - intros [[t [-> H]]|[m [-> H]]]; [left|right]; apply qle_iff; auto.
      pose proof (qmax_l a b). pose proof (qmax_r a b). destruct H; qlra.
  Qed.

  Lemma ewma_last_ok l span : l <> [] -> (1 <= span)%Z -> ewma_last l span = Ok (exp_weighted_mean (ewma_ratio span) l).
  Proof. intros. unfold ewma_last. now rewrite fast_ewma_last. Qed.
  Lemma ewma_last_nil span : (0 <= span)%Z -> ewma_last [] span = Err IndexError.
  Proof. intro. unfold ewma_last, fast_ewma. destruct (Z.eqb_spec (span + 1) 0); [lia|reflexivity]. Qed.

  Lemma buys_step i b v : nth_error bv i = Some (b, v) -> (1 <= i)%nat ->
    buys_upto bv i = buys_upto bv (i - 1) ++ (if qle 0 b then [v] else []) /\
    sells_upto bv i = sells_upto bv (i - 1) ++ (if qle 0 b then [] else [v]).
  Proof.
    intros Hn Hi. unfold buys_upto, sells_upto. replace (S (i - 1)) with i by lia.
    rewrite (firstn_S_snoc _ _ Hn), tl_app.
    2: { destruct bv; [destruct i; discriminate|]. destruct i; [lia|discriminate]. }
    rewrite !filter_app, !map_app. cbn [filter fst]. destruct (qle 0 b); cbn; auto.
  Qed.

  Lemma len_ge1 A (l : list A) : l <> [] -> (1 <= Z.of_nat (length l))%Z.
  Proof. destruct l; [congruence|cbn; lia]. Qed.

  Lemma runs_step_inv i b v s : nth_error bv i = Some (b, v) -> runs_inv i s ->
    (exists s', runs_step P i b v s = Ok s' /\ runs_inv (S i) s' /\ (exists l, r_ends s' = l ++ r_ends s)) \/
    (runs_step P i b v s = Err IndexError /\ may_close trig big (rev (r_ends s)) i /\ ~ both_sides i).
  Proof.
    intros Hb [I1 I2 I3 I4 IR IVB IVS I6 IB Ib Is I7 I8 I9 I10 IBS].
    assert (Hi : (i < length bv)%nat) by (apply nth_error_Some; congruence).
    assert (N1 : nth_error (amounts bv) i = Some v) by (unfold amounts; apply (map_nth_error snd _ _ Hb)).
    assert (N2 : nth_error (buy_amounts bv) i = Some (if qle 0 b then v else 0)).
    { unfold buy_amounts. apply (map_nth_error (fun x => if qle 0 (fst x) then snd x else 0) _ _ Hb). }
    assert (N3 : nth_error (sell_amounts bv) i = Some (if qlt b 0 then v else 0)).
    { unfold sell_amounts. rewrite qlt_qle_neg.
      rewrite (map_nth_error (fun x => if qle 0 (fst x) then 0 else snd x) _ _ Hb). cbn. destruct (qle 0 b); reflexivity. }
    assert (N4 : nth_error (buy_counts bv) i = Some (if qle 0 b then 1 else 0)).
    { unfold buy_counts. revert Hb I3. destruct bv as [|x l]; [destruct i; discriminate|]. destruct i as [|i]; [lia|].
      intros Hb _. cbn in Hb |- *. apply (map_nth_error (fun y => if qle 0 (fst y) then 1 else 0) _ _ Hb). }
    pose proof (partial_sum_step _ I2 N1) as E1. rewrite <- I6 in E1.
    pose proof (partial_sum_step _ I2 N2) as E2. rewrite <- Ib in E2.
    pose proof (partial_sum_step _ I2 N3) as E3. rewrite <- Is in E3.
    pose proof (partial_sum_step _ I2 N4) as E4. rewrite <- IB in E4.
    destruct (buys_step Hb I3) as [B1 B2].
    assert (B1' : rev (if qle 0 b then v :: r_vbuys s else r_vbuys s) = buys_upto bv i).
    { rewrite B1, <- IVB. destruct (qle 0 b); cbn [rev]; auto. now rewrite app_nil_r. }
    assert (B2' : rev (if qlt b 0 then v :: r_vsells s else r_vsells s) = sells_upto bv i).
    { rewrite B2, <- IVS, qlt_qle_neg. destruct (qle 0 b); cbn [negb rev]; auto. now rewrite app_nil_r. }
    unfold runs_step. cbv zeta. rewrite <- E1, <- E2, <- E3, <- E4.
    set (fire := ge_thr (qmax_py (range_sum (buy_amounts bv) (r_start s) i) (range_sum (sell_amounts bv) (r_start s) i)) (r_thr s)
                 || ge_max (range_sum (amounts bv) (r_start s) i) (im_max P) || r_pad s).
    assert (Hfire : fire = true <-> exists j, (Nat.max 1 (r_start s) <= j <= i)%nat /\ trig (rev (r_ends s)) (r_start s) j).
    { unfold fire. rewrite I7, !orb_true_iff, runs_fire_iff, I8. split.
      - intros [H|[j [Hj H]]]; [exists i; split; auto; lia|exists j; split; auto; lia].
      - intros [j [Hj H]]. destruct (Nat.eq_dec j i) as [->|N]; [now left|]. right. exists j. split; auto. lia. }
    assert (SI : (S i - 1 = i)%nat) by lia.
    destruct fire eqn:Ef.
    - assert (Hf : exists j, (Nat.max 1 (r_start s) <= j <= i)%nat /\ trig (rev (r_ends s)) (r_start s) j) by now apply Hfire.
      destruct (qlt_spec (range_sum (amounts bv) (r_start s) i) (im_min P)) as [Hs|Hs].
      + left. eexists. split; [reflexivity|]. split; [|exists []; reflexivity].
        constructor; cbn [r_start r_ends r_T r_ratio r_vbuys r_vsells r_size r_buys r_vb r_vs r_thr r_pad];
          rewrite ?SI; auto; try lia; try (symmetry; now apply partial_sum_next).
        * split; auto. intros _. destruct Hf as [j [Hj H]]. exists j. split; auto. lia.
        * intros j Hj. destruct (Nat.eq_dec j i) as [->|N]; [|apply I9; lia].
          intros [_ [Hbig _]]. unfold big, runs_size_reached in Hbig. rewrite <- I1 in Hbig. qlra.
      + assert (Hclose : may_close trig big (rev (r_ends s)) i).
        { unfold may_close. rewrite <- I1. split; [lia|]. split; auto. unfold big, runs_size_reached. qlra. }
        assert (HL : rev (qn (i - r_start s + 1) :: r_T s) = map qn (bar_lengths 0 (rev (r_ends s) ++ [i]))).
        { cbn [rev]. rewrite bar_lengths_snoc0, map_app, I4, I1. cbn [map]. do 3 f_equal. rewrite <- I1. lia. }
        assert (HR : rev (range_sum (buy_counts bv) (r_start s) i / qn (i - r_start s + 1) :: r_ratio s)
                     = buy_shares bv 0 (rev (r_ends s) ++ [i])).
        { cbn [rev]. rewrite buy_shares_snoc0, IR, I1. do 4 f_equal. lia. }
        rewrite HL, HR, B1', B2'.
        assert (HT : (1 <= Z.of_nat (if (im_T_span P =? 0)%nat then length (qn (i - r_start s + 1) :: r_T s) else im_T_span P))%Z).
        { destruct (Nat.eqb_spec (im_T_span P) 0); cbn [length]; lia. }
        assert (ELT : length (qn (i - r_start s + 1) :: r_T s) = length (rev (r_ends s) ++ [i])).
        { apply (f_equal (@length _)) in HL. rewrite rev_length in HL. rewrite HL, map_length, bar_lengths_length. auto. }
        rewrite ELT in *.
        set (h := rev (r_ends s) ++ [i]) in *.
        assert (Hh : h <> []) by (unfold h; destruct (rev (r_ends s)); discriminate).
        rewrite ewma_last_ok; auto.
        2: { intro C. apply map_eq_nil in C. apply (f_equal (@length _)) in C. rewrite bar_lengths_length in C.
             destruct h; [congruence|discriminate]. }
        cbn [bind]. rewrite ewma_last_ok; auto.
        2: { intro C. apply (f_equal (@length _)) in C. rewrite buy_shares_length in C. destruct h; [congruence|discriminate]. }
        cbn [bind].
        assert (LB : length (if qle 0 b then v :: r_vbuys s else r_vbuys s) = length (buys_upto bv i)) by (rewrite <- B1', rev_length; auto).
        assert (LS : length (if qlt b 0 then v :: r_vsells s else r_vsells s) = length (sells_upto bv i)) by (rewrite <- B2', rev_length; auto).
        rewrite LB, LS.
        destruct (buys_upto bv i) as [|x0 xs] eqn:EB.
        { right. rewrite ewma_last_nil by (cbn [length]; lia). split; [reflexivity|]. split; auto. intros [C _]. congruence. }
        rewrite <- EB in *.
        rewrite ewma_last_ok; [|congruence|pose proof (@len_ge1 _ (buys_upto bv i)) as H9; rewrite EB in H9 |- *; specialize (H9 ltac:(discriminate)); lia].
        cbn [bind].
        destruct (sells_upto bv i) as [|y0 ys] eqn:ES.
        { right. rewrite ewma_last_nil by (cbn [length]; lia). split; [reflexivity|]. split; auto. intros [_ C]. congruence. }
        rewrite <- ES in *.
        rewrite ewma_last_ok; [|congruence|pose proof (@len_ge1 _ (sells_upto bv i)) as H9; rewrite ES in H9 |- *; specialize (H9 ltac:(discriminate)); lia].
        cbn [bind]. left. eexists. split; [reflexivity|]. split; [|exists [i]; reflexivity].
        assert (EH : rev (i :: r_ends s) = h) by reflexivity.
        constructor; cbn [r_start r_ends r_T r_ratio r_vbuys r_vsells r_size r_buys r_vb r_vs r_thr r_pad];
          rewrite ?SI, ?EH, ?partial_sum_empty; auto; try lia.
        * unfold h. now rewrite next_start_snoc.
        * unfold thr, runs_bar_threshold. destruct h as [|h0 h'] eqn:Eh; [congruence|].
          assert (ELst : last (h0 :: h') 0%nat = i) by (rewrite <- Eh; unfold h; apply last_last).
          rewrite ELst. unfold runs_threshold, omul, py_max. f_equal. f_equal.
          set (A := _ * exp_weighted_mean _ (buys_upto bv i)). set (B := _ * exp_weighted_mean _ (sells_upto bv i)).
          unfold qmax. destruct (qlt_spec A B), (qle_spec A B); auto; try (exfalso; qlra).
          do 2 f_equal. clearbody A B. apply Qcle_antisym; qlra.
        * split; [discriminate|]. intros [j [Hj _]]. lia.
        * intros j Hj [H _]. unfold h in H. rewrite next_start_snoc in H. lia.
        * unfold h. apply all_first_snoc; auto. now rewrite <- I1.
        * intros e He. unfold h in He. apply in_app_or in He. destruct He as [He|[<-|[]]]; [now apply IBS|]. split; congruence.
    - assert (Hf : ~ exists j, (Nat.max 1 (r_start s) <= j <= i)%nat /\ trig (rev (r_ends s)) (r_start s) j).
      { intro C. apply Hfire in C. discriminate. }
      left. eexists. split; [reflexivity|]. split; [|exists []; reflexivity].
      constructor; cbn [r_start r_ends r_T r_ratio r_vbuys r_vsells r_size r_buys r_vb r_vs r_thr r_pad];
        rewrite ?SI; auto; try lia; try (symmetry; now apply partial_sum_next).
      + split.
        * intro H. apply I8 in H. destruct H as [j [Hj H]]. exists j. split; auto. lia.
        * intros [j [Hj H]]. exfalso. apply Hf. exists j. split; auto. lia.
      + intros j Hj. destruct (Nat.eq_dec j i) as [->|N]; [|apply I9; lia].
        intros [_ [_ H]]. rewrite <- I1 in H. auto.
  Qed.

  (** some bar would have to close before both a buy and a sell were seen *)
  Definition one_sided_close : Prop :=
    exists h i, all_first trig big h /\ (forall j, (j < i)%nat -> ~ may_close trig big h j) /\
      may_close trig big h i /\ (i < length bv)%nat /\ ~ both_sides i.

  Lemma runs_loop_inv rest : forall i s, skipn i bv = rest -> runs_inv i s -> (i <= length bv)%nat ->
    (exists s', runs_loop P rest i s = Ok s' /\ runs_inv (length bv) s' /\ exists l, r_ends s' = l ++ r_ends s) \/
    (runs_loop P rest i s = Err IndexError /\ one_sided_close).
  Proof.
    induction rest as [|[b v] rest IH]; intros i s Hr Hi Hle; cbn [runs_loop].
    - left. exists s. split; auto. assert (i = length bv).
      { apply (f_equal (@length _)) in Hr. rewrite skipn_length in Hr. cbn in Hr. lia. }
      subst i. split; auto. exists []. reflexivity.
    - assert (Hb : nth_error bv i = Some (b, v)).
      { pose proof (nth_error_skipn bv i 0) as H. rewrite Hr, Nat.add_0_r in H. cbn in H. congruence. }
      assert (Hlt : (i < length bv)%nat) by (apply nth_error_Some; congruence).
      destruct (runs_step_inv Hb Hi) as [[s' [E [Hi' [l Hl]]]]|[E [Hc Hn]]]; rewrite E; cbn [bind].
      + destruct (IH (S i) s') as [[s'' [E' [Hi'' [l' Hl']]]]|[E' Hc]]; auto.
        * replace (S i) with (1 + i)%nat by lia. rewrite <- skipn_skipn, Hr. reflexivity.
        * left. exists s''. split; auto. split; auto. exists (l' ++ l). rewrite Hl', Hl. apply app_assoc.
      + right. split; auto. exists (rev (r_ends s)), i. destruct Hi. auto.
  Qed.

  Lemma compute_runs_ok : bv <> [] ->
    (exists ends Ts dbg, compute_runs_bar_sizes P bv P_buy E_buy E_sell = Ok ((ends, Ts), dbg) /\
      ends_at_first_close trig big (length bv) ends /\ incr_from (length bv) 0 ends /\
      Ts = map qn (bar_lengths 0 ends)) \/
    (compute_runs_bar_sizes P bv P_buy E_buy E_sell = Err IndexError /\ one_sided_close).
  Proof.
    intro Hne. assert (exists b0 v0 rest, bv = (b0, v0) :: rest) as [b0 [v0 [rest Ef]]].
    { destruct bv as [|[b0 v0] rest]; [congruence|]. eauto. }
    assert (Hr : skipn 1 bv = rest) by (rewrite Ef; reflexivity).
    assert (Hl : (1 <= length bv)%nat) by (rewrite Ef; cbn; lia).
    assert (EC : compute_runs_bar_sizes P bv P_buy E_buy E_sell =
       (do s <- runs_loop P rest 1 (runs_init P P_buy E_buy E_sell b0 v0);
        Ok (runs_finish (length bv) s, (rev (r_thetas s), rev (r_thrs s))))).
    { rewrite Ef at 1. unfold compute_runs_bar_sizes. rewrite Ef. reflexivity. }
    rewrite EC.
    destruct (runs_loop_inv Hr (runs_init_inv Ef) Hl) as [[s [E [Hi _]]]|[E Hc]]; rewrite E; cbn [bind]; [left|right; auto].
    destruct Hi.
    pose proof (finish_ends (n := length bv) (h := rev (r_ends s)) Hl ri_first0 ltac:(lia) ri_open0) as [F1 F2].
    unfold runs_finish. rewrite ri_start0 in *.
    destruct (next_start (rev (r_ends s)) <? length bv)%nat eqn:EL.
    - do 3 eexists. split; [reflexivity|]. split; [auto|]. split; [auto|].
      rewrite bar_lengths_snoc0, map_app, ri_T0. cbn [map]. do 3 f_equal. lia.
    - do 3 eexists. split; [reflexivity|]. auto.
  Qed.

  (** ** the exception, exactly: the first bar closes before both a buy and a sell were seen *)
  Lemma both_sides_later i j : (i <= j)%nat -> both_sides i -> both_sides j.
  Proof.
    intros H [B1 B2]. assert (E : exists l, tl (firstn (S j) bv) = tl (firstn (S i) bv) ++ l).
    { exists (firstn (j - i) (skipn (S i) bv)). destruct bv as [|x l]; [now rewrite !firstn_nil|]. cbn [firstn tl skipn]. replace j with (i + (j - i))%nat at 1 by lia. generalize (j - i)%nat as d. clear. revert l. induction i as [|i IH]; intros l d; [reflexivity|]. destruct l as [|y l]; [now rewrite ?skipn_nil, !firstn_nil|]. cbn [Nat.add firstn skipn app]. f_equal. apply IH. }
    destruct E as [l E]. unfold both_sides, buys_upto, sells_upto in *. rewrite E, !filter_app, !map_app. split; intro C; apply app_eq_nil in C; tauto.
  Qed.
  Definition first_close_one_sided : Prop := exists i, (forall j, (j < i)%nat -> ~ may_close trig big [] j) /\ may_close trig big [] i /\ (i < length bv)%nat /\ ~ both_sides i.
  Lemma runs_loop_first rest : forall i s, skipn i bv = rest -> runs_inv i s -> (i <= length bv)%nat -> runs_loop P rest i s = Err IndexError -> first_close_one_sided.
  Proof.
    induction rest as [|[b v] rest IH]; intros i s Hr Hi Hle E; cbn [runs_loop] in E; [discriminate|].
    assert (Hb : nth_error bv i = Some (b, v)). { pose proof (nth_error_skipn bv i 0) as H. rewrite Hr, Nat.add_0_r in H. cbn in H. congruence. }
    assert (Hlt : (i < length bv)%nat) by (apply nth_error_Some; congruence).
    destruct (runs_step_inv Hb Hi) as [[s' [E' [Hi' _]]]|[E' [Hc Hn]]]; rewrite E' in E; cbn [bind] in E.
    - apply (IH (S i) s'); auto. replace (S i) with (1 + i)%nat by lia. rewrite <- skipn_skipn, Hr. reflexivity.
    - destruct Hi. destruct (rev (r_ends s)) as [|e0 h0] eqn:Eh; [exists i; auto|]. exfalso. apply Hn. destruct (@exists_last _ (e0 :: h0) ltac:(discriminate)) as (h & e & EL). rewrite EL in *.
      rewrite next_start_snoc in ri_start0. apply (@both_sides_later e i); [lia|]. apply ri_both0. apply in_or_app. right. now left.
  Qed.
  Lemma compute_runs_error : bv <> [] -> (compute_runs_bar_sizes P bv P_buy E_buy E_sell = Err IndexError <-> first_close_one_sided).
  Proof.
    intro Hne. assert (exists b0 v0 rest, bv = (b0, v0) :: rest) as [b0 [v0 [rest Ef]]]. { destruct bv as [|[b0 v0] rest]; [congruence|]. eauto. }
    assert (Hr : skipn 1 bv = rest) by (rewrite Ef; reflexivity). assert (Hl : (1 <= length bv)%nat) by (rewrite Ef; cbn; lia).
    assert (EC : compute_runs_bar_sizes P bv P_buy E_buy E_sell = (do s <- runs_loop P rest 1 (runs_init P P_buy E_buy E_sell b0 v0); Ok (runs_finish (length bv) s, (rev (r_thetas s), rev (r_thrs s))))).
    { rewrite Ef at 1. unfold compute_runs_bar_sizes. rewrite Ef. reflexivity. }
    rewrite EC. destruct (runs_loop_inv Hr (runs_init_inv Ef) Hl) as [[s [E [Hi _]]]|[E _]]; rewrite E; cbn [bind].
    - split; [discriminate|]. intros (i & F & M & L & B). exfalso. destruct Hi. destruct (rev (r_ends s)) as [|e0 h0] eqn:Eh; [exact (ri_open0 i L M)|].
      destruct (ri_first0 0%nat e0 eq_refl) as (_ & F0 & M0). cbn [firstn] in F0, M0. assert (e0 = i) by (destruct (lt_eq_lt_dec e0 i) as [[H|H]|H]; auto; exfalso; [exact (F e0 H M0)|exact (F0 i H M)]).
      subst e0. apply B. apply ri_both0. now left.
    - split; auto. intros _. exact (runs_loop_first Hr (runs_init_inv Ef) Hl E).
  Qed.
End Runs.
