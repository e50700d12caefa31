(** C124: the imbalance and threshold arrays returned beside the bars. *)
From Verif Require Import Py BarsModel BarsSpec BarsProofs InfoBarsProofs RunsBarsProofs.
From Coq Require Import Lia.
Set Implicit Arguments.
Unset Strict Implicit.
Open Scope Qc_scope.

(** The bars ended before tick j *)
Definition closed_before (j : nat) (ends : list nat) : list nat := filter (fun e => (e <? j)%nat) ends.
(** [imb j] and [thr j] are right for every tick before i *)
Definition traced (A B : Type) (f : list nat -> nat -> A) (g : list nat -> B) (i : nat) (ends : list nat) (xs : list A) (ys : list B) : Prop :=
  length xs = i /\ length ys = i /\ (forall e, In e ends -> (e < i)%nat) /\
  forall j, (j < i)%nat -> nth_error xs j = Some (f (closed_before j ends) j) /\ nth_error ys j = Some (g (closed_before j ends)).

Lemma closed_all i ends : (forall e, In e ends -> (e < i)%nat) -> closed_before i ends = ends.
Proof.
  intro H. unfold closed_before. induction ends as [|e ends IH]; cbn [filter]; auto. destruct (Nat.ltb_spec e i); [|specialize (H e (or_introl eq_refl)); lia].
  f_equal. apply IH. intros; apply H; now right.
Qed.
Lemma closed_snoc j e ends : (j <= e)%nat -> closed_before j (ends ++ [e]) = closed_before j ends.
Proof. intro H. unfold closed_before. rewrite filter_app. cbn [filter]. destruct (Nat.ltb_spec e j); [lia|]. apply app_nil_r. Qed.
Lemma nth_error_snoc A (l : list A) x j : nth_error (l ++ [x]) j = if (j =? length l)%nat then Some x else nth_error l j.
Proof.
  destruct (Nat.eqb_spec j (length l)) as [->|N]; [rewrite nth_error_app2, Nat.sub_diag by lia; reflexivity|].
  destruct (Nat.lt_ge_cases j (length l)); [now rewrite nth_error_app1 by lia|].
  rewrite (proj2 (nth_error_None (l ++ [x]) j)) by (rewrite app_length; cbn; lia). symmetry. apply nth_error_None. lia.
Qed.
Lemma traced_keep A B (f : list nat -> nat -> A) (g : list nat -> B) i ends xs ys :
  traced f g i ends xs ys -> traced f g (S i) ends (xs ++ [f ends i]) (ys ++ [g ends]).
Proof.
  intros (L1 & L2 & E & H). unfold traced. rewrite !app_length. cbn [length]. split; [lia|]. split; [lia|]. split; [intros e He; specialize (E e He); lia|].
  intros j Hj. rewrite !nth_error_snoc, L1, L2. destruct (Nat.eqb_spec j i) as [->|N]; [|apply H; lia]. now rewrite closed_all.
Qed.
Lemma traced_close A B (f : list nat -> nat -> A) (g : list nat -> B) i ends xs ys :
  traced f g (S i) ends xs ys -> traced f g (S i) (ends ++ [i]) xs ys.
Proof.
  intros (L1 & L2 & E & H). unfold traced. split; auto. split; auto. split.
  - intros e He. apply in_app_or in He. destruct He as [He|[<-|[]]]; [auto|lia].
  - intros j Hj. rewrite closed_snoc by lia. auto.
Qed.

Section Imbalance.
  Variables (P : imb_params) (E_b : option Qc) (flow : list Qc).
  Hypothesis Hspan : (1 <= im_b_span P)%Z.
  Let thr := imbalance_threshold (im_E_T_init P) (im_T_span P) (im_b_span P) E_b flow.
  Let imb (h : list nat) (i : nat) : Qc := qabs (range_sum flow (next_start h) i).
  Let itr i s := traced imb thr i (rev (i_ends s)) (rev (i_thetas s)) (rev (i_thrs s)).

  Lemma imb_trace_step i b s s' : nth_error flow i = Some b -> imb_inv P E_b flow i s -> imb_step P flow i b s = Ok s' -> itr i s -> itr (S i) s'.
  Proof.
    intros Hb [I1 I2 I3 I4 I5 I6 I7 I8 I9 I10] E T. unfold imb_step in E. cbv zeta in E.
    pose proof (partial_sum_step _ I2 Hb) as Eth. rewrite <- I5 in Eth.
    assert (K : itr (S i) (ImbState (i_ends s) (i_T s) 0 0 0 None true (qabs (i_theta s + b) :: i_thetas s) (i_thr s :: i_thrs s))).
    { unfold itr. cbn [i_ends i_thetas i_thrs rev]. rewrite I7, <- Eth, I1. apply traced_keep. exact T. }
    destruct (ge_thr _ _ || _ || _); [|injection E as <-; exact K].
    destruct (qlt _ _); [injection E as <-; exact K|]. destruct (imb_threshold _ _ _ _); [|discriminate]. cbn [bind] in E. injection E as <-.
    unfold itr in *. cbn [i_ends i_thetas i_thrs] in *. apply traced_close. exact K.
  Qed.
  Lemma imb_trace_loop rest : forall i s s', skipn i flow = rest -> imb_inv P E_b flow i s -> itr i s -> imb_loop P flow rest i s = Ok s' -> (i <= length flow)%nat -> itr (length flow) s' /\ imb_inv P E_b flow (length flow) s'.
  Proof.
    induction rest as [|b rest IH]; intros i s s' Hr Hi Ht E Hle; cbn [imb_loop] in E.
    - injection E as <-. assert (i = length flow). { apply (f_equal (@length _)) in Hr. rewrite skipn_length in Hr. cbn in Hr. lia. } subst i. auto.
    - assert (Hb : nth_error flow i = Some b). { pose proof (nth_error_skipn flow i 0) as H. rewrite Hr, Nat.add_0_r in H. cbn in H. congruence. }
      destruct (imb_step_inv Hspan Hb Hi) as [s1 [E1 [Hi1 _]]]. rewrite E1 in E. cbn [bind] in E. apply (IH (S i) s1 s'); auto.
      + replace (S i) with (1 + i)%nat by lia. rewrite <- skipn_skipn, Hr. reflexivity.
      + eapply imb_trace_step; eauto.
      + apply nth_error_Some. congruence.
  Qed.
End Imbalance.

Lemma incr_ge n s ends e : incr_from n s ends -> In e ends -> (s <= e)%nat.
Proof. intro H. induction H as [|s e' es H1 H2 H3 IH]; [intros []|]. intros [<-|He]; auto. specialize (IH He). lia. Qed.
Lemma closed_in_bar n s0 ends k e j : incr_from n s0 ends -> nth_error ends k = Some e ->
  (j <= e)%nat -> (k <> 0%nat -> (next_start (firstn k ends) <= j)%nat) -> closed_before j ends = firstn k ends.
Proof.
  intro H. revert k. induction H as [|s e' es H1 H2 H3 IH]; intros k Hk Hj Hs; [destruct k; discriminate|]. destruct k as [|k].
  - cbn in Hk. injection Hk as ->. cbn [firstn]. unfold closed_before.
    assert (N : forall x, In x (e :: es) -> (x <? j)%nat = false). { intros x [<-|Hx]; apply Nat.ltb_ge; auto. pose proof (incr_ge H3 Hx). lia. }
    clear -N. induction (e :: es) as [|y l IHl]; auto. cbn [filter]. rewrite (N y) by now left. apply IHl. intros; apply N; now right.
  - cbn [nth_error] in Hk. cbn [firstn] in *. assert (Hne : S k <> 0%nat) by discriminate. specialize (Hs Hne).
    assert (Lt : (e' < j)%nat). { destruct (firstn k es) as [|y l] eqn:Ef; cbn in Hs; [lia|].
      assert (Hy : In (last (y :: l) 0%nat) es). { assert (In (last (y :: l) 0%nat) (firstn k es)). { rewrite Ef. clear. revert y. induction l as [|z l IHl]; intro y; [now left|]. right. apply IHl. }
        rewrite <- (firstn_skipn k es). apply in_or_app. now left. }
      pose proof (incr_ge H3 Hy). change (match l with [] => y | _ :: _ => last l 0%nat end) with (last (y :: l) 0%nat) in Hs. lia. }
    unfold closed_before. cbn [filter]. apply Nat.ltb_lt in Lt. rewrite Lt. f_equal. apply IH; auto. intro Hk0.
    destruct k as [|k]; [congruence|]. destruct es as [|y es]; [discriminate|]. exact Hs.
Qed.
Lemma bar_bounds n ends k e j : incr_from n 0 ends -> nth_error ends k = Some e -> (j <= e)%nat -> (next_start (firstn k ends) <= j)%nat ->
  (j < n)%nat /\ closed_before j ends = firstn k ends.
Proof.
  intros H Hk Hj Hs. split; [|eapply closed_in_bar; eauto]. assert (He : In e ends) by now apply nth_error_In in Hk.
  clear -H He Hj. induction H as [|s e' es H1 H2 H3 IH]; [destruct He|]. destruct He as [<-|He]; [lia|auto].
Qed.

(** Per tick: the absolute sum of the signed flow since the bar began, and the threshold in force for that bar. *)
Theorem c124_imbalance_trace P flow E_b ends Ts thetas thrs : (1 <= im_b_span P)%Z ->
  compute_imbalance_bar_sizes P flow E_b = Ok ((ends, Ts), (thetas, thrs)) ->
  length thetas = length flow /\ length thrs = length flow /\
  forall k e j, nth_error ends k = Some e -> (next_start (firstn k ends) <= j <= e)%nat ->
    nth_error thetas j = Some (qabs (range_sum flow (next_start (firstn k ends)) j)) /\
    nth_error thrs j = Some (imbalance_threshold (im_E_T_init P) (im_T_span P) (im_b_span P) E_b flow (firstn k ends)).
Proof.
  intros Hs E. destruct flow as [|b0 rest] eqn:Ef; [discriminate|]. rewrite <- Ef in *. assert (Hne : flow <> []) by (rewrite Ef; discriminate).
  destruct (@compute_imbalance_ok P E_b flow Hs Hne) as (ends' & Ts' & dbg & E' & _ & HI & _). rewrite E in E'. injection E' as <- <- <-.
  assert (EC : compute_imbalance_bar_sizes P flow E_b = do s <- imb_loop P flow rest 1 (imb_init P E_b b0); Ok (imb_finish (length flow) s, (rev (i_thetas s), rev (i_thrs s)))) by (rewrite Ef; reflexivity).
  rewrite EC in E. destruct (imb_loop P flow rest 1 (imb_init P E_b b0)) as [s|] eqn:El; [|discriminate]. cbn [bind] in E. injection E as EF <- <-.
  assert (Hr : skipn 1 flow = rest) by now rewrite Ef. assert (Hl : (1 <= length flow)%nat) by (rewrite Ef; cbn; lia).
  destruct (@imb_trace_loop P E_b flow Hs rest 1 (imb_init P E_b b0) s Hr) as [(L1 & L2 & LE & T) _]; auto.
  - eapply imb_init_inv; eauto.
  - split; [reflexivity|]. split; [reflexivity|]. split; [intros e []|]. intros j Hj. assert (j = 0%nat) as -> by lia. cbn. split; [|now destruct E_b].
    do 2 f_equal. unfold range_sum. rewrite Ef. cbn. ring.
  - split; auto. split; auto. intros k e j Hk [Hj1 Hj2]. destruct (bar_bounds HI Hk Hj2 Hj1) as [Hn Hc]. destruct (T j Hn) as [T1 T2].
    assert (Hc' : closed_before j (rev (i_ends s)) = firstn k ends).
    { rewrite <- Hc. unfold imb_finish in EF. destruct (i_start s <? length flow)%nat; injection EF as <- _; [|reflexivity]. symmetry. apply closed_snoc. lia. }
    rewrite Hc' in T1, T2. auto.
Qed.
Print Assumptions c124_imbalance_trace.
(** An empty stream raises. *)
Theorem c124_empty P E_b P_buy E_buy E_sell : compute_imbalance_bar_sizes P [] E_b = Err IndexError /\ compute_runs_bar_sizes P [] P_buy E_buy E_sell = Err IndexError.
Proof. split; reflexivity. Qed.
Print Assumptions c124_empty.

Section Runs.
  Variables (P : imb_params) (P_buy E_buy E_sell : option Qc) (bv : list (Qc * Qc)).
  Hypothesis Hspan : (1 <= im_b_span P)%Z.
  Let thr0 := runs_threshold (qn (im_E_T_init P)) P_buy E_buy E_sell.
  Let thr := runs_bar_threshold (im_T_span P) (im_b_span P) thr0 bv.
  Let run (h : list nat) (i : nat) : Qc := qmax (range_sum (buy_amounts bv) (next_start h) i) (range_sum (sell_amounts bv) (next_start h) i).
  Let rtr i s := traced run thr i (rev (r_ends s)) (rev (r_thetas s)) (rev (r_thrs s)).

  Lemma runs_trace_step i b v s s' : nth_error bv i = Some (b, v) -> runs_inv P P_buy E_buy E_sell bv i s -> runs_step P i b v s = Ok s' -> rtr i s -> rtr (S i) s'.
  Proof.
    intros Hb [I1 I2 I3 I4 IR IVB IVS I6 IB Ib Is I7 I8 I9 I10 IBS] E T. unfold runs_step in E. cbv zeta in E.
    assert (Nb : nth_error (buy_amounts bv) i = Some (if qle 0 b then v else 0)) by (unfold buy_amounts; now rewrite nth_error_map, Hb).
    assert (Ns : nth_error (sell_amounts bv) i = Some (if qlt b 0 then v else 0)). { unfold sell_amounts. rewrite nth_error_map, Hb. cbn. rewrite qlt_qle_neg. now destruct (qle 0 b). }
    pose proof (partial_sum_step _ I2 Nb) as Eb. rewrite <- Ib in Eb. pose proof (partial_sum_step _ I2 Ns) as Es. rewrite <- Is in Es.
    assert (K : traced run thr (S i) (rev (r_ends s)) (rev (qmax_py (r_vb s + (if qle 0 b then v else 0)) (r_vs s + (if qlt b 0 then v else 0)) :: r_thetas s)) (rev (r_thr s :: r_thrs s))).
    { cbn [rev]. rewrite I7, qmax_py_eq, <- Eb, <- Es, I1. apply (traced_keep T). }
    destruct (ge_thr _ _ || _ || _); [|injection E as <-; exact K].
    destruct (qlt _ _); [injection E as <-; exact K|].
    repeat match type of E with bind ?r _ = _ => destruct r; [cbn [bind] in E|discriminate] end. injection E as <-.
    unfold rtr. cbn [r_ends r_thetas r_thrs]. apply (traced_close K).
  Qed.
  Lemma runs_trace_loop rest : forall i s s', skipn i bv = rest -> runs_inv P P_buy E_buy E_sell bv i s -> rtr i s -> runs_loop P rest i s = Ok s' -> (i <= length bv)%nat -> rtr (length bv) s'.
  Proof.
    induction rest as [|[b v] rest IH]; intros i s s' Hr Hi Ht E Hle; cbn [runs_loop] in E.
    - injection E as <-. assert (i = length bv). { apply (f_equal (@length _)) in Hr. rewrite skipn_length in Hr. cbn in Hr. lia. } subst i. auto.
    - assert (Hb : nth_error bv i = Some (b, v)). { pose proof (nth_error_skipn bv i 0) as H. rewrite Hr, Nat.add_0_r in H. cbn in H. congruence. }
      destruct (runs_step_inv Hspan Hb Hi) as [[s1 [E1 [Hi1 _]]]|[E1 _]]; rewrite E1 in E; [|discriminate]. cbn [bind] in E. apply (IH (S i) s1 s'); auto.
      + replace (S i) with (1 + i)%nat by lia. rewrite <- skipn_skipn, Hr. reflexivity.
      + eapply runs_trace_step; eauto.
      + apply nth_error_Some. congruence.
  Qed.
End Runs.
(** Per tick of runs bars: the larger of the bought and the sold amount since the bar began, and the threshold in force.  A missing (NaN) expectation
    of the sells alone leaves the buy side as the initial threshold, other missing ones make it NaN. *)
Theorem c124_runs_trace P bv P_buy E_buy E_sell ends Ts thetas thrs : (1 <= im_b_span P)%Z ->
  compute_runs_bar_sizes P bv P_buy E_buy E_sell = Ok ((ends, Ts), (thetas, thrs)) ->
  length thetas = length bv /\ length thrs = length bv /\
  forall k e j, nth_error ends k = Some e -> (next_start (firstn k ends) <= j <= e)%nat ->
    let s := next_start (firstn k ends) in
    nth_error thetas j = Some (qmax (range_sum (buy_amounts bv) s j) (range_sum (sell_amounts bv) s j)) /\
    nth_error thrs j = Some (runs_bar_threshold (im_T_span P) (im_b_span P)
      match P_buy, E_buy, E_sell with
      | Some p, Some eb, Some es => Some (qn (im_E_T_init P) * qmax (p * eb) ((1 - p) * es))
      | Some p, Some eb, None => Some (qn (im_E_T_init P) * (p * eb))
      | _, _, _ => None
      end
      bv (firstn k ends)).
Proof.
  intros Hs E. destruct bv as [|[b0 v0] rest] eqn:Ef; [discriminate|]. rewrite <- Ef in *. assert (Hne : bv <> []) by (rewrite Ef; discriminate).
  destruct (@compute_runs_ok P P_buy E_buy E_sell bv Hs Hne) as [(ends' & Ts' & dbg & E' & _ & HI & _)|[E' _]]; rewrite E in E'; [|discriminate]. injection E' as <- <- <-.
  assert (EC : compute_runs_bar_sizes P bv P_buy E_buy E_sell = do s <- runs_loop P rest 1 (runs_init P P_buy E_buy E_sell b0 v0); Ok (runs_finish (length bv) s, (rev (r_thetas s), rev (r_thrs s)))) by (rewrite Ef; reflexivity).
  rewrite EC in E. destruct (runs_loop P rest 1 (runs_init P P_buy E_buy E_sell b0 v0)) as [s|] eqn:El; [|discriminate]. cbn [bind] in E. injection E as EF <- <-.
  assert (Hr : skipn 1 bv = rest) by now rewrite Ef. assert (Hl : (1 <= length bv)%nat) by (rewrite Ef; cbn; lia).
  destruct (@runs_trace_loop P P_buy E_buy E_sell bv Hs rest 1 (runs_init P P_buy E_buy E_sell b0 v0) s Hr) as (L1 & L2 & LE & T); auto.
  - eapply runs_init_inv; eauto.
  - split; [reflexivity|]. split; [reflexivity|]. split; [intros e []|]. intros j Hj. assert (j = 0%nat) as -> by lia. cbn [closed_before filter rev r_ends runs_init r_thetas r_thrs app nth_error]. split; [|reflexivity].
    f_equal. rewrite qmax_py_eq. unfold range_sum, buy_amounts, sell_amounts. rewrite Ef. cbn. rewrite qlt_qle_neg. destruct (qle 0 b0); cbn; f_equal; ring.
  - split; auto. split; auto. intros k e j Hk [Hj1 Hj2]. destruct (bar_bounds HI Hk Hj2 Hj1) as [Hn Hc]. destruct (T j Hn) as [T1 T2].
    assert (Hc' : closed_before j (rev (r_ends s)) = firstn k ends).
    { rewrite <- Hc. unfold runs_finish in EF. destruct (r_start s <? length bv)%nat; injection EF as <- _; [|reflexivity]. symmetry. apply closed_snoc. lia. }
    rewrite Hc' in T1, T2. split; auto. rewrite T2. do 2 f_equal. destruct P_buy as [p|], E_buy as [eb|], E_sell as [es|]; auto.
    unfold runs_threshold, omul, py_max. rewrite <- qmax_py_eq. unfold qmax_py. now destruct (qlt (p * eb) ((1 - p) * es)).
Qed.
Print Assumptions c124_runs_trace.
(** Non-vacuity: two bars of two and four ticks. *)
Example c124_example : exists Ts thrs, compute_imbalance_bar_sizes (ImbParams 0 None 2 0 6) [1; 1; 1; - (1); - (1); - (1)] (Some 1) = Ok (([1; 5]%nat, Ts), ([1; qz 2; 1; 0; 1; qz 2], thrs)).
Proof. eexists. eexists. vm_compute. reflexivity. Qed.
