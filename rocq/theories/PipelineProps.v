(** C143, C144: from bars to labels, sample weights and folds. *)
From Verif Require Import Py RNum CVModel CVSpec CVProofs CVProps UtilsModel UtilsProps FiltersModel FiltersSpec FiltersProps BarrierModel BarrierSpec BarrierProofs BarrierProps WeightModel WeightSpec WeightProofs WeightProps PipelineModel.
From Coq Require Import Permutation Sorted.
Set Implicit Arguments.
Unset Strict Implicit.
Open Scope Qc_scope.

Lemma cusum_positions series threshold : 0 <= threshold -> exists f, cusum (map Some series) threshold = filter f (seq 1 (length series - 1)).
Proof. intro H. destruct (c48_cusum_events series H) as (up & down & _ & _ & _ & _ & _ & E). eexists. exact E. Qed.
Lemma seq_sorted_lt a n : StronglySorted lt (seq a n).
Proof. revert a. induction n as [|n IH]; intro a; cbn; constructor; auto. apply Forall_forall. intros x Hx. apply in_seq in Hx. lia. Qed.
Lemma filter_sorted A (R : A -> A -> Prop) f l : StronglySorted R l -> StronglySorted R (filter f l).
Proof. intro H. induction H as [|x l H IH Hf]; cbn; [constructor|]. destruct (f x); auto. constructor; auto. rewrite Forall_forall in *. intros y Hy. apply filter_In in Hy as [Hy _]. auto. Qed.
Lemma zssorted_nth (ts : list Z) i j : zssorted ts -> (i < j < length ts)%nat -> (nth i ts 0 < nth j ts 0)%Z.
Proof.
  intros H. revert i j. induction H as [|x l H IH Hf]; intros i j Hij; [cbn in Hij; lia|]. destruct j as [|j]; [lia|]. destruct i as [|i]; cbn [nth].
  - rewrite Forall_forall in Hf. apply Hf, nth_In. cbn in Hij. lia.
  - apply IH. cbn in Hij. lia.
Qed.
Lemma cusum_map bars threshold : cusum (map (fun b : Z * ohlc => Some (b_close (snd b))) bars) threshold = cusum (map Some (map (fun b => b_close (snd b)) bars)) threshold.
Proof. now rewrite map_map. Qed.
Lemma cusum_times_in bars threshold t : 0 <= threshold -> In t (cusum_times bars threshold) -> In t (map fst bars).
Proof.
  intros H Ht. unfold cusum_times in Ht. rewrite cusum_map in Ht. destruct (cusum_positions (map (fun b => b_close (snd b)) bars) H) as [f E]. rewrite E in Ht.
  apply in_map_iff in Ht as (i & <- & Hi). apply filter_In in Hi as [Hi _]. apply in_seq in Hi. rewrite map_length in Hi. apply nth_In. rewrite map_length. lia.
Qed.
Lemma cusum_times_sorted bars threshold : 0 <= threshold -> zssorted (map fst bars) -> zssorted (cusum_times bars threshold).
Proof.
  intros H Hs. unfold cusum_times. rewrite cusum_map. destruct (cusum_positions (map (fun b => b_close (snd b)) bars) H) as [f E]. rewrite E, map_length.
  assert (S : StronglySorted lt (filter f (seq 1 (length bars - 1)))) by (apply filter_sorted, seq_sorted_lt).
  assert (B : forall i, In i (filter f (seq 1 (length bars - 1))) -> (i < length bars)%nat) by (intros i Hi; apply filter_In in Hi as [Hi _]; apply in_seq in Hi; lia).
  induction S as [|i l S IH Hf]; cbn [map]; constructor.
  - apply IH. intros; apply B; now right.
  - rewrite Forall_forall in *. intros t Ht. apply in_map_iff in Ht as (j & <- & Hj). apply zssorted_nth; auto. rewrite map_length. split; [now apply Hf|]. apply B. now right.
Qed.
Lemma zssorted_zsorted l : zssorted l -> zsorted l.
Proof. intro H. induction H as [|x l H IH Hf]; constructor; auto. rewrite Forall_forall in *. intros y Hy. specialize (Hf y Hy). lia. Qed.
Lemma lookup_first A t (l : list (Z * A)) : In t (map fst l) -> exists a, lookup t l = Some a /\ In (t, a) l.
Proof. intro H. apply lookup_some_iff in H as [a Ha]. exists a. split; auto. now apply lookup_in. Qed.
Lemma expiries_spec bars threshold holding : 0 <= threshold -> zssorted (map fst bars) ->
  (forall u, In u (map fst (pipeline_expiries bars threshold holding)) -> In u (cusum_times bars threshold)) /\
  (forall u e, In (u, Some e) (pipeline_expiries bars threshold holding) -> In e (map fst bars) /\ (u + holding <= e)%Z /\ forall v, In v (map fst bars) -> (u + holding <= v)%Z -> (e <= v)%Z) /\
  (forall u v, In u (cusum_times bars threshold) -> In v (map fst bars) -> (u + holding <= v)%Z -> exists e, lookup u (pipeline_expiries bars threshold holding) = Some (Some e)) /\
  (forall u, lookup u (pipeline_expiries bars threshold holding) <> Some None).
Proof.
  intros H Hs. destruct (@c64_vertical_barriers (map fst bars) (cusum_times bars threshold) holding Hs (zssorted_zsorted (cusum_times_sorted H Hs))) as [V1 V2].
  unfold pipeline_expiries. split; [|split; [|split]].
  - intros u Hu. rewrite map_map in Hu. change (In u (map fst (vertical_barriers (map fst bars) (cusum_times bars threshold) holding))) in Hu. rewrite V1 in Hu. now apply filter_In in Hu.
  - intros u e Hu. apply in_map_iff in Hu as ([u' e'] & E & Hu). cbn in E. injection E as -> ->. now apply V2.
  - intros u v Hu Hv Hle. destruct (@lookup_first _ u (map (fun e => (fst e, Some (snd e))) (vertical_barriers (map fst bars) (cusum_times bars threshold) holding))) as (o & E & Hin).
    + rewrite map_map. change (In u (map fst (vertical_barriers (map fst bars) (cusum_times bars threshold) holding))). rewrite V1. apply filter_In. split; auto. apply existsb_exists. exists v. split; auto. now apply Z.leb_le.
    + apply in_map_iff in Hin as ([u' e'] & E' & _). cbn in E'. injection E' as -> <-. eauto.
  - intros u E. apply lookup_in in E. apply in_map_iff in E as ([u' e'] & E' & _). discriminate.
Qed.

Section Pipeline.
  Variables (bars : list (Z * ohlc)) (threshold : Qc) (holding : Z) (targets : list (Z * option Qc)) (pt_mult sl_mult min_target : Qc) (sides : option (list (Z * Z))).
  Hypothesis Hbars : zssorted (map fst bars).
  Hypothesis Hth : 0 <= threshold.
  Hypothesis Hhold : (0 <= holding)%Z.
  Hypothesis Hpt : 0 <= pt_mult.
  Hypothesis Hsl : 0 <= sl_mult.
  Hypothesis Hopen : forall t b, In (t, b) bars -> b_open b <> 0.
  Hypothesis Htarget : forall t, In t (cusum_times bars threshold) -> exists v, lookup t targets = Some (Some v) /\ min_target < v.
  Hypothesis Hside : match sides with None => True | Some l => forall t, In t (cusum_times bars threshold) -> lookup t l = Some 1%Z \/ lookup t l = Some (-1)%Z end.
  Let times := map fst bars.
  Let starts := cusum_times bars threshold.

  (** every sampled event gets an outcome, between its start and the first bar after the holding period *)
  Theorem c143_events_processed : starts <> [] -> exists outs, label_pipeline bars threshold holding targets pt_mult sl_mult min_target sides = Ok outs /\
    map fst (event_spans outs) = starts /\
    forall s e, In (s, e) (event_spans outs) -> In s times /\ In e times /\ (s <= e)%Z /\ forall u, In u times -> (s + holding <= u)%Z -> (e <= u)%Z.
  Proof.
    intro Hne. destruct (@expiries_spec bars threshold holding Hth Hbars) as (X1 & X2 & X3 & X4).
    pose proof (cusum_times_sorted Hth Hbars) as SS. fold starts in SS.
    destruct (@c55_unfiltered_processed bars starts targets pt_mult sl_mult (Some (pipeline_expiries bars threshold holding)) min_target sides Hpt Hsl SS (or_introl Hne) Htarget X1 Hside) as (outs & E & E1 & _).
    exists outs. split; [exact E|]. split; [unfold event_spans; rewrite map_map; exact E1|].
    intros s e Hse. unfold event_spans in Hse. apply in_map_iff in Hse as (oc & Eoc & Hin). injection Eoc as Es Ee. apply In_nth_error in Hin as [k Hk].
    assert (Hk' : nth_error starts k = Some s) by (rewrite <- E1, nth_error_map, Hk; cbn; now rewrite Es).
    assert (Hs : In s starts) by (now apply nth_error_In in Hk'). assert (Hst : In s times) by (now apply cusum_times_in in Hs).
    apply in_map_iff in Hst as ([s' b0] & Es' & Hb0). cbn in Es'. subst s'. destruct (Htarget Hs) as (v & Hv & _).
    assert (Hsd : match sides with None => True | Some l => forall u, In u starts -> exists x, lookup u l = Some x end) by (destruct sides as [l|]; auto; intros u Hu; destruct (Hside u Hu); eauto).
    destruct (@c53_event_returns bars starts targets pt_mult sl_mult (Some (pipeline_expiries bars threshold holding)) min_target sides outs k s oc b0 v Hbars SS
      (fun u Hu => cusum_times_in Hth Hu) Htarget (conj X1 (fun u x H => proj1 (X2 u x H))) Hsd E Hk' Hk Hb0 (Hopen Hb0) Hv) as (_ & _ & _ & _ & _ & C).
    set (expiry := match lookup s (pipeline_expiries bars threshold holding) with Some (Some x) => x | _ => last (map fst bars) s end) in *.
    assert (LAST : In (last (map fst bars) s) times /\ (s <= last (map fst bars) s)%Z /\ forall u, In u times -> (u <= last (map fst bars) s)%Z).
    { assert (NE : times <> []) by (intro C0; unfold times in C0; apply map_eq_nil in C0; rewrite C0 in Hb0; destruct Hb0). destruct (exists_last NE) as (r & x & Er). fold times. rewrite Er, last_last.
      assert (Lx : forall u, In u times -> (u <= x)%Z). { intros u Hu. unfold times in *. rewrite Er in Hbars, Hu. clear -Hbars Hu. induction r as [|y r IH]; cbn in *; [destruct Hu as [->|[]]; lia|]. inversion Hbars as [|? ? H1 H2]; subst. destruct Hu as [->|Hu]; [|auto]. rewrite Forall_forall in H2. specialize (H2 x ltac:(apply in_app_iff; right; now left)). lia. }
      split; [apply in_app_iff; right; now left|]. split; [apply Lx; change s with (fst (s, b0)); now apply in_map|]. intros u Hu. apply Lx. rewrite Er. exact Hu. }
    assert (EXP : In expiry times /\ (s <= expiry)%Z /\ forall u, In u times -> (s + holding <= u)%Z -> (expiry <= u)%Z).
    { unfold expiry. destruct (lookup s (pipeline_expiries bars threshold holding)) as [[x|]|] eqn:EL.
      - apply lookup_in in EL. destruct (X2 _ _ EL) as (A & B & C'). split; [exact A|]. split; [lia|exact C'].
      - exfalso. now apply (X4 s).
      - destruct LAST as (A & B & C'). split; auto. split; auto. intros u Hu Hle. exfalso. destruct (X3 s u Hs Hu Hle) as [x Hx]. congruence. }
    split; [change s with (fst (s, b0)); now apply in_map|]. destruct EXP as (A & B & D). rewrite <- Ee.
    destruct C as [((_ & L & _) & b & Hb & _)|[((_ & L & _) & _ & b & Hb & _)|(_ & -> & _)]].
    - split; [change (oc_end oc) with (fst (oc_end oc, b)); now apply in_map|]. split; [lia|]. intros u Hu Hle. specialize (D u Hu Hle). lia.
    - split; [change (oc_end oc) with (fst (oc_end oc, b)); now apply in_map|]. split; [lia|]. intros u Hu Hle. specialize (D u Hu Hle). lia.
    - auto.
  Qed.
  (** the outcomes fit the weighting and cross-validation functions: no event is without bars, none has a missing weight, the bootstrap can
      draw, and no training event of a fold shares a moment with a test event *)
  Theorem c143_weights_and_folds outs : starts <> [] -> label_pipeline bars threshold holding targets pt_mult sl_mult min_target sides = Ok outs ->
    let spans := event_spans outs in
    (exists us, label_avg_uniqueness times spans = Ok us /\ map fst us = starts /\ forall t o, In (t, o) us -> exists x, o = Some x /\ 0 < x /\ x <= 1) /\
    (forall choose size, (forall h ps, ps <> [] -> (choose h ps < length ps)%nat) -> exists samples,
       sample_sequential_bootstrap choose (length times) (indicators times spans) size = Ok samples /\
       length samples = match size with Some n => n | None => length starts end /\ forall j, In j samples -> (j < length starts)%nat) /\
    (forall k pct, (1 <= k <= length starts)%nat -> 0 <= pct -> exists splits, kfold_split k pct spans = Ok splits /\ length splits = k /\
       concat (map snd splits) = seq 0 (length starts) /\
       forall tr te i j a b, In (tr, te) splits -> In i tr -> In j te -> nth_error spans i = Some a -> nth_error spans j = Some b -> ~ meets a b).
  Proof.
    intros Hne E spans. destruct (c143_events_processed Hne) as (outs' & E' & F & P). assert (outs' = outs) by congruence. subst outs'. fold spans in F, P.
    pose proof (cusum_times_sorted Hth Hbars) as SS. fold starts in SS.
    assert (LEN : length spans = length starts) by (rewrite <- F; now rewrite map_length).
    assert (NEs : spans <> []) by (intro C; rewrite C in LEN; destruct starts; [congruence|discriminate]).
    assert (ST : zsorted (map fst spans)) by (rewrite F; now apply zssorted_zsorted).
    assert (NEb : times <> []). { destruct spans as [|[a b] l]; [congruence|]. destruct (P a b (or_introl eq_refl)) as (A & _). intro C. rewrite C in A. destruct A. }
    assert (BO : forall e, In e spans -> bars_of times e <> []).
    { intros [a b] He. destruct (P a b He) as (A & _ & L & _). intro C. assert (X : In a (bars_of times (a, b))) by (apply filter_In; split; auto; cbn; apply andb_true_iff; split; apply Z.leb_le; lia). rewrite C in X. destruct X. }
    assert (PR : forall e, In e spans -> proper e) by (intros [a b] He; apply (P a b He)).
    split; [|split].
    - destruct (@c60_avg_uniqueness times spans Hbars NEb NEs ST) as (us & U1 & U2 & U3). exists us. split; auto. split; [congruence|].
      intros t o Hin. apply In_nth_error in Hin as [k Hk]. assert (Hk' : exists e, nth_error spans k = Some e).
      { destruct (nth_error spans k) as [e|] eqn:En; [eauto|]. apply nth_error_None in En. assert (k < length us)%nat by (apply nth_error_Some; congruence). assert (length us = length spans) by (rewrite <- (map_length fst us), U2; now rewrite map_length). lia. }
      destruct Hk' as [e He]. destruct (U3 k e He) as (u & Hu & _ & U4). rewrite Hk in Hu. injection Hu as -> ->. destruct (U4 (BO e (nth_error_In _ _ He))) as (x & -> & _ & X1 & X2 & _). eauto.
    - intros choose size Hc. assert (IL : length (indicators times spans) = length starts) by (unfold indicators; now rewrite map_length).
      destruct (@c61_sequential_bootstrap choose (length times) (indicators times spans) size (@indicators_ok times spans)) as (samples & S1 & S2 & S3 & _); auto.
      + intros k Hk. rewrite IL, <- LEN in Hk. destruct (nth_error spans k) as [e|] eqn:En; [|apply nth_error_None in En; lia]. assert (He : In e spans) by (now apply nth_error_In in En).
        destruct e as [a b]. destruct (P a b He) as (A & _ & L & _). apply In_nth with (d := 0%Z) in A as (i & Hi & Ha). intro C.
        assert (X : In i (support (length times) (indicators times spans) k)).
        { apply filter_In. split; [apply in_seq; lia|]. unfold indicators. rewrite (nth_error_nth _ _ [] (map_nth_error _ _ _ En)), indicator_nth by auto. rewrite Ha. unfold covers. cbn [fst snd]. replace ((a <=? a)%Z && (a <=? b)%Z) with true; [reflexivity|]. symmetry. apply andb_true_iff. split; apply Z.leb_le; lia. }
        rewrite C in X. destruct X.
      + intro C. rewrite C in IL. cbn in IL. destruct starts; [congruence|discriminate].
      + exists samples. split; auto. split; [rewrite S2; destruct size; auto|]. intros j Hj. rewrite <- IL. auto.
    - intros k pct Hk Hpct. rewrite <- LEN in Hk |- *. destruct (@c23_folds_partition spans k pct ST PR Hk) as (splits & K1 & K2 & K3 & _). exists splits. split; auto. split; auto. split; auto.
      intros tr te i j a b Hsp Hi Hj Ha Hb (x & M1 & M2).
      assert (ES : exists step, embargo_bars (length spans) pct step).
      { eexists. apply embargo_step_exists, Hpct. }
      destruct ES as [step ES]. destruct (@c24_kfold_no_leak spans k pct step splits ES ST PR Hk K1 tr te Hsp) as (_ & _ & le & L1 & _ & L3).
      destruct (L3 i a Hi Ha) as [L|[L _]]; [specialize (L j b Hj Hb); lia|]. specialize (L1 j b Hj Hb). lia.
  Qed.
  (** everything that is known about the k-th outcome *)
  Lemma pipeline_outcome outs k s oc b0 v : label_pipeline bars threshold holding targets pt_mult sl_mult min_target sides = Ok outs ->
    nth_error starts k = Some s -> nth_error outs k = Some oc -> In (s, b0) bars -> lookup s targets = Some (Some v) ->
    let ps := map (fun b => (fst b, Some (snd b))) bars in
    let p := b_open b0 in
    let side := match sides with None => 1%Z | Some l => match lookup s l with Some x => x | None => 0%Z end end in
    let expiry := match lookup s (pipeline_expiries bars threshold holding) with Some (Some e) => e | _ => last (map fst bars) s end in
    let tp := takes_profit ps s expiry side p pt_mult v in
    let sl := stops_loss ps s expiry side p (match sides with None => pt_mult | Some _ => sl_mult end) v in
    ev_expiry (oc_event oc) = match lookup s (pipeline_expiries bars threshold holding) with Some e => e | None => None end /\
    (forall u, (u < oc_end oc)%Z -> ~ tp u /\ ~ sl u) /\
    (  (sl (oc_end oc) /\ exists b, In (oc_end oc, b) bars /\ oc_ret oc = Some (held side p (worst side b)))
    \/ (tp (oc_end oc) /\ ~ sl (oc_end oc) /\ exists b, In (oc_end oc, b) bars /\ oc_ret oc = Some (held side p (best side b)))
    \/ ((forall u, ~ tp u /\ ~ sl u) /\ oc_end oc = expiry /\ exists b, In (expiry, b) bars /\ oc_ret oc = Some ((b_close b - p) / p))).
  Proof.
    intros E Hk' Hk Hb0 Hv ps p side expiry tp sl. destruct (@expiries_spec bars threshold holding Hth Hbars) as (X1 & X2 & X3 & X4).
    pose proof (cusum_times_sorted Hth Hbars) as SS. fold starts in SS.
    assert (Hsd : match sides with None => True | Some l => forall u, In u starts -> exists x, lookup u l = Some x end) by (destruct sides as [l|]; auto; intros u Hu; destruct (Hside u Hu); eauto).
    destruct (@c53_event_returns bars starts targets pt_mult sl_mult (Some (pipeline_expiries bars threshold holding)) min_target sides outs k s oc b0 v Hbars SS
      (fun u Hu => cusum_times_in Hth Hu) Htarget (conj X1 (fun u x H => proj1 (X2 u x H))) Hsd E Hk' Hk Hb0 (Hopen Hb0) Hv) as (_ & _ & _ & _ & C0 & C).
    split; [|split; [exact C0|exact C]]. clear C C0. unfold label_pipeline in E. fold starts in E. rewrite event_returns_triple in E; auto. unfold triple_barrier in E.
    destruct (qle 0 pt_mult && _); [|discriminate]. destruct (rev _) as [|[ll lr] r]; [discriminate|]. apply mapM_ok in E.
    match type of E with Forall2 _ (map ?f _) _ => pose proof (map_nth_error f k starts Hk') as Hev end.
    destruct (Forall2_nth _ E Hev) as (oc' & Hoc & HB). rewrite Hk in Hoc. injection Hoc as <-. rewrite (barrier_event_event HB). reflexivity.
  Qed.
End Pipeline.
Print Assumptions c143_events_processed.
Print Assumptions c143_weights_and_folds.

(** ** Later bars change nothing that was already decided *)
Lemma zssorted_app_inv (l l' : list Z) : zssorted (l ++ l') -> zssorted l /\ zssorted l' /\ forall x y, In x l -> In y l' -> (x < y)%Z.
Proof.
  induction l as [|a l IH]; cbn; intro H; [split; [constructor|split; [exact H|intros x y []]]|]. inversion H as [|? ? H1 H2]; subst. destruct (IH H1) as (A & B & C). rewrite Forall_forall in H2.
  split; [constructor; auto; apply Forall_forall; intros; apply H2, in_app_iff; auto|]. split; auto. intros x y [->|Hx] Hy; auto. apply H2, in_app_iff. auto.
Qed.
Lemma zssorted_last_max (l : list Z) d x : zssorted l -> In x l -> (x <= last l d)%Z.
Proof.
  intros H Hx. destruct (exists_last (l := l)) as (r & y & E); [intro C; rewrite C in Hx; destruct Hx|]. rewrite E, last_last. rewrite E in H, Hx. destruct (zssorted_app_inv H) as (_ & _ & L).
  apply in_app_iff in Hx as [Hx|[->|[]]]; [|lia]. specialize (L x y Hx (or_introl eq_refl)). lia.
Qed.
Lemma last_in (l : list Z) d : l <> [] -> In (last l d) l.
Proof. intro H. destruct (exists_last H) as (r & y & E). rewrite E, last_last. apply in_app_iff. right. now left. Qed.
Lemma zssorted_unique A (l : list (Z * A)) t a b : zssorted (map fst l) -> In (t, a) l -> In (t, b) l -> a = b.
Proof.
  intro H. induction l as [|[u x] l IH]; cbn; intros Ha Hb; [destruct Ha|]. inversion H as [|? ? H1 H2]; subst. rewrite Forall_forall in H2.
  destruct Ha as [Ha|Ha], Hb as [Hb|Hb]; [congruence| | |auto].
  - injection Ha as -> ->. specialize (H2 t (in_map fst _ _ Hb)). lia.
  - injection Hb as -> ->. specialize (H2 t (in_map fst _ _ Ha)). lia.
Qed.
Lemma filter_none A (f : A -> bool) l : (forall x, In x l -> f x = false) -> filter f l = [].
Proof. intro H. induction l as [|x l IH]; auto. cbn. rewrite H by now left. apply IH. intros; apply H. now right. Qed.
Lemma sorted_split l (N : nat) : StronglySorted lt l -> l = filter (fun t => (t <? N)%nat) l ++ filter (fun t => negb (t <? N)%nat) l.
Proof.
  intro S. induction S as [|x l S IH Hf]; auto. cbn [filter]. destruct (x <? N)%nat eqn:Ex; cbn [negb app]; [f_equal; exact IH|]. rewrite Forall_forall in Hf. apply Nat.ltb_ge in Ex.
  assert (Z : filter (fun t => (t <? N)%nat) l = []) by (apply filter_none; intros y Hy; apply Nat.ltb_ge; specialize (Hf y Hy); lia). rewrite Z in IH |- *. cbn [app] in *. f_equal. exact IH.
Qed.
Lemma cusum_times_causal past future threshold : 0 <= threshold -> zssorted (map fst (past ++ future)) ->
  exists later, cusum_times (past ++ future) threshold = cusum_times past threshold ++ later /\ forall t, In t later -> In t (map fst future).
Proof.
  intros H Hs. set (N := length past). unfold cusum_times. rewrite !cusum_map, map_app.
  pose proof (@c48_cusum_causal (map (fun b : Z * ohlc => b_close (snd b)) past) (map (fun b => b_close (snd b)) future) threshold H) as C. rewrite map_length in C. fold N in C.
  rewrite <- C. destruct (@cusum_positions (map (fun b : Z * ohlc => b_close (snd b)) past ++ map (fun b => b_close (snd b)) future) threshold H) as [f E].
  set (ev := cusum _ threshold) in *.
  assert (SP : ev = filter (fun t => (t <? N)%nat) ev ++ filter (fun t => negb (t <? N)%nat) ev).
  { rewrite E. clear. set (n := (_ - 1)%nat). clearbody n. assert (S : StronglySorted lt (filter f (seq 1 n))) by (apply filter_sorted, seq_sorted_lt).
    now apply sorted_split. }
  exists (map (fun i => nth i (map fst past ++ map fst future) 0%Z) (filter (fun t => negb (t <? N)%nat) ev)). split.
  - transitivity (map (fun i => nth i (map fst past ++ map fst future) 0%Z) (filter (fun t => (t <? N)%nat) ev ++ filter (fun t => negb (t <? N)%nat) ev)); [rewrite <- SP; f_equal; unfold ev; now rewrite !map_app|].
    rewrite map_app. f_equal. apply map_ext_in. intros i Hi. apply filter_In in Hi as [_ Hi]. apply Nat.ltb_lt in Hi. apply app_nth1. now rewrite map_length.
  - intros t Ht. apply in_map_iff in Ht as (i & <- & Hi). apply filter_In in Hi as [Hi Hn]. destruct (Nat.ltb_spec i N) as [|L]; [discriminate|]. rewrite E in Hi. apply filter_In in Hi as [Hi _]. apply in_seq in Hi.
    rewrite app_length, !map_length in Hi. fold N in Hi. rewrite app_nth2 by (rewrite map_length; exact L). apply nth_In. rewrite !map_length. fold N. lia.
Qed.
Theorem c143_causal past future threshold holding targets pt_mult sl_mult min_target sides outs outs' k oc oc' :
  let bars := past ++ future in
  zssorted (map fst bars) -> 0 <= threshold -> (0 <= holding)%Z -> 0 <= pt_mult -> 0 <= sl_mult -> (forall t b, In (t, b) bars -> b_open b <> 0) ->
  (forall t, In t (cusum_times bars threshold) -> exists v, lookup t targets = Some (Some v) /\ min_target < v) ->
  (match sides with None => True | Some l => forall t, In t (cusum_times bars threshold) -> lookup t l = Some 1%Z \/ lookup t l = Some (-1)%Z end) ->
  label_pipeline past threshold holding targets pt_mult sl_mult min_target sides = Ok outs ->
  label_pipeline bars threshold holding targets pt_mult sl_mult min_target sides = Ok outs' ->
  nth_error outs k = Some oc -> nth_error outs' k = Some oc' ->
  (* the k-th event is the same *)
  ev_start (oc_event oc) = ev_start (oc_event oc') /\
  (* and so is its outcome if it is over by the end of the past *)
  ((oc_end oc' <= last (map fst past) 0)%Z -> oc_end oc = oc_end oc' /\ oc_ret oc = oc_ret oc' /\ forall hs ce, event_label hs ce oc = event_label hs ce oc').
Proof.
  intros bars Hb Hth Hhold Hpt Hsl Hop Htg Hsd E E' Hk Hk'. destruct (@cusum_times_causal past future threshold Hth Hb) as (later & CT & LT).
  assert (Hb2 := Hb). unfold bars in Hb2. rewrite map_app in Hb2. destruct (zssorted_app_inv Hb2) as (Hp & _ & PF).
  assert (Hop' : forall t b, In (t, b) past -> b_open b <> 0) by (intros t b H; apply (Hop t b), in_app_iff; auto).
  assert (SUB : forall t, In t (cusum_times past threshold) -> In t (cusum_times bars threshold)) by (intros t H; unfold bars; rewrite CT; apply in_app_iff; auto).
  assert (Htg' : forall t, In t (cusum_times past threshold) -> exists v, lookup t targets = Some (Some v) /\ min_target < v) by auto.
  assert (Hsd' : match sides with None => True | Some l => forall t, In t (cusum_times past threshold) -> lookup t l = Some 1%Z \/ lookup t l = Some (-1)%Z end) by (destruct sides; auto).
  assert (NE : cusum_times past threshold <> []).
  { intro C. destruct (@expiries_spec past threshold holding Hth Hp) as (X1 & _). unfold label_pipeline in E. rewrite event_returns_triple in E.
    - rewrite C in E. unfold triple_barrier in E. destruct (qle 0 pt_mult && _); [|discriminate]. destruct (rev _) as [|[ll lr] r]; [discriminate|]. cbn in E. injection E as <-. destruct k; discriminate.
    - now apply cusum_times_sorted.
    - exact Htg'.
    - exact X1.
    - destruct sides as [l|]; auto. intros u Hu. destruct (Hsd' u Hu); eauto. }
  assert (NE' : cusum_times bars threshold <> []) by (intro C; apply NE; unfold bars in C; rewrite CT in C; now apply app_eq_nil in C).
  destruct (@c143_events_processed past threshold holding targets pt_mult sl_mult min_target sides Hp Hth Hhold Hpt Hsl Hop' Htg' Hsd' NE) as (o1 & Eo1 & F & P). assert (o1 = outs) by congruence. subst o1.
  destruct (@c143_events_processed bars threshold holding targets pt_mult sl_mult min_target sides Hb Hth Hhold Hpt Hsl Hop Htg Hsd NE') as (o2 & Eo2 & F' & P'). assert (o2 = outs') by congruence. subst o2.
  unfold event_spans in F, F'. rewrite map_map in F, F'. cbn [fst] in F, F'.
  assert (S1 : nth_error (cusum_times past threshold) k = Some (ev_start (oc_event oc))) by (rewrite <- F, nth_error_map, Hk; reflexivity).
  assert (S2 : nth_error (cusum_times bars threshold) k = Some (ev_start (oc_event oc'))) by (rewrite <- F', nth_error_map, Hk'; reflexivity).
  assert (SE : ev_start (oc_event oc) = ev_start (oc_event oc')).
  { unfold bars in S2. rewrite CT, nth_error_app1 in S2 by (apply nth_error_Some; congruence). congruence. }
  split; [exact SE|]. intro HL. rewrite <- SE in S2. remember (ev_start (oc_event oc)) as s eqn:Es.
  assert (Hs : In s (cusum_times past threshold)) by (now apply nth_error_In in S1). assert (Hst := cusum_times_in Hth Hs).
  apply in_map_iff in Hst as ([s' b0] & X & Hb0). cbn in X. subst s'. destruct (Htg' s Hs) as (v & Hv & _).
  destruct (@pipeline_outcome past threshold holding targets pt_mult sl_mult min_target sides Hp Hth Hop' Htg' Hsd' outs k s oc b0 v E S1 Hk Hb0 Hv) as (X1 & T1 & C1).
  destruct (@pipeline_outcome bars threshold holding targets pt_mult sl_mult min_target sides Hb Hth Hop Htg Hsd outs' k s oc' b0 v E' S2 Hk' (in_or_app _ _ _ (or_introl Hb0)) Hv) as (X2 & T2 & C2).
  cbv zeta in T1, C1, T2, C2. set (p := b_open b0) in *. set (side := match sides with None => 1%Z | _ => _ end) in *. set (slm := match sides with None => pt_mult | _ => _ end) in *.
  set (L := last (map fst past) 0%Z) in *.
  assert (PN : map fst past <> []) by (intro C; apply map_eq_nil in C; rewrite C in Hb0; destruct Hb0).
  assert (BN : map fst bars <> []) by (unfold bars; rewrite map_app; intro C; apply app_eq_nil in C as [C _]; auto).
  assert (LD : forall d, last (map fst past) d = L) by (intro d; unfold L; destruct (exists_last PN) as (r & x & ->); now rewrite !last_last).
  assert (LP : In L (map fst past)) by (now apply last_in).
  assert (LM : forall u, In u (map fst past) -> (u <= L)%Z) by (intros; now apply zssorted_last_max).
  assert (LF : forall u, In u (map fst future) -> (L < u)%Z) by (intros; now apply PF).
  assert (HR : forall u b, (u <= L)%Z -> (In (u, b) bars <-> In (u, b) past)).
  { intros u b Hu. unfold bars. rewrite in_app_iff. split; [intros [H|H]; auto; specialize (LF u (in_map fst _ _ H)); lia|auto]. }
  destruct (@expiries_spec past threshold holding Hth Hp) as (A1 & A2 & A3 & A4). destruct (@expiries_spec bars threshold holding Hth Hb) as (B1 & B2 & B3 & B4).
  set (l1 := lookup s (pipeline_expiries past threshold holding)) in *. set (l2 := lookup s (pipeline_expiries bars threshold holding)) in *.
  set (e1 := match l1 with Some (Some e) => e | _ => _ end) in *. set (e2 := match l2 with Some (Some e) => e | _ => _ end) in *.
  assert (EX : (l1 = l2 /\ e1 = e2 \/ l1 = None /\ e1 = L /\ (l2 = None \/ l2 = Some (Some e2)) /\ (L <= e2)%Z /\ (e2 = L -> l2 = None))).
  { unfold e1, e2. destruct l2 as [[x|]|] eqn:E2; [|now exfalso; apply (B4 s)|].
    - unfold l2 in E2. apply lookup_in in E2. destruct (B2 _ _ E2) as (Q1 & Q2 & Q3). destruct (Z_le_gt_dec x L) as [Hx|Hx].
      + assert (Hxp : In x (map fst past)). { apply in_map_iff in Q1 as ([x' bx] & Ex & Q1). cbn in Ex. subst x'. apply HR in Q1; auto. change x with (fst (x, bx)). now apply in_map. }
        destruct (A3 s x Hs Hxp Q2) as [y Hy]. unfold l1 in *. rewrite Hy. left. apply lookup_in in Hy. destruct (A2 _ _ Hy) as (R1 & R2 & R3).
        assert (x = y); [|subst; auto]. specialize (R3 x Hxp Q2). specialize (Q3 y ltac:(unfold bars; rewrite map_app; apply in_app_iff; auto) R2). lia.
      + right. destruct l1 as [[y|]|] eqn:E1; [|now exfalso; apply (A4 s)|].
        * exfalso. unfold l1 in E1. apply lookup_in in E1. destruct (A2 _ _ E1) as (R1 & R2 & R3). specialize (Q3 y ltac:(unfold bars; rewrite map_app; apply in_app_iff; auto) R2). specialize (LM y R1). lia.
        * split; auto. split; auto. split; auto. split; [lia|]. intro; lia.
    - right. assert (E1 : l1 = None).
      { destruct l1 as [[y|]|] eqn:E1; auto; [|now exfalso; apply (A4 s)]. exfalso. unfold l1 in E1. apply lookup_in in E1. destruct (A2 _ _ E1) as (R1 & R2 & R3).
        destruct (B3 s y (SUB s Hs) ltac:(unfold bars; rewrite map_app; apply in_app_iff; auto) R2) as [z Hz]. unfold l2 in E2. congruence. }
      rewrite E1. split; auto. split; auto. split; auto. split; auto. apply zssorted_last_max; auto. unfold bars. rewrite map_app. apply in_app_iff. auto. }
  clearbody e1 e2 l1 l2. clear A1 A2 A3 A4 B1 B2 B3 B4.
  set (ps1 := map (fun b => (fst b, Some (snd b))) past) in *. set (ps2 := map (fun b => (fst b, Some (snd b))) bars) in *.
  assert (PSI : forall (l : list (Z * ohlc)) u b, In (u, Some b) (map (fun b => (fst b, Some (snd b))) l) <-> In (u, b) l).
  { intros l u b. rewrite in_map_iff. split; [intros ([u' b'] & EE & H); cbn in EE; injection EE as -> ->; exact H|]. intro H. exists (u, b). auto. }
  assert (TPE : forall u, (u <= L)%Z -> (u <= e1)%Z -> (takes_profit ps1 s e1 side p pt_mult v u <-> takes_profit ps2 s e2 side p pt_mult v u)).
  { intros u U1 U2. unfold takes_profit. split; intros (M & R & b & Hbb & G); (split; [exact M|split; [destruct EX as [[_ ->]|(_ & -> & _ & ? & _)]; lia|exists b; split; auto]]); unfold ps1, ps2 in *; apply PSI; apply PSI in Hbb; now apply HR. }
  assert (SLE : forall u, (u <= L)%Z -> (u <= e1)%Z -> (stops_loss ps1 s e1 side p slm v u <-> stops_loss ps2 s e2 side p slm v u)).
  { intros u U1 U2. unfold stops_loss. split; intros (M & R & b & Hbb & G); (split; [exact M|split; [destruct EX as [[_ ->]|(_ & -> & _ & ? & _)]; lia|exists b; split; auto]]); unfold ps1, ps2 in *; apply PSI; apply PSI in Hbb; now apply HR. }
  set (tp1 := takes_profit ps1 s e1 side p pt_mult v) in *. set (tp2 := takes_profit ps2 s e2 side p pt_mult v) in *.
  set (sl1 := stops_loss ps1 s e1 side p slm v) in *. set (sl2 := stops_loss ps2 s e2 side p slm v) in *.
  assert (R1 : forall u, tp1 u \/ sl1 u -> (u <= e1)%Z /\ (u <= L)%Z).
  { intros u [(_ & R & b & Hbb & _)|(_ & R & b & Hbb & _)]; (split; [lia|]); apply PSI in Hbb; apply LM; change u with (fst (u, b)); now apply in_map. }
  assert (R2 : forall u, tp2 u \/ sl2 u -> (u <= e2)%Z) by (intros u [(_ & R & _)|(_ & R & _)]; lia).
  assert (XE : (oc_end oc' <= e1)%Z) by (assert (oc_end oc' <= e2)%Z by (destruct C2 as [(? & _)|[(? & _)|(_ & -> & _)]]; auto; lia); destruct EX as [[_ ->]|(_ & -> & _)]; lia).
  assert (UNI : forall u b b', (u <= L)%Z -> In (u, b) past -> In (u, b') bars -> b = b') by (intros u b b' Hu Q1 Q2; apply HR in Q2; auto; eapply zssorted_unique; eauto).
  assert (EE : oc_end oc = oc_end oc').
  { destruct C2 as [(Q & _)|[(Q & _ & _)|(Q1 & Q2 & _)]].
    - apply SLE in Q; auto. assert (~ (oc_end oc' < oc_end oc)%Z) by (intro C; destruct (T1 _ C); tauto).
      destruct C1 as [(W & _)|[(W & _ & _)|(W & _ & _)]]; [| |exfalso; destruct (W (oc_end oc')); tauto].
      + destruct (R1 (oc_end oc) (or_intror W)). apply SLE in W; auto. assert (~ (oc_end oc < oc_end oc')%Z) by (intro C; destruct (T2 _ C); tauto). lia.
      + destruct (R1 (oc_end oc) (or_introl W)). apply TPE in W; auto. assert (~ (oc_end oc < oc_end oc')%Z) by (intro C; destruct (T2 _ C); tauto). lia.
    - apply TPE in Q; auto. assert (~ (oc_end oc' < oc_end oc)%Z) by (intro C; destruct (T1 _ C); tauto).
      destruct C1 as [(W & _)|[(W & _ & _)|(W & _ & _)]]; [| |exfalso; destruct (W (oc_end oc')); tauto].
      + destruct (R1 (oc_end oc) (or_intror W)). apply SLE in W; auto. assert (~ (oc_end oc < oc_end oc')%Z) by (intro C; destruct (T2 _ C); tauto). lia.
      + destruct (R1 (oc_end oc) (or_introl W)). apply TPE in W; auto. assert (~ (oc_end oc < oc_end oc')%Z) by (intro C; destruct (T2 _ C); tauto). lia.
    - assert (e1 = e2) by (destruct EX as [[_ ->]|(_ & -> & _ & ? & _)]; lia).
      destruct C1 as [(W & _)|[(W & _ & _)|(_ & W & _)]]; [| |congruence].
      + destruct (R1 (oc_end oc) (or_intror W)). apply SLE in W; auto. exfalso; destruct (Q1 (oc_end oc)); tauto.
      + destruct (R1 (oc_end oc) (or_introl W)). apply TPE in W; auto. exfalso; destruct (Q1 (oc_end oc)); tauto. }
  assert (RR : oc_ret oc = oc_ret oc').
  { rewrite EE in C1. destruct C2 as [(Q & b' & B' & ->)|[(Q & NQ & b' & B' & ->)|(Q1 & Q2 & b' & B' & ->)]].
    - destruct C1 as [(W & b & Bb & ->)|[(W & NW & _)|(W & _ & _)]].
      + now rewrite (UNI _ _ _ HL Bb B').
      + apply SLE in Q; tauto.
      + apply SLE in Q; auto. exfalso; destruct (W (oc_end oc')); tauto.
    - destruct C1 as [(W & _)|[(W & NW & b & Bb & ->)|(W & _ & _)]].
      + apply SLE in W; tauto.
      + now rewrite (UNI _ _ _ HL Bb B').
      + apply TPE in Q; auto. exfalso; destruct (W (oc_end oc')); tauto.
    - destruct C1 as [(W & _)|[(W & NW & _)|(_ & W & b & Bb & ->)]].
      + apply SLE in W; auto. exfalso; destruct (Q1 (oc_end oc')); tauto.
      + apply TPE in W; auto. exfalso; destruct (Q1 (oc_end oc')); tauto.
      + rewrite <- W in Bb. rewrite <- Q2 in B'. now rewrite (UNI _ _ _ HL Bb B'). }
  split; [exact EE|]. split; [exact RR|]. intros hs ce. unfold event_label. rewrite RR, EE, X1, X2. destruct ce; [|reflexivity].
  destruct EX as [[-> _]|(-> & _ & [-> | ->] & Q4 & Q5)]; auto. destruct (Z.leb_spec e2 (oc_end oc')); auto.
  assert (e2 = L) by lia. now apply Q5 in H0.
Qed.
Print Assumptions c143_causal.

(** ** C144: an event is signalled by the close of its bar, but its life starts at the open of that bar.  A move inside the bar that exceeds
    the barrier labels the event, whatever the prices do after the signal. *)
Theorem c144_labelled_by_its_own_bar past s b future threshold holding targets pt_mult sl_mult min_target outs oc v :
  let bars := past ++ (s, b) :: future in
  zssorted (map fst bars) -> 0 <= threshold -> (0 <= holding)%Z -> 0 < pt_mult -> 0 <= sl_mult -> (forall t b, In (t, b) bars -> b_open b <> 0) ->
  (forall t, In t (cusum_times bars threshold) -> exists v, lookup t targets = Some (Some v) /\ min_target < v) ->
  label_pipeline bars threshold holding targets pt_mult sl_mult min_target None = Ok outs ->
  In oc outs -> ev_start (oc_event oc) = s -> lookup s targets = Some (Some v) -> 0 < pt_mult * v ->
  pt_mult * v < (b_high b - b_open b) / b_open b -> - (pt_mult * v) <= (b_low b - b_open b) / b_open b ->
  oc_end oc = s /\ oc_ret oc = Some ((b_high b - b_open b) / b_open b) /\ event_label false false oc = Some 1%Z.
Proof.
  intros bars Hb Hth Hhold Hpt Hsl Hop Htg E Hin Hs Hv HT HH HLo.
  assert (Hb0 : In (s, b) bars) by (unfold bars; apply in_app_iff; right; now left).
  assert (NE : cusum_times bars threshold <> []).
  { intro C. destruct (@expiries_spec bars threshold holding Hth Hb) as (X1 & _). unfold label_pipeline in E. rewrite event_returns_triple in E; auto; [|now apply cusum_times_sorted].
    rewrite C in E. unfold triple_barrier in E. destruct (qle 0 pt_mult && _); [|discriminate]. destruct (rev _) as [|[ll lr] r]; [discriminate|]. cbn in E. injection E as <-. destruct Hin. }
  destruct (@c143_events_processed bars threshold holding targets pt_mult sl_mult min_target None Hb Hth Hhold (Qclt_le_weak _ _ Hpt) Hsl Hop Htg I NE) as (o1 & Eo1 & F & P).
  assert (o1 = outs) by congruence. subst o1. apply In_nth_error in Hin as [k Hk]. unfold event_spans in F. rewrite map_map in F. cbn [fst] in F.
  assert (S1 : nth_error (cusum_times bars threshold) k = Some s) by (rewrite <- F, nth_error_map, Hk; cbn; now rewrite Hs).
  destruct (@pipeline_outcome bars threshold holding targets pt_mult sl_mult min_target None Hb Hth Hop Htg I outs k s oc b v E S1 Hk Hb0 Hv) as (_ & T & C).
  cbv zeta in T, C. set (e := match lookup s (pipeline_expiries bars threshold holding) with Some (Some x) => x | _ => _ end) in *. set (ps := map (fun b : Z * ohlc => (fst b, Some (snd b))) bars) in *.
  assert (SE : (s <= oc_end oc)%Z). { apply (P s (oc_end oc)). unfold event_spans. apply in_map_iff. exists oc. rewrite Hs. split; auto. now apply nth_error_In in Hk. }
  assert (U : forall b', In (s, b') bars -> b' = b) by (intros b' H; eapply zssorted_unique; eauto).
  assert (PSI : forall u b', In (u, Some b') ps <-> In (u, b') bars).
  { intros u b'. unfold ps. rewrite in_map_iff. split; [intros ([u' b''] & EE & H); cbn in EE; injection EE as -> ->; exact H|]. intro H. exists (u, b'). auto. }
  assert (LE : (s <= e)%Z). { destruct C as [((_ & R & _) & _)|[((_ & R & _) & _)|(_ & <- & _)]]; lia. }
  assert (TP : takes_profit ps s e 1 (b_open b) pt_mult v s).
  { split; [exact Hpt|]. split; [lia|]. exists b. split; [now apply PSI|]. unfold held, best. cbn [Z.eqb Pos.eqb]. change (qz 1) with 1. rewrite Qcmult_1_l. exact HH. }
  assert (NS : ~ stops_loss ps s e 1 (b_open b) pt_mult v s).
  { intros (_ & _ & b' & Hb' & G). apply PSI, U in Hb'. subst b'. unfold held, worst in G. cbn [Z.eqb Pos.eqb] in G. change (qz 1) with 1 in G. rewrite Qcmult_1_l in G. apply (Qclt_not_le _ _ G HLo). }
  assert (EE : oc_end oc = s). { destruct (Z.eq_dec (oc_end oc) s); auto. destruct (T s ltac:(lia)). tauto. }
  rewrite EE in C. assert (R : oc_ret oc = Some ((b_high b - b_open b) / b_open b)).
  { destruct C as [(W & _)|[(_ & _ & b' & Hb' & ->)|(W & _)]]; [tauto| |destruct (W s); tauto]. apply U in Hb'. subst b'. unfold held, best. cbn [Z.eqb Pos.eqb]. change (qz 1) with 1. now rewrite Qcmult_1_l. }
  split; [exact EE|]. split; [exact R|]. unfold event_label. rewrite R. cbn. f_equal. unfold qsign. assert (0 < (b_high b - b_open b) / b_open b) by qlra.
  apply qlt_iff in H. now rewrite H.
Qed.
Print Assumptions c144_labelled_by_its_own_bar.

(** an example: prices 100, 100, a jump to 110, then a slide to 60 *)
Definition bar (o h l c : Z) : ohlc := {| b_open := qz o; b_high := qz h; b_low := qz l; b_close := qz c |}.
Definition slide : list (Z * ohlc) :=
  [(0%Z, bar 100 101 99 100); (10%Z, bar 100 101 99 100); (20%Z, bar 100 110 99 110); (30%Z, bar 110 110 80 80); (40%Z, bar 80 80 60 60); (50%Z, bar 60 61 59 60)].
Definition slide_targets : list (Z * option Qc) := map (fun b => (fst b, Some (1 / qz 20))) slide.
(** summary of outcomes that does not carry canonicity proofs *)
Definition brief (r : res (list outcome)) : res (list (Z * Z * option Z)) :=
  match r with Ok l => Ok (map (fun oc => (ev_start (oc_event oc), oc_end oc, event_label false false oc)) l) | Err e => Err e end.
Example slide_events : cusum_times slide (qz 5) = [20%Z; 30%Z; 40%Z].
Proof. vm_compute. reflexivity. Qed.
Example slide_labels : brief (label_pipeline slide (qz 5) 20 slide_targets 1 1 0 None) = Ok [((20, 20)%Z, Some 1%Z); ((30, 30)%Z, Some (-1)%Z); ((40, 40)%Z, Some (-1)%Z)].
Proof. vm_compute. reflexivity. Qed.
(** the first event is signalled at 110; every later price is lower; its label is 1 *)
Theorem c144_future_decides_refuted : exists bars outs oc b,
  zssorted (map fst bars) /\ label_pipeline bars (qz 5) 20 slide_targets 1 1 0 None = Ok outs /\ In oc outs /\ In (ev_start (oc_event oc), b) bars /\
  event_label false false oc = Some 1%Z /\ oc_end oc = ev_start (oc_event oc) /\
  (exists t b', In (t, b') bars /\ (ev_start (oc_event oc) < t)%Z) /\
  forall t b', In (t, b') bars -> (ev_start (oc_event oc) < t)%Z -> b_close b' < b_close b.
Proof.
  destruct (label_pipeline slide (qz 5) 20 slide_targets 1 1 0 None) as [outs|e] eqn:E; pose proof slide_labels as L; rewrite E in L; [|discriminate]. cbn [brief] in L.
  destruct outs as [|oc outs]; [discriminate|]. injection L as L1 L2 L3 _. exists slide, (oc :: outs), oc, (bar 100 110 99 110). rewrite L1.
  split; [repeat constructor|]. split; [exact E|]. split; [now left|]. split; [cbn; auto|]. split; [exact L3|]. split; [exact L2|].
  split; [exists 30%Z, (bar 110 110 80 80); split; [cbn; auto 10|lia]|].
  intros t b' H Ht. repeat (destruct H as [H|H]; [injection H as <- <-; try lia; vm_compute; reflexivity|]). destruct H.
Qed.
Print Assumptions c144_future_decides_refuted.

(** non-vacuity: the example meets the hypotheses of the theorems *)
Example slide_sorted : zssorted (map fst slide).
Proof. repeat constructor. Qed.
Example slide_open : forall t b, In (t, b) slide -> b_open b <> 0.
Proof. intros t b H. repeat (destruct H as [H|H]; [injection H as <- <-; intro C; discriminate|]). destruct H. Qed.
Example slide_has_targets : forall t, In t (cusum_times slide (qz 5)) -> exists v, lookup t slide_targets = Some (Some v) /\ 0 < v.
Proof. rewrite slide_events. intros t H. exists (1 / qz 20). repeat (destruct H as [<-|H]; [split; [reflexivity|vm_compute; reflexivity]|]). destruct H. Qed.
Example slide_processed : exists outs, label_pipeline slide (qz 5) 20 slide_targets 1 1 0 None = Ok outs /\
  exists us, label_avg_uniqueness (map fst slide) (event_spans outs) = Ok us /\ map fst us = [20%Z; 30%Z; 40%Z].
Proof.
  assert (NE : cusum_times slide (qz 5) <> []) by (rewrite slide_events; discriminate).
  assert (H5 : 0 <= qz 5) by (vm_compute; discriminate). assert (H1 : 0 <= 1) by (vm_compute; discriminate). assert (H20 : (0 <= 20)%Z) by lia.
  destruct (@c143_events_processed slide (qz 5) 20 slide_targets 1 1 0 None slide_sorted H5 H20 H1 H1 slide_open slide_has_targets I NE) as (outs & E & _).
  exists outs. split; [exact E|]. destruct (@c143_weights_and_folds slide (qz 5) 20 slide_targets 1 1 0 None slide_sorted H5 H20 H1 H1 slide_open slide_has_targets I outs NE E) as ((us & U1 & U2 & _) & _).
  exists us. split; [exact U1|]. rewrite U2. apply slide_events.
Qed.
(** the run on the first four bars: its first event ends at 20 in both runs *)
Example slide_causal : brief (label_pipeline (firstn 4 slide) (qz 5) 20 slide_targets 1 1 0 None) = Ok [((20, 20)%Z, Some 1%Z); ((30, 30)%Z, Some (-1)%Z)].
Proof. vm_compute. reflexivity. Qed.
Example slide_wide : brief (label_pipeline slide (qz 5) 20 slide_targets (qz 3) 1 0 None) = Ok [((20, 30)%Z, Some (-1)%Z); ((30, 30)%Z, Some (-1)%Z); ((40, 40)%Z, Some (-1)%Z)].
Proof. vm_compute. reflexivity. Qed.
