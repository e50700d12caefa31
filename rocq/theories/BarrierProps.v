(** C53-C57: triple-barrier events, event labels, fixed-window events. *)
From Verif Require Import Py RNum BarrierModel BarrierSpec BarrierProofs.
Set Implicit Arguments.
Unset Strict Implicit.
Open Scope Qc_scope.

(** ** C53 *)
(** Each event with a side, a target and a known start price ends at its first touch; ties go to the stop loss. *)
Theorem c53_first_touch ps evs pt_mult sl_mult outs k ev oc b0 side target last_label last_row :
  NoDup (map fst ps) -> last ps (last_label, last_row) = (last_label, last_row) ->
  triple_barrier ps evs pt_mult sl_mult = Ok outs -> nth_error evs k = Some ev -> nth_error outs k = Some oc ->
  In (ev_start ev, Some b0) ps -> b_open b0 <> 0 -> ev_side ev = Some side -> ev_target ev = Some target ->
  let s := b_open b0 in
  let expiry := match ev_expiry ev with Some e => e | None => last_label end in
  let tp := takes_profit ps (ev_start ev) expiry side s pt_mult target in
  let sl := stops_loss ps (ev_start ev) expiry side s sl_mult target in
  length outs = length evs /\ oc_event oc = ev /\ (side = 1%Z \/ side = (-1)%Z) /\ first_time tp (oc_pt oc) /\ first_time sl (oc_sl oc) /\
  (* no touch before the end *)
  (forall t, (t < oc_end oc)%Z -> ~ tp t /\ ~ sl t) /\
  (* what happens at the end *)
  (  (sl (oc_end oc) /\ exists b, In (oc_end oc, Some b) ps /\ oc_ret oc = Some (held side s (worst side b)))
  \/ (tp (oc_end oc) /\ ~ sl (oc_end oc) /\ exists b, In (oc_end oc, Some b) ps /\ oc_ret oc = Some (held side s (best side b)))
  \/ ((forall t, ~ tp t /\ ~ sl t) /\ oc_end oc = expiry /\
      exists row, In (expiry, row) ps /\ oc_ret oc = option_map (fun b => (b_close b - s) / s) row)).
Proof.
  intros Hnd Hlast H Hev Hoc Hstart Hs Hside Htgt. unfold triple_barrier in H.
  destruct (qle 0 pt_mult && qle 0 sl_mult); [|discriminate].
  destruct (rev ps) as [|[ll lr] r] eqn:Er; [discriminate|].
  assert (Hll : ll = last_label).
  { assert (E : ps = rev r ++ [(ll, lr)]) by (rewrite <- (rev_involutive ps), Er; reflexivity). rewrite E, last_last in Hlast. congruence. }
  subst ll. apply mapM_ok in H. pose proof (Forall2_length H) as Hlen.
  assert (Hb : barrier_event ps last_label pt_mult sl_mult ev = Ok oc).
  { clear -H Hev Hoc. revert k Hev Hoc. induction H as [|a b l l' Hab H IH]; intros [|k]; cbn; try discriminate.
    - intros E1 E2. congruence.
    - apply IH. }
  assert (Hrow := lookup_nodup Hnd Hstart).
  pose proof (barrier_event_spec Hnd Hrow Hs Hside Htgt Hb) as Hsp. cbn zeta in Hsp |- *.
  set (s := b_open b0) in *. set (expiry := match ev_expiry ev with Some e => e | None => last_label end) in *.
  destruct Hsp as (E1 & Hpm & Fp & Fl & Hcase).
  split; [congruence|]. split; [auto|]. split; [auto|]. split; [auto|]. split; [auto|].
  destruct (oc_pt oc) as [tp|], (oc_sl oc) as [tl|]; cbn [first_time] in Fp, Fl.
  - destruct Fp as [Fp Mp], Fl as [Fl Ml]. destruct Hcase as [(Hlt & -> & Hret)|(Hle & -> & Hret)].
    + split.
      * intros t Ht. split; intro C; [apply Mp in C|apply Ml in C]; lia.
      * right. left. split; auto. split; auto. intro C. apply Ml in C. lia.
    + split.
      * intros t Ht. split; intro C; [apply Mp in C|apply Ml in C]; lia.
      * left. auto.
  - destruct Fp as [Fp Mp]. destruct Hcase as (-> & Hret). split.
    + intros t Ht. split; intro C; [apply Mp in C; lia|now apply Fl in C].
    + right. left. auto.
  - destruct Fl as [Fl Ml]. destruct Hcase as (-> & Hret). split.
    + intros t Ht. split; intro C; [now apply Fp in C|apply Ml in C; lia].
    + left. auto.
  - destruct Hcase as (-> & row & Hrw & Hret). split.
    + intros t Ht. split; [apply Fp|apply Fl].
    + right. right. split; [intro t; split; [apply Fp|apply Fl]|]. split; auto. exists row. split; auto. now apply lookup_in.
Qed.
Print Assumptions c53_first_touch.
(** The end lies in the life of the event. *)
Theorem c53_end_in_life ps last_label pt_mult sl_mult ev oc b0 side target e :
  NoDup (map fst ps) -> In (ev_start ev, Some b0) ps -> b_open b0 <> 0 -> ev_side ev = Some side -> ev_target ev = Some target ->
  ev_expiry ev = Some e -> (ev_start ev <= e)%Z -> barrier_event ps last_label pt_mult sl_mult ev = Ok oc ->
  (ev_start ev <= oc_end oc <= e)%Z /\ In (oc_end oc) (map fst ps).
Proof.
  intros Hnd Hin Hs Hside Htgt He Hse Hb. pose proof (barrier_event_spec Hnd (lookup_nodup Hnd Hin) Hs Hside Htgt Hb) as Hsp.
  cbn zeta in Hsp. rewrite He in Hsp. destruct Hsp as (_ & _ & Fp & Fl & Hcase).
  destruct (oc_pt oc) as [tp|], (oc_sl oc) as [tl|]; cbn [first_time] in Fp, Fl; unfold takes_profit, stops_loss in *.
  - destruct Fp as [(_ & ? & _) _], Fl as [(_ & ? & _) _]. destruct Hcase as [(_ & -> & b & Hb' & _)|(_ & -> & b & Hb' & _)]; (split; [lia|]; now apply (in_map fst) in Hb').
  - destruct Fp as [(_ & ? & _) _]. destruct Hcase as (-> & b & Hb' & _); (split; [lia|]; now apply (in_map fst) in Hb').
  - destruct Fl as [(_ & ? & _) _]. destruct Hcase as (-> & b & Hb' & _); (split; [lia|]; now apply (in_map fst) in Hb').
  - destruct Hcase as (-> & b & Hb' & _). split; [lia|]. apply lookup_in in Hb'. now apply (in_map fst) in Hb'.
Qed.
Print Assumptions c53_end_in_life.

Definition bar4 o h l c := {| b_open := qz o; b_high := qz h; b_low := qz l; b_close := qz c |}.
Definition ex_prices : prices := [(0%Z, Some (bar4 100 101 99 100)); (1%Z, Some (bar4 100 104 99 103)); (2%Z, Some (bar4 103 112 85 90)); (3%Z, Some (bar4 90 95 89 94))].
(** tie on bar 2: the stop loss is recorded *)
Example c53_example_tie :
  match triple_barrier ex_prices [{| ev_start := 0; ev_expiry := Some 3%Z; ev_target := Some (q 1 10); ev_side := Some 1%Z |}] 1 1 with
  | Ok [oc] => oc_end oc = 2%Z /\ oc_pt oc = Some 2%Z /\ oc_sl oc = Some 2%Z /\ option_map this (oc_ret oc) = Some (-3 # 20)%Q
  | _ => False
  end.
Proof. vm_compute. auto. Qed.
Example c53_example_expiry :
  match triple_barrier ex_prices [{| ev_start := 0; ev_expiry := Some 1%Z; ev_target := Some (q 1 10); ev_side := Some 1%Z |}] 1 1 with
  | Ok [oc] => oc_end oc = 1%Z /\ oc_pt oc = None /\ oc_sl oc = None /\ option_map this (oc_ret oc) = Some (3 # 100)%Q
  | _ => False
  end.
Proof. vm_compute. auto. Qed.
Example c53_example_hyps : NoDup (map fst ex_prices) /\ last ex_prices (3%Z, Some (bar4 90 95 89 94)) = (3%Z, Some (bar4 90 95 89 94)) /\ b_open (bar4 100 101 99 100) <> 0.
Proof. split; [|split; [reflexivity|discriminate]]. cbn. repeat constructor; cbn; intuition discriminate. Qed.

(** ** C54 *)
(** REFUTED: an expired short whose price fell 10% is recorded with a return of -10%. *)
Theorem c54_refuted : exists ps ev oc b0 b1,
  triple_barrier ps [ev] 1 1 = Ok [oc] /\ ev_side ev = Some (-1)%Z /\ In (ev_start ev, Some b0) ps /\ In (oc_end oc, Some b1) ps /\
  oc_pt oc = None /\ oc_sl oc = None /\ held (-1) (b_open b0) (b_close b1) = q 1 10 /\ oc_ret oc = Some (- q 1 10).
Proof.
  exists [(0%Z, Some (bar4 100 100 100 100)); (1%Z, Some (bar4 90 90 90 90))],
    {| ev_start := 0; ev_expiry := Some 1%Z; ev_target := Some (q 1 2); ev_side := Some (-1)%Z |}.
  eexists. exists (bar4 100 100 100 100), (bar4 90 90 90 90). split; [vm_compute; reflexivity|].
  cbn [ev_side ev_start oc_end oc_pt oc_sl oc_ret]. split; [auto|]. split; [now left|]. split; [now right; left|].
  split; [auto|]. split; [auto|]. split; [vm_compute; reflexivity|]. reflexivity.
Qed.
Print Assumptions c54_refuted.
(** What holds: the return is the position's return for long events and whenever a barrier is touched; an expired short has the opposite sign. *)
Theorem c54_return_sign ps last_label pt_mult sl_mult ev oc b0 side target :
  NoDup (map fst ps) -> In (ev_start ev, Some b0) ps -> b_open b0 <> 0 -> ev_side ev = Some side -> ev_target ev = Some target ->
  barrier_event ps last_label pt_mult sl_mult ev = Ok oc ->
  let s := b_open b0 in
  (oc_pt oc <> None \/ oc_sl oc <> None -> exists b p, In (oc_end oc, Some b) ps /\ (p = b_high b \/ p = b_low b) /\ oc_ret oc = Some (held side s p)) /\
  (oc_pt oc = None -> oc_sl oc = None -> forall b, In (oc_end oc, Some b) ps ->
     (side = 1%Z -> oc_ret oc = Some (held side s (b_close b))) /\ (side = (-1)%Z -> oc_ret oc = Some (- held side s (b_close b)))).
Proof.
  intros Hnd Hin Hs Hside Htgt Hb. pose proof (barrier_event_spec Hnd (lookup_nodup Hnd Hin) Hs Hside Htgt Hb) as Hsp.
  cbn zeta in *. destruct Hsp as (_ & _ & Fp & Fl & Hcase).
  assert (Hbest : forall b, best side b = b_high b \/ best side b = b_low b) by (intro b; unfold best; destruct (_ =? _)%Z; auto).
  assert (Hworst : forall b, worst side b = b_high b \/ worst side b = b_low b) by (intro b; unfold worst; destruct (_ =? _)%Z; auto).
  split.
  - intro Ht. destruct (oc_pt oc) as [tp|], (oc_sl oc) as [tl|].
    + destruct Hcase as [(_ & -> & b & Hb' & ->)|(_ & -> & b & Hb' & ->)]; eauto 6.
    + destruct Hcase as (-> & b & Hb' & ->); eauto 6.
    + destruct Hcase as (-> & b & Hb' & ->); eauto 6.
    + destruct Ht; congruence.
  - intros E1 E2 b Hb'. rewrite E1, E2 in Hcase. destruct Hcase as (Ee & row & Hrow & ->). rewrite Ee in Hb'.
    rewrite (lookup_nodup Hnd Hb') in Hrow. injection Hrow as <-. cbn [option_map]. unfold held. split; intros ->; f_equal.
    + change (qz 1) with 1. ring.
    + change (qz (-1)) with (- (1)). ring.
Qed.
Print Assumptions c54_return_sign.
(** the documented encoding of a short, 0, is not accepted *)
Theorem c54_documented_short_raises ps last_label pt_mult sl_mult ev :
  In (ev_start ev) (map fst ps) -> ev_side ev = Some 0%Z -> barrier_event ps last_label pt_mult sl_mult ev = Err AssertionError.
Proof. intros H E. apply lookup_some_iff in H as [row Hr]. unfold barrier_event. now rewrite Hr, E. Qed.
Print Assumptions c54_documented_short_raises.

(** ** C55 *)
(** REFUTED: one event with a small target makes the whole call fail, although the other event is fine. *)
Theorem c55_refuted : exists bars starts targets, In 0%Z starts /\ lookup 0%Z targets = Some (Some (q 1 10)) /\
  get_event_returns bars starts targets 1 1 None (q 1 100) None = Err ValueError /\
  exists oc, get_event_returns bars [0%Z] targets 1 1 None (q 1 100) None = Ok [oc].
Proof.
  exists [(0%Z, bar4 100 100 100 100); (1%Z, bar4 100 100 100 100)], [0%Z; 1%Z], [(0%Z, Some (q 1 10)); (1%Z, Some (q 1 1000))].
  split; [now left|]. split; [reflexivity|]. split; [vm_compute; reflexivity|]. eexists. vm_compute. reflexivity.
Qed.
Print Assumptions c55_refuted.

Lemma kept_spec starts (targets ts : list (Z * option Qc)) : mapM (fun t => match lookup t targets with Some v => Ok (t, v) | None => Err KeyError end) starts = Ok ts ->
  map fst ts = starts /\ forall t v, In (t, v) ts -> lookup t targets = Some v.
Proof.
  intro H. apply mapM_ok in H. induction H as [|a b l l' Hab H [IH1 IH2]]; [cbn; split; auto; intros ? ? []|].
  destruct (lookup a targets) as [v|] eqn:E; [|discriminate]. injection Hab as <-. cbn. split; [now rewrite IH1|].
  intros t w [Ht|Ht]; [congruence|auto].
Qed.

(** In general: if an event that has a row in the expiries (always so when there are no vertical barriers) is filtered out, the call raises. *)
Theorem c55_filtered_event_raises bars starts targets pt_mult sl_mult expiries min_target sides t v :
  In t starts -> lookup t targets = Some v -> ogt v (Some min_target) = false ->
  (match expiries with None => True | Some l => In t (map fst l) end) ->
  exists e, get_event_returns bars starts targets pt_mult sl_mult expiries min_target sides = Err e.
Proof.
  intros Hin Hv Hsmall Hexp. unfold get_event_returns.
  destruct (mapM _ starts) as [ts|e] eqn:E; [|now exists e]. cbn [bind].
  destruct (kept_spec E) as [Hfst Hts].
  set (kept := filter _ ts).
  assert (Hnk : ~ In t (map fst kept)).
  { intro C. apply in_map_iff in C as ([t' w] & <- & C). unfold kept in C. apply filter_In in C as [C Hg]. cbn [fst snd] in *.
    apply Hts in C. rewrite Hv in C. injection C as ->. congruence. }
  match goal with |- exists e, bind ?m _ = Err e => destruct m as [es|e] eqn:Es; [|now exists e] end. cbn [bind].
  assert (Hes : map fst es = map fst kept).
  { destruct sides as [l|].
    - apply mapM_ok in Es. clear -Es. induction Es as [|a b l1 l2 Hab H IH]; auto. cbn. destruct (lookup (fst a) l); [|discriminate]. injection Hab as <-. cbn. now rewrite IH.
    - injection Es as <-. rewrite map_map. reflexivity. }
  set (exps := match expiries with Some l => l | None => map (fun t0 => (t0, None)) starts end).
  assert (Hke : In t (map fst exps)).
  { unfold exps. destruct expiries; auto. rewrite map_map. cbn [fst]. now rewrite map_id. }
  set (keys := zset (map fst exps ++ map fst kept ++ map fst es)). unfold triple_barrier. destruct (_ && _); [|eauto]. destruct (rev _) as [|[ll lr] r]; [eauto|].
  assert (Hk : In t keys) by (apply zset_in, in_app_iff; auto).
  match goal with |- exists e, mapM (barrier_event ?ps ?ll ?a ?b) (map ?g keys) = Err e => destruct (@barrier_event_no_side ps ll a b (g t)) as [e He] end.
  - cbn [ev_side]. apply lookup_none. now rewrite Hes.
  - eapply mapM_err; [apply in_map; exact Hk|exact He].
Qed.
Print Assumptions c55_filtered_event_raises.

(** If every target exceeds the minimum and the expiries only concern the given events, all events are processed. *)
Theorem c55_unfiltered_processed bars starts targets pt_mult sl_mult expiries min_target sides :
  0 <= pt_mult -> 0 <= sl_mult -> zssorted starts -> (starts <> [] \/ bars <> []) ->
  (forall t, In t starts -> exists v, lookup t targets = Some (Some v) /\ min_target < v) ->
  (match expiries with None => True | Some l => forall t, In t (map fst l) -> In t starts end) ->
  (match sides with None => True | Some l => forall t, In t starts -> lookup t l = Some 1%Z \/ lookup t l = Some (-1)%Z end) ->
  exists outs, get_event_returns bars starts targets pt_mult sl_mult expiries min_target sides = Ok outs /\
    map (fun oc => ev_start (oc_event oc)) outs = starts /\
    forall oc, In oc outs -> Some (ev_target (oc_event oc)) = lookup (ev_start (oc_event oc)) targets.
Proof.
  intros Hp Hl Hst Hne Htg Hex Hsd. unfold get_event_returns.
  destruct (@mapM_all_ok _ _ (fun t => match lookup t targets with Some v => Ok (t, v) | None => Err KeyError end) starts) as [ts Ets].
  { intros t Ht. destruct (Htg t Ht) as (v & -> & _). eauto. }
  rewrite Ets. cbn [bind]. destruct (kept_spec Ets) as [Hfst Hts].
  assert (Hkept : filter (fun p : Z * option Qc => ogt (snd p) (Some min_target)) ts = ts).
  { assert (Hall : forall p, In p ts -> ogt (snd p) (Some min_target) = true).
    { intros [t v] Hp'. pose proof (Hts _ _ Hp') as Hlk. assert (In t starts) by (rewrite <- Hfst; now apply (in_map fst) in Hp').
      destruct (Htg t H) as (v' & E & Hv). rewrite Hlk in E. injection E as ->. cbn. now apply qlt_iff. }
    clear -Hall. induction ts as [|p ts IH]; cbn [filter]; auto. rewrite Hall by now left. rewrite IH; auto. intros; apply Hall; now right. }
  rewrite Hkept.
  assert (exists es, (match sides with
        | None => Ok (map (fun p : Z * option Qc => (fst p, 1%Z)) ts)
        | Some l => mapM (fun p : Z * option Qc => match lookup (fst p) l with Some s => Ok (fst p, s) | None => Err KeyError end) ts
        end) = Ok es /\ map fst es = starts /\ forall t s, In (t, s) es -> s = 1%Z \/ s = (-1)%Z) as (es & Ees & Hesf & Hess).
  { destruct sides as [l|].
    - destruct (@mapM_all_ok _ _ (fun p : Z * option Qc => match lookup (fst p) l with Some s => Ok (fst p, s) | None => Err KeyError end) ts) as [es Ees].
      { intros p Hp'. assert (In (fst p) starts) by (rewrite <- Hfst; now apply in_map). destruct (Hsd _ H) as [-> | ->]; eauto. }
      exists es. split; auto. apply mapM_ok in Ees. rewrite <- Hfst in *. clear -Ees Hsd. induction Ees as [|a b l1 l2 Hab H IH]; [cbn; split; auto; intros ? ? []|].
      cbn in Hsd |- *. destruct IH as [I1 I2]; [intros; apply Hsd; auto|].
      destruct (lookup (fst a) l) as [s|] eqn:E; [|discriminate]. injection Hab as <-. cbn. split; [now rewrite I1|].
      intros t s' [Es|Es]; [|eauto]. injection Es as <- <-. destruct (Hsd (fst a) (or_introl eq_refl)); rewrite E in *; [left|right]; congruence.
    - exists (map (fun p => (fst p, 1%Z)) ts). split; auto. split; [now rewrite map_map|]. intros t s H. apply in_map_iff in H as (p & E & _). injection E as _ <-. auto. }
  match goal with |- context[bind ?m _] => replace m with (Ok es) end. cbn [bind].
  set (exps := match expiries with Some l => l | None => map (fun t0 => (t0, None)) starts end).
  assert (Hexps : forall t, In t (map fst exps) -> In t starts).
  { unfold exps. destruct expiries; auto. rewrite map_map. cbn [fst]. rewrite map_id. auto. }
  replace (zset (map fst exps ++ map fst ts ++ map fst es)) with starts.
  2:{ symmetry. apply ssorted_ext; auto using zset_sorted. intro t. rewrite zset_in, !in_app_iff, Hfst, Hesf. intuition. }
  set (labels := zset (map fst bars ++ starts ++ somes (map snd exps))).
  unfold triple_barrier.
  replace (qle 0 _ && qle 0 _) with true.
  2:{ symmetry. apply andb_true_iff. rewrite !qle_iff. destruct sides; cbn; auto. }
  destruct (rev (map (fun t => (t, bfill bars t)) labels)) as [|[ll lr] r] eqn:Er.
  { exfalso. assert (labels = []) as El.
    { apply (f_equal (@rev _)) in Er. rewrite rev_involutive in Er. cbn in Er. now apply map_eq_nil in Er. }
    assert (Hall : forall t, ~ In t (map fst bars ++ starts ++ somes (map snd exps))) by (intros t Ht; apply zset_in in Ht; fold labels in Ht; rewrite El in Ht; destruct Ht).
    destruct Hne as [Hne|Hne].
    - destruct starts as [|t0 st]; [congruence|]. apply (Hall t0). apply in_app_iff. right. apply in_app_iff. left. now left.
    - destruct bars as [|[t0 b] bs]; [congruence|]. apply (Hall t0). now left. }
  assert (Hlab : forall t, In t labels -> exists row, lookup t (map (fun t => (t, bfill bars t)) labels) = Some row) by (intros t Ht; rewrite lookup_index; eauto).
  assert (Hll : In ll labels).
  { apply rev_last_in in Er. apply in_map_iff in Er as (u & E & Hu). congruence. }
  rewrite mapM_map.
  match goal with |- context[mapM ?f starts] => destruct (@mapM_all_ok _ _ f starts) as [outs Eouts] end.
  { intros t Ht.
    assert (exists s, lookup t es = Some s) as [s Hs] by (apply lookup_some_iff; now rewrite Hesf).
    edestruct (@barrier_event_ok (map (fun t => (t, bfill bars t)) labels) ll) as (oc & Hoc & _); [| | | |exists oc; exact Hoc].
    - cbn [ev_start]. apply Hlab. apply zset_in, in_app_iff. right. apply in_app_iff. now left.
    - cbn [ev_side]. exact Hs.
    - apply lookup_in in Hs. eapply Hess; eauto.
    - cbn [ev_expiry]. apply Hlab. destruct (lookup t exps) as [[e|]|] eqn:E; auto. apply zset_in, in_app_iff. right. apply in_app_iff. right.
      apply somes_in. apply lookup_in in E. now apply (in_map snd) in E. }
  exists outs. split; auto. apply mapM_ok in Eouts.
  assert (Htarget : forall t, In t starts -> Some match lookup t ts with Some v => v | None => None end = lookup t targets).
  { intros t Ht. assert (exists v, lookup t ts = Some v) as [v Hv] by (apply lookup_some_iff; now rewrite Hfst). rewrite Hv. apply lookup_in, Hts in Hv. auto. }
  clear -Eouts Htarget. induction Eouts as [|a oc l l' Hab H IH]; [cbn; split; auto; intros ? []|].
  apply barrier_event_event in Hab. destruct IH as [I1 I2]; [intros; apply Htarget; now right|]. cbn [map]. rewrite I1, Hab. cbn [ev_start]. split; auto.
  intros oc' [<-|Hin]; auto. rewrite Hab. cbn [ev_target ev_start]. apply Htarget. now left.
Qed.
Print Assumptions c55_unfiltered_processed.
(** (start 1 lies between bars and takes the prices of bar 2, so the first event is dated 1 although bar 2 touches its barrier) *)
Example c55_example : exists oc1 oc2, get_event_returns [(0%Z, bar4 100 100 100 100); (2%Z, bar4 100 120 100 110); (4%Z, bar4 100 100 80 90)] [0%Z; 1%Z]
    [(0%Z, Some (q 1 10)); (1%Z, Some (q 1 2))] 1 1 (Some [(0%Z, Some 3%Z)]) 0 None = Ok [oc1; oc2] /\ oc_end oc1 = 1%Z /\ oc_end oc2 = 4%Z.
Proof. eexists; eexists. split; [vm_compute; reflexivity|]. split; reflexivity. Qed.

(** ** C56 *)
Theorem c56_labels oc :
  (forall r, oc_ret oc = Some r ->
     (event_label false false oc = Some 1%Z <-> 0 < r) /\ (event_label false false oc = Some (-1)%Z <-> r < 0) /\ (event_label false false oc = Some 0%Z <-> r = 0) /\
     (event_label true false oc = Some 1%Z <-> 0 < r) /\ (event_label true false oc = Some 0%Z <-> r <= 0)) /\
  (oc_ret oc = None -> forall has_side, event_label has_side false oc = None) /\
  (forall has_side, event_label has_side true oc =
     match ev_expiry (oc_event oc) with Some e => if (e <=? oc_end oc)%Z then Some 0%Z else event_label has_side false oc | None => event_label has_side false oc end).
Proof.
  split; [|split].
  - intros r Hr. unfold event_label. rewrite Hr. cbn [option_map]. unfold qsign.
    destruct (qlt 0 r) eqn:E1; [apply qlt_iff in E1|apply qlt_false in E1]; (destruct (qlt r 0) eqn:E2; [apply qlt_iff in E2|apply qlt_false in E2]);
    (destruct (qle r 0) eqn:E3; [apply qle_iff in E3|apply qle_false in E3]);
    repeat match goal with |- _ /\ _ => split end; (split; [intro H; try discriminate H; try reflexivity; try qlra|intro H; try reflexivity; exfalso; subst; qlra]).
  - intros Hr hs. unfold event_label. rewrite Hr. now destruct hs.
  - reflexivity.
Qed.
Print Assumptions c56_labels.
(** Causality: the end and return (hence the label) of an event with an expiry do not depend on prices after its end. *)
Theorem c56_label_causal ps ps' last_label last_label' pt_mult sl_mult ev oc b0 side target e :
  NoDup (map fst ps) -> NoDup (map fst ps') -> In (ev_start ev, Some b0) ps -> b_open b0 <> 0 ->
  ev_side ev = Some side -> ev_target ev = Some target -> ev_expiry ev = Some e -> (ev_start ev <= e)%Z ->
  barrier_event ps last_label pt_mult sl_mult ev = Ok oc ->
  (forall t b, (t <= oc_end oc)%Z -> In (t, b) ps <-> In (t, b) ps') ->
  exists oc', barrier_event ps' last_label' pt_mult sl_mult ev = Ok oc' /\ oc_end oc' = oc_end oc /\ oc_ret oc' = oc_ret oc /\
    forall hs ce, event_label hs ce oc' = event_label hs ce oc.
Proof.
  intros Hnd Hnd' Hin Hs Hside Htgt He Hse Hb Ha.
  destruct (@barrier_event_causal ps ps' last_label last_label' pt_mult sl_mult ev oc b0 side target e) as (oc' & H1 & H2 & H3); auto; [now apply lookup_nodup|].
  exists oc'. split; auto. split; auto. split; auto. intros hs ce. unfold event_label.
  rewrite (barrier_event_event H1), (barrier_event_event Hb), H2, H3. reflexivity.
Qed.
Print Assumptions c56_label_causal.
(** If all starts and expiries are bar times, the price table of [get_event_returns] is the bars themselves (so [c56_label_causal] speaks about bars). *)
Theorem c56_prices_are_bars bars extra : zssorted (map fst bars) -> (forall t, In t extra -> In t (map fst bars)) ->
  map (fun t => (t, bfill bars t)) (zset (map fst bars ++ extra)) = map (fun b => (fst b, Some (snd b))) bars.
Proof.
  intros Hs Hx. replace (zset (map fst bars ++ extra)) with (map fst bars).
  2:{ symmetry. apply ssorted_ext; auto using zset_sorted. intro t. rewrite zset_in, in_app_iff. intuition. }
  rewrite map_map. apply map_ext_in. intros [t b] Hin. cbn [fst snd]. f_equal. now apply bfill_on_bar.
Qed.
Print Assumptions c56_prices_are_bars.
Lemma event_returns_triple bars starts targets pt_mult sl_mult expiries min_target sides :
  zssorted starts ->
  (forall t, In t starts -> exists v, lookup t targets = Some (Some v) /\ min_target < v) ->
  (match expiries with None => True | Some l => forall t, In t (map fst l) -> In t starts end) ->
  (match sides with None => True | Some l => forall t, In t starts -> exists s, lookup t l = Some s end) ->
  get_event_returns bars starts targets pt_mult sl_mult expiries min_target sides =
  triple_barrier (map (fun t => (t, bfill bars t)) (zset (map fst bars ++ starts ++ somes (map snd (match expiries with Some l => l | None => map (fun t => (t, None)) starts end)))))
    (map (fun t => {| ev_start := t; ev_expiry := match expiries with Some l => match lookup t l with Some e => e | None => None end | None => None end;
                      ev_target := match lookup t targets with Some v => v | None => None end; ev_side := match sides with None => Some 1%Z | Some l => lookup t l end |}) starts)
    pt_mult (match sides with None => pt_mult | Some _ => sl_mult end).
Proof.
  intros Hst Htg Hex Hsd. unfold get_event_returns.
  destruct (@mapM_all_ok _ _ (fun t => match lookup t targets with Some v => Ok (t, v) | None => Err KeyError end) starts) as [ts Ets].
  { intros t Ht. destruct (Htg t Ht) as (v & -> & _). eauto. }
  rewrite Ets. cbn [bind]. destruct (kept_spec Ets) as [Hfst Hts].
  assert (Hkept : filter (fun p : Z * option Qc => ogt (snd p) (Some min_target)) ts = ts).
  { assert (Hall : forall p, In p ts -> ogt (snd p) (Some min_target) = true).
    { intros [t v] Hp'. pose proof (Hts _ _ Hp') as Hlk. assert (In t starts) by (rewrite <- Hfst; now apply (in_map fst) in Hp').
      destruct (Htg t H) as (v' & E & Hv). rewrite Hlk in E. injection E as ->. cbn. now apply qlt_iff. }
    clear -Hall. induction ts as [|p ts IH]; cbn [filter]; auto. rewrite Hall by now left. rewrite IH; auto. intros; apply Hall; now right. }
  rewrite Hkept.
  assert (exists es, (match sides with
        | None => Ok (map (fun p : Z * option Qc => (fst p, 1%Z)) ts)
        | Some l => mapM (fun p : Z * option Qc => match lookup (fst p) l with Some s => Ok (fst p, s) | None => Err KeyError end) ts
        end) = Ok es /\ map fst es = starts /\ forall t, In t starts -> lookup t es = match sides with None => Some 1%Z | Some l => lookup t l end) as (es & Ees & Hesf & Hess).
  { destruct sides as [l|].
    - destruct (@mapM_all_ok _ _ (fun p : Z * option Qc => match lookup (fst p) l with Some s => Ok (fst p, s) | None => Err KeyError end) ts) as [es Ees].
      { intros p Hp'. assert (In (fst p) starts) by (rewrite <- Hfst; now apply in_map). destruct (Hsd _ H) as [s ->]; eauto. }
      exists es. split; auto. apply mapM_ok in Ees. rewrite <- Hfst. clear -Ees. induction Ees as [|a b l1 l2 Hab H IH]; [cbn; split; auto; intros ? []|].
      destruct IH as [I1 I2]. destruct (lookup (fst a) l) as [s|] eqn:E; [|discriminate]. injection Hab as <-. cbn. split; [now rewrite I1|].
      intros t [<-|Ht]; [now rewrite Z.eqb_refl|]. destruct (Z.eqb_spec t (fst a)) as [->|]; auto.
    - exists (map (fun p => (fst p, 1%Z)) ts). split; auto. split; [now rewrite map_map|]. rewrite <- Hfst. clear. induction ts as [|a ts IH]; intros t Ht; [destruct Ht|]. cbn. destruct (Z.eqb_spec t (fst a)) as [->|]; auto.
      cbn in Ht. destruct Ht as [Ht|Ht]; [congruence|auto]. }
  match goal with |- context[bind ?m _] => replace m with (Ok es) end. cbn [bind].
  set (exps := match expiries with Some l => l | None => map (fun t0 => (t0, None)) starts end).
  assert (Hexps : forall t, In t (map fst exps) -> In t starts).
  { unfold exps. destruct expiries; auto. rewrite map_map. cbn [fst]. rewrite map_id. auto. }
  replace (zset (map fst exps ++ map fst ts ++ map fst es)) with starts.
  2:{ symmetry. apply ssorted_ext; auto using zset_sorted. intro t. rewrite zset_in, !in_app_iff, Hfst, Hesf. intuition. }
  replace (snd match sides with Some _ => (pt_mult, sl_mult) | None => (pt_mult, pt_mult) end) with (match sides with Some _ => sl_mult | None => pt_mult end) by (now destruct sides).
  replace (fst match sides with Some _ => (pt_mult, sl_mult) | None => (pt_mult, pt_mult) end) with pt_mult by (now destruct sides).
  f_equal. apply map_ext_in. intros t Ht. f_equal.
  - unfold exps. destruct expiries as [l|]; auto. clear. induction starts as [|u l IH]; cbn; auto. now destruct (t =? u)%Z.
  - destruct (Htg t Ht) as (v & E & _). rewrite E. assert (exists w, lookup t ts = Some w) as [w Hw] by (apply lookup_some_iff; now rewrite Hfst). rewrite Hw. apply lookup_in, Hts in Hw. congruence.
  - now apply Hess.
Qed.
(** The same for the entry point [get_event_returns] when starts and expiries are bar times: event k of the sorted starts, with the side from
    [sides] (long without them) and the lower barrier from the first multiplier without sides, ends at its first touch. *)
Theorem c53_event_returns bars starts targets pt_mult sl_mult expiries min_target sides outs k t oc b0 target :
  zssorted (map fst bars) -> zssorted starts -> (forall u, In u starts -> In u (map fst bars)) ->
  (forall u, In u starts -> exists v, lookup u targets = Some (Some v) /\ min_target < v) ->
  (match expiries with None => True | Some l => (forall u, In u (map fst l) -> In u starts) /\ forall u e, In (u, Some e) l -> In e (map fst bars) end) ->
  (match sides with None => True | Some l => forall u, In u starts -> exists s, lookup u l = Some s end) ->
  get_event_returns bars starts targets pt_mult sl_mult expiries min_target sides = Ok outs ->
  nth_error starts k = Some t -> nth_error outs k = Some oc -> In (t, b0) bars -> b_open b0 <> 0 -> lookup t targets = Some (Some target) ->
  let ps := map (fun b => (fst b, Some (snd b))) bars in
  let s := b_open b0 in
  let side := match sides with None => 1%Z | Some l => match lookup t l with Some x => x | None => 0%Z end end in
  let expiry := match expiries with Some l => match lookup t l with Some (Some e) => e | _ => last (map fst bars) t end | None => last (map fst bars) t end in
  let tp := takes_profit ps t expiry side s pt_mult target in
  let sl := stops_loss ps t expiry side s (match sides with None => pt_mult | Some _ => sl_mult end) target in
  length outs = length starts /\ ev_start (oc_event oc) = t /\ first_time tp (oc_pt oc) /\ first_time sl (oc_sl oc) /\
  (forall u, (u < oc_end oc)%Z -> ~ tp u /\ ~ sl u) /\
  (  (sl (oc_end oc) /\ exists b, In (oc_end oc, b) bars /\ oc_ret oc = Some (held side s (worst side b)))
  \/ (tp (oc_end oc) /\ ~ sl (oc_end oc) /\ exists b, In (oc_end oc, b) bars /\ oc_ret oc = Some (held side s (best side b)))
  \/ ((forall u, ~ tp u /\ ~ sl u) /\ oc_end oc = expiry /\ exists b, In (expiry, b) bars /\ oc_ret oc = Some ((b_close b - s) / s))).
Proof.
  intros Hb Hst Hsub Htg Hex Hsd H Hk Ho Hin Hs Ht ps s side expiry tp sl.
  rewrite event_returns_triple in H; auto; [|destruct expiries; auto; apply Hex].
  rewrite c56_prices_are_bars in H; auto.
  2:{ intros u Hu. apply in_app_iff in Hu as [Hu|Hu]; auto. apply somes_in in Hu. destruct expiries as [l|].
      - apply in_map_iff in Hu as ([u' e] & E & Hu). cbn in E. subst e. destruct Hex as [_ Hex]. eapply Hex; eauto.
      - rewrite map_map in Hu. apply in_map_iff in Hu as (u' & E & _). discriminate. }
  fold ps in H. set (ev := fun t => _) in H. pose proof (map_nth_error ev k starts Hk) as Hev.
  assert (Hnd : NoDup (map fst ps)) by (unfold ps; rewrite map_map; change (NoDup (map fst bars)); clear -Hb; revert Hb; generalize (map fst bars); intros zl Hb; induction Hb as [|x l Hl IH Hf]; constructor; auto; intro C; rewrite Forall_forall in Hf; apply Hf in C; lia).
  assert (Hbar : forall u b, In (u, Some b) ps -> In (u, b) bars) by (intros u b C; unfold ps in C; apply in_map_iff in C as ([u' b'] & E & C); cbn in E; injection E as <- <-; exact C).
  assert (Hps : In (t, Some b0) ps) by (unfold ps; apply in_map_iff; exists (t, b0); auto).
  assert (Hne : ps <> []) by (intro C; rewrite C in Hps; destruct Hps).
  assert (Hla : fst (last ps (t, None)) = last (map fst bars) t).
  { unfold ps. clear. induction bars as [|[u b] l IH]; auto. cbn [map]. destruct l as [|x l]; auto. }
  assert (Hlast : exists lr, last ps (last (map fst bars) t, lr) = (last (map fst bars) t, lr)).
  { exists (snd (last ps (t, None))). rewrite <- Hla. destruct (exists_last Hne) as (r & x & E). rewrite E, !last_last. now destruct x. }
  destruct Hlast as [lr Hlast].
  assert (SIDE : ev_side (ev t) = Some side). { unfold ev, side. cbn [ev_side]. destruct sides as [l|]; auto. destruct (Hsd t) as [x Hx]; [now apply nth_error_In in Hk|]. now rewrite Hx. }
  assert (TGT : ev_target (ev t) = Some target) by (unfold ev; cbn [ev_target]; now rewrite Ht).
  assert (EXP : match ev_expiry (ev t) with Some e => e | None => last (map fst bars) t end = expiry) by (unfold ev, expiry; cbn [ev_expiry]; destruct expiries as [l|]; auto; destruct (lookup t l) as [[e|]|]; auto).
  destruct (@c53_first_touch _ _ _ _ _ k (ev t) oc b0 side target _ _ Hnd Hlast H Hev Ho Hps Hs SIDE TGT) as (C1 & C2 & C3 & C4 & C5 & C6 & C7). rewrite EXP in *. change (ev_start (ev t)) with t in *. fold s tp sl in C4, C5, C6, C7.
  split; [now rewrite C1, map_length|]. split; [now rewrite C2|]. split; auto. split; auto. split; auto.
  destruct C7 as [(S1 & b & S2 & S3)|[(S1 & S2 & b & S3 & S4)|(S1 & S2 & row & S3 & S4)]].
  - left. split; auto. exists b. auto.
  - right. left. split; auto. split; auto. exists b. auto.
  - right. right. split; auto. split; auto. unfold ps in S3. apply in_map_iff in S3 as ([u b] & E & S3). cbn in E. injection E as -> <-. exists b. auto.
Qed.
Print Assumptions c53_event_returns.
(** with sides the stop-loss width comes from the second multiplier, without them from the first *)
Example c53_event_returns_example :
  let bars := [(0%Z, bar4 100 100 100 100); (1%Z, bar4 100 104 96 100); (2%Z, bar4 100 106 94 100)] in
  let run sides := match get_event_returns bars [0%Z] [(0%Z, Some (q 1 100))] 3 5 None 0 sides with Ok [oc] => Some (oc_pt oc, oc_sl oc) | _ => None end in
  run None = Some (Some 1%Z, Some 1%Z) /\ run (Some [(0%Z, 1%Z)]) = Some (Some 1%Z, Some 2%Z) /\ run (Some [(0%Z, (-1)%Z)]) = Some (Some 1%Z, Some 2%Z).
Proof. vm_compute. auto. Qed.
(** REFUTED in general: an expiry between two bars takes its prices from the later bar, so the label looks ahead of the event's end. *)
Theorem c56_lookahead_refuted : exists bars bars' t e oc oc',
  (forall u b, (u <= e)%Z -> In (u, b) bars <-> In (u, b) bars') /\
  get_event_returns bars [t] [(t, Some (q 1 2))] 1 1 (Some [(t, Some e)]) 0 None = Ok [oc] /\
  get_event_returns bars' [t] [(t, Some (q 1 2))] 1 1 (Some [(t, Some e)]) 0 None = Ok [oc'] /\
  oc_end oc = e /\ oc_end oc' = e /\ event_label false false oc = Some 1%Z /\ event_label false false oc' = Some (-1)%Z.
Proof.
  exists [(0%Z, bar4 100 100 100 100); (10%Z, bar4 110 110 110 110)], [(0%Z, bar4 100 100 100 100); (10%Z, bar4 90 90 90 90)], 0%Z, 5%Z.
  eexists; eexists. split.
  { intros u b Hu. cbn. split; intros [E|[E|[]]]; (try (injection E; intros; lia)); auto. }
  split; [vm_compute; reflexivity|]. split; [vm_compute; reflexivity|]. split; [reflexivity|]. split; [reflexivity|]. split; reflexivity.
Qed.
Print Assumptions c56_lookahead_refuted.
(** Two corners of [cancel_expired_event]: a barrier touched on the expiry bar is cancelled; an event without expiry that runs to the end of the data is not. *)
Theorem c56_cancel_corners : exists ps evs oc1 oc2, triple_barrier ps evs 1 1 = Ok [oc1; oc2] /\
  oc_pt oc1 = Some 1%Z /\ ev_expiry (oc_event oc1) = Some 1%Z /\ event_label false false oc1 = Some 1%Z /\ event_label false true oc1 = Some 0%Z /\
  oc_pt oc2 = None /\ oc_sl oc2 = None /\ event_label false true oc2 = Some 1%Z.
Proof.
  exists [(0%Z, Some (bar4 100 100 100 100)); (1%Z, Some (bar4 100 120 100 110))],
    [{| ev_start := 0; ev_expiry := Some 1%Z; ev_target := Some (q 1 10); ev_side := Some 1%Z |};
     {| ev_start := 0; ev_expiry := None; ev_target := Some (q 1 2); ev_side := Some 1%Z |}].
  eexists; eexists. split; [vm_compute; reflexivity|]. repeat (split; [reflexivity|]). reflexivity.
Qed.
Print Assumptions c56_cancel_corners.

(** ** C57 *)
(** Rows of the aligned windows: the first bars at or after the nominal start and end (the end clipped to the last bar). *)
Theorem c57_window_rows times window gap drop_partial t s e : zssorted times ->
  In (t, (s, e)) (window_events times window gap drop_partial true) <->
    In t times /\ (drop_partial = true -> (t + window <= last times 0)%Z) /\
    In s times /\ (t + gap <= s)%Z /\ (forall u, In u times -> (t + gap <= u)%Z -> (s <= u)%Z) /\
    In e times /\ (forall u, In u times -> (t + window <= u)%Z -> (t + window <= e)%Z /\ (e <= u)%Z) /\
    ((forall u, In u times -> (u < t + window)%Z) -> e = last times 0%Z).
Proof.
  intro Hs. unfold window_events.
  assert (Hlast : times <> [] -> nth (length times - 1) times 0%Z = last times 0%Z /\ In (last times 0%Z) times).
  { intro Hne. destruct (exists_last Hne) as (l & x & ->). rewrite last_last, app_length. cbn [length]. replace (length l + 1 - 1)%nat with (length l) by lia.
    rewrite nth_middle. split; auto. apply in_app_iff. right. now left. }
  assert (Hend : forall u, times <> [] -> let e := nth (Nat.min (searchsorted_left times u) (length times - 1)) times 0%Z in
            In e times /\ (forall w, In w times -> (u <= w)%Z -> (u <= e)%Z /\ (e <= w)%Z) /\ ((forall w, In w times -> (w < u)%Z) -> e = last times 0%Z)).
  { intros u Hne. cbn zeta. destruct (Nat.lt_ge_cases (searchsorted_left times u) (length times)) as [Hlt|Hge].
    - rewrite Nat.min_l by lia. destruct (nth_error times (searchsorted_left times u)) as [x|] eqn:Ex; [|apply nth_error_None in Ex; lia].
      rewrite (nth_error_nth _ _ _ Ex). destruct (searchsorted_first Hs eq_refl Ex) as [Hx Hmin].
      split; [now apply nth_error_In in Ex|]. split; [auto|]. intro Hall. apply nth_error_In, Hall in Ex. lia.
    - rewrite Nat.min_r by lia. destruct (Hlast Hne) as [-> Hin]. split; auto. split; auto.
      intros w Hw Hle. pose proof (searchsorted_none Hs Hge Hw). lia. }
  assert (Hstart : forall u, (searchsorted_left times u < length times)%nat -> let x := nth (searchsorted_left times u) times 0%Z in
            In x times /\ (u <= x)%Z /\ (forall w, In w times -> (u <= w)%Z -> (x <= w)%Z)).
  { intros u Hlt. cbn zeta. destruct (nth_error times (searchsorted_left times u)) as [x|] eqn:Ex; [|apply nth_error_None in Ex; lia].
    rewrite (nth_error_nth _ _ _ Ex). destruct (searchsorted_first Hs eq_refl Ex) as [Hx Hmin]. split; [now apply nth_error_In in Ex|auto]. }
  rewrite in_map_iff. split.
  - intros ([t' [s' e']] & E & Hin). apply filter_In in Hin as [Hin Hlt]. apply Nat.ltb_lt in Hlt. cbn [fst snd] in *.
    assert (In t' times /\ s' = (t' + gap)%Z /\ e' = (t' + window)%Z /\ (drop_partial = true -> (t' + window <= last times 0)%Z)) as (Ht & -> & -> & Hd).
    { destruct drop_partial.
      - apply filter_In in Hin as [Hin Hle]. apply in_map_iff in Hin as (x & Ex & Hx). injection Ex as -> <- <-. cbn in Hle. apply Z.leb_le in Hle. auto.
      - apply in_map_iff in Hin as (x & Ex & Hx). injection Ex as -> <- <-. split; auto. split; auto. split; auto. discriminate. }
    injection E as <- <- <-. assert (Hne : times <> []) by (destruct times; [destruct Ht|discriminate]).
    destruct (Hstart _ Hlt) as (A1 & A2 & A3). destruct (Hend (t' + window)%Z Hne) as (B1 & B2 & B3).
    split; auto. split; auto.
  - intros (Ht & Hd & Hsi & Hsg & Hsm & Hei & Hem & Hel). exists (t, ((t + gap)%Z, (t + window)%Z)). cbn [fst snd].
    assert (Hne : times <> []) by (destruct times; [destruct Ht|discriminate]).
    assert (Hlt : (searchsorted_left times (t + gap) < length times)%nat).
    { destruct (Nat.lt_ge_cases (searchsorted_left times (t + gap)) (length times)); auto. pose proof (searchsorted_none Hs H Hsi). lia. }
    split.
    + destruct (Hstart _ Hlt) as (A1 & A2 & A3). destruct (Hend (t + window)%Z Hne) as (B1 & B2 & B3).
      f_equal. f_equal.
      * apply Z.le_antisymm; auto.
      * destruct (Nat.lt_ge_cases (searchsorted_left times (t + window)) (length times)) as [Hlw|Hgw].
        -- destruct (Hstart _ Hlw) as (C1 & C2 & C3). destruct (Hem _ C1 C2) as [D1 D2]. destruct (B2 _ C1 C2) as [F1 F2].
           apply Z.le_antisymm; [apply (B2 e); auto|apply Hem; auto].
        -- pose proof (searchsorted_none Hs Hgw) as Hall. rewrite Hel by auto. auto.
    + apply filter_In. cbn [fst snd]. split; [|now apply Nat.ltb_lt].
      assert (Hm : In (t, ((t + gap)%Z, (t + window)%Z)) (map (fun t0 : Z => (t0, ((t0 + gap)%Z, (t0 + window)%Z))) times)) by (apply in_map_iff; eauto).
      destruct drop_partial; auto. apply filter_In. split; auto. cbn. apply Z.leb_le. auto.
Qed.
Print Assumptions c57_window_rows.

Open Scope R_scope.
Lemma fixed_window_some bars window gap drop_partial align : window_events (map fst bars) window gap drop_partial align <> [] ->
  fixed_window_events bars window gap drop_partial align =
  mapM (fun e => match ret_in_period (log_diffs None bars) (fst (snd e)) (snd (snd e)) with Ok r => Ok (e, r) | Err x => Err x end) (window_events (map fst bars) window gap drop_partial align).
Proof.
  intro H. unfold fixed_window_events. destruct bars as [|b bars]; [exfalso; apply H; destruct drop_partial, align; reflexivity|]. destruct (window_events _ _ _ _ _); [congruence|reflexivity].
Qed.
(** the function cannot return an empty table: without bars, or when the windows all end after the last bar (and partial ones are dropped), it raises *)
Theorem c57_no_window_raises bars window gap align : zssorted (map fst bars) ->
  (forall t, In t (map fst bars) -> (last (map fst bars) 0 < t + window)%Z) -> fixed_window_events bars window gap true align = Err (match bars with [] => IndexError | _ => ValueError end).
Proof.
  intros Hs H. unfold fixed_window_events. destruct bars as [|b bars]; auto. replace (window_events _ _ _ _ _) with (@nil (Z * (Z * Z))); auto. symmetry. unfold window_events.
  set (ts := map fst (b :: bars)) in *. assert (E : forall u l, (forall t, In t l -> (u < t + window)%Z) -> filter (fun e : Z * (Z * Z) => (snd (snd e) <=? u)%Z) (map (fun t => (t, ((t + gap)%Z, (t + window)%Z))) l) = []).
  { intros u l Hu. induction l as [|t l IH]; auto. cbn [map filter snd]. rewrite (proj2 (Z.leb_gt _ _)) by (apply Hu; now left). apply IH. intros; apply Hu; now right. }
  rewrite E by auto. now destruct align.
Qed.
Theorem c57_no_bars_raises window gap drop_partial align : exists e, fixed_window_events [] window gap drop_partial align = Err e /\ (e = IndexError \/ e = ValueError).
Proof. unfold fixed_window_events. destruct drop_partial; eexists; split; auto. Qed.
(** it does return one when some window is complete and starts within the history *)
Lemma window_exists times window gap drop_partial t u : In t times -> In u times -> (t + gap <= u)%Z -> zssorted times -> (t + window <= last times 0)%Z -> window_events times window gap drop_partial true <> [].
Proof.
  intros Ht Hu Hg Hs Hw E. unfold window_events in E. apply map_eq_nil in E. set (evs := if drop_partial then _ else _) in E. assert (Hin : In (t, ((t + gap)%Z, (t + window)%Z)) evs).
  { unfold evs. assert (In (t, ((t + gap)%Z, (t + window)%Z)) (map (fun t0 : Z => (t0, ((t0 + gap)%Z, (t0 + window)%Z))) times)) by (apply in_map_iff; eauto). destruct drop_partial; auto. apply filter_In. split; auto. cbn. now apply Z.leb_le. }
  assert (C : In (t, ((t + gap)%Z, (t + window)%Z)) []) by (rewrite <- E; apply filter_In; split; auto; cbn [fst snd]; apply Nat.ltb_lt; destruct (Nat.lt_ge_cases (searchsorted_left times (t + gap)) (length times)) as [L|L]; auto; pose proof (searchsorted_none Hs L Hu); lia).
  destruct C.
Qed.
(** What the return is: the claimed log return plus the first bar's own close-to-close log change. *)
Theorem c57_return_formula bars window gap drop_partial :
  zssorted (map fst bars) -> (gap <= window)%Z -> (forall t b, In (t, b) bars -> 0 < r_open b /\ 0 < r_close b) -> window_events (map fst bars) window gap drop_partial true <> [] ->
  exists rows, fixed_window_events bars window gap drop_partial true = Ok rows /\
    map fst rows = window_events (map fst bars) window gap drop_partial true /\
    forall t s e r, In (t, (s, e), r) rows -> exists i j bi bj,
      (i <= j)%nat /\ nth_error bars i = Some (s, bi) /\ nth_error bars j = Some (e, bj) /\
      r = ln (r_close bj / r_open bi) + match i with O => 0 | S k => match nth_error bars k with Some (_, bk) => ln (r_close bi / r_close bk) | None => 0 end end.
Proof.
  intros Hs Hgw Hpos HNE.
  assert (Hrow : forall t s e, In (t, (s, e)) (window_events (map fst bars) window gap drop_partial true) ->
     exists i j bi bj, (i <= j)%nat /\ nth_error bars i = Some (s, bi) /\ nth_error bars j = Some (e, bj)).
  { intros t s e Hin. apply c57_window_rows in Hin; auto. destruct Hin as (Ht & Hd & Hsi & Hsg & Hsm & Hei & Hem & Hel).
    assert (Hse : (s <= e)%Z).
    { destruct (Z.le_gt_cases s e); auto. exfalso.
      destruct (Exists_dec (fun u => (t + window <= u)%Z) (map fst bars) (fun u => Z_le_dec (t + window) u)) as [Hx|Hx].
      - apply Exists_exists in Hx as (u & Hu & Hle). destruct (Hem u Hu Hle). assert (s <= e)%Z by (apply Hsm; auto; lia). lia.
      - assert (Hall : forall u, In u (map fst bars) -> (u < t + window)%Z).
        { intros u Hu. destruct (Z.lt_ge_cases u (t + window)); auto. exfalso. apply Hx, Exists_exists. exists u. split; auto. }
        specialize (Hel Hall).
        assert (s <= last (map fst bars) 0)%Z; [|lia].
        apply In_nth_error in Hsi as [i Hi]. assert (Hne : map fst bars <> []) by (intro E; rewrite E in Hi; destruct i; discriminate).
        destruct (exists_last Hne) as (l & x & E). rewrite E in *. rewrite last_last.
        assert (Hx' : nth_error (l ++ [x]) (length l) = Some x) by (rewrite nth_error_app2, Nat.sub_diag; auto).
        apply (@sorted_nth_le (l ++ [x]) i (length l)); auto; [now apply zssorted_sorted|].
        assert (i < length (l ++ [x]))%nat by (apply nth_error_Some; congruence). rewrite app_length in *. cbn in *. lia. }
    apply In_nth_error in Hsi as [i Hi]. apply In_nth_error in Hei as [j Hj].
    exists i, j. assert (i <= j)%nat.
    { destruct (Nat.le_gt_cases i j); auto. pose proof (@ssorted_nth_lt _ j i e s Hs Hj Hi H). lia. }
    rewrite nth_error_map in Hi, Hj. destruct (nth_error bars i) as [[ti bi]|] eqn:Ei; [|discriminate]. destruct (nth_error bars j) as [[tj bj]|] eqn:Ej; [|discriminate].
    cbn in Hi, Hj. injection Hi as ->. injection Hj as ->. exists bi, bj. auto. }
  assert (Hval : forall t s e, In (t, (s, e)) (window_events (map fst bars) window gap drop_partial true) ->
     exists i j bi bj, (i <= j)%nat /\ nth_error bars i = Some (s, bi) /\ nth_error bars j = Some (e, bj) /\
       ret_in_period (log_diffs None bars) s e = Ok (ln (r_close bj / r_open bi) + match i with O => 0 | S k => match nth_error bars k with Some (_, bk) => ln (r_close bi / r_close bk) | None => 0 end end)).
  { intros t s e Hin. destruct (Hrow t s e Hin) as (i & j & bi & bj & Hij & Hi & Hj). exists i, j, bi, bj. split; auto. split; auto. split; auto.
    rewrite (ret_in_period_spec None Hs Hi Hj Hij). f_equal.
    destruct (Hpos _ _ (nth_error_In _ _ Hi)), (Hpos _ _ (nth_error_In _ _ Hj)).
    rewrite !ln_quot by auto. destruct i as [|k]; [lra|]. destruct (nth_error bars k) as [[tk bk]|] eqn:Ek; [|lra].
    destruct (Hpos _ _ (nth_error_In _ _ Ek)). rewrite ln_quot by auto. lra. }
  rewrite fixed_window_some by auto.
  set (f := fun e : Z * (Z * Z) => match ret_in_period (log_diffs None bars) (fst (snd e)) (snd (snd e)) with Ok r => Ok (e, r) | Err x => Err x end).
  destruct (@mapM_all_ok _ _ f (window_events (map fst bars) window gap drop_partial true)) as [rows Hrows].
  { intros [t [s e]] Hin. destruct (Hval t s e Hin) as (i & j & bi & bj & _ & _ & _ & E). unfold f. cbn [fst snd]. rewrite E. eauto. }
  exists rows. split; auto. apply mapM_ok in Hrows.
  assert (Hf : forall a b, f a = Ok b -> fst b = a) by (intros a b; unfold f; destruct (ret_in_period _ _ _); [intro E; injection E as <-; auto|discriminate]).
  split.
  - clear -Hrows Hf. induction Hrows; cbn; auto. now rewrite (Hf _ _ H), IHHrows.
  - intros t s e r Hin. assert (exists a, In a (window_events (map fst bars) window gap drop_partial true) /\ f a = Ok (t, (s, e), r)) as (a & Ha & Hfa).
    { clear -Hrows Hin. induction Hrows as [|x y l l' Hxy H IH]; [destruct Hin|]. destruct Hin as [->|Hin]; [exists x; split; auto; now left|].
      destruct (IH Hin) as (a & Ha & Hfa). exists a. split; auto. now right. }
    pose proof (Hf _ _ Hfa) as E. cbn in E. subst a. destruct (Hval t s e Ha) as (i & j & bi & bj & H1 & H2 & H3 & H4).
    exists i, j, bi, bj. split; auto. split; auto. split; auto. unfold f in Hfa. cbn [fst snd] in Hfa. rewrite H4 in Hfa. now injection Hfa as <-.
Qed.
Print Assumptions c57_return_formula.
Print Assumptions c57_no_window_raises.
Print Assumptions window_exists.
(** REFUTED: a flat one-bar window after a doubling is given the return ln 2. *)
Theorem c57_refuted : exists bars t s e b r, fixed_window_events bars 1 1 true true = Ok [(t, (s, e), r)] /\
  s = e /\ In (s, b) bars /\ r_open b = r_close b /\ ln (r_close b / r_open b) = 0 /\ r <> 0.
Proof.
  set (b0 := {| r_open := 1; r_close := 1 |}). set (b1 := {| r_open := 2; r_close := 2 |}).
  exists [(0%Z, b0); (1%Z, b1)], 0%Z, 1%Z, 1%Z, b1. eexists. split; [cbv -[Rplus Rminus Rdiv ln IZR]; reflexivity|].
  split; auto. split; [now right; left|]. split; auto.
  assert (E : ln (2 / 2) = 0) by (replace (2 / 2) with 1 by lra; apply ln_1). cbn. split; auto. rewrite E, ln_1.
  assert (0 < ln 2) by (rewrite <- ln_1; apply ln_increasing; lra). lra.
Qed.
Print Assumptions c57_refuted.
(** Under the guard that the first bar of the window is the first bar of the history or closes unchanged, the claim holds. *)
Theorem c57_under_guard bars window gap drop_partial :
  zssorted (map fst bars) -> (gap <= window)%Z -> (forall t b, In (t, b) bars -> 0 < r_open b /\ 0 < r_close b) -> window_events (map fst bars) window gap drop_partial true <> [] ->
  exists rows, fixed_window_events bars window gap drop_partial true = Ok rows /\
    forall t s e r, In (t, (s, e), r) rows -> exists i bi bj, nth_error bars i = Some (s, bi) /\ In (e, bj) bars /\
      ((forall k tk bk, i = S k -> nth_error bars k = Some (tk, bk) -> r_close bk = r_close bi) -> r = ln (r_close bj / r_open bi)).
Proof.
  intros Hs Hgw Hpos HNE. destruct (@c57_return_formula bars window gap drop_partial Hs Hgw Hpos HNE) as (rows & H1 & H2 & H3). exists rows. split; auto.
  intros t s e r Hin. destruct (H3 t s e r Hin) as (i & j & bi & bj & Hij & Hi & Hj & Hr). exists i, bi, bj. split; auto. split; [now apply nth_error_In in Hj|].
  intro Hg. rewrite Hr. destruct i as [|k]; [lra|]. destruct (nth_error bars k) as [[tk bk]|] eqn:Ek; [|lra]. rewrite (Hg k tk bk) by auto.
  destruct (Hpos _ _ (nth_error_In _ _ Hi)). replace (r_close bi / r_close bi) with 1 by (field; lra). rewrite ln_1. lra.
Qed.
Print Assumptions c57_under_guard.
(** Without alignment a window that contains no bar raises IndexError. *)
Theorem c57_unaligned_gap_raises : exists bars, (forall t b, In (t, b) bars -> r_open b = r_close b) /\ fixed_window_events bars 3 1 true false = Err IndexError.
Proof.
  exists [(0%Z, {| r_open := 1; r_close := 1 |}); (10%Z, {| r_open := 1; r_close := 1 |})]. split; [|reflexivity].
  intros t b [E|[E|[]]]; injection E as <- <-; reflexivity.
Qed.
Print Assumptions c57_unaligned_gap_raises.
