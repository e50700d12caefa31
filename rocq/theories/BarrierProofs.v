(** Proofs about labeling/triple_barrier.py *)
From Verif Require Import Py RNum BarrierModel BarrierSpec.
From Coq Require Import Sorted.
Set Implicit Arguments.
Unset Strict Implicit.
Open Scope Qc_scope.

Lemma index_min_in l m : index_min l = Some m -> In m l.
Proof.
  revert m; induction l as [|t l IH]; cbn; [discriminate|]; intros m H.
  destruct (index_min l) as [k|]; injection H as <-; [|auto].
  destruct (Z.min_spec t k) as [[_ ->]|[_ ->]]; auto.
Qed.
Lemma index_min_none l : index_min l = None -> l = [].
Proof. destruct l as [|t l]; cbn; auto. destruct (index_min l); discriminate. Qed.
Lemma index_min_le l m u : index_min l = Some m -> In u l -> (m <= u)%Z.
Proof.
  revert m; induction l as [|t l IH]; cbn; [discriminate|]; intros m H Hin.
  destruct (index_min l) as [k|] eqn:E; injection H as <-.
  - destruct Hin as [<-|Hin]; [lia|]. specialize (IH _ eq_refl Hin). lia.
  - apply index_min_none in E. subst l. destruct Hin as [<-|[]]. lia.
Qed.
Lemma index_min_first (P : Z -> Prop) l : (forall t, In t l <-> P t) -> first_time P (index_min l).
Proof.
  intro H. destruct (index_min l) as [m|] eqn:E; cbn.
  - split; [apply H, index_min_in; auto|]. intros u Hu. eapply index_min_le; eauto. now apply H.
  - intros t Ht. apply H in Ht. apply index_min_none in E. subst; destruct Ht.
Qed.
Lemma first_time_unique P o o' : first_time P o -> first_time P o' -> o = o'.
Proof.
  destruct o as [t|], o' as [t'|]; cbn; intros H H'; auto.
  - f_equal. destruct H as [H1 H2], H' as [H1' H2']. specialize (H2 _ H1'). specialize (H2' _ H1). lia.
  - destruct (H' _ (proj1 H)).
  - destruct (H _ (proj1 H')).
Qed.

Lemma lookup_in A t (l : list (Z * A)) a : lookup t l = Some a -> In (t, a) l.
Proof.
  induction l as [|[u b] l IH]; cbn; [discriminate|]. destruct (Z.eqb_spec t u) as [->|]; intro H; [injection H as ->; auto|auto].
Qed.
Lemma lookup_nodup A t (l : list (Z * A)) a : NoDup (map fst l) -> In (t, a) l -> lookup t l = Some a.
Proof.
  induction l as [|[u b] l IH]; cbn; intros Hnd Hin; [destruct Hin|]. inversion Hnd as [|? ? Hni Hnd']; subst.
  destruct Hin as [E|Hin].
  - injection E as -> ->. now rewrite Z.eqb_refl.
  - destruct (Z.eqb_spec t u) as [->|]; [|auto]. destruct Hni. apply in_map_iff. now exists (u, a).
Qed.
Lemma lookup_none A t (l : list (Z * A)) : lookup t l = None <-> ~ In t (map fst l).
Proof.
  induction l as [|[u b] l IH]; cbn; [tauto|]. destruct (Z.eqb_spec t u) as [->|Hn].
  - split; [discriminate|]. intro H. destruct H. auto.
  - rewrite IH. split; intros H; [intros [E|E]; congruence || auto|tauto].
Qed.
Lemma lookup_some_iff A t (l : list (Z * A)) : (exists a, lookup t l = Some a) <-> In t (map fst l).
Proof.
  destruct (lookup t l) as [a|] eqn:E.
  - split; [intros _|eauto]. apply lookup_in in E. apply in_map_iff. now exists (t, a).
  - apply lookup_none in E. split; [intros [a Ha]; discriminate|tauto].
Qed.
Lemma lookup_map A B (f : A -> B) t (l : list (Z * A)) : lookup t (map (fun p => (fst p, f (snd p))) l) = option_map f (lookup t l).
Proof. induction l as [|[u b] l IH]; cbn; auto. destruct (t =? u)%Z; auto. Qed.

Lemma side_cases side : (side =? 1)%Z || (side =? -1)%Z = true -> side = 1%Z \/ side = (-1)%Z.
Proof. intros H. apply orb_prop in H. rewrite !Z.eqb_eq in H. auto. Qed.

Lemma pt_return_held side s b : s <> 0 -> side = 1%Z \/ side = (-1)%Z -> pt_return side (Some s) (Some b) = Some (held side s (best side b)).
Proof.
  intros Hs [-> | ->]; cbn; unfold held, best; cbn [Z.eqb Pos.eqb]; f_equal.
  - change (qz 1) with 1. field; auto.
  - change (qz (-1)) with (- (1)). field; auto.
Qed.
Lemma sl_return_held side s b : s <> 0 -> side = 1%Z \/ side = (-1)%Z -> sl_return side (Some s) (Some b) = Some (held side s (worst side b)).
Proof.
  intros Hs [-> | ->]; cbn; unfold held, worst; cbn [Z.eqb Pos.eqb]; f_equal.
  - change (qz 1) with 1. field; auto.
  - change (qz (-1)) with (- (1)). field; auto.
Qed.

Lemma in_path ps start expiry t b : In (t, b) (path ps start expiry) <-> In (t, b) ps /\ (start <= t <= expiry)%Z.
Proof. unfold path. rewrite filter_In. cbn [fst]. rewrite andb_true_iff, !Z.leb_le. tauto. Qed.

Lemma touch_pt ps start expiry side s mult target t :
  s <> 0 -> side = 1%Z \/ side = (-1)%Z ->
  In t (map fst (filter (fun p => ogt (snd p) (limit 1 mult (Some target)))
         (map (fun p => (fst p, pt_return side (Some s) (snd p))) (path ps start expiry))))
  <-> takes_profit ps start expiry side s mult target t.
Proof.
  intros Hs Hside. rewrite in_map_iff. unfold takes_profit. split.
  - intros ([u r] & <- & Hin). apply filter_In in Hin as [Hin Hgt]. apply in_map_iff in Hin as ([u' b] & E & Hin).
    injection E as -> E. change (pt_return side (Some s) b = r) in E. subst r. apply in_path in Hin as [Hin Hr]. cbn [fst snd] in Hgt. cbn [fst]. unfold limit in Hgt.
    destruct (qlt 0 mult) eqn:Em.
    + destruct b as [b|]; [|now cbn in Hgt]. rewrite pt_return_held in Hgt by auto. cbn [ogt option_map] in Hgt.
      apply qlt_iff in Em, Hgt. split; [auto|]. split; [auto|]. exists b. split; [auto|].
      replace (mult * target) with (1 * mult * target) by ring. auto.
    + destruct (pt_return side (Some s) b); discriminate.
  - intros (Hm & Hr & b & Hin & Hlt). exists (t, pt_return side (Some s) (Some b)). split; [auto|].
    apply filter_In. split.
    + apply in_map_iff. exists (t, Some b). split; auto. apply in_path. auto.
    + cbn [fst snd]. rewrite pt_return_held by auto. unfold limit. apply qlt_iff in Hm. rewrite Hm. cbn [ogt option_map].
      apply qlt_iff. replace (1 * mult * target) with (mult * target) by ring. auto.
Qed.
Lemma touch_sl ps start expiry side s mult target t :
  s <> 0 -> side = 1%Z \/ side = (-1)%Z ->
  In t (map fst (filter (fun p => ogt (limit (- (1)) mult (Some target)) (snd p))
         (map (fun p => (fst p, sl_return side (Some s) (snd p))) (path ps start expiry))))
  <-> stops_loss ps start expiry side s mult target t.
Proof.
  intros Hs Hside. rewrite in_map_iff. unfold stops_loss. split.
  - intros ([u r] & <- & Hin). apply filter_In in Hin as [Hin Hgt]. apply in_map_iff in Hin as ([u' b] & E & Hin).
    injection E as -> E. change (sl_return side (Some s) b = r) in E. subst r. apply in_path in Hin as [Hin Hr]. cbn [fst snd] in Hgt. cbn [fst]. unfold limit in Hgt.
    destruct (qlt 0 mult) eqn:Em; [|now cbn in Hgt].
    destruct b as [b|]; [|now cbn in Hgt]. rewrite sl_return_held in Hgt by auto. cbn [ogt option_map] in Hgt.
    apply qlt_iff in Em, Hgt. split; [auto|]. split; [auto|]. exists b. split; [auto|].
    replace (- (mult * target)) with (- (1) * mult * target) by ring. auto.
  - intros (Hm & Hr & b & Hin & Hlt). exists (t, sl_return side (Some s) (Some b)). split; [auto|].
    apply filter_In. split.
    + apply in_map_iff. exists (t, Some b). split; auto. apply in_path. auto.
    + cbn [fst snd]. rewrite sl_return_held by auto. unfold limit. apply qlt_iff in Hm. rewrite Hm. cbn [ogt option_map].
      apply qlt_iff. replace (- (1) * mult * target) with (- (mult * target)) by ring. auto.
Qed.

Lemma path_fst_nodup ps start expiry : NoDup (map fst ps) -> NoDup (map fst (path ps start expiry)).
Proof.
  unfold path. induction ps as [|[t b] ps IH]; cbn [map filter fst]; intro H; [constructor|].
  inversion H as [|? ? Hni Hnd]; subst. specialize (IH Hnd). destruct (_ && _); auto. cbn [map fst]. constructor; auto.
  intro Hin. apply Hni. apply in_map_iff in Hin as (p & <- & Hp). apply filter_In in Hp as [Hp _]. now apply in_map.
Qed.
Lemma path_lookup ps start expiry t b : NoDup (map fst ps) -> In (t, b) ps -> (start <= t <= expiry)%Z -> lookup t (path ps start expiry) = Some b.
Proof. intros. apply lookup_nodup; [now apply path_fst_nodup|]. now apply in_path. Qed.

(** the full first-touch characterisation of one event with usable data *)
Lemma barrier_event_spec ps last_label pt_mult sl_mult ev oc b0 side target :
  NoDup (map fst ps) -> lookup (ev_start ev) ps = Some (Some b0) -> b_open b0 <> 0 ->
  ev_side ev = Some side -> ev_target ev = Some target ->
  barrier_event ps last_label pt_mult sl_mult ev = Ok oc ->
  let s := b_open b0 in
  let expiry := match ev_expiry ev with Some e => e | None => last_label end in
  let tp := takes_profit ps (ev_start ev) expiry side s pt_mult target in
  let sl := stops_loss ps (ev_start ev) expiry side s sl_mult target in
  oc_event oc = ev /\ (side = 1%Z \/ side = (-1)%Z) /\ first_time tp (oc_pt oc) /\ first_time sl (oc_sl oc) /\
  match oc_pt oc, oc_sl oc with
  | None, None => oc_end oc = expiry /\ exists row, lookup expiry ps = Some row /\ oc_ret oc = option_map (fun b => (b_close b - s) / s) row
  | Some t, None => oc_end oc = t /\ exists b, In (t, Some b) ps /\ oc_ret oc = Some (held side s (best side b))
  | None, Some t => oc_end oc = t /\ exists b, In (t, Some b) ps /\ oc_ret oc = Some (held side s (worst side b))
  | Some t, Some t' => ((t < t')%Z /\ oc_end oc = t /\ exists b, In (t, Some b) ps /\ oc_ret oc = Some (held side s (best side b)))
                    \/ ((t' <= t)%Z /\ oc_end oc = t' /\ exists b, In (t', Some b) ps /\ oc_ret oc = Some (held side s (worst side b)))
  end.
Proof.
  intros Hnd Hrow Hs Hside Htgt H. unfold barrier_event in H. rewrite Hrow, Hside, Htgt in H. cbn [option_map] in H.
  destruct ((side =? 1)%Z || (side =? -1)%Z) eqn:Esd; [|discriminate]. apply side_cases in Esd.
  cbn zeta. set (s := b_open b0) in *. set (expiry := match ev_expiry ev with Some e => e | None => last_label end) in *.
  pose proof (index_min_first (fun t => @touch_pt ps (ev_start ev) expiry side s pt_mult target t Hs Esd)) as Fpt.
  pose proof (index_min_first (fun t => @touch_sl ps (ev_start ev) expiry side s sl_mult target t Hs Esd)) as Fsl.
  match type of H with context[match ?p with _ => _ end] => destruct p as [tp|] eqn:Ept end;
  match type of H with context[match ?p with _ => _ end] => destruct p as [tl|] eqn:Esl end.
  3: { injection H as <-. cbn. split; auto. split; auto. split; auto. split; auto. split; auto.
       destruct Fsl as [(_ & Hr & b & Hin & Hlt) _]. exists b. split; auto.
       rewrite (lookup_map (sl_return side (Some s))), (path_lookup Hnd Hin Hr). cbn [option_map]. now apply sl_return_held. }
  -
    assert (exists b, In (tp, Some b) ps /\
       match lookup tp (map (fun p => (fst p, pt_return side (Some s) (snd p))) (path ps (ev_start ev) expiry)) with Some r => r | None => None end
       = Some (held side s (best side b))) as Hp.
    { destruct Fpt as [(_ & Hr & b & Hin & Hlt) _]. exists b. split; auto.
      rewrite (lookup_map (pt_return side (Some s))), (path_lookup Hnd Hin Hr). cbn [option_map]. now apply pt_return_held. }
    assert (exists b, In (tl, Some b) ps /\
       match lookup tl (map (fun p => (fst p, sl_return side (Some s) (snd p))) (path ps (ev_start ev) expiry)) with Some r => r | None => None end
       = Some (held side s (worst side b))) as Hl.
    { destruct Fsl as [(_ & Hr & b & Hin & Hlt) _]. exists b. split; auto.
      rewrite (lookup_map (sl_return side (Some s))), (path_lookup Hnd Hin Hr). cbn [option_map]. now apply sl_return_held. }
    destruct (Z.ltb_spec tp tl); injection H as <-; cbn; (split; [auto|]; split; [auto|]; split; [auto|]; split; [auto|]).
    + left. auto.
    + right. auto.
  - injection H as <-. cbn. split; auto. split; auto. split; auto. split; auto. split; auto.
    destruct Fpt as [(_ & Hr & b & Hin & Hlt) _]. exists b. split; auto.
    rewrite (lookup_map (pt_return side (Some s))), (path_lookup Hnd Hin Hr). cbn [option_map]. now apply pt_return_held.
  - destruct (lookup expiry ps) as [row|] eqn:Er; [|discriminate]. injection H as <-. cbn.
    split; auto. split; auto. split; auto. split; auto. split; auto. exists row. split; auto.
    destruct row as [b|]; cbn; auto. f_equal. field. auto.
Qed.

(** when the call succeeds *)
Lemma barrier_event_ok ps last_label pt_mult sl_mult ev side :
  (exists row, lookup (ev_start ev) ps = Some row) -> ev_side ev = Some side -> side = 1%Z \/ side = (-1)%Z ->
  (exists row, lookup (match ev_expiry ev with Some e => e | None => last_label end) ps = Some row) ->
  exists oc, barrier_event ps last_label pt_mult sl_mult ev = Ok oc /\ oc_event oc = ev.
Proof.
  intros [row Hr] Hs Hside [row' Hr']. unfold barrier_event. rewrite Hr, Hs.
  replace ((side =? 1)%Z || (side =? -1)%Z) with true by (destruct Hside; subst; auto). rewrite Hr'.
  match goal with |- context[match ?p with _ => _ end] => destruct p end;
  match goal with |- context[match ?p with _ => _ end] => destruct p end; eauto.
  destruct (_ <? _)%Z; eauto.
Qed.
Lemma barrier_event_no_side ps last_label pt_mult sl_mult ev : ev_side ev = None -> exists e, barrier_event ps last_label pt_mult sl_mult ev = Err e.
Proof. intro H. unfold barrier_event. rewrite H. destruct (lookup _ _); eauto. Qed.
Lemma barrier_event_event ps last_label pt_mult sl_mult ev oc : barrier_event ps last_label pt_mult sl_mult ev = Ok oc -> oc_event oc = ev.
Proof.
  unfold barrier_event. destruct (lookup (ev_start ev) ps); [|discriminate]. destruct (ev_side ev) as [side|]; [|discriminate].
  destruct (_ || _); [|discriminate].
  match goal with |- context[match ?p with _ => _ end] => destruct p end;
  match goal with |- context[match ?p with _ => _ end] => destruct p end.
  - destruct (_ <? _)%Z; intro H; injection H as <-; auto.
  - intro H; injection H as <-; auto.
  - intro H; injection H as <-; auto.
  - destruct (lookup _ ps); intro H; [injection H as <-; auto|discriminate].
Qed.

(** ** the sorted label set *)
Lemma zset_insert_in t u l : In u (zset_insert t l) <-> u = t \/ In u l.
Proof.
  induction l as [|x l IH]; cbn; [intuition|]. destruct (Z.ltb_spec t x); cbn; [intuition|].
  destruct (Z.eqb_spec t x); cbn; [intuition subst; auto|]. rewrite IH. intuition.
Qed.
Lemma zset_in u l : In u (zset l) <-> In u l.
Proof. induction l as [|x l IH]; cbn; [tauto|]. rewrite zset_insert_in, IH. intuition. Qed.
Lemma zset_insert_sorted t l : StronglySorted Z.lt l -> StronglySorted Z.lt (zset_insert t l).
Proof.
  induction l as [|x l IH]; cbn; intro H; [repeat constructor|]. inversion H as [|? ? Hs Hf]; subst.
  destruct (Z.ltb_spec t x).
  - constructor; auto. constructor; auto. eapply Forall_impl; [|exact Hf]. cbn; intros; lia.
  - destruct (Z.eqb_spec t x); auto. constructor; auto. apply Forall_forall. intros y Hy. apply zset_insert_in in Hy as [->|Hy]; [lia|].
    rewrite Forall_forall in Hf. auto.
Qed.
Lemma zset_sorted l : StronglySorted Z.lt (zset l).
Proof. induction l; cbn; [constructor|]. now apply zset_insert_sorted. Qed.
Lemma ssorted_nodup l : StronglySorted Z.lt l -> NoDup l.
Proof.
  induction 1 as [|x l Hs IH Hf]; constructor; auto. intro Hin. rewrite Forall_forall in Hf. specialize (Hf _ Hin). lia.
Qed.
Lemma zset_nodup l : NoDup (zset l).
Proof. apply ssorted_nodup, zset_sorted. Qed.
Lemma ssorted_ext l1 l2 : StronglySorted Z.lt l1 -> StronglySorted Z.lt l2 -> (forall t, In t l1 <-> In t l2) -> l1 = l2.
Proof.
  intro H; revert l2. induction H as [|x l Hs IH Hf]; intros l2 H2 E.
  - destruct l2 as [|y l2]; auto. destruct (proj2 (E y)). now left.
  - destruct H2 as [|y l2 Hs2 Hf2]; [destruct (proj1 (E x)); now left|].
    rewrite Forall_forall in Hf, Hf2.
    assert (x = y).
    { destruct (proj1 (E x) (or_introl eq_refl)) as [|Hx]; [congruence|]. destruct (proj2 (E y) (or_introl eq_refl)) as [|Hy]; [congruence|].
      specialize (Hf _ Hy). specialize (Hf2 _ Hx). lia. }
    subst y. f_equal. apply IH; auto. intro t. split; intro Ht.
    + destruct (proj1 (E t) (or_intror Ht)) as [->|]; auto. specialize (Hf _ Ht). lia.
    + destruct (proj2 (E t) (or_intror Ht)) as [->|]; auto. specialize (Hf2 _ Ht). lia.
Qed.
Lemma zset_sorted_id l : StronglySorted Z.lt l -> zset l = l.
Proof. intro H. apply ssorted_ext; auto using zset_sorted. intro t. apply zset_in. Qed.

Lemma lookup_index A (f : Z -> A) t l : In t l -> lookup t (map (fun u => (u, f u)) l) = Some (f t).
Proof.
  induction l as [|u l IH]; cbn; [tauto|]. destruct (Z.eqb_spec t u) as [->|]; auto. intros [E|H]; [congruence|auto].
Qed.
Lemma somes_in A (x : A) l : In x (somes l) <-> In (Some x) l.
Proof.
  unfold somes. rewrite in_flat_map. split.
  - intros ([y|] & Hin & H); [destruct H as [<-|[]]; auto|destruct H].
  - intro H. exists (Some x). split; auto. now left.
Qed.
Lemma rev_last_in A (x : A) l r : rev l = x :: r -> In x l.
Proof. intro H. apply in_rev. rewrite H. now left. Qed.

Lemma bfill_on_bar bars t b : StronglySorted Z.lt (map fst bars) -> In (t, b) bars -> bfill bars t = Some b.
Proof.
  intros Hs Hin. unfold bfill.
  induction bars as [|[u c] bars IH]; [destruct Hin|]. cbn [map fst] in Hs. inversion Hs as [|? ? Hs' Hf]; subst. cbn [filter fst].
  destruct Hin as [E|Hin].
  - injection E as -> ->. rewrite Z.leb_refl. auto.
  - rewrite Forall_forall in Hf. specialize (Hf t (in_map fst _ _ Hin)). cbn in Hf.
    destruct (Z.leb_spec t u); [lia|]. auto.
Qed.
Lemma bfill_spec bars t : StronglySorted Z.lt (map fst bars) ->
  match bfill bars t with
  | Some b => exists u, In (u, b) bars /\ (t <= u)%Z /\ forall v c, In (v, c) bars -> (t <= v)%Z -> (u <= v)%Z
  | None => forall v c, In (v, c) bars -> (v < t)%Z
  end.
Proof.
  intros Hs. unfold bfill.
  induction bars as [|[u c] bars IH]; cbn [filter fst]; [intros v c []|]. cbn [map fst] in Hs. inversion Hs as [|? ? Hs' Hf]; subst.
  rewrite Forall_forall in Hf. destruct (Z.leb_spec t u).
  - exists u. split; [now left|]. split; auto. intros v d [E|Hin] _; [injection E; lia|]. specialize (Hf v (in_map fst _ _ Hin)). lia.
  - specialize (IH Hs'). destruct (filter _ bars) as [|[x y] r]; cbn [snd] in *.
    + intros v d [E|Hin]; [injection E; lia|]. eauto.
    + destruct IH as (w & Hin & Hle & Hmin). exists w. split; [now right|]. split; auto.
      intros v d [E|Hin'] Hv; [injection E; lia|]. eauto.
Qed.

(** ** causality *)
Definition agree_to (ps ps' : prices) (T : Z) : Prop := forall t b, (t <= T)%Z -> In (t, b) ps <-> In (t, b) ps'.
Lemma agree_tp ps ps' T start expiry side s mult target t : agree_to ps ps' T -> (t <= T)%Z ->
  takes_profit ps start expiry side s mult target t <-> takes_profit ps' start expiry side s mult target t.
Proof.
  intros Ha Ht. unfold takes_profit. split; intros (Hm & Hr & b & Hin & Hlt); (split; [auto|]; split; [auto|]; exists b; split; [|auto]); apply (Ha t (Some b) Ht); auto.
Qed.
Lemma agree_sl ps ps' T start expiry side s mult target t : agree_to ps ps' T -> (t <= T)%Z ->
  stops_loss ps start expiry side s mult target t <-> stops_loss ps' start expiry side s mult target t.
Proof.
  intros Ha Ht. unfold stops_loss. split; intros (Hm & Hr & b & Hin & Hlt); (split; [auto|]; split; [auto|]; exists b; split; [|auto]); apply (Ha t (Some b) Ht); auto.
Qed.

Lemma barrier_event_err ps last_label pt_mult sl_mult ev b0 side target e :
  lookup (ev_start ev) ps = Some (Some b0) -> b_open b0 <> 0 -> ev_side ev = Some side -> side = 1%Z \/ side = (-1)%Z -> ev_target ev = Some target ->
  barrier_event ps last_label pt_mult sl_mult ev = Err e ->
  let expiry := match ev_expiry ev with Some e => e | None => last_label end in
  lookup expiry ps = None /\ (forall t, ~ takes_profit ps (ev_start ev) expiry side (b_open b0) pt_mult target t)
  /\ (forall t, ~ stops_loss ps (ev_start ev) expiry side (b_open b0) sl_mult target t).
Proof.
  intros Hrow Hs Hside Hpm Htgt H. unfold barrier_event in H. rewrite Hrow, Hside, Htgt in H. cbn [option_map] in H.
  replace ((side =? 1)%Z || (side =? -1)%Z) with true in H by (destruct Hpm; subst; auto).
  cbn zeta. set (s := b_open b0) in *. set (expiry := match ev_expiry ev with Some e => e | None => last_label end) in *.
  pose proof (index_min_first (fun t => @touch_pt ps (ev_start ev) expiry side s pt_mult target t Hs Hpm)) as Fpt.
  pose proof (index_min_first (fun t => @touch_sl ps (ev_start ev) expiry side s sl_mult target t Hs Hpm)) as Fsl.
  match type of H with context[match ?p with _ => _ end] => destruct p as [tp|] eqn:Ept end;
  match type of H with context[match ?p with _ => _ end] => destruct p as [tl|] eqn:Esl end; try discriminate.
  - destruct (_ <? _)%Z; discriminate.
  - destruct (lookup expiry ps); [discriminate|]. auto.
Qed.

(** the end and the return of an event depend only on the prices up to its end *)
Lemma barrier_event_causal ps ps' last_label last_label' pt_mult sl_mult ev oc b0 side target e :
  NoDup (map fst ps) -> NoDup (map fst ps') -> lookup (ev_start ev) ps = Some (Some b0) -> b_open b0 <> 0 ->
  ev_side ev = Some side -> ev_target ev = Some target -> ev_expiry ev = Some e -> (ev_start ev <= e)%Z ->
  barrier_event ps last_label pt_mult sl_mult ev = Ok oc -> agree_to ps ps' (oc_end oc) ->
  exists oc', barrier_event ps' last_label' pt_mult sl_mult ev = Ok oc' /\ oc_end oc' = oc_end oc /\ oc_ret oc' = oc_ret oc.
Proof.
  intros Hnd Hnd' Hrow Hs Hside Htgt He Hse H Ha.
  pose proof (barrier_event_spec Hnd Hrow Hs Hside Htgt H) as Hsp. cbn zeta in Hsp. rewrite He in Hsp.
  destruct Hsp as (Hev & Hpm & Fp & Fl & Hcase).
  assert (Hstart : (ev_start ev <= oc_end oc)%Z).
  { destruct (oc_pt oc) as [tp|], (oc_sl oc) as [tl|]; cbn in Fp, Fl; unfold takes_profit, stops_loss in *.
    - destruct Hcase as [(_ & -> & _)|(_ & -> & _)]; destruct Fp as [(_ & ? & _) _], Fl as [(_ & ? & _) _]; lia.
    - destruct Hcase as [-> _]; destruct Fp as [(_ & ? & _) _]; lia.
    - destruct Hcase as [-> _]; destruct Fl as [(_ & ? & _) _]; lia.
    - destruct Hcase as [-> _]. auto. }
  assert (Hrow' : lookup (ev_start ev) ps' = Some (Some b0)).
  { apply lookup_nodup; auto. apply Ha; auto. now apply lookup_in. }
  (* touches up to the end agree *)
  assert (Hend : (oc_pt oc = None /\ oc_sl oc = None /\ oc_end oc = e) \/ exists t, oc_end oc = t /\ (t <= e)%Z /\ (oc_pt oc = Some t \/ oc_sl oc = Some t)).
  { destruct (oc_pt oc) as [tp|], (oc_sl oc) as [tl|]; cbn in Fp, Fl; unfold takes_profit, stops_loss in *.
    - right. destruct Hcase as [(_ & -> & _)|(_ & -> & _)]; destruct Fp as [(_ & ? & _) _], Fl as [(_ & ? & _) _]; eexists; (split; [reflexivity|]; split; [lia|auto]).
    - right. destruct Hcase as [-> _]; destruct Fp as [(_ & ? & _) _]; eexists; (split; [reflexivity|]; split; [lia|auto]).
    - right. destruct Hcase as [-> _]; destruct Fl as [(_ & ? & _) _]; eexists; (split; [reflexivity|]; split; [lia|auto]).
    - left. destruct Hcase as [-> _]. auto. }
  destruct (barrier_event ps' last_label' pt_mult sl_mult ev) as [oc'|x] eqn:H'.
  2:{ exfalso. pose proof (barrier_event_err Hrow' Hs Hside Hpm Htgt H') as E. cbn zeta in E. rewrite He in E. destruct E as (Hno & Hnp & Hnl).
      destruct Hend as [(Ep & El & Ee)|(t & Et & Hte & Ht)].
      - rewrite Ep, El in Hcase. destruct Hcase as [_ (row & Hrow2 & _)]. apply lookup_none in Hno. apply Hno.
        apply lookup_in in Hrow2. apply Ha in Hrow2; [|lia]. now apply (in_map fst) in Hrow2.
      - destruct Ht as [Ht|Ht].
        + rewrite Ht in Fp. destruct Fp as [Fp _]. apply (Hnp t). eapply agree_tp; [| |exact Fp]; [|apply Z.le_refl].
          intros u b Hu. rewrite (Ha u b); [tauto|lia].
        + rewrite Ht in Fl. destruct Fl as [Fl _]. apply (Hnl t). eapply agree_sl; [| |exact Fl]; [|apply Z.le_refl].
          intros u b Hu. rewrite (Ha u b); [tauto|lia]. }
  exists oc'. split; [auto|].
  pose proof (barrier_event_spec Hnd' Hrow' Hs Hside Htgt H') as Hsp'. cbn zeta in Hsp'. rewrite He in Hsp'.
  destruct Hsp' as (_ & _ & Fp' & Fl' & Hcase').
  set (s := b_open b0) in *.
  assert (Etp : forall t, (t <= oc_end oc)%Z -> takes_profit ps (ev_start ev) e side s pt_mult target t <-> takes_profit ps' (ev_start ev) e side s pt_mult target t)
    by (intros; now apply agree_tp with (oc_end oc)).
  assert (Esl : forall t, (t <= oc_end oc)%Z -> stops_loss ps (ev_start ev) e side s sl_mult target t <-> stops_loss ps' (ev_start ev) e side s sl_mult target t)
    by (intros; now apply agree_sl with (oc_end oc)).
  assert (Hbar : forall t b b', (t <= oc_end oc)%Z -> In (t, Some b) ps -> In (t, Some b') ps' -> b = b').
  { intros t b b' Ht Hb Hb'. apply Ha in Hb; auto. assert (E1 := lookup_nodup Hnd' Hb). assert (E2 := lookup_nodup Hnd' Hb'). congruence. }
  clear H H'.
  destruct (oc_pt oc) as [tp|] eqn:Ep, (oc_sl oc) as [tl|] eqn:El; cbn [first_time] in Fp, Fl.
  - destruct Hcase as [(Hlt & Ee & b & Hb & Hret)|(Hle & Ee & b & Hb & Hret)].
    + assert (Ep' : oc_pt oc' = Some tp).
      { eapply first_time_unique; [exact Fp'|]. split; [apply Etp; [lia|apply Fp]|]. intros u Hu. destruct (Z.le_gt_cases tp u); auto. apply Fp, Etp; [lia|auto]. }
      assert (Hl' : match oc_sl oc' with None => True | Some t => (tp < t)%Z end).
      { destruct (oc_sl oc') as [t|] eqn:El'; auto. destruct (Z.lt_ge_cases tp t); auto. exfalso. destruct Fl' as [Fl' _].
        apply Esl in Fl'; [|lia]. apply Fl in Fl'. lia. }
      rewrite Ep' in Hcase'. destruct (oc_sl oc') as [t|].
      * destruct Hcase' as [(_ & Ee' & b' & Hb' & Hret')|(Hc & _)]; [|lia]. rewrite Ee', Ee, Hret, Hret'. split; auto. rewrite (Hbar tp b b'); auto; lia.
      * destruct Hcase' as (Ee' & b' & Hb' & Hret'). rewrite Ee', Ee, Hret, Hret'. split; auto. rewrite (Hbar tp b b'); auto; lia.
    + assert (El' : oc_sl oc' = Some tl).
      { eapply first_time_unique; [exact Fl'|]. split; [apply Esl; [lia|apply Fl]|]. intros u Hu. destruct (Z.le_gt_cases tl u); auto. apply Fl, Esl; [lia|auto]. }
      assert (Hp' : match oc_pt oc' with None => True | Some t => (tl <= t)%Z end).
      { destruct (oc_pt oc') as [t|] eqn:Ep'; auto. destruct (Z.le_gt_cases tl t); auto. exfalso. destruct Fp' as [Fp' _].
        apply Etp in Fp'; [|lia]. apply Fp in Fp'. lia. }
      rewrite El' in Hcase'. destruct (oc_pt oc') as [t|].
      * destruct Hcase' as [(Hc & _)|(_ & Ee' & b' & Hb' & Hret')]; [lia|]. rewrite Ee', Ee, Hret, Hret'. split; auto. rewrite (Hbar tl b b'); auto; lia.
      * destruct Hcase' as (Ee' & b' & Hb' & Hret'). rewrite Ee', Ee, Hret, Hret'. split; auto. rewrite (Hbar tl b b'); auto; lia.
  - destruct Hcase as (Ee & b & Hb & Hret).
    assert (Ep' : oc_pt oc' = Some tp).
    { eapply first_time_unique; [exact Fp'|]. split; [apply Etp; [lia|apply Fp]|]. intros u Hu. destruct (Z.le_gt_cases tp u); auto. apply Fp, Etp; [lia|auto]. }
    assert (Hl' : match oc_sl oc' with None => True | Some t => (tp < t)%Z end).
    { destruct (oc_sl oc') as [t|] eqn:El'; auto. destruct (Z.lt_ge_cases tp t); auto. exfalso. destruct Fl' as [Fl' _].
      apply Esl in Fl'; [|lia]. now apply Fl in Fl'. }
    rewrite Ep' in Hcase'. destruct (oc_sl oc') as [t|].
    * destruct Hcase' as [(_ & Ee' & b' & Hb' & Hret')|(Hc & _)]; [|lia]. rewrite Ee', Ee, Hret, Hret'. split; auto. rewrite (Hbar tp b b'); auto; lia.
    * destruct Hcase' as (Ee' & b' & Hb' & Hret'). rewrite Ee', Ee, Hret, Hret'. split; auto. rewrite (Hbar tp b b'); auto; lia.
  - destruct Hcase as (Ee & b & Hb & Hret).
    assert (El' : oc_sl oc' = Some tl).
    { eapply first_time_unique; [exact Fl'|]. split; [apply Esl; [lia|apply Fl]|]. intros u Hu. destruct (Z.le_gt_cases tl u); auto. apply Fl, Esl; [lia|auto]. }
    assert (Hp' : match oc_pt oc' with None => True | Some t => (tl <= t)%Z end).
    { destruct (oc_pt oc') as [t|] eqn:Ep'; auto. destruct (Z.le_gt_cases tl t); auto. exfalso. destruct Fp' as [Fp' _].
      apply Etp in Fp'; [|lia]. now apply Fp in Fp'. }
    rewrite El' in Hcase'. destruct (oc_pt oc') as [t|].
    * destruct Hcase' as [(Hc & _)|(_ & Ee' & b' & Hb' & Hret')]; [lia|]. rewrite Ee', Ee, Hret, Hret'. split; auto. rewrite (Hbar tl b b'); auto; lia.
    * destruct Hcase' as (Ee' & b' & Hb' & Hret'). rewrite Ee', Ee, Hret, Hret'. split; auto. rewrite (Hbar tl b b'); auto; lia.
  - destruct Hcase as (Ee & row & Hrw & Hret).
    assert (Ep' : oc_pt oc' = None).
    { destruct (oc_pt oc') as [t|]; auto. destruct Fp' as [Fp' _]. exfalso. apply (Fp t). apply Etp; auto. unfold takes_profit in Fp'. lia. }
    assert (El' : oc_sl oc' = None).
    { destruct (oc_sl oc') as [t|]; auto. destruct Fl' as [Fl' _]. exfalso. apply (Fl t). apply Esl; auto. unfold stops_loss in Fl'. lia. }
    rewrite Ep', El' in Hcase'. destruct Hcase' as (Ee' & row' & Hrw' & Hret'). rewrite Ee', Ee, Hret, Hret'. split; auto.
    apply lookup_in in Hrw. apply Ha in Hrw; [|lia]. apply (lookup_nodup Hnd') in Hrw. congruence.
Qed.

(** ** fixed windows *)
Lemma log_diffs_fst prev bars : map fst (log_diffs prev bars) = map fst bars.
Proof. revert prev; induction bars as [|[t b] bars IH]; intros prev; cbn; auto. now rewrite IH. Qed.
Lemma filter_none A (f : A -> bool) l : (forall a, In a l -> f a = false) -> filter f l = [].
Proof. induction l as [|a l IH]; cbn; intro H; auto. rewrite H by now left. apply IH. intros; apply H; now right. Qed.
Lemma window_after s e prev bars : zssorted (map fst bars) -> (forall t, In t (map fst bars) -> (e < t)%Z) ->
  filter (fun r : Z * (option R * R) => (s <=? fst r)%Z && (fst r <=? e)%Z) (log_diffs prev bars) = [].
Proof.
  intros _ H. apply filter_none. intros r Hr. apply (in_map fst) in Hr. rewrite log_diffs_fst in Hr. apply H in Hr.
  destruct (Z.leb_spec (fst r) e); [lia|]. now rewrite andb_false_r.
Qed.
Open Scope R_scope.
Lemma ln_quot a b : 0 < a -> 0 < b -> ln (a / b) = ln a - ln b.
Proof. intros. unfold Rdiv. rewrite ln_mult, ln_Rinv; auto using Rinv_0_lt_compat. Qed.
Lemma window_tail s e p bars j bj : zssorted (map fst bars) -> (forall t, In t (map fst bars) -> (s <= t)%Z) -> nth_error bars j = Some (e, bj) ->
  rsum (map (fun r => match fst (snd r) with Some c => c | None => 0 end)
    (filter (fun r : Z * (option R * R) => (s <=? fst r)%Z && (fst r <=? e)%Z) (log_diffs (Some p) bars))) = ln (r_close bj) - ln p.
Proof.
  revert p j; induction bars as [|[t b] bars IH]; intros p j Hs Hge Hj; [destruct j; discriminate|].
  cbn [map fst] in Hs. inversion Hs as [|? ? Hs' Hf]; subst. rewrite Forall_forall in Hf. cbn [log_diffs filter fst].
  assert (Hst : (s <= t)%Z) by (apply Hge; now left).
  destruct j as [|j]; cbn [nth_error] in Hj.
  - injection Hj as -> ->. replace ((s <=? e)%Z && (e <=? e)%Z) with true by (symmetry; rewrite andb_true_iff, !Z.leb_le; lia).
    rewrite window_after by (auto). cbn. lra.
  - assert (t < e)%Z by (apply Hf; apply nth_error_In in Hj; now apply (in_map fst) in Hj).
    replace ((s <=? t)%Z && (t <=? e)%Z) with true by (symmetry; rewrite andb_true_iff, !Z.leb_le; lia).
    cbn [map rsum fst snd]. rewrite (IH (r_close b) j); auto; [lra|]. intros u Hu. apply Hge. now right.
Qed.
Lemma ret_in_period_spec s e prev bars i j bi bj :
  zssorted (map fst bars) -> nth_error bars i = Some (s, bi) -> nth_error bars j = Some (e, bj) -> (i <= j)%nat ->
  ret_in_period (log_diffs prev bars) s e =
    Ok (ln (r_close bj) - ln (r_close bi) + ln (r_close bi / r_open bi) +
        match i with
        | O => match prev with None => 0 | Some p => ln (r_close bi) - ln p end
        | S k => match nth_error bars k with Some (_, bk) => ln (r_close bi) - ln (r_close bk) | None => 0 end
        end).
Proof.
  revert prev i j; induction bars as [|[t b] bars IH]; intros prev i j Hs Hi Hj Hij; [destruct i; discriminate|].
  cbn [map fst] in Hs. inversion Hs as [|? ? Hs' Hf]; subst. rewrite Forall_forall in Hf.
  destruct i as [|i]; cbn [nth_error] in Hi.
  - injection Hi as -> ->. unfold ret_in_period. cbn [log_diffs filter fst].
    assert (Hse : (s <= e)%Z).
    { destruct j; cbn in Hj; [injection Hj; lia|]. apply nth_error_In, (in_map fst), Hf in Hj. cbn in Hj. lia. }
    replace ((s <=? s)%Z && (s <=? e)%Z) with true by (symmetry; rewrite andb_true_iff, !Z.leb_le; lia).
    f_equal. cbn [map rsum fst snd]. destruct j as [|j]; cbn [nth_error] in Hj.
    + injection Hj as -> ->. rewrite window_after by auto. cbn [map rsum]. destruct prev; lra.
    + rewrite window_tail with (j := j) (bj := bj); auto; [destruct prev; lra|]. intros u Hu. specialize (Hf u Hu). lia.
  - destruct j as [|j]; [lia|]. cbn [nth_error] in Hj.
    assert (t < s)%Z by (apply Hf; apply nth_error_In in Hi; now apply (in_map fst) in Hi).
    assert (E : ret_in_period (log_diffs prev ((t, b) :: bars)) s e = ret_in_period (log_diffs (Some (r_close b)) bars) s e).
    { unfold ret_in_period. cbn [log_diffs filter fst]. destruct (Z.leb_spec s t); [lia|]. cbn [andb]. reflexivity. }
    rewrite E, (IH (Some (r_close b)) i j) by (auto; lia). f_equal. f_equal.
    destruct i as [|i]; cbn [nth_error]; auto.
Qed.
Close Scope R_scope.

Lemma searchsorted_first times v k x : zssorted times -> searchsorted_left times v = k -> nth_error times k = Some x ->
  (v <= x)%Z /\ forall u, In u times -> (v <= u)%Z -> (x <= u)%Z.
Proof.
  intros Hs E Hk. apply zssorted_sorted in Hs. split.
  - destruct (Z.le_gt_cases v x); auto. apply (@searchsorted_left_spec _ v _ _ Hs Hk) in H. lia.
  - intros u Hu Hv. apply In_nth_error in Hu as [j Hj]. destruct (Nat.le_gt_cases k j) as [|Hlt].
    + eapply sorted_nth_le; eauto.
    + rewrite <- E in Hlt. apply (@searchsorted_left_spec _ v _ _ Hs Hj) in Hlt. lia.
Qed.
Lemma searchsorted_none times v : zssorted times -> (length times <= searchsorted_left times v)%nat -> forall u, In u times -> (u < v)%Z.
Proof.
  intros Hs H u Hu. apply In_nth_error in Hu as [j Hj]. apply zssorted_sorted in Hs. apply (@searchsorted_left_spec _ v _ _ Hs Hj).
  apply Nat.lt_le_trans with (length times); auto. apply nth_error_Some. congruence.
Qed.
Lemma searchsorted_mono times v w : (v <= w)%Z -> (searchsorted_left times v <= searchsorted_left times w)%nat.
Proof. intro H. induction times as [|x l IH]; cbn; auto. destruct (Z.ltb_spec x v), (Z.ltb_spec x w); lia. Qed.
