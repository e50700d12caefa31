From Verif Require Import Py BarsModel BarsSpec.
Set Implicit Arguments.
Open Scope Qc_scope.

Lemma last_nth A (l : list A) d : nth_error (d :: l) (length (d :: l) - 1) = Some (last l d).
Proof.
  cbn [length]. replace (S (length l) - 1)%nat with (length l) by lia.
  revert d. induction l as [|a l IH]; intro d; [reflexivity|].
  cbn [length nth_error]. rewrite IH. f_equal. destruct l; auto.
  clear IH. revert a0. induction l; intros; [reflexivity|]. cbn. apply IHl.
Qed.

Lemma np_div_none a b : np_div a b = None <-> b = 0.
Proof. unfold np_div. destruct (qeq_spec b 0); split; intro H; auto; try discriminate; contradiction. Qed.
Lemma np_div_some a b v : np_div a b = Some v -> b <> 0 /\ v * b = a.
Proof.
  unfold np_div. destruct (qeq_spec b 0) as [E|E]; [discriminate|]. intro H. inversion H; subst.
  split; auto. now apply Qcdiv_mul_cancel.
Qed.

Lemma compute_bar_stats_ok g : g <> [] -> exists b, compute_bar_stats g = Ok b /\ is_bar_of g b.
Proof.
  destruct g as [|t ts]; [congruence|]. intros _. eexists. split; [reflexivity|].
  unfold is_bar_of. cbn [b_time b_open b_high b_low b_close b_vol b_vwap].
  repeat split.
  - exists t. auto.
  - exists (last ts t). split; [apply last_nth|reflexivity].
  - pose proof (lmax_in (t_price t) (map t_price ts)) as H.
    change (t_price t :: map t_price ts) with (map t_price (t :: ts)) in H.
    apply in_map_iff in H. destruct H as [x [E Hx]]. exists x. auto.
  - intros x Hx. apply lmax_ge. change (t_price t :: map t_price ts) with (map t_price (t :: ts)). now apply in_map.
  - pose proof (lmin_in (t_price t) (map t_price ts)) as H.
    change (t_price t :: map t_price ts) with (map t_price (t :: ts)) in H.
    apply in_map_iff in H. destruct H as [x [E Hx]]. exists x. auto.
  - intros x Hx. apply lmin_le. change (t_price t :: map t_price ts) with (map t_price (t :: ts)). now apply in_map.
  - apply np_div_none.
  - apply np_div_none.
  - intros v Hv. apply np_div_some in Hv. tauto.
Qed.

Lemma mapM_bar_stats groups :
  Forall (fun g => g <> []) groups ->
  exists bars, mapM compute_bar_stats groups = Ok bars /\ Forall2 is_bar_of groups bars.
Proof.
  induction 1 as [|g gs Hg _ [bars [E IH]]].
  - exists []. split; auto.
  - destruct (compute_bar_stats_ok Hg) as [b [Eb Hb]]. exists (b :: bars). cbn. rewrite Eb, E. cbn. auto.
Qed.

Lemma groupby_all_nonempty A (rows : list (Z * A)) : Forall (fun g => g <> []) (map snd (groupby rows)).
Proof.
  apply Forall_forall. intros g Hg. apply in_map_iff in Hg. destruct Hg as [[k rs] [<- H]].
  now apply groupby_nonempty in H.
Qed.

Lemma group_ticks_sorted ids ticks :
  length ids = length ticks -> zsorted ids ->
  exists bars, group_ticks_to_bars (combine ids ticks) = Ok bars /\
    divides_into ticks (map snd (groupby (combine ids ticks))) /\
    Forall2 is_bar_of (map snd (groupby (combine ids ticks))) bars.
Proof.
  intros Hl Hs. unfold group_ticks_to_bars.
  destruct (mapM_bar_stats (groupby_all_nonempty (combine ids ticks))) as [bars [E F]].
  exists bars. repeat split; auto.
  - rewrite groupby_concat by (rewrite combine_fst; auto). now apply combine_snd.
  - apply groupby_all_nonempty.
Qed.

(** *** bar ids *)
Lemma tick_bar_ids_length n f : length (tick_bar_ids n f) = n.
Proof. unfold tick_bar_ids. now rewrite map_length, seq_length. Qed.
Lemma cum_bar_ids_length l f : length (cum_bar_ids l f) = length l.
Proof. unfold cum_bar_ids. now rewrite map_length, cumsum_length. Qed.

Lemma seq_zsorted (h : nat -> Z) : (forall i j, (i <= j)%nat -> (h i <= h j)%Z) ->
  forall n s, zsorted (map h (seq s n)).
Proof.
  intros Hm n. induction n as [|n IH]; intro s; cbn; constructor; auto.
  apply Forall_forall. intros x Hx. apply in_map_iff in Hx. destruct Hx as [j [<- Hj]].
  apply in_seq in Hj. apply Hm. lia.
Qed.

Lemma div_mono a b f : 0 < f -> a <= b -> a / f <= b / f.
Proof. intros Hf H. apply Qcdiv_le_iff; auto. rewrite Qcdiv_mul_cancel; auto. now apply Qc_pos_neq. Qed.

Lemma tick_bar_ids_sorted n f : 0 < f -> zsorted (tick_bar_ids n f).
Proof.
  intro Hf. apply seq_zsorted. intros i j Hij. apply qfloor_mono. apply div_mono; auto. now apply qn_le.
Qed.

Lemma cumsum_from_ge acc l y : (forall x, In x l -> 0 <= x) -> In y (cumsum_from acc l) -> acc <= y.
Proof.
  revert acc. induction l as [|x l IH]; intros acc H Hy; [destruct Hy|].
  cbn in Hy. assert (0 <= x) by (apply H; now left).
  destruct Hy as [<-|Hy]; [qlra|]. apply IH in Hy; [qlra|]. intros; apply H; now right.
Qed.

Lemma cum_bar_ids_sorted_from f acc l :
  0 < f -> (forall x, In x l -> 0 <= x) -> zsorted (map (fun c => qfloor (c / f)) (cumsum_from acc l)).
Proof.
  intros Hf. revert acc. induction l as [|x l IH]; intros acc H; cbn; constructor.
  - apply IH. intros; apply H; now right.
  - apply Forall_forall. intros z Hz. apply in_map_iff in Hz. destruct Hz as [c [<- Hc]].
    apply cumsum_from_ge in Hc; [|intros; apply H; now right].
    apply qfloor_mono. apply div_mono; auto.
Qed.
Lemma cum_bar_ids_sorted f l : 0 < f -> (forall x, In x l -> 0 <= x) -> zsorted (cum_bar_ids l f).
Proof. intros. now apply cum_bar_ids_sorted_from. Qed.

(** *** Position of a tick in the grouped stream *)
Lemma group_index_key A (gs : list (Z * list A)) i k t :
  nth_error (keyed gs) i = Some (k, t) ->
  exists rs, nth_error gs (group_index (map snd gs) i) = Some (k, rs).
Proof.
  unfold keyed. revert i. induction gs as [|[k' rs] gs IH]; intros i H; [destruct i; discriminate|].
  cbn [map concat snd fst group_index] in *.
  destruct (Nat.ltb_spec i (length rs)) as [L|L].
  - rewrite nth_error_app1 in H by (rewrite map_length; auto).
    rewrite nth_error_map in H. destruct (nth_error rs i); cbn in H; [|discriminate].
    inversion H; subst. exists rs. reflexivity.
  - rewrite nth_error_app2 in H by (rewrite map_length; auto). rewrite map_length in H. apply IH in H.
    exact H.
Qed.

Lemma zssorted_nth_inj l i j x : zssorted l -> nth_error l i = Some x -> nth_error l j = Some x -> i = j.
Proof.
  intros S Hi Hj. destruct (Nat.lt_trichotomy i j) as [L|[->|L]]; auto.
  - pose proof (ssorted_nth_lt S Hi Hj L). lia.
  - pose proof (ssorted_nth_lt S Hj Hi L). lia.
Qed.

Lemma same_group_iff A (rows : list (Z * A)) i j ki kj ti tj :
  zsorted (map fst rows) ->
  nth_error rows i = Some (ki, ti) -> nth_error rows j = Some (kj, tj) ->
  (group_index (map snd (groupby rows)) i = group_index (map snd (groupby rows)) j <-> ki = kj).
Proof.
  intros S Hi Hj. pose proof (groupby_keyed _ S) as E.
  rewrite <- E in Hi, Hj. apply group_index_key in Hi, Hj.
  destruct Hi as [ri Hi], Hj as [rj Hj].
  pose proof (groupby_spec rows) as [K _]. split; intro H.
  - rewrite H in Hi. rewrite Hi in Hj. inversion Hj. auto.
  - subst kj.
    apply (map_nth_error fst) in Hi. apply (map_nth_error fst) in Hj. cbn in Hi, Hj.
    eapply zssorted_nth_inj; eauto.
Qed.

Lemma nth_error_combine A B (l1 : list A) (l2 : list B) i a b :
  nth_error l1 i = Some a -> nth_error l2 i = Some b -> nth_error (combine l1 l2) i = Some (a, b).
Proof.
  revert l2 i. induction l1 as [|x l1 IH]; intros [|y l2] [|i] H1 H2; cbn in *; try discriminate.
  - inversion H1; inversion H2; auto.
  - apply IH; auto.
Qed.

Lemma nth_error_some A (l : list A) i : (i < length l)%nat -> exists a, nth_error l i = Some a.
Proof. intro H. apply nth_error_Some in H. destruct (nth_error l i); eauto. congruence. Qed.

(** no multiple of f strictly above a and at most b *)
Lemma same_floor_iff f a b :
  0 < f -> a <= b ->
  (qfloor (a / f) = qfloor (b / f) <-> ~ exists m : Z, a < qz m * f /\ qz m * f <= b).
Proof.
  intros Hf Hab. split.
  - intros E [m [H1 H2]]. assert (m <= qfloor (b / f))%Z by (apply qfloor_ge, Qcdiv_ge_iff; auto).
    assert (qfloor (a / f) < m)%Z by (apply qfloor_lt_iff, Qcdiv_lt_iff; auto). lia.
  - intro N. assert (qfloor (a / f) <= qfloor (b / f))%Z by (apply qfloor_mono, div_mono; auto).
    destruct (Z.eq_dec (qfloor (a / f)) (qfloor (b / f))) as [|D]; auto. exfalso. apply N.
    exists (qfloor (b / f)). split.
    + apply Qcdiv_lt_iff; auto. apply qfloor_lt_iff. lia.
    + apply Qcdiv_ge_iff; auto. apply qfloor_le.
Qed.

(** two positions share a group iff no multiple of f separates the cumulated amounts *)
Lemma cum_same_group A (amt : A -> Qc) ticks f i j :
  0 < f -> (forall t, In t ticks -> 0 <= amt t) -> (i <= j)%nat -> (j < length ticks)%nat ->
  let groups := map snd (groupby (combine (cum_bar_ids (map amt ticks) f) ticks)) in
  let cum n := qsum (map amt (firstn (S n) ticks)) in
  (group_index groups i = group_index groups j <-> ~ exists m : Z, cum i < qz m * f /\ qz m * f <= cum j).
Proof.
  intros Hf Hn Hij Hj groups cum.
  assert (Hnn : forall x, In x (map amt ticks) -> 0 <= x).
  { intros x Hx. apply in_map_iff in Hx. destruct Hx as [t [<- Ht]]. auto. }
  assert (Hid : forall n, (n < length ticks)%nat ->
     nth_error (cum_bar_ids (map amt ticks) f) n = Some (qfloor (cum n / f))).
  { intros n Hl. unfold cum_bar_ids. rewrite nth_error_map, cumsum_nth by (rewrite map_length; auto).
    cbn [option_map]. unfold cum. now rewrite firstn_map. }
  destruct (nth_error_some ticks (i := i)) as [ti Ti]; [lia|].
  destruct (nth_error_some ticks (i := j)) as [tj Tj]; [lia|].
  assert (S : zsorted (map fst (combine (cum_bar_ids (map amt ticks) f) ticks))).
  { rewrite combine_fst; [now apply cum_bar_ids_sorted|]. now rewrite cum_bar_ids_length, map_length. }
  unfold groups. rewrite (same_group_iff _ i j S
     (nth_error_combine _ _ _ (Hid i ltac:(lia)) Ti) (nth_error_combine _ _ _ (Hid j Hj) Tj)).
  apply same_floor_iff; auto.
  unfold cum. assert (E : exists r, firstn (Datatypes.S j) ticks = firstn (Datatypes.S i) ticks ++ r
       /\ forall t, In t r -> In t ticks).
  { exists (skipn (Datatypes.S i) (firstn (Datatypes.S j) ticks)). split.
    - rewrite <- (firstn_skipn (Datatypes.S i) (firstn (Datatypes.S j) ticks)) at 1. f_equal.
      rewrite firstn_firstn. f_equal. lia.
    - intros t Ht. assert (In t (firstn (Datatypes.S j) ticks)).
      { rewrite <- (firstn_skipn (Datatypes.S i) (firstn (Datatypes.S j) ticks)). apply in_app_iff. auto. }
      rewrite <- (firstn_skipn (Datatypes.S j) ticks). apply in_app_iff. auto. }
  destruct E as [r [-> Hr]]. rewrite map_app, qsum_app.
  assert (0 <= qsum (map amt r)).
  { apply qsum_nonneg. intros x Hx. apply in_map_iff in Hx. destruct Hx as [t [<- Ht]]. auto. }
  qlra.
Qed.

Lemma zssorted_consecutive l1 a b l2 : zssorted (l1 ++ a :: b :: l2) -> (a + 1 <= b)%Z.
Proof.
  induction l1 as [|x l1 IH]; cbn; intro H; inversion H as [|? ? H1 H2]; subst; auto.
  inversion H2; subst. lia.
Qed.

(** *** A group of a keyed stream, with its context *)
Lemma keyed_split (g1 g2 : list (Z * list tick)) k rs :
  keyed (g1 ++ (k, rs) :: g2) = keyed g1 ++ map (pair k) rs ++ keyed g2.
Proof. unfold keyed. rewrite map_app, concat_app. reflexivity. Qed.

Lemma nth_split_key (rows : list (Z * tick)) r1 k t r2 :
  rows = r1 ++ (k, t) :: r2 -> nth_error (map fst rows) (length r1) = Some k.
Proof.
  intros ->. rewrite map_app, nth_error_app2 by (rewrite map_length; lia).
  rewrite map_length, Nat.sub_diag. reflexivity.
Qed.

Lemma cum_row_id (amt : tick -> Qc) ticks f r1 k t r2 :
  combine (cum_bar_ids (map amt ticks) f) ticks = r1 ++ (k, t) :: r2 ->
  k = qfloor ((qsum (map amt (map snd r1)) + amt t) / f).
Proof.
  intro E. assert (El : length (cum_bar_ids (map amt ticks) f) = length ticks)
    by now rewrite cum_bar_ids_length, map_length.
  assert (K := E). apply nth_split_key in K. rewrite combine_fst in K by auto.
  assert (ET : ticks = map snd r1 ++ t :: map snd r2).
  { rewrite <- (combine_snd _ _ El), E, map_app. reflexivity. }
  assert (L : (length r1 < length (map amt ticks))%nat).
  { rewrite map_length, ET, app_length, map_length. cbn. lia. }
  unfold cum_bar_ids in K. rewrite nth_error_map, (cumsum_nth _ L) in K. cbn [option_map] in K.
  rewrite firstn_map in K.
  assert (F : firstn (S (length r1)) (map snd r1 ++ t :: map snd r2) = map snd r1 ++ [t]).
  { rewrite firstn_app, map_length. rewrite firstn_all2 by (rewrite map_length; lia).
    replace (S (length r1) - length r1)%nat with 1%nat by lia. reflexivity. }
  rewrite ET, F, map_app, qsum_app in K. assert (K' : forall a b : Z, Some a = Some b -> b = a) by congruence.
  apply K' in K. rewrite K. f_equal. f_equal. cbn [map qsum]. ring.
Qed.

Lemma floor_div_bounds c f k : 0 < f -> k = qfloor (c / f) -> qz k * f <= c /\ c < (qz k + 1) * f.
Proof.
  intros Hf ->. split.
  - apply Qcdiv_ge_iff; auto. apply qfloor_le.
  - apply Qcdiv_lt_iff; auto. apply qfloor_lt.
Qed.

Lemma cum_group_volume (amt : tick -> Qc) ticks f v g1 g g2 :
  0 < f -> (forall t, In t ticks -> 0 <= amt t /\ amt t <= v) ->
  map snd (groupby (combine (cum_bar_ids (map amt ticks) f) ticks)) = g1 ++ g :: g2 ->
  qsum (map amt g) < f + v /\ (g2 <> [] -> f - v <= qsum (map amt g)).
Proof.
  intros Hf Hv Hg.
  set (rows := combine (cum_bar_ids (map amt ticks) f) ticks) in *.
  assert (El : length (cum_bar_ids (map amt ticks) f) = length ticks)
    by now rewrite cum_bar_ids_length, map_length.
  assert (Hnn : forall x, In x (map amt ticks) -> 0 <= x).
  { intros x Hx. apply in_map_iff in Hx. destruct Hx as [t [<- Ht]]. now apply Hv. }
  assert (Sr : zsorted (map fst rows)) by (unfold rows; rewrite combine_fst by auto; now apply cum_bar_ids_sorted).
  pose proof (groupby_keyed _ Sr) as EK. pose proof (groupby_spec rows) as [KS _].
  assert (NE : Forall (fun g => g <> []) (map snd (groupby rows))) by apply groupby_all_nonempty.
  assert (exists G1 k G2, groupby rows = G1 ++ (k, g) :: G2 /\ map snd G1 = g1 /\ map snd G2 = g2)
    as [G1 [k [G2 [EG [E1 E2]]]]].
  { revert Hg. generalize (groupby rows). clear. intros gs. revert g1.
    induction gs as [|[k rs] gs IH]; intros g1 H; [destruct g1; discriminate|].
    destruct g1 as [|x g1]; cbn in H; inversion H; subst.
    - exists [], k, gs. auto.
    - destruct (IH g1 H2) as [G1 [k' [G2 [-> [A B]]]]]. exists ((k, x) :: G1), k', G2. cbn. subst. auto. }
  rewrite EG in EK, KS, NE. rewrite keyed_split in EK.
  rewrite map_app in NE. cbn in NE. apply Forall_app in NE. destruct NE as [NE1 NE2].
  inversion NE2 as [|? ? Hgne NE3]; subst x l. 
  assert (Hin : forall t, In t g -> In t ticks).
  { intros t Ht. rewrite <- (combine_snd _ _ El). fold rows. rewrite <- EK, !map_app, map_map. cbn.
    rewrite map_id. apply in_app_iff. right. apply in_app_iff. auto. }
  (* first tick *)
  destruct g as [|t0 g']; [congruence|].
  assert (F0 := EK). cbn [map app] in F0. symmetry in F0. apply cum_row_id in F0.
  set (C0 := qsum (map amt (map snd (keyed G1)))) in *.
  destruct (floor_div_bounds _ Hf F0) as [L0 U0].
  destruct (Hv t0 (Hin t0 (or_introl eq_refl))) as [V0 V1].
  (* last tick *)
  destruct (exists_last (l := t0 :: g')) as [gi [tl Eg]]; [discriminate|].
  assert (FL := EK). rewrite Eg in FL. rewrite map_app in FL. cbn [map] in FL.
  rewrite <- (app_assoc (map (pair k) gi)) in FL. cbn [app] in FL. rewrite app_assoc in FL.
  symmetry in FL. apply cum_row_id in FL.
  rewrite map_app, map_map in FL. cbn [snd] in FL. rewrite map_id in FL.
  rewrite map_app, qsum_app in FL. fold C0 in FL.
  destruct (floor_div_bounds _ Hf FL) as [L1 U1].
  assert (ES : qsum (map amt (t0 :: g')) = qsum (map amt gi) + amt tl).
  { rewrite Eg, map_app, qsum_app. cbn. ring. }
  split.
  - rewrite ES. qlra.
  - intro N2. rewrite ES.
    (* next tick *)
    destruct G2 as [|[k2 rs2] G2]; [cbn in *; congruence|].
    inversion NE3 as [|? ? Hrs2 _]; subst x l. cbn in Hrs2. destruct rs2 as [|t2 rs2]; [congruence|].
    assert (FN := EK). set (gg := map (pair k) (t0 :: g')) in FN. unfold keyed at 2 in FN. cbn [map concat fst snd app] in FN.
    rewrite app_assoc in FN. symmetry in FN.
    assert (Hin2 : In t2 ticks).
    { rewrite <- (combine_snd _ _ El). fold rows. rewrite FN, map_app. apply in_app_iff. right. now left. }
    apply cum_row_id in FN.
    unfold gg in FN. rewrite map_app, map_map in FN. cbn [snd] in FN.
    rewrite map_id, map_app, qsum_app in FN. fold C0 in FN.
    rewrite ES in FN.
    destruct (floor_div_bounds _ Hf FN) as [L2 _].
    destruct (Hv t2 Hin2) as [_ V2].
    assert (Hk : (k + 1 <= k2)%Z).
    { rewrite map_app in KS. eapply zssorted_consecutive. exact KS. }
    apply qz_le in Hk. rewrite qz_add, qz_1 in Hk.
    assert (M : (qz k + 1) * f <= qz k2 * f) by (apply Qcmult_le_compat_r; auto; qlra).
    (* previous ticks *)
    assert (P : C0 <= qz k * f).
    { destruct G1 as [|x G1] using rev_ind.
      - unfold C0. cbn. assert (0 <= qz k); [|qnra].
        change 0 with (qz 0). apply qz_le. rewrite F0. apply qfloor_ge. cbn.
        change (qz 0) with 0. apply Qcdiv_nonneg; auto. unfold C0; cbn. qlra.
      - clear IHG1. destruct x as [k0 rs0].
        rewrite map_app in NE1. apply Forall_app in NE1. destruct NE1 as [_ NE1]. cbn in NE1.
        inversion NE1 as [|? ? Hrs0 _]; subst x l.
        destruct (exists_last Hrs0) as [ri [tp Erp]].
        assert (FP := EK). rewrite keyed_split in FP. rewrite Erp in FP. rewrite map_app in FP. cbn [map] in FP.
        unfold keyed at 2 in FP. cbn [map concat app] in FP. rewrite app_nil_r in FP.
        rewrite <- !app_assoc in FP. cbn [app] in FP. rewrite app_assoc in FP. symmetry in FP.
        assert (EC : C0 = qsum (map amt (map snd (keyed G1 ++ map (pair k0) ri))) + amt tp).
        { unfold C0. rewrite keyed_split, Erp, map_app. unfold keyed at 2. cbn [map concat]. rewrite app_nil_r.
          rewrite !map_app, !qsum_app. cbn. ring. }
        apply cum_row_id in FP. rewrite <- EC in FP.
        destruct (floor_div_bounds _ Hf FP) as [_ UP].
        assert (Hk0 : (k0 + 1 <= k)%Z).
        { rewrite !map_app in KS. rewrite <- app_assoc in KS. eapply zssorted_consecutive. exact KS. }
        apply qz_le in Hk0. rewrite qz_add, qz_1 in Hk0.
        assert (M0 : (qz k0 + 1) * f <= qz k * f) by (apply Qcmult_le_compat_r; auto; qlra).
        qlra. }
    qlra.
Qed.

(** *** A group with its neighbours *)
Lemma group_context (rows : list (Z * tick)) g1 g g2 :
  zsorted (map fst rows) -> map snd (groupby rows) = g1 ++ g :: g2 ->
  exists k R1 R2, rows = R1 ++ map (pair k) g ++ R2 /\
    map snd R1 = concat g1 /\ map snd R2 = concat g2 /\ g <> [] /\
    (forall R k' t', R1 = R ++ [(k', t')] -> (k' < k)%Z) /\
    (forall R k' t', R2 = (k', t') :: R -> (k < k')%Z) /\
    (g2 <> [] -> R2 <> []).
Proof.
  intros Sr Hg. pose proof (groupby_keyed _ Sr) as EK. pose proof (groupby_spec rows) as [KS _].
  assert (NE : Forall (fun g => g <> []) (map snd (groupby rows))) by apply groupby_all_nonempty.
  assert (exists G1 k G2, groupby rows = G1 ++ (k, g) :: G2 /\ map snd G1 = g1 /\ map snd G2 = g2)
    as [G1 [k [G2 [EG [E1 E2]]]]].
  { revert Hg. generalize (groupby rows). clear. intros gs. revert g1.
    induction gs as [|[k rs] gs IH]; intros g1 H; [destruct g1; discriminate|].
    destruct g1 as [|x g1]; cbn in H; inversion H; subst.
    - exists [], k, gs. auto.
    - destruct (IH g1 H2) as [G1 [k' [G2 [-> [A B]]]]]. exists ((k, x) :: G1), k', G2. cbn. subst. auto. }
  rewrite Hg in NE. apply Forall_app in NE. destruct NE as [NE1 NE2]. inversion NE2 as [|? ? Hgne NE3]; subst x l.
  rewrite EG in EK, KS. rewrite keyed_split in EK.
  exists k, (keyed G1), (keyed G2). split; [auto|]. repeat split; auto.
  - rewrite keyed_snd. now rewrite E1.
  - rewrite keyed_snd. now rewrite E2.
  - intros R k' t' ER. destruct G1 as [|[k0 rs0] G1 _] using rev_ind; [destruct R; discriminate|].
    rewrite keyed_split in ER. unfold keyed at 2 in ER. cbn [map concat] in ER. rewrite app_nil_r in ER.
    rewrite <- E1, map_app in NE1. apply Forall_app in NE1. destruct NE1 as [_ NE1]. inversion NE1 as [|? ? Hr _]; subst x l.
    cbn in Hr. destruct (exists_last Hr) as [ri [tp ->]]. rewrite map_app in ER. cbn [map] in ER.
    rewrite app_assoc in ER. apply app_inj_tail in ER. destruct ER as [_ ER]. inversion ER; subst.
    rewrite !map_app in KS. rewrite <- app_assoc in KS.
    assert (k' + 1 <= k)%Z by (eapply zssorted_consecutive; exact KS). lia.
  - intros R k' t' ER. destruct G2 as [|[k0 rs0] G2]; [discriminate|].
    rewrite <- E2 in NE3. inversion NE3 as [|? ? Hr _]; subst x l. cbn in Hr. destruct rs0; [congruence|].
    unfold keyed in ER. cbn in ER. inversion ER; subst. rewrite map_app in KS.
    assert (k + 1 <= k')%Z by (eapply zssorted_consecutive; exact KS). lia.
  - intros N2. rewrite <- E2 in N2, NE3. destruct G2 as [|[k0 rs0] G2]; [cbn in N2; congruence|].
    inversion NE3 as [|? ? Hr _]; subst x l. cbn in Hr. unfold keyed. cbn. destruct rs0; cbn; congruence.
Qed.

(** *** Tick bars *)
Lemma qfloor_nat_div i f : (0 < f)%nat -> qfloor (qn i / qn f) = Z.of_nat (i / f).
Proof.
  intro Hf. assert (0 < qn f) by now apply qn_pos.
  pose proof (Nat.div_mod_eq i f) as E. pose proof (Nat.mod_upper_bound i f ltac:(lia)) as U.
  apply qfloor_unique.
  - apply Qcdiv_ge_iff; auto. fold (qn (i / f)). rewrite <- qn_mul. apply qn_le. lia.
  - apply Qcdiv_lt_iff; auto. fold (qn (i / f)).
    replace ((qn (i / f) + 1) * qn f) with (qn ((i / f + 1) * f)).
    + apply qn_lt. lia.
    + rewrite qn_mul, qn_add. reflexivity.
Qed.

Lemma tick_ids_nth n f i : (i < n)%nat -> nth_error (tick_bar_ids n f) i = Some (qfloor (qn i / f)).
Proof.
  intro H. unfold tick_bar_ids. rewrite nth_error_map.
  rewrite (nth_error_nth' _ 0%nat) by (rewrite seq_length; auto). rewrite seq_nth by auto. reflexivity.
Qed.

Lemma tick_row_id (ticks : list tick) f r1 k t r2 : (0 < f)%nat ->
  combine (tick_bar_ids (length ticks) (qn f)) ticks = r1 ++ (k, t) :: r2 -> k = Z.of_nat (length r1 / f).
Proof.
  intros Hf E. assert (El : length (tick_bar_ids (length ticks) (qn f)) = length ticks) by apply tick_bar_ids_length.
  assert (K := E). apply nth_split_key in K. rewrite combine_fst in K by auto.
  assert (L : (length r1 < length ticks)%nat).
  { rewrite <- (combine_snd _ _ El), E, map_length, app_length. cbn. lia. }
  rewrite tick_ids_nth in K by auto. inversion K. now apply qfloor_nat_div.
Qed.

Lemma tick_group_size (ticks : list tick) f g1 g g2 : (0 < f)%nat ->
  map snd (groupby (combine (tick_bar_ids (length ticks) (qn f)) ticks)) = g1 ++ g :: g2 ->
  (1 <= length g <= f)%nat /\ (g2 <> [] -> length g = f).
Proof.
  intros Hf Hg. set (rows := combine (tick_bar_ids (length ticks) (qn f)) ticks) in *.
  assert (Sr : zsorted (map fst rows)).
  { unfold rows. rewrite combine_fst by apply tick_bar_ids_length. apply tick_bar_ids_sorted. now apply qn_pos. }
  destruct (group_context _ _ _ _ Sr Hg) as [k [R1 [R2 [E [_ [_ [Hne [HP [HN HR]]]]]]]]].
  assert (RID : forall r1 k' t r2, rows = r1 ++ (k', t) :: r2 -> k' = Z.of_nat (length r1 / f))
    by (intros; eapply tick_row_id; eauto).
  destruct (exists_last Hne) as [gi [tl Eg]].
  assert (EL : rows = (R1 ++ map (pair k) gi) ++ (k, tl) :: R2).
  { rewrite E, Eg, map_app, <- !app_assoc. reflexivity. }
  apply RID in EL. rewrite app_length, map_length in EL.
  assert (Lg : length g = S (length gi)) by (rewrite Eg, app_length; cbn; lia).
  assert (HS : (Z.of_nat (length R1) = k * Z.of_nat f)%Z).
  { destruct g as [|t0 g']; [congruence|]. assert (E0 := E). cbn [map app] in E0. apply RID in E0.
    destruct R1 as [|[k0 t] R1 _] using rev_ind.
    - cbn in *. rewrite Nat.div_0_l in E0 by lia. subst k. lia.
    - assert (k0 < k)%Z by (eapply HP; eauto).
      assert (E1 := E). rewrite <- app_assoc in E1. cbn [app] in E1. apply RID in E1.
      rewrite app_length in *. cbn [length] in *. subst k0 k.
      pose proof (Nat.div_mod_eq (length R1) f). pose proof (Nat.mod_upper_bound (length R1) f ltac:(lia)).
      pose proof (Nat.div_mod_eq (length R1 + 1) f). pose proof (Nat.mod_upper_bound (length R1 + 1) f ltac:(lia)).
      assert (length R1 / f + 1 <= (length R1 + 1) / f)%nat by lia. nia. }
  pose proof (Nat.div_mod_eq (length R1 + length gi) f). pose proof (Nat.mod_upper_bound (length R1 + length gi) f ltac:(lia)).
  split; [nia|]. intro N2. specialize (HR N2). destruct R2 as [|[k2 t2] R2]; [congruence|].
  assert (k < k2)%Z by (eapply HN; eauto).
  assert (E2 := E). rewrite app_assoc in E2. apply RID in E2. rewrite app_length, map_length in E2.
  pose proof (Nat.div_mod_eq (length R1 + length g) f). pose proof (Nat.mod_upper_bound (length R1 + length g) f ltac:(lia)).
  assert ((length R1 + length gi) / f + 1 <= (length R1 + length g) / f)%nat by lia. nia.
Qed.

Lemma chunks_count A f (l : list A) groups : (0 < f)%nat ->
  concat groups = l ->
  (forall g1 g g2, groups = g1 ++ g :: g2 -> (1 <= length g <= f)%nat /\ (g2 <> [] -> length g = f)) ->
  length groups = ((length l + f - 1) / f)%nat.
Proof.
  intros Hf. revert l. induction groups as [|g gs IH]; intros l El H.
  - subst l. cbn. symmetry. apply Nat.div_small. lia.
  - destruct (H [] g gs eq_refl) as [H1 H2]. cbn in El. subst l. rewrite app_length.
    assert (IH' : length gs = ((length (concat gs) + f - 1) / f)%nat).
    { apply IH; auto. intros g1 g' g2 E. apply (H (g :: g1) g' g2). now rewrite E. }
    cbn [length]. rewrite IH'. destruct gs as [|g' gs].
    + cbn. rewrite Nat.div_small by lia. apply (Nat.div_unique _ _ 1 (length g - 1)); lia.
    + rewrite H2 by discriminate. replace (f + length (concat (g' :: gs)) + f - 1)%nat with ((length (concat (g' :: gs)) + f - 1) + 1 * f)%nat by lia.
      rewrite Nat.div_add by lia. lia.
Qed.

Lemma tick_same_group (ticks : list tick) f i j :
  0 < f -> (i <= j)%nat -> (j < length ticks)%nat ->
  let groups := map snd (groupby (combine (tick_bar_ids (length ticks) f) ticks)) in
  (group_index groups i = group_index groups j <-> ~ exists m : Z, qn i < qz m * f /\ qz m * f <= qn j).
Proof.
  intros Hf Hij Hj groups.
  destruct (nth_error_some ticks (i := i)) as [ti Ti]; [lia|].
  destruct (nth_error_some ticks (i := j)) as [tj Tj]; [lia|].
  assert (S : zsorted (map fst (combine (tick_bar_ids (length ticks) f) ticks))).
  { rewrite combine_fst; [now apply tick_bar_ids_sorted|]. apply tick_bar_ids_length. }
  unfold groups. rewrite (same_group_iff _ i j S
     (nth_error_combine _ _ _ (tick_ids_nth f (i := i) (n := length ticks) ltac:(lia)) Ti)
     (nth_error_combine _ _ _ (tick_ids_nth f (i := j) (n := length ticks) Hj) Tj)).
  apply same_floor_iff; auto. now apply qn_le.
Qed.

(** *** Resampling *)
Lemma resample_same_group bars f i j :
  0 < f -> (forall b, In b bars -> 0 <= b_vol b) -> (i <= j)%nat -> (j < length bars)%nat ->
  let groups := map snd (groupby (combine (cum_bar_ids (map b_vol bars) f) bars)) in
  let cum n := qsum (map b_vol (firstn (S n) bars)) in
  (group_index groups i = group_index groups j <-> ~ exists m : Z, cum i < qz m * f /\ qz m * f <= cum j).
Proof. apply cum_same_group. Qed.

Lemma nth_error_last_app A (l1 l2 : list A) : l2 <> [] ->
  nth_error (l1 ++ l2) (length (l1 ++ l2) - 1) = nth_error l2 (length l2 - 1).
Proof.
  intro H. destruct l2 as [|a l2]; [congruence|]. rewrite app_length. cbn [length].
  rewrite nth_error_app2 by lia. f_equal. lia.
Qed.

Lemma forall2_is_bar_nonempty gs bars : Forall2 is_bar_of gs bars -> Forall (fun g => g <> []) gs.
Proof.
  induction 1 as [|g b gs bars H _ IH]; constructor; auto.
  destruct H as [[t [H _]] _]. destruct g; [discriminate|congruence].
Qed.

Lemma resample_pv gs bars :
  Forall2 is_bar_of gs bars -> (forall g t, In g gs -> In t g -> 0 <= t_vol t) ->
  qsum (map (fun b => match b_vwap b with Some p => p * b_vol b | None => 0 end) bars) =
  qsum (map (fun t => t_price t * t_vol t) (concat gs)).
Proof.
  induction 1 as [|g b gs bars H _ IH]; intro Hv; auto.
  cbn [map qsum concat]. rewrite map_app, qsum_app, IH by (intros; eapply Hv; eauto; now right).
  f_equal. destruct H as (_ & _ & _ & _ & _ & _ & Ev & Hn & Hs).
  destruct (b_vwap b) as [p|]; [auto|].
  assert (Z0 : b_vol b = 0) by now apply Hn. rewrite Ev in Z0.
  assert (A0 : forall x, In x (map t_vol g) -> x = 0).
  { apply qsum_zero_all; auto. intros x Hx. apply in_map_iff in Hx. destruct Hx as [t [<- Ht]].
    eapply Hv; eauto. now left. }
  symmetry. apply qsum_map_0. intros t Ht. rewrite (A0 (t_vol t)) by now apply in_map. ring.
Qed.

Lemma resample_vol gs bars :
  Forall2 is_bar_of gs bars -> qsum (map b_vol bars) = qsum (map t_vol (concat gs)).
Proof.
  induction 1 as [|g b gs bars H _ IH]; auto.
  cbn [map qsum concat]. rewrite map_app, qsum_app, IH. f_equal. apply H.
Qed.

Lemma resample_bar_stats_ok gs bars :
  gs <> [] -> Forall2 is_bar_of gs bars -> (forall g t, In g gs -> In t g -> 0 <= t_vol t) ->
  exists b, resample_bar_stats bars = Ok b /\ is_bar_of (concat gs) b.
Proof.
  intros Hne HF Hv. pose proof (forall2_is_bar_nonempty HF) as NE.
  destruct bars as [|b bs]; [inversion HF; subst; congruence|].
  eexists. split; [reflexivity|].
  unfold is_bar_of. cbn [b_time b_open b_high b_low b_close b_vol b_vwap].
  assert (Hin : forall x, In x (b :: bs) -> exists g, In g gs /\ is_bar_of g x).
  { clear -HF. intros x Hx. apply In_nth_error in Hx. destruct Hx as [n Hn].
    revert n Hn. induction HF as [|g y gs ys Hy _ IH]; intros [|n] Hn; try discriminate.
    - inversion Hn; subst. exists g. split; auto. now left.
    - destruct (IH _ Hn) as [g' [A B]]. exists g'. split; auto. now right. }
  assert (Hin' : forall g, In g gs -> exists x, In x (b :: bs) /\ is_bar_of g x).
  { clear -HF. induction HF as [|g y gs ys Hy _ IH]; intros g' Hg'; [destruct Hg'|].
    destruct Hg' as [<-|Hg']; [exists y; split; auto; now left|].
    destruct (IH _ Hg') as [x [A B]]. exists x. split; auto. now right. }
  repeat split.
  - inversion HF as [|g ? gs' ? Hb _]; subst. destruct Hb as [[t [E [A B]]] _].
    exists t. split; auto. cbn [concat]. rewrite nth_error_app1; auto. destruct g; [discriminate|cbn; lia].
  - destruct (exists_last (l := b :: bs)) as [bi [bl Eb]]; [discriminate|].
    assert (EL : last bs b = bl).
    { pose proof (last_nth bs b) as H. rewrite Eb in H. rewrite nth_error_last_app in H by discriminate.
      cbn in H. congruence. }
    rewrite EL. rewrite Eb in HF. apply Forall2_app_inv_r in HF. destruct HF as [g1 [g2 [H1 [H2 ->]]]].
    inversion H2 as [|g ? g2' ? Hb Hn]; subst. inversion Hn; subst. rewrite concat_app. cbn [concat]. rewrite app_nil_r.
    destruct Hb as [[t0 [E0 _]] [[t [E A]] _]]. exists t. split; auto.
    rewrite nth_error_last_app; auto. destruct g; [discriminate|congruence].
  - pose proof (lmax_in (b_high b) (map b_high bs)) as H.
    change (b_high b :: map b_high bs) with (map b_high (b :: bs)) in H.
    apply in_map_iff in H. destruct H as [x [E Hx]]. destruct (Hin x Hx) as [g [Hg Hb]].
    destruct Hb as (_ & _ & [t [Ht Et]] & _). exists t. split; [|congruence].
    apply in_concat. eauto.
  - intros t Ht. apply in_concat in Ht. destruct Ht as [g [Hg Ht]]. destruct (Hin' g Hg) as [x [Hx Hb]].
    apply (Qcle_trans _ (b_high x)); [now apply Hb|]. apply lmax_ge.
    change (b_high b :: map b_high bs) with (map b_high (b :: bs)). now apply in_map.
  - pose proof (lmin_in (b_low b) (map b_low bs)) as H.
    change (b_low b :: map b_low bs) with (map b_low (b :: bs)) in H.
    apply in_map_iff in H. destruct H as [x [E Hx]]. destruct (Hin x Hx) as [g [Hg Hb]].
    destruct Hb as (_ & _ & _ & _ & [t [Ht Et]] & _). exists t. split; [|congruence].
    apply in_concat. eauto.
  - intros t Ht. apply in_concat in Ht. destruct Ht as [g [Hg Ht]]. destruct (Hin' g Hg) as [x [Hx Hb]].
    apply (Qcle_trans _ (b_low x)); [|now apply Hb]. apply lmin_le.
    change (b_low b :: map b_low bs) with (map b_low (b :: bs)). now apply in_map.
  - now apply resample_vol.
  - unfold resample_vwap. apply np_div_none.
  - unfold resample_vwap. apply np_div_none.
  - intros v Hvw. unfold resample_vwap in Hvw. apply np_div_some in Hvw. destruct Hvw as [_ ->].
    now apply resample_pv.
Qed.

Lemma nth_error_nil A n : nth_error (@nil A) n = None.
Proof. now destruct n. Qed.

Lemma is_bar_of_unique g b1 b2 : is_bar_of g b1 -> is_bar_of g b2 -> b1 = b2.
Proof.
  intros ([t1 [A1 [T1 O1]]] & [l1 [L1 C1]] & [h1 [H1 Eh1]] & Mh1 & [w1 [W1 Ew1]] & Mw1 & V1 & N1 & S1)
         ([t2 [A2 [T2 O2]]] & [l2 [L2 C2]] & [h2 [H2 Eh2]] & Mh2 & [w2 [W2 Ew2]] & Mw2 & V2 & N2 & S2).
  destruct b1 as [a1 b1 c1 d1 e1 f1 v1], b2 as [a2 b2 c2 d2 e2 f2 v2]. cbn in *.
  assert (t1 = t2) by congruence. assert (l1 = l2) by congruence. subst t2 l2.
  assert (c1 = c2). { pose proof (Mh1 _ H2). pose proof (Mh2 _ H1). subst. now apply Qcle_antisym. }
  assert (d1 = d2). { pose proof (Mw1 _ W2). pose proof (Mw2 _ W1). subst. now apply Qcle_antisym. }
  assert (f1 = f2) by congruence.
  assert (v1 = v2).
  { destruct v1 as [p1|], v2 as [p2|]; auto.
    - f_equal. specialize (S1 _ eq_refl). specialize (S2 _ eq_refl). rewrite <- S2 in S1. replace f2 with f1 in S1 by congruence.
      destruct (Qc_eq_dec f1 0) as [E|E].
      + apply N1 in E. discriminate.
      + now apply (Qcmul_cancel_r E).
    - assert (Z2 : f2 = 0) by now apply N2. assert (Z1 : f1 = 0) by congruence. apply N1 in Z1. discriminate.
    - assert (Z1 : f1 = 0) by now apply N1. assert (Z2 : f2 = 0) by congruence. apply N2 in Z2. discriminate. }
  subst. f_equal; congruence.
Qed.

Lemma Forall2_nth_split A B (R : A -> B -> Prop) l1 l2 (i : nat) : Forall2 R l1 l2 ->
  Forall2 R (firstn i l1) (firstn i l2) /\ Forall2 R (skipn i l1) (skipn i l2).
Proof.
  intro H. revert i. induction H as [|a b l1 l2 Hab H IH]; intros [|i]; cbn; auto.
  destruct (IH i). auto.
Qed.

(** consecutive parts of a related list *)
Lemma Forall2_concat_split A B (R : A -> B -> Prop) (G : list (list B)) l1 :
  Forall2 R l1 (concat G) -> exists F, concat F = l1 /\ Forall2 (Forall2 R) F G.
Proof.
  revert l1. induction G as [|g G IH]; intros l1 H; cbn in H.
  - inversion H; subst. exists []. auto.
  - apply Forall2_app_inv_r in H. destruct H as [a [b [H1 [H2 ->]]]].
    destruct (IH _ H2) as [F [E HF]]. exists (a :: F). cbn. rewrite E. auto.
Qed.

Lemma resample_whole gs bars freq :
  0 < freq -> Forall2 is_bar_of gs bars -> (forall g t, In g gs -> In t g -> 0 <= t_vol t) ->
  exists F out, resample_time_to_volume_bars bars freq = Ok out /\
    divides_into gs F /\ Forall2 (fun f b => is_bar_of (concat f) b) F out /\
    map (@length _) F = map (@length _) (map snd (groupby (combine (cum_bar_ids (map b_vol bars) freq) bars))).
Proof.
  intros Hf HF Hv. unfold resample_time_to_volume_bars.
  assert (El : length (cum_bar_ids (map b_vol bars) freq) = length bars) by now rewrite cum_bar_ids_length, map_length.
  assert (Hnn : forall x, In x (map b_vol bars) -> 0 <= x).
  { clear -HF Hv. induction HF as [|g b gs bars H _ IH]; intros x Hx; [destruct Hx|].
    destruct Hx as [<-|Hx].
    - destruct H as (_ & _ & _ & _ & _ & _ & -> & _). apply qsum_nonneg. intros y Hy.
      apply in_map_iff in Hy. destruct Hy as [t [<- Ht]]. eapply Hv; eauto. now left.
    - apply IH; auto. intros; eapply Hv; eauto. now right. }
  assert (EC : concat (map snd (groupby (combine (cum_bar_ids (map b_vol bars) freq) bars))) = bars).
  { rewrite groupby_concat by (rewrite combine_fst by auto; now apply cum_bar_ids_sorted). now apply combine_snd. }
  pose proof (groupby_all_nonempty (combine (cum_bar_ids (map b_vol bars) freq) bars)) as NE.
  set (G := map snd (groupby (combine (cum_bar_ids (map b_vol bars) freq) bars))) in *.
  rewrite <- EC in HF. apply Forall2_concat_split in HF. destruct HF as [F [EF HF]].
  assert (HvF : forall f, In f F -> forall g t, In g f -> In t g -> 0 <= t_vol t).
  { intros f Hf' g t Hg Ht. eapply Hv; eauto. rewrite <- EF. apply in_concat. eauto. }
  assert (Hlen : map (@length _) F = map (@length _) G).
  { clear -HF. induction HF as [|f g F G H _ IH]; auto. cbn. f_equal; auto. eapply Forall2_length; eauto. }
  exists F. clear EC Hv. 
  assert (exists out, mapM resample_bar_stats G = Ok out /\ Forall2 (fun f b => is_bar_of (concat f) b) F out
          /\ Forall (fun g => g <> []) F) as [out [E1 [E2 E3]]].
  { clear -HF HvF NE. induction HF as [|f g F G H _ IH]; [exists []; auto|].
    inversion NE as [|? ? Hg NE']; subst.
    assert (f <> []). { intro; subst. inversion H; subst. congruence. }
    destruct (resample_bar_stats_ok (gs := f) (bars := g)) as [b [Eb Hb]]; auto.
    { apply HvF. now left. }
    destruct IH as [out [A [B C]]]; auto. { intros; eapply HvF; eauto. now right. }
    exists (b :: out). cbn. rewrite Eb, A. cbn. auto. }
  exists out. unfold divides_into. auto.
Qed.

(** *** Time bars *)
Definition tbin (o w : Z) (k : Z) (x : tick) : bool := (time_bin o w (t_time x) =? k)%Z.

Lemma filter_none A (p : A -> bool) l : (forall x, In x l -> p x = false) -> filter p l = [].
Proof.
  induction l as [|a l IH]; intro H; auto. cbn. rewrite (H a) by now left. apply IH. intros; apply H; now right.
Qed.
Lemma filter_ext_in' A (p q : A -> bool) l : (forall x, In x l -> p x = q x) -> filter p l = filter q l.
Proof.
  induction l as [|a l IH]; intro H; auto. cbn. rewrite (H a) by now left. rewrite IH; auto. intros; apply H; now right.
Qed.

(** splitting a list with sorted keys into its key classes *)
Lemma sorted_classes A (key : A -> Z) l k0 n :
  zsorted (map key l) -> (forall x, In x l -> (k0 <= key x < k0 + Z.of_nat n)%Z) ->
  concat (map (fun j => filter (fun x => (key x =? k0 + Z.of_nat j)%Z) l) (seq 0 n)) = l.
Proof.
  revert l k0. induction n as [|n IH]; intros l k0 S H.
  - destruct l as [|a l]; auto. specialize (H a (or_introl eq_refl)). lia.
  - assert (E : exists l1 l2, l = l1 ++ l2 /\ (forall x, In x l1 -> key x = k0) /\ (forall x, In x l2 -> (k0 + 1 <= key x)%Z)).
    { clear IH. induction l as [|a l IH].
      - exists [], []. repeat split; intros x [].
      - cbn in S. inversion S as [|? ? S' Hf]; subst. destruct IH as [l1 [l2 [E [H1 H2]]]]; auto.
        { intros; apply H; now right. }
        destruct (Z.eq_dec (key a) k0) as [Ek|Nk].
        + exists (a :: l1), l2. cbn. rewrite E. repeat split; auto. intros x [<-|Hx]; auto.
        + exists [], (a :: l). cbn. repeat split; auto; [intros x []|].
          assert (k0 + 1 <= key a)%Z by (specialize (H a (or_introl eq_refl)); lia).
          intros x [<-|Hx]; auto. rewrite Forall_forall in Hf. specialize (Hf (key x) (in_map key _ _ Hx)). lia. }
    destruct E as [l1 [l2 [-> [H1 H2]]]]. cbn [seq map concat]. f_equal.
    + rewrite filter_app, (filter_none _ l2).
      * rewrite app_nil_r. rewrite (filter_ext_in' _ (fun _ => true)).
        { clear. induction l1; cbn; congruence. }
        intros x Hx. apply Z.eqb_eq. rewrite H1 by auto. lia.
      * intros x Hx. apply Z.eqb_neq. specialize (H2 x Hx). lia.
    + rewrite <- seq_shift, map_map.
      rewrite map_app in S. apply zsorted_app_inv in S. destruct S as [_ [S2 _]].
      rewrite <- (IH l2 (k0 + 1)%Z) at 1; auto.
      * f_equal. apply map_ext. intro j. rewrite filter_app, (filter_none _ l1).
        { cbn [app]. apply filter_ext_in'. intros x _. f_equal. lia. }
        intros x Hx. apply Z.eqb_neq. rewrite H1 by auto. lia.
      * intros x Hx. split; auto. assert (In x (l1 ++ l2)) by (apply in_app_iff; auto). apply H in H0. lia.
Qed.

Lemma time_bin_mono o w a b : (0 < w)%Z -> (a <= b)%Z -> (time_bin o w a <= time_bin o w b)%Z.
Proof. intros. unfold time_bin. apply Z.div_le_mono; lia. Qed.

Lemma sorted_first_last (l : list tick) t : zsorted (map t_time (t :: l)) ->
  forall x, In x (t :: l) -> (t_time t <= t_time x <= t_time (last l t))%Z.
Proof.
  intros S x Hx. pose proof (last_nth l t) as L. apply In_nth_error in Hx. destruct Hx as [i Hi].
  assert (Hl : (i < length (t :: l))%nat) by (apply nth_error_Some; congruence).
  apply (map_nth_error t_time) in Hi. apply (map_nth_error t_time) in L.
  split.
  - apply (sorted_nth_le S (i := 0%nat) (j := i) eq_refl Hi). lia.
  - apply (sorted_nth_le S Hi L). cbn in *. lia.
Qed.

Lemma mapM_exists_err A B (f : A -> res B) l a e :
  In a l -> f a = Err e -> (forall x e', In x l -> f x = Err e' -> e' = e) -> mapM f l = Err e.
Proof.
  induction l as [|x l IH]; intros Hi Ha Hu; [destruct Hi|]. cbn.
  destruct (f x) as [y|e'] eqn:E.
  - destruct Hi as [->|Hi]; [congruence|]. rewrite IH; auto. intros; eapply Hu; eauto. now right.
  - cbn. f_equal. apply (Hu x); auto. now left.
Qed.

Section TimeBars.
  Variables (o w : Z) (t : tick) (ts : list tick).
  Hypothesis Hw : (0 < w)%Z.
  Hypothesis Hs : zsorted (map t_time (t :: ts)).
  Let ticks := t :: ts.
  Let k0 := time_bin o w (t_time t).
  Let k1 := time_bin o w (t_time (last ts t)).
  Let n := Z.to_nat (k1 - k0 + 1).
  Let cls (j : nat) := filter (fun x => (time_bin o w (t_time x) =? k0 + Z.of_nat j)%Z) ticks.

  Lemma time_classes : concat (map cls (seq 0 n)) = ticks.
  Proof.
    unfold cls. apply (sorted_classes (fun x => time_bin o w (t_time x))).
    - change (map (fun x => time_bin o w (t_time x)) ticks) with (map (fun x => time_bin o w (t_time x)) ticks).
      rewrite <- (map_map t_time (time_bin o w)). unfold ticks. revert Hs.
      generalize (map t_time (t :: ts)). intro l. clear -Hw. induction 1 as [|a l S IH F]; cbn; constructor; auto.
      apply Forall_forall. intros x Hx. apply in_map_iff in Hx. destruct Hx as [y [<- Hy]].
      rewrite Forall_forall in F. apply time_bin_mono; auto.
    - intros x Hx. pose proof (sorted_first_last Hs Hx) as [A B].
      apply (time_bin_mono o Hw) in A. apply (time_bin_mono o Hw) in B. fold k0 in A. fold k1 in B.
      unfold n. lia.
  Qed.

  Lemma aggregate_time_bars_unfold :
    aggregate_time_bars ticks o w =
    mapM (fun j => do b <- compute_bar_stats (cls j); Ok (set_time (o + (k0 + Z.of_nat j) * w) b)) (seq 0 n).
  Proof. reflexivity. Qed.

  Lemma time_bars_dense :
    (forall j, (j < n)%nat -> cls j <> []) ->
    exists bars, aggregate_time_bars ticks o w = Ok bars /\
      length bars = n /\
      forall j b, nth_error bars j = Some b ->
        exists b', is_bar_of (cls j) b' /\ b = set_time (o + (k0 + Z.of_nat j) * w) b'.
  Proof.
    intro H. rewrite aggregate_time_bars_unfold.
    destruct (mapM_all_ok (fun j => do b <- compute_bar_stats (cls j); Ok (set_time (o + (k0 + Z.of_nat j) * w) b)) (seq 0 n))
      as [bars E].
    { intros j Hj. apply in_seq in Hj. destruct (compute_bar_stats_ok (g := cls j)) as [b [Eb _]].
      - apply H. lia.
      - rewrite Eb. cbn. eauto. }
    exists bars. split; auto. apply mapM_ok in E. assert (EL := E). apply Forall2_length in EL.
    rewrite seq_length in EL. split; auto.
    intros j b Hb. assert (Hj : (j < n)%nat) by (rewrite EL; apply nth_error_Some; congruence).
    assert (Hjs : nth_error (seq 0 n) j = Some j).
    { rewrite (nth_error_nth' _ 0%nat) by (rewrite seq_length; auto). now rewrite seq_nth by auto. }
    destruct (compute_bar_stats_ok (g := cls j)) as [b' [Eb Hb']]; [now apply H|].
    exists b'. split; auto.
    destruct (Forall2_nth _ E Hjs) as [y [Ey1 Ey2]]. rewrite Eb in Ey2. cbn in Ey2. congruence.
  Qed.

  Lemma time_bars_gap j : (j < n)%nat -> cls j = [] -> aggregate_time_bars ticks o w = Err IndexError.
  Proof.
    intros Hj E. rewrite aggregate_time_bars_unfold. apply (mapM_exists_err _ _ j).
    - apply in_seq. lia.
    - now rewrite E.
    - intros x e' _. destruct (cls x); cbn; congruence.
  Qed.
End TimeBars.
