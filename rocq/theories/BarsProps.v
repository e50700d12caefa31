(** Properties C01-C05 and C12: standard bars. *)
From Verif Require Import Py BarsModel BarsSpec BarsProofs.
Set Implicit Arguments.
Open Scope Qc_scope.

(** C01: tick, volume and dollar bars divide the ticks, in order, into non-empty groups, and each returned bar is
    the bar of its group (stamped with the time of the group's first tick). *)
Theorem c01_tick_bars_partition : forall ticks freq, 0 < freq ->
  exists bars groups, aggregate_tick_bars ticks freq = Ok bars /\
    divides_into ticks groups /\ Forall2 is_bar_of groups bars.
Proof.
  intros ticks freq Hf. destruct (@group_ticks_sorted (tick_bar_ids (length ticks) freq) ticks) as [bars [H1 [H2 H3]]].
  - apply tick_bar_ids_length.
  - now apply tick_bar_ids_sorted.
  - eauto.
Qed.
Print Assumptions c01_tick_bars_partition.

Theorem c01_volume_bars_partition : forall ticks freq,
  0 < freq -> (forall t, In t ticks -> 0 <= t_vol t) ->
  exists bars groups, aggregate_volume_bars ticks freq = Ok bars /\
    divides_into ticks groups /\ Forall2 is_bar_of groups bars.
Proof.
  intros ticks freq Hf Hv. destruct (@group_ticks_sorted (cum_bar_ids (map t_vol ticks) freq) ticks) as [bars [H1 [H2 H3]]].
  - now rewrite cum_bar_ids_length, map_length.
  - apply cum_bar_ids_sorted; auto. intros x Hx. apply in_map_iff in Hx. destruct Hx as [t [<- Ht]]. auto.
  - eauto.
Qed.
Print Assumptions c01_volume_bars_partition.

Theorem c01_dollar_bars_partition : forall ticks freq,
  0 < freq -> (forall t, In t ticks -> 0 <= t_vol t /\ 0 <= t_price t) ->
  exists bars groups, aggregate_dollar_bars ticks freq = Ok bars /\
    divides_into ticks groups /\ Forall2 is_bar_of groups bars.
Proof.
  intros ticks freq Hf Hv.
  destruct (@group_ticks_sorted (cum_bar_ids (map (fun t => t_vol t * t_price t) ticks) freq) ticks) as [bars [H1 [H2 H3]]].
  - now rewrite cum_bar_ids_length, map_length.
  - apply cum_bar_ids_sorted; auto. intros x Hx. apply in_map_iff in Hx. destruct Hx as [t [<- Ht]].
    destruct (Hv t Ht). now apply Qcmul_nonneg.
  - eauto.
Qed.
Print Assumptions c01_dollar_bars_partition.

Definition sample_ticks : list tick :=
  map (fun x => let '(t, p, v) := x in Tick t (qz p) (qz v))
    [(0, 10, 3); (1, 11, 4); (2, 9, 2); (5, 12, 6); (6, 12, 5)]%Z.
Example c01_sample : exists b, aggregate_volume_bars sample_ticks (q 7 1) = Ok b /\ map b_time b = [0; 1; 5]%Z
  /\ map (fun x => this (b_vol x)) b = [3; 6; 11]%Q.
Proof. eexists. split; [vm_compute; reflexivity|]. split; reflexivity. Qed.

(** C02: what a bar of a group says: VWAP lies between low and high, open and close too. *)
Theorem c02_bar_bounds : forall g b,
  is_bar_of g b ->
  b_low b <= b_open b /\ b_open b <= b_high b /\ b_low b <= b_close b /\ b_close b <= b_high b /\
  ((forall t, In t g -> 0 <= t_vol t) -> forall v, b_vwap b = Some v -> b_low b <= v /\ v <= b_high b).
Proof.
  intros g b ([t0 [A1 [T1 O1]]] & [l1 [L1 C1]] & [h1 [H1 Eh1]] & Mh1 & [w1 [W1 Ew1]] & Mw1 & V1 & N1 & S1).
  apply nth_error_In in A1. apply nth_error_In in L1.
  split; [rewrite O1; auto|]. split; [rewrite O1; auto|]. split; [rewrite C1; auto|]. split; [rewrite C1; auto|].
  intros Hv v Ev. specialize (S1 _ Ev).
  assert (V0 : 0 <= b_vol b).
  { rewrite V1. apply qsum_nonneg. intros x Hx. apply in_map_iff in Hx. destruct Hx as [t [<- Ht]]. auto. }
  assert (Vne : b_vol b <> 0). { intro C. apply N1 in C. congruence. }
  assert (Vp : 0 < b_vol b). { apply Qcnot_le_lt. intro. apply Vne. now apply Qcle_antisym. }
  assert (L : b_low b * b_vol b <= v * b_vol b).
  { rewrite S1, V1, <- qsum_map_scale. apply qsum_map_le. intros t Ht. apply Qcmult_le_compat_r; auto. }
  assert (U : v * b_vol b <= b_high b * b_vol b).
  { rewrite S1, V1, <- qsum_map_scale. apply qsum_map_le. intros t Ht. apply Qcmult_le_compat_r; auto. }
  split; eapply Qcmult_lt_0_le_reg_r; eauto.
Qed.
Print Assumptions c02_bar_bounds.

(** C02: conservation of volume and dollar value over a division of the ticks. *)
Theorem c02_bars_conserve : forall ticks groups bars,
  divides_into ticks groups -> Forall2 is_bar_of groups bars ->
  qsum (map b_vol bars) = qsum (map t_vol ticks) /\
  ((forall t, In t ticks -> 0 <= t_vol t) ->
   qsum (map (fun b => match b_vwap b with Some p => p * b_vol b | None => 0 end) bars) =
   qsum (map (fun t => t_price t * t_vol t) ticks)).
Proof.
  intros ticks groups bars [E _] F. split.
  - rewrite <- E. now apply resample_vol.
  - intro Hv. rewrite <- E. apply resample_pv; auto. intros g t Hg Ht. apply Hv. rewrite <- E. apply in_concat. eauto.
Qed.
Print Assumptions c02_bars_conserve.

(** C02: every bar function returns [is_bar_of] bars (C01, C06, C10), and the statistics of one group of ticks are
    always the bar of that group. *)
Theorem c02_compute_bar_stats : forall g, g <> [] -> exists b, compute_bar_stats g = Ok b /\ is_bar_of g b.
Proof. exact compute_bar_stats_ok. Qed.
Print Assumptions c02_compute_bar_stats.

(** the description [is_bar_of] pins the bar down completely *)
Theorem c02_bar_unique : forall g b1 b2, is_bar_of g b1 -> is_bar_of g b2 -> b1 = b2.
Proof. exact is_bar_of_unique. Qed.
Print Assumptions c02_bar_unique.

(** C03 *)
Theorem c03_tick_bar_sizes : forall ticks f, (1 <= f)%nat ->
  exists bars groups, aggregate_tick_bars ticks (qn f) = Ok bars /\
    divides_into ticks groups /\ Forall2 is_bar_of groups bars /\
    length bars = ((length ticks + f - 1) / f)%nat /\
    (forall k g, nth_error groups k = Some g -> (S k < length groups)%nat -> length g = f) /\
    (forall g, In g groups -> (1 <= length g <= f)%nat).
Proof.
  intros ticks f Hf. assert (Hq : 0 < qn f) by now apply qn_pos.
  destruct (@group_ticks_sorted (tick_bar_ids (length ticks) (qn f)) ticks) as [bars [H1 [H2 H3]]].
  - apply tick_bar_ids_length.
  - now apply tick_bar_ids_sorted.
  - exists bars. eexists. split; [exact H1|]. split; [exact H2|]. split; [exact H3|].
    set (groups := map snd (groupby (combine (tick_bar_ids (length ticks) (qn f)) ticks))) in *.
    assert (T : forall g1 g g2, groups = g1 ++ g :: g2 -> (1 <= length g <= f)%nat /\ (g2 <> [] -> length g = f)).
    { intros g1 g g2 E. eapply tick_group_size; eauto. }
    split; [|split].
    + apply Forall2_length in H3. rewrite <- H3. apply chunks_count; auto. apply H2.
    + intros k g Hk Hl. apply nth_error_split in Hk. destruct Hk as [g1 [g2 [E L]]].
      apply (T g1 g g2 E). intro; subst g2. rewrite E, app_length in Hl. cbn in Hl. lia.
    + intros g Hg. apply in_split in Hg. destruct Hg as [g1 [g2 E]]. now apply (T g1 g g2).
Qed.
Print Assumptions c03_tick_bar_sizes.

Example c03_sample : exists b, aggregate_tick_bars sample_ticks (qn 2) = Ok b /\ map b_time b = [0; 2; 6]%Z.
Proof. eexists. split; [vm_compute; reflexivity|]. reflexivity. Qed.

(** C03 for any positive frequency: ticks i <= j share a bar iff no multiple of freq lies in (i, j]. *)
Theorem c03_tick_bars_same_bar : forall ticks freq, 0 < freq ->
  exists bars groups, aggregate_tick_bars ticks freq = Ok bars /\
    divides_into ticks groups /\ Forall2 is_bar_of groups bars /\
    forall i j, (i <= j < length ticks)%nat ->
      (group_index groups i = group_index groups j <->
       ~ exists m : Z, qn i < qz m * freq /\ qz m * freq <= qn j).
Proof.
  intros ticks freq Hf. destruct (@group_ticks_sorted (tick_bar_ids (length ticks) freq) ticks) as [bars [H1 [H2 H3]]].
  - apply tick_bar_ids_length.
  - now apply tick_bar_ids_sorted.
  - exists bars. eexists. split; [exact H1|]. split; [exact H2|]. split; [exact H3|].
    intros i j [Hi Hj]. now apply tick_same_group.
Qed.
Print Assumptions c03_tick_bars_same_bar.

(** C04: volume bars *)
Theorem c04_volume_bars_threshold : forall ticks freq,
  0 < freq -> (forall t, In t ticks -> 0 <= t_vol t) ->
  exists bars groups, aggregate_volume_bars ticks freq = Ok bars /\
    divides_into ticks groups /\ Forall2 is_bar_of groups bars /\
    (forall i j, (i <= j < length ticks)%nat ->
       let cum n := qsum (map t_vol (firstn (S n) ticks)) in
       (group_index groups i = group_index groups j <->
        ~ exists m : Z, cum i < qz m * freq /\ qz m * freq <= cum j)) /\
    (forall v, (forall t, In t ticks -> t_vol t <= v) ->
       forall k b, nth_error bars k = Some b ->
         b_vol b < freq + v /\ ((S k < length bars)%nat -> freq - v <= b_vol b)).
Proof.
  intros ticks freq Hf Hv.
  destruct (@group_ticks_sorted (cum_bar_ids (map t_vol ticks) freq) ticks) as [bars [H1 [H2 H3]]].
  - now rewrite cum_bar_ids_length, map_length.
  - apply cum_bar_ids_sorted; auto. intros x Hx. apply in_map_iff in Hx. destruct Hx as [t [<- Ht]]. auto.
  - exists bars. eexists. split; [exact H1|]. split; [exact H2|]. split; [exact H3|]. split.
    + intros i j [Hi Hj]. now apply cum_same_group.
    + intros v Hvm k b Hb. pose proof (Forall2_length H3) as EL.
      destruct (nth_error_some (map snd (groupby (combine (cum_bar_ids (map t_vol ticks) freq) ticks))) (i := k)) as [g Hg].
      { rewrite EL. apply nth_error_Some. congruence. }
      destruct (Forall2_nth _ H3 Hg) as [b' [Eb' Hb']]. assert (b' = b) by congruence. subst b'.
      apply nth_error_split in Hg. destruct Hg as [g1 [g2 [E L]]].
      destruct (@cum_group_volume t_vol ticks freq v g1 g g2 Hf ltac:(intros; split; auto) E) as [A B].
      destruct Hb' as (_ & _ & _ & _ & _ & _ & -> & _). split; auto.
      intro Hk. apply B. intro; subst g2. rewrite E, app_length in EL. cbn in EL. lia.
Qed.
Print Assumptions c04_volume_bars_threshold.

(** C04: dollar bars; the dollar value of group k is within v of freq *)
Theorem c04_dollar_bars_threshold : forall ticks freq,
  0 < freq -> (forall t, In t ticks -> 0 <= t_vol t * t_price t) ->
  exists bars groups, aggregate_dollar_bars ticks freq = Ok bars /\
    divides_into ticks groups /\ Forall2 is_bar_of groups bars /\
    (forall i j, (i <= j < length ticks)%nat ->
       let cum n := qsum (map (fun t => t_vol t * t_price t) (firstn (S n) ticks)) in
       (group_index groups i = group_index groups j <->
        ~ exists m : Z, cum i < qz m * freq /\ qz m * freq <= cum j)) /\
    (forall v, (forall t, In t ticks -> t_vol t * t_price t <= v) ->
       forall k g, nth_error groups k = Some g ->
         let d := qsum (map (fun t => t_vol t * t_price t) g) in
         d < freq + v /\ ((S k < length groups)%nat -> freq - v <= d)).
Proof.
  intros ticks freq Hf Hv.
  destruct (@group_ticks_sorted (cum_bar_ids (map (fun t => t_vol t * t_price t) ticks) freq) ticks) as [bars [H1 [H2 H3]]].
  - now rewrite cum_bar_ids_length, map_length.
  - apply cum_bar_ids_sorted; auto. intros x Hx. apply in_map_iff in Hx. destruct Hx as [t [<- Ht]]. auto.
  - exists bars. eexists. split; [exact H1|]. split; [exact H2|]. split; [exact H3|]. split.
    + intros i j [Hi Hj]. now apply (cum_same_group (fun t => t_vol t * t_price t)).
    + intros v Hvm k g Hg d.
      assert (Hg' := Hg). apply nth_error_split in Hg. destruct Hg as [g1 [g2 [E L]]].
      destruct (@cum_group_volume (fun t => t_vol t * t_price t) ticks freq v g1 g g2 Hf ltac:(intros; split; auto) E) as [A B].
      split; auto. intro Hk. apply B. intro; subst g2. rewrite E, app_length in Hk. cbn in Hk. lia.
Qed.
Print Assumptions c04_dollar_bars_threshold.

(** C05 is false: an interval without ticks between two intervals with ticks makes the call fail. *)
Theorem c05_time_bars_refuted : exists ticks origin width,
  (0 < width)%Z /\ ticks <> [] /\ zsorted (map t_time ticks) /\
  aggregate_time_bars ticks origin width = Err IndexError.
Proof.
  exists [Tick 0 1 1; Tick 5 1 1], 0%Z, 2%Z. split; [lia|]. split; [discriminate|]. split.
  - cbn. repeat constructor; discriminate.
  - vm_compute. reflexivity.
Qed.
Print Assumptions c05_time_bars_refuted.

(** C05, exact condition: with sorted ticks the call succeeds iff every interval from the first to the last tick's
    holds a tick, and fails with IndexError otherwise. *)
Theorem c05_time_bars_fail_iff_gap : forall t ts origin width,
  (0 < width)%Z -> zsorted (map t_time (t :: ts)) ->
  let bin x := ((t_time x - origin) / width)%Z in
  (aggregate_time_bars (t :: ts) origin width = Err IndexError <->
   exists k, (bin t <= k <= bin (last ts t))%Z /\ forall x, In x (t :: ts) -> bin x <> k).
Proof.
  intros t ts o w Hw Hs bin.
  set (k0 := bin t). set (k1 := bin (last ts t)).
  set (cls := fun j : nat => filter (fun x => (time_bin o w (t_time x) =? k0 + Z.of_nat j)%Z) (t :: ts)).
  assert (Hcls : forall j, cls j = [] <-> forall x, In x (t :: ts) -> bin x <> (k0 + Z.of_nat j)%Z).
  { intro j. split.
    - intros E x Hx C. assert (In x (cls j)) by (apply filter_In; split; auto; now apply Z.eqb_eq). now rewrite E in H.
    - intro H. apply filter_none. intros x Hx. apply Z.eqb_neq. now apply H. }
  split.
  - intro E.
    assert (D : (exists j, (j < Z.to_nat (k1 - k0 + 1))%nat /\ cls j = []) \/ (forall j, (j < Z.to_nat (k1 - k0 + 1))%nat -> cls j <> [])).
    { generalize (Z.to_nat (k1 - k0 + 1)). induction n as [|n [[j [Hj Ej]]|IH]].
      - right. intros; lia.
      - left. exists j. split; auto.
      - destruct (cls n) eqn:En.
        + left. exists n. auto.
        + right. intros j Hj. destruct (Nat.eq_dec j n) as [->|]; [congruence|]. apply IH. lia. }
    destruct D as [[j [Hj Ej]]|D].
    + exists (k0 + Z.of_nat j)%Z. split; [fold k0 k1; lia|]. now apply Hcls.
    + destruct (@time_bars_dense o w t ts D) as [bars [Eb _]]. congruence.
  - intros [k [Hk Hn]]. apply (@time_bars_gap o w t ts (Z.to_nat (k - k0))).
    + change (time_bin o w (t_time t)) with k0. change (time_bin o w (t_time (last ts t))) with k1.
      fold k0 k1 in Hk. lia.
    + change (filter (fun x => (time_bin o w (t_time x) =? time_bin o w (t_time t) + Z.of_nat (Z.to_nat (k - k0)))%Z) (t :: ts)) with (cls (Z.to_nat (k - k0))).
      apply Hcls. intros x Hx. replace (k0 + Z.of_nat (Z.to_nat (k - k0)))%Z with k by (fold k0 k1 in Hk; lia). auto.
Qed.
Print Assumptions c05_time_bars_fail_iff_gap.

(** C05 under the guard that no interval is empty: one bar per interval, holding exactly the ticks of that interval and
    stamped with its left edge; the groups divide the ticks. *)
Theorem c05_time_bars_no_gap : forall t ts origin width,
  (0 < width)%Z -> zsorted (map t_time (t :: ts)) ->
  let bin x := ((t_time x - origin) / width)%Z in
  (forall k, (bin t <= k <= bin (last ts t))%Z -> exists x, In x (t :: ts) /\ bin x = k) ->
  exists bars groups, aggregate_time_bars (t :: ts) origin width = Ok bars /\
    divides_into (t :: ts) groups /\
    Forall2 (fun g b => exists b', is_bar_of g b' /\ b = set_time (b_time b) b' /\
       ((b_time b - origin) mod width = 0)%Z /\
       forall x, In x g -> (b_time b <= t_time x < b_time b + width)%Z) groups bars /\
    Z.of_nat (length bars) = (bin (last ts t) - bin t + 1)%Z.
Proof.
  intros t ts o w Hw Hs bin Hd.
  set (k0 := bin t) in *. set (k1 := bin (last ts t)) in *.
  set (cls := fun j : nat => filter (fun x => (time_bin o w (t_time x) =? k0 + Z.of_nat j)%Z) (t :: ts)).
  assert (Hk01 : (k0 <= k1)%Z).
  { apply time_bin_mono; auto. destruct (sorted_first_last Hs (or_introl eq_refl)). lia. }
  assert (D : forall j, (j < Z.to_nat (k1 - k0 + 1))%nat -> cls j <> []).
  { intros j Hj C. destruct (Hd (k0 + Z.of_nat j)%Z) as [x [Hx Ex]]; [lia|].
    assert (In x (cls j)) by (apply filter_In; split; auto; now apply Z.eqb_eq). now rewrite C in H. }
  destruct (@time_bars_dense o w t ts D) as [bars [Eb [EL HB]]].
  exists bars, (map cls (seq 0 (Z.to_nat (k1 - k0 + 1)))). split; auto. split; [|split].
  - split.
    + apply (time_classes o (ts := ts) (t := t)); auto.
    + apply Forall_forall. intros g Hg. apply in_map_iff in Hg. destruct Hg as [j [<- Hj]]. apply in_seq in Hj. apply D. lia.
  - change (length bars = Z.to_nat (k1 - k0 + 1)) in EL.
    assert (G : forall j b, nth_error bars j = Some b -> exists b', is_bar_of (cls j) b' /\ b = set_time (b_time b) b' /\
       ((b_time b - o) mod w = 0)%Z /\ forall x, In x (cls j) -> (b_time b <= t_time x < b_time b + w)%Z).
    { intros j b Hb. destruct (HB j b Hb) as [b' [H1 H2]]. exists b'. split; auto.
      change (time_bin o w (t_time t)) with k0 in H2.
      assert (Et : b_time b = (o + (k0 + Z.of_nat j) * w)%Z) by (rewrite H2; reflexivity).
      split; [rewrite Et; exact H2|]. split.
      - rewrite Et. replace (o + (k0 + Z.of_nat j) * w - o)%Z with ((k0 + Z.of_nat j) * w)%Z by lia. apply Z_mod_mult.
      - intros x Hx. apply filter_In in Hx. destruct Hx as [_ Hx]. apply Z.eqb_eq in Hx. unfold time_bin in Hx.
        pose proof (Z.div_mod (t_time x - o) w ltac:(lia)). pose proof (Z.mod_pos_bound (t_time x - o) w Hw).
        rewrite Et. rewrite Hx in H. lia. }
    rewrite <- EL. clearbody cls. clear -G. revert G. revert cls. induction bars as [|b bars IH]; intros cls G; [constructor|].
    cbn [length seq map]. constructor.
    + apply (G 0%nat b eq_refl).
    + rewrite <- seq_shift, map_map. apply (IH (fun j => cls (S j))). intros j b' Hj. apply (G (S j) b' Hj).
  - rewrite EL. change (time_bin o w (t_time t)) with k0. change (time_bin o w (t_time (last ts t))) with k1. lia.
Qed.
Print Assumptions c05_time_bars_no_gap.

Example c05_sample : exists b, aggregate_time_bars sample_ticks 0 3 = Ok b /\ map b_time b = [0; 3; 6]%Z.
Proof. eexists. split; [vm_compute; reflexivity|]. reflexivity. Qed.

(** C12: resampling bars gives the bar of all the underlying ticks. *)
Theorem c12_resample_is_aggregation : forall groups bars,
  groups <> [] -> Forall2 is_bar_of groups bars ->
  (forall g t, In g groups -> In t g -> 0 <= t_vol t) ->
  exists b, resample_bar_stats bars = Ok b /\ is_bar_of (concat groups) b.
Proof. exact resample_bar_stats_ok. Qed.
Print Assumptions c12_resample_is_aggregation.

(** C12: the whole resampling function: the coarse bars are the bars of consecutive runs of the fine groups, and two
    fine bars are merged exactly when no multiple of freq separates their cumulative volumes. *)
Theorem c12_resample_time_to_volume : forall groups bars freq,
  0 < freq -> Forall2 is_bar_of groups bars ->
  (forall g t, In g groups -> In t g -> 0 <= t_vol t) ->
  exists coarse out, resample_time_to_volume_bars bars freq = Ok out /\
    divides_into groups coarse /\ Forall2 (fun gs b => is_bar_of (concat gs) b) coarse out /\
    forall i j, (i <= j < length bars)%nat ->
      let cum n := qsum (map b_vol (firstn (S n) bars)) in
      (group_index coarse i = group_index coarse j <->
       ~ exists m : Z, cum i < qz m * freq /\ qz m * freq <= cum j).
Proof.
  intros groups bars freq Hf HF Hv. destruct (resample_whole Hf HF Hv) as [F [out [H1 [H2 [H3 H4]]]]].
  exists F, out. split; auto. split; auto. split; auto. intros i j Hij cum.
  assert (GI : forall A B (x : list (list A)) (y : list (list B)) n, map (@length _) x = map (@length _) y ->
             group_index x n = group_index y n).
  { clear. intros A B x. induction x as [|a x IH]; intros [|b y] n E; cbn in *; try discriminate; auto.
    inversion E as [[E1 E2]]. rewrite E1. destruct (n <? length b)%nat; auto. all: now rewrite (IH y _ E2). }
  rewrite !(GI _ _ _ _ _ H4). apply resample_same_group; auto; try lia.
  clear -HF Hv. induction HF as [|g b gs bars H _ IH]; intros x Hx; [destruct Hx|].
  destruct Hx as [<-|Hx].
  - destruct H as (_ & _ & _ & _ & _ & _ & -> & _). apply qsum_nonneg. intros y Hy.
    apply in_map_iff in Hy. destruct Hy as [t [<- Ht]]. eapply Hv; eauto. now left.
  - apply IH; auto. intros; eapply Hv; eauto. now right.
Qed.
Print Assumptions c12_resample_time_to_volume.
