(** C58-C63: sample weighting. *)
From Verif Require Import Py RNum BarrierModel BarrierProofs WeightModel WeightSpec WeightProofs.
From Coq Require Import Permutation.
Set Implicit Arguments.
Unset Strict Implicit.
Open Scope Qc_scope.
Ltac dcase c := let E := fresh "C" in destruct c eqn:E; first [apply qle_iff in E | apply qle_false in E | apply qlt_iff in E | apply qlt_false in E].

(** ** C58 *)
(** The loop ends within one pass per row; labels are removed one at a time, always a rarest one with share <= min_pct, and only while more
    than min_classes are left; the kept rows are exactly the rows of the other labels, in order. *)
Theorem c58_drop_rare_labels (A : Type) (tie : list Z -> Z) min_pct min_classes (rows : list (option Z * A)) :
  (forall l, l <> [] -> In (tie l) l) ->
  exists out dropped, drop_rare_labels tie min_pct min_classes rows = Some out /\ out = without dropped rows /\
    ((labels_of out <> [] /\ forall z, In z (labels_of out) -> min_pct < share out z) \/ (length (labels_of out) <= min_classes)%nat) /\
    forall i z, nth_error dropped i = Some z ->
      let now := without (firstn i dropped) rows in
      In z (labels_of now) /\ share now z <= min_pct /\ (forall y, In y (labels_of now) -> (count_label z now <= count_label y now)%nat) /\
      (min_classes < length (labels_of now))%nat.
Proof. intro Ht. apply (drop_rare_spec Ht). reflexivity. Qed.
Print Assumptions c58_drop_rare_labels.
(** the helper functions mean what their names say *)
Theorem c58_vocabulary (A : Type) (rows : list (option Z * A)) z :
  (In z (labels_of rows) <-> exists a, In (Some z, a) rows) /\ NoDup (labels_of rows) /\
  share rows z = qn (length (filter (label_is z) rows)) / qn (length (filter (fun r => match fst r with Some _ => true | None => false end) rows)).
Proof.
  split; [apply labels_of_in|]. split; [apply zset_nodup|]. unfold share, count_label, n_labelled. do 2 f_equal.
  induction rows as [|[[y|] a] rows IH]; cbn; auto.
Qed.
Print Assumptions c58_vocabulary.
(** no label is removed once at most min_classes are left: at least min(min_classes, number of labels) survive *)
Theorem c58_enough_classes (A : Type) (tie : list Z -> Z) min_pct min_classes (rows : list (option Z * A)) out :
  (forall l, l <> [] -> In (tie l) l) -> drop_rare_labels tie min_pct min_classes rows = Some out ->
  (Nat.min min_classes (length (labels_of rows)) <= length (labels_of out))%nat.
Proof.
  intros Ht H. destruct (c58_drop_rare_labels min_pct min_classes rows Ht) as (out' & dropped & E1 & E2 & _ & H4). rewrite H in E1. injection E1 as <-. subst out.
  assert (G : forall k, (k <= length dropped)%nat -> (Nat.min min_classes (length (labels_of rows)) <= length (labels_of (without (firstn k dropped) rows)))%nat).
  { induction k as [|k IH]; intro Hk; [rewrite firstn_O, without_nil; lia|].
    destruct (nth_error dropped k) as [z|] eqn:Ez; [|apply nth_error_None in Ez; lia]. destruct (H4 k z Ez) as (Hz & _ & _ & Hc). cbn zeta in *.
    (* one label less *)
    set (now := without (firstn k dropped) rows) in *.
    assert (Hincl : forall y, In y (labels_of now) -> y = z \/ In y (labels_of (without (firstn (S k) dropped) rows))).
    { intros y Hy. destruct (Z.eq_dec y z) as [->|Hn]; auto. right. apply labels_of_in. apply labels_of_in in Hy as (a & Ha). exists a.
      unfold now, without in Ha. apply filter_In in Ha as [Ha Hm]. unfold without. apply filter_In. split; auto. cbn [fst] in *.
      apply negb_true_iff in Hm. apply negb_true_iff. destruct (zmem y (firstn (S k) dropped)) eqn:E; auto. apply zmem_in in E. exfalso.
      assert (Hs : firstn (S k) dropped = firstn k dropped ++ [z]).
      { clear -Ez. revert dropped Ez. induction k as [|k IH]; intros [|d l] Ez; try discriminate; cbn in *; [congruence|]. f_equal. now apply IH. }
      rewrite Hs in E. apply in_app_iff in E as [E|[E|[]]]; [apply zmem_in in E; congruence|congruence]. }
    assert (Hlen : (length (labels_of now) <= S (length (labels_of (without (firstn (S k) dropped) rows))))%nat).
    { change (S (length (labels_of (without (firstn (S k) dropped) rows)))) with (length (z :: labels_of (without (firstn (S k) dropped) rows))).
      apply NoDup_incl_length; [apply zset_nodup|]. intros y Hy. destruct (Hincl y Hy) as [->|]; [now left|now right]. }
    lia. }
  specialize (G (length dropped) (Nat.le_refl _)). now rewrite firstn_all in G.
Qed.
Print Assumptions c58_enough_classes.
Definition first_tie (l : list Z) : Z := match l with [] => 0%Z | x :: _ => x end.
Example c58_example : drop_rare_labels first_tie (q 1 5) 2 [(Some 1%Z, 0%nat); (Some 2%Z, 1%nat); (None, 2%nat); (Some 3%Z, 3%nat); (Some 3%Z, 4%nat); (Some 3%Z, 5%nat); (Some 1%Z, 6%nat); (Some 3%Z, 7%nat); (Some 3%Z, 8%nat)]
  = Some [(Some 1%Z, 0%nat); (None, 2%nat); (Some 3%Z, 3%nat); (Some 3%Z, 4%nat); (Some 3%Z, 5%nat); (Some 1%Z, 6%nat); (Some 3%Z, 7%nat); (Some 3%Z, 8%nat)].
Proof. vm_compute. reflexivity. Qed.
Example c58_tie_ok : forall l, l <> [] -> In (first_tie l) l.
Proof. intros [|x l]; [congruence|now left]. Qed.

(** ** C59 *)
(** Counts of the listed bars are exact whatever the order of the events; bars not listed have no event if the events are sorted by start.
    Missing ends mean the last bar. *)
Theorem c59_counts bars events : zssorted bars -> bars <> [] -> events <> [] ->
  exists i j counts, count_events_per_bar bars events = Ok counts /\ map fst counts = slice bars i j /\
    (forall t c, In (t, c) counts -> c = concurrent (map (fun e => (fst e, match snd e with Some x => x | None => last bars 0%Z end)) events) t) /\
    (zsorted (map fst events) -> forall t, In t bars -> ~ In t (map fst counts) ->
       forall s o, In (s, o) events -> ~ (s <= t <= match o with Some x => x | None => last bars 0%Z end)%Z).
Proof.
  intros Hs Hb He. destruct (@count_events_spec bars events Hb He) as (i & j & Hc & Hz).
  exists i, j. eexists. split; [exact Hc|]. split; [rewrite map_map; cbn; apply map_id|]. split.
  - intros t c H. apply in_map_iff in H as (u & E & _). injection E as <- <-. reflexivity.
  - rewrite map_map. cbn. rewrite map_id. intros Hst t Ht Hn s o Hin Hc'. specialize (Hz Hs Hst t Ht Hn).
    assert (0 < concurrent (fill_ends (last bars 0%Z) events) t)%nat; [|lia]. apply concurrent_pos.
    exists (s, match o with Some x => x | None => last bars 0%Z end). split; auto. unfold fill_ends. apply in_map_iff. now exists (s, o).
Qed.
Print Assumptions c59_counts.
(** empty inputs raise *)
Theorem c59_empty_raises bars events : bars = [] \/ events = [] -> count_events_per_bar bars events = Err IndexError.
Proof. unfold count_events_per_bar, py_last. intros [-> | ->]; [reflexivity|]. destruct (rev bars); reflexivity. Qed.
Print Assumptions c59_empty_raises.
(** the order matters: with unsorted events a bar covered by an event is missing *)
Example c59_unsorted_misses_bars : count_events_per_bar [0; 1; 2; 3]%Z [(2%Z, Some 3%Z); (0%Z, Some 1%Z)] = Ok [(2%Z, 1%nat); (3%Z, 1%nat)].
Proof. reflexivity. Qed.
Example c59_example : count_events_per_bar [0; 1; 2; 3; 4; 5]%Z [(1%Z, Some 3%Z); (2%Z, None)] = Ok [(1%Z, 1%nat); (2%Z, 2%nat); (3%Z, 2%nat); (4%Z, 1%nat); (5%Z, 1%nat)].
Proof. reflexivity. Qed.

(** ** C60 *)
Theorem c60_avg_uniqueness bars (events : list (Z * Z)) : zssorted bars -> bars <> [] -> events <> [] -> zsorted (map fst events) ->
  exists us, label_avg_uniqueness bars events = Ok us /\ map fst us = map fst events /\
    forall k e, nth_error events k = Some e -> exists u, nth_error us k = Some (fst e, u) /\
      (bars_of bars e = [] -> u = None) /\
      (bars_of bars e <> [] -> exists x, u = Some x /\ x = qmean (map (fun t => 1 / qn (concurrent events t)) (bars_of bars e)) /\ 0 < x /\ x <= 1 /\
         (x = 1 <-> forall t j e', In t bars -> (fst e <= t <= snd e)%Z -> j <> k -> nth_error events j = Some e' -> ~ (fst e' <= t <= snd e')%Z)).
Proof.
  intros Hs Hb He Hst. eexists. split; [now apply label_uniqueness_spec|]. split; [rewrite map_map; now apply map_ext|].
  intros k e Hk. eexists. rewrite nth_error_map, Hk. cbn [option_map]. split; [reflexivity|]. split; [now intros ->|].
  intro Hne. assert (Hlen : (length (bars_of bars e) =? 0)%nat = false) by (apply Nat.eqb_neq; destruct (bars_of bars e); [congruence|cbn; lia]).
  rewrite Hlen. eexists. split; [reflexivity|]. split; [reflexivity|].
  assert (Hcov : forall t, In t (bars_of bars e) <-> In t bars /\ (fst e <= t <= snd e)%Z).
  { intro t. unfold bars_of. rewrite filter_In, andb_true_iff, !Z.leb_le. tauto. }
  assert (Hpos : forall t, In t (bars_of bars e) -> (0 < concurrent events t)%nat).
  { intros t Ht. apply concurrent_pos. exists e. split; [now apply nth_error_In in Hk|]. now apply Hcov. }
  destruct (qmean_inverse_bounds Hne Hpos) as (B1 & B2 & B3). split; auto. split; auto. rewrite B3. split.
  - intros H t j e' Ht Hc Hj He'. assert (Hin : In t (bars_of bars e)) by (apply Hcov; auto). specialize (H t Hin). unfold concurrent in H.
    apply (@filter_one_self _ (fun e => (fst e <=? t)%Z && (t <=? snd e)%Z) events k e Hk) with (j := j) (y := e') in H; auto.
    + apply andb_false_iff in H. rewrite !Z.leb_gt in H. lia.
    + rewrite andb_true_iff, !Z.leb_le. lia.
  - intros H t Ht. apply Hcov in Ht as [Ht Hc]. apply (@filter_one_self _ (fun e => (fst e <=? t)%Z && (t <=? snd e)%Z) events k e Hk).
    + rewrite andb_true_iff, !Z.leb_le. lia.
    + intros j e' Hj He'. specialize (H t j e' Ht Hc Hj He'). apply andb_false_iff. rewrite !Z.leb_gt. lia.
Qed.
Print Assumptions c60_avg_uniqueness.
(** the two implementations agree *)
Theorem c60_matrix_agrees bars (events : list (Z * Z)) us : zssorted bars -> bars <> [] -> events <> [] -> zsorted (map fst events) ->
  label_avg_uniqueness bars events = Ok us -> avg_uniqueness (length bars) (indicators bars events) = map snd us.
Proof.
  intros Hs Hb He Hst H. rewrite label_uniqueness_spec in H by auto. injection H as <-. rewrite map_map. cbn [snd].
  unfold avg_uniqueness. unfold indicators at 2. rewrite map_map. apply map_ext_in. intros e Hin.
  rewrite matrix_uniqueness by auto. unfold mean_opt. now rewrite map_length.
Qed.
Print Assumptions c60_matrix_agrees.
Example c60_example : exists u, label_avg_uniqueness [0; 1; 2; 3; 4]%Z [(0%Z, 2%Z); (2%Z, 3%Z); (4%Z, 4%Z)] = Ok u /\
  map (fun r => (fst r, option_map this (snd r))) u = [(0%Z, Some (5#6)%Q); (2%Z, Some (3#4)%Q); (4%Z, Some (1#1)%Q)].
Proof. eexists. split; [vm_compute; reflexivity|reflexivity]. Qed.

(** ** C61 *)
Definition draw_weight n_bars cols samples k : Qc := qmean (map (fun i => 1 / qn (1 + drawn_on cols samples i)) (support n_bars cols k)).
Lemma draw_weight_pos n_bars cols samples k : support n_bars cols k <> [] -> 0 < draw_weight n_bars cols samples k.
Proof. intro H. apply (@qmean_inverse_bounds _ (fun i => (1 + drawn_on cols samples i)%nat)); auto. intros; lia. Qed.
Lemma somes_map_some A (l : list A) : somes (map Some l) = l.
Proof. induction l as [|x l IH]; [reflexivity|]. unfold somes in *. cbn. now rewrite IH. Qed.
Lemma draw_probs_spec n_bars cols samples : is_indicator n_bars cols -> (forall j, In j samples -> (j < length cols)%nat) ->
  (forall k, (k < length cols)%nat -> support n_bars cols k <> []) ->
  draw_probs n_bars cols samples = map (fun k => Some (draw_weight n_bars cols samples k / qsum (map (draw_weight n_bars cols samples) (seq 0 (length cols))))) (seq 0 (length cols)).
Proof.
  intros Hi Hs Hsup. unfold draw_probs.
  assert (E : map (trial_uniqueness n_bars cols samples) (seq 0 (length cols)) = map Some (map (draw_weight n_bars cols samples) (seq 0 (length cols)))).
  { rewrite map_map. apply map_ext_in. intros k Hk. apply in_seq in Hk. rewrite trial_uniqueness_spec by (auto; lia). unfold mean_opt. rewrite map_length.
    assert (Hne := Hsup k ltac:(lia)). destruct (support n_bars cols k) eqn:Es; [congruence|]. unfold draw_weight. rewrite Es. reflexivity. }
  rewrite E. unfold sum_skipna. rewrite somes_map_some, !map_map. reflexivity.
Qed.

(** Every draw: weights proportional to the mean of 1/(1+earlier draws on the bar), positive, summing to one; the sample has the requested size. *)
Theorem c61_sequential_bootstrap choose n_bars cols size :
  is_indicator n_bars cols -> (forall k, (k < length cols)%nat -> support n_bars cols k <> []) -> cols <> [] ->
  (forall h ps, ps <> [] -> (choose h ps < length ps)%nat) ->
  exists samples, sample_sequential_bootstrap choose n_bars cols size = Ok samples /\
    length samples = match size with Some n => n | None => length cols end /\
    (forall j, In j samples -> (j < length cols)%nat) /\
    forall i, (i < length samples)%nat ->
      let h := firstn i samples in
      let w k := qmean (map (fun b => 1 / qn (1 + drawn_on cols h b)) (support n_bars cols k)) in
      let ps := map (fun k => w k / qsum (map w (seq 0 (length cols)))) (seq 0 (length cols)) in
      draw_probs n_bars cols h = map Some ps /\ nth i samples 0%nat = choose h ps /\ (forall p, In p ps -> 0 < p) /\ qsum ps = 1.
Proof.
  intros Hi Hsup Hc Hch.
  assert (Hprops : forall h, (forall j, In j h -> (j < length cols)%nat) ->
     let w k := draw_weight n_bars cols h k in
     let ps := map (fun k => w k / qsum (map w (seq 0 (length cols)))) (seq 0 (length cols)) in
     draw_probs n_bars cols h = map Some ps /\ (forall p, In p ps -> 0 < p) /\ qsum ps = 1 /\ ps <> []).
  { intros h Hh w ps. assert (Hseq : seq 0 (length cols) <> []) by (destruct cols; [congruence|discriminate]).
    assert (Hpos : 0 < qsum (map w (seq 0 (length cols)))).
    { apply qsum_pos; [intro E; apply map_eq_nil in E; auto|]. intros x Hx. apply in_map_iff in Hx as (k & <- & Hk). apply in_seq in Hk. apply draw_weight_pos, Hsup. lia. }
    split; [rewrite draw_probs_spec by auto; unfold ps; rewrite map_map; reflexivity|]. split.
    - intros p Hp. apply in_map_iff in Hp as (k & <- & Hk). apply in_seq in Hk. apply Qcdiv_pos; auto. apply draw_weight_pos, Hsup. lia.
    - split; [|unfold ps; intro E; apply map_eq_nil in E; auto]. unfold ps, Qcdiv. rewrite (@qsum_map_scale_r _ w). apply Qcmult_inv_r. now apply Qc_pos_neq. }
  assert (G : forall m h0, (forall j, In j h0 -> (j < length cols)%nat) -> exists samples, sequential_bootstrap choose n_bars cols m h0 = Ok samples /\
     length samples = (length h0 + m)%nat /\ firstn (length h0) samples = h0 /\ (forall j, In j samples -> (j < length cols)%nat) /\
     forall i, (length h0 <= i < length samples)%nat ->
      let h := firstn i samples in
      let ps := map (fun k => draw_weight n_bars cols h k / qsum (map (draw_weight n_bars cols h) (seq 0 (length cols)))) (seq 0 (length cols)) in
      draw_probs n_bars cols h = map Some ps /\ nth i samples 0%nat = choose h ps /\ (forall p, In p ps -> 0 < p) /\ qsum ps = 1).
  { induction m as [|m IH]; intros h0 Hh0; cbn [sequential_bootstrap].
    - exists h0. split; auto. split; [lia|]. split; [apply firstn_all|]. split; auto. intros i Hi'. lia.
    - destruct (Hprops h0 Hh0) as (E & Hp & Hsum & Hne). cbn zeta in *. rewrite E. set (ps := map (fun k => draw_weight n_bars cols h0 k / _) _) in *.
      assert (length (map Some ps) =? 0 = false)%nat as -> by (apply Nat.eqb_neq; rewrite map_length; destruct ps; [congruence|cbn; lia]).
      replace (existsb _ (map Some ps)) with false.
      2:{ symmetry. apply existsb_false_iff. intros o Ho. apply in_map_iff in Ho as (x & <- & _). reflexivity. }
      cbn [orb]. rewrite somes_map_some.
      assert (Hlen : length ps = length cols) by (unfold ps; now rewrite map_length, seq_length).
      destruct (IH (h0 ++ [choose h0 ps])) as (samples & H1 & H2 & H3 & H4 & H5).
      { intros j Hj. apply in_app_iff in Hj as [Hj|[<-|[]]]; auto. rewrite <- Hlen. auto. }
      exists samples. rewrite app_length in *. cbn [length] in *. split; auto. split; [lia|].
      assert (F : firstn (length h0) samples = h0).
      { rewrite <- (firstn_app (length h0) h0 [choose h0 ps]) || idtac.
        transitivity (firstn (length h0) (firstn (length h0 + 1) samples)); [rewrite firstn_firstn; f_equal; lia|]. rewrite H3, firstn_app, Nat.sub_diag, firstn_all. cbn. apply app_nil_r. }
      split; auto. split; auto. intros i Hi'. destruct (Nat.eq_dec i (length h0)) as [->|Hn]; [|apply H5; lia].
      rewrite F. cbn zeta. split; auto. split; auto.
      assert (Hnth : nth (length h0) (firstn (length h0 + 1) samples) 0%nat = choose h0 ps) by (rewrite H3; apply nth_middle).
      fold ps. transitivity (nth (length h0) (firstn (length h0 + 1) samples) 0%nat); [|exact Hnth]. rewrite <- (firstn_skipn (length h0 + 1) samples) at 1. rewrite app_nth1; auto. rewrite firstn_length. lia. }
  unfold sample_sequential_bootstrap. destruct (G (match size with Some n => n | None => length cols end) []) as (samples & H1 & H2 & H3 & H4 & H5); [intros j []|].
  exists samples. split; auto. split; auto. split; auto. intros i Hi'. apply H5. cbn. lia.
Qed.
Print Assumptions c61_sequential_bootstrap.
(** an event that spans no bar makes the draw fail *)
Theorem c61_empty_event_raises choose n_bars cols m k : is_indicator n_bars cols -> (k < length cols)%nat -> support n_bars cols k = [] ->
  sample_sequential_bootstrap choose n_bars cols (Some (S m)) = Err ValueError.
Proof.
  intros Hi Hk Hs. unfold sample_sequential_bootstrap. cbn [sequential_bootstrap].
  replace (existsb _ (draw_probs n_bars cols [])) with true; [now rewrite orb_true_r|]. symmetry. apply existsb_exists. exists None. split; auto.
  unfold draw_probs. apply in_map_iff. exists None. split; auto. apply in_map_iff. exists k. split; [|apply in_seq; lia].
  rewrite trial_uniqueness_spec by (auto; intros j []). now rewrite Hs.
Qed.
Print Assumptions c61_empty_event_raises.
(** the book's example: three events on six bars, second draw after event 1 *)
Example c61_example : map (option_map this) (draw_probs 6 (indicators [0; 1; 2; 3; 4; 5]%Z [(0%Z, 2%Z); (2%Z, 3%Z); (4%Z, 5%Z)]) [1%nat]) = [Some (5#14)%Q; Some (3#14)%Q; Some (3#7)%Q].
Proof. vm_compute. reflexivity. Qed.

(** ** C62 *)
Open Scope R_scope.
Theorem c62_weights_normalised events counts bars : (forall e t c, In e events -> In (t, c) counts -> (fst e <= t <= snd e)%Z -> (0 < c)%nat) -> rsum (return_attributions events counts bars) <> 0 ->
  length (weights_by_returns events counts bars) = length events /\
  (forall w, In w (weights_by_returns events counts bars) -> 0 <= w) /\ rsum (weights_by_returns events counts bars) = INR (length events).
Proof.
  intros _ Hs. unfold weights_by_returns. set (raw := return_attributions events counts bars) in *.
  assert (Hlen : length raw = length events) by (unfold raw, return_attributions; apply map_length).
  assert (Hraw : forall w, In w raw -> 0 <= w) by (intros w Hw; unfold raw, return_attributions in Hw; apply in_map_iff in Hw as (e & <- & _); apply Rabs_pos).
  assert (Hpos : 0 < rsum raw) by (pose proof (rsum_nonneg Hraw); lra).
  split; [now rewrite map_length|]. split.
  - intros w Hw. apply in_map_iff in Hw as (x & <- & Hx). apply Rmult_le_pos; [now apply Hraw|]. apply Rmult_le_pos; [apply pos_INR|]. left. now apply Rinv_0_lt_compat.
  - replace (rsum (map (fun w => w * (INR (length raw) / rsum raw)) raw)) with (INR (length raw) / rsum raw * rsum raw).
    + rewrite Hlen. field. lra.
    + transitivity (rsum (map (fun w => INR (length raw) / rsum raw * id w) raw)); [rewrite (@rsum_map_scale _ id), map_id; reflexivity|apply rsum_map_ext; intros; unfold id; ring].
Qed.
Print Assumptions c62_weights_normalised.
(** With the counts of [count_events_per_bar], the signed attributions add up to the log return over the bars covered by some event. *)
Theorem c62_attributions_add_up bars (events : list (Z * Z)) counts : zssorted (map fst bars) -> bars <> [] -> events <> [] -> zsorted (map fst events) ->
  count_events_per_bar (map fst bars) (map (fun e => (fst e, Some (snd e))) events) = Ok counts ->
  rsum (map (signed_attribution counts bars) events) =
  rsum (map (fun r => match snd r with Some x => x | None => 0 end) (filter (fun r => existsb (fun e => covers e (fst r)) events) (log_returns None bars))).
Proof.
  intros Hs Hb He Hst Hc.
  destruct (@count_events_spec (map fst bars) (map (fun e => (fst e, Some (snd e))) events)) as (i & j & Hc' & Hz).
  { intro E. apply map_eq_nil in E. auto. } { intro E. apply map_eq_nil in E. auto. }
  rewrite fill_ends_some in *. rewrite Hc in Hc'. injection Hc' as ->. specialize (Hz Hs). rewrite map_map in Hz. specialize (Hz Hst).
  set (rs := log_returns None bars). unfold signed_attribution. fold rs.
  set (counts := map (fun t : Z => (t, concurrent events t)) (slice (map fst bars) i j)).
  transitivity (rsum (map (fun e => rsum (map (fun r => if covers e (fst r) then attributed counts r else 0) rs)) events)).
  { apply rsum_map_ext. intros e _. apply rsum_filter. }
  rewrite (rsum_map_swap (fun e r => if covers e (fst r) then attributed counts r else 0)), rsum_filter.
  apply rsum_map_ext. intros [t o] Hin. cbn [fst snd].
  rewrite rsum_cover. unfold attributed. cbn [fst snd].
  assert (Ht : In t (map fst bars)).
  { rewrite <- (log_returns_fst None bars). now apply (in_map fst) in Hin. }
  unfold counts. rewrite lookup_map_index.
  destruct (existsb (fun e => covers e t) events) eqn:Ex.
  - assert (0 < concurrent events t)%nat.
    { apply concurrent_pos. apply existsb_exists in Ex as (e & He' & Hcv). exists e. split; auto. apply andb_prop in Hcv. rewrite !Z.leb_le in Hcv. lia. }
    destruct (zmem t (slice (map fst bars) i j)) eqn:Em.
    + destruct o as [x|]; [|lra]. field. apply not_0_INR. lia.
    + rewrite Hz in H; [lia|auto|]. intro C. apply zmem_in in C. congruence.
  - replace (concurrent events t) with 0%nat; [cbn; destruct o; [destruct (zmem _ _)|]; lra|]. symmetry. unfold concurrent. rewrite filter_none; auto.
    intros e He'. apply (proj1 (existsb_false_iff _ _) Ex e He').
Qed.
Print Assumptions c62_attributions_add_up.
(** The attribution of an event: over the bars it covers (from the second bar of the data on), the log return from the previous bar divided by the number of
    events covering the bar; the weight is its absolute value, scaled. *)
Definition bar_time (bars : list (Z * R)) (k : nat) : Z := fst (nth k bars (0%Z, 0)).
Definition bar_price (bars : list (Z * R)) (k : nat) : R := snd (nth k bars (0%Z, 0)).
Definition own_return (bars : list (Z * R)) (events : list (Z * Z)) (e : Z * Z) : R :=
  rsum (map (fun k => (ln (bar_price bars k) - ln (bar_price bars (k - 1))) / INR (length (filter (fun f => (fst f <=? bar_time bars k)%Z && (bar_time bars k <=? snd f)%Z) events)))
       (filter (fun k => (fst e <=? bar_time bars k)%Z && (bar_time bars k <=? snd e)%Z) (seq 1 (length bars - 1)))).
Lemma log_returns_index bars : forall prev, log_returns prev bars =
  map (fun k => (bar_time bars k, match k with O => match prev with None => None | Some q => Some (ln (bar_price bars 0) - ln q) end | S j => Some (ln (bar_price bars k) - ln (bar_price bars j)) end)) (seq 0 (length bars)).
Proof.
  induction bars as [|[t p] bars IH]; intro prev; auto. cbn [log_returns length seq map]. f_equal. rewrite IH, <- seq_shift, map_map. apply map_ext. intros [|k]; reflexivity.
Qed.
Theorem c62_attribution_value bars (events : list (Z * Z)) counts e : zssorted (map fst bars) -> bars <> [] -> zsorted (map fst events) -> In e events ->
  count_events_per_bar (map fst bars) (map (fun e => (fst e, Some (snd e))) events) = Ok counts -> signed_attribution counts bars e = own_return bars events e.
Proof.
  intros Hs Hb Hst Hin Hc. assert (He : events <> []) by (intros ->; destruct Hin).
  destruct (@count_events_spec (map fst bars) (map (fun e => (fst e, Some (snd e))) events)) as (i & j & Hc' & Hz).
  { intro E. apply map_eq_nil in E. auto. } { intro E. apply map_eq_nil in E. auto. }
  rewrite fill_ends_some in *. rewrite Hc in Hc'. injection Hc' as ->. specialize (Hz Hs). rewrite map_map in Hz. specialize (Hz Hst).
  set (counts := map (fun t : Z => (t, concurrent events t)) (slice (map fst bars) i j)).
  unfold signed_attribution. rewrite log_returns_index. assert (Hl : length bars = S (length bars - 1)) by (destruct bars; [congruence|cbn; lia]). rewrite Hl at 1. cbn [seq map filter].
  assert (Z0 : attributed counts (bar_time bars 0, None) = 0) by reflexivity.
  transitivity (rsum (map (attributed counts) (filter (fun r => covers e (fst r)) (map (fun k => (bar_time bars k, Some (ln (bar_price bars k) - ln (bar_price bars (k - 1))))) (seq 1 (length bars - 1)))))).
  { cbn [fst]. assert (EM : map (fun k : nat => (bar_time bars k, match k with O => None | S j => Some (ln (bar_price bars k) - ln (bar_price bars j)) end)) (seq 1 (length bars - 1)) = map (fun k => (bar_time bars k, Some (ln (bar_price bars k) - ln (bar_price bars (k - 1))))) (seq 1 (length bars - 1))).
    { apply map_ext_in. intros k Hk. apply in_seq in Hk. destruct k as [|k]; [lia|]. now rewrite Nat.sub_succ, Nat.sub_0_r. }
    rewrite EM. destruct (covers e (bar_time bars 0)); cbn [map rsum]; [rewrite Z0; ring|reflexivity]. }
  unfold own_return. rewrite !rsum_filter, map_map. apply rsum_map_ext. intros k Hk. apply in_seq in Hk. cbn [fst snd]. unfold covers. destruct ((fst e <=? bar_time bars k)%Z && (bar_time bars k <=? snd e)%Z) eqn:Ec; auto.
  unfold attributed. cbn [fst snd]. unfold counts. rewrite lookup_map_index. assert (HT : In (bar_time bars k) (map fst bars)) by (unfold bar_time; apply in_map, nth_In; lia).
  assert (0 < concurrent events (bar_time bars k))%nat by (apply concurrent_pos; exists e; split; auto; apply andb_prop in Ec; rewrite !Z.leb_le in Ec; lia).
  destruct (zmem (bar_time bars k) (slice (map fst bars) i j)) eqn:Em; [reflexivity|]. rewrite Hz in H; [lia|auto|]. intro C. apply zmem_in in C. congruence.
Qed.
Theorem c62_weight_value bars (events : list (Z * Z)) counts i e : zssorted (map fst bars) -> bars <> [] -> zsorted (map fst events) -> nth_error events i = Some e ->
  count_events_per_bar (map fst bars) (map (fun e => (fst e, Some (snd e))) events) = Ok counts ->
  rsum (map (fun f => Rabs (own_return bars events f)) events) <> 0 ->
  nth_error (weights_by_returns events counts bars) i = Some (Rabs (own_return bars events e) * (INR (length events) / rsum (map (fun f => Rabs (own_return bars events f)) events))).
Proof.
  intros Hs Hb Hst Hi Hc _. assert (E : return_attributions events counts bars = map (fun f => Rabs (own_return bars events f)) events).
  { apply map_ext_in. intros f Hf. f_equal. now apply c62_attribution_value. }
  unfold weights_by_returns. rewrite E, map_length, map_map, nth_error_map, Hi. reflexivity.
Qed.
(** an event alone on its bars gets the whole log return from the bar before its first to its last *)
Lemma bar_time_lt bars k l : zssorted (map fst bars) -> (k < l)%nat -> (l < length bars)%nat -> (bar_time bars k < bar_time bars l)%Z.
Proof.
  intros Hs Hkl Hl. unfold bar_time. assert (N : forall m, (m < length bars)%nat -> nth_error (map fst bars) m = Some (fst (nth m bars (0%Z, 0)))).
  { intros m Hm. rewrite nth_error_map, (nth_error_nth' bars (0%Z, 0) Hm). reflexivity. }
  eapply ssorted_nth_lt; [exact Hs|apply N; lia|apply N; lia|lia].
Qed.
Lemma rsum_telescope (f : nat -> R) m : forall a, (0 < a)%nat -> rsum (map (fun k => f k - f (k - 1)%nat) (seq a m)) = f (a + m - 1)%nat - f (a - 1)%nat.
Proof.
  induction m as [|m IH]; intros a Ha; cbn [seq map rsum]; [rewrite Nat.add_0_r; lra|]. rewrite IH by lia. replace (S a + m - 1)%nat with (a + S m - 1)%nat by lia. replace (S a - 1)%nat with a by lia. lra.
Qed.
Theorem c62_lone_event bars e a b : zssorted (map fst bars) -> (0 < a <= b)%nat -> (b < length bars)%nat -> fst e = bar_time bars a -> snd e = bar_time bars b ->
  own_return bars [e] e = ln (bar_price bars b) - ln (bar_price bars (a - 1)).
Proof.
  intros Hs Hab Hb Ha' Hb'. unfold own_return.
  replace (length bars - 1)%nat with ((a - 1) + ((b - a + 1) + (length bars - 1 - b)))%nat by lia. rewrite (seq_app (a - 1)), (seq_app (b - a + 1)), !filter_app.
  assert (C : forall k, (k < length bars)%nat -> (fst e <=? bar_time bars k)%Z && (bar_time bars k <=? snd e)%Z = ((a <=? k) && (k <=? b))%nat).
  { intros k Hk. rewrite Ha', Hb'. f_equal.
    - destruct (Nat.leb_spec a k); [apply Z.leb_le; destruct (Nat.eq_dec a k) as [->|]; [lia|apply Z.lt_le_incl, bar_time_lt; auto; lia]|apply Z.leb_gt, bar_time_lt; auto; lia].
    - destruct (Nat.leb_spec k b); [apply Z.leb_le; destruct (Nat.eq_dec k b) as [->|]; [lia|apply Z.lt_le_incl, bar_time_lt; auto; lia]|apply Z.leb_gt, bar_time_lt; auto; lia]. }
  rewrite (@filter_ext_in _ _ (fun _ => false) (seq 1 (a - 1))), (@filter_ext_in _ _ (fun _ => true) (seq (1 + (a - 1)) (b - a + 1))), (@filter_ext_in _ _ (fun _ => false) (seq (1 + (a - 1) + (b - a + 1)) (length bars - 1 - b))).
  2-4: intros k Hk; apply in_seq in Hk; rewrite C by lia; destruct (Nat.leb_spec a k), (Nat.leb_spec k b); auto; lia.
  assert (F : forall l : list nat, filter (fun _ => false) l = []) by (intro l; induction l; auto). assert (T : forall l : list nat, filter (fun _ => true) l = l) by (intro l; induction l; cbn; congruence).
  rewrite !F, T, app_nil_r. cbn [app]. rewrite (@rsum_map_ext _ _ (fun k => ln (bar_price bars k) - ln (bar_price bars (k - 1)))).
  - rewrite (@rsum_telescope (fun k => ln (bar_price bars k))) by lia. repeat f_equal; lia.
  - intros k Hk. apply in_seq in Hk. cbn [filter]. rewrite C by lia. replace ((a <=? k) && (k <=? b))%nat with true by (symmetry; apply andb_true_intro; rewrite !Nat.leb_le; lia). cbn [length INR]. lra.
Qed.
Print Assumptions c62_attribution_value.
Print Assumptions c62_weight_value.
Print Assumptions c62_lone_event.
Example c62_value_nonvacuous : zssorted (map fst [(1%Z, 1); (2%Z, 2); (3%Z, 3); (4%Z, 5)]) /\ zsorted (map fst [(2%Z, 3%Z); (3%Z, 4%Z)]) /\
  count_events_per_bar [1; 2; 3; 4]%Z [(2%Z, Some 3%Z); (3%Z, Some 4%Z)] = Ok [(2%Z, 1%nat); (3%Z, 2%nat); (4%Z, 1%nat)] /\
  own_return [(1%Z, 1); (2%Z, 2); (3%Z, 3); (4%Z, 5)] [(2%Z, 3%Z); (3%Z, 4%Z)] (2%Z, 3%Z) = (ln 2 - ln 1) / 1 + ((ln 3 - ln 2) / (1 + 1) + 0).
Proof. split; [cbn; repeat constructor; cbn; lia|]. split; [cbn; repeat constructor; cbn; lia|]. split; [reflexivity|]. unfold own_return, bar_time, bar_price. cbn -[Rplus Rminus Rdiv ln IZR]. lra. Qed.
Close Scope R_scope.

(** ** C63 *)
Lemma cumsum_last l : l <> [] -> py_last (cumsum l) = Ok (qsum l).
Proof.
  intro H. assert (Hl : cumsum l <> []) by (intro E; apply (f_equal (@length _)) in E; rewrite cumsum_length in E; destruct l; [congruence|discriminate]).
  destruct (exists_last Hl) as (l' & x & E). unfold py_last. rewrite E, rev_app_distr. cbn. f_equal.
  assert (Hlen : length l = S (length l')) by (rewrite <- (cumsum_length l), E, app_length; cbn; lia).
  assert (Hn : nth_error (cumsum l) (length l') = Some x) by (rewrite E, nth_error_app2, Nat.sub_diag; auto).
  rewrite cumsum_nth in Hn by lia. rewrite <- Hlen, firstn_all in Hn. congruence.
Qed.
(** Decayed weight of row [i]: [later] is the uniqueness that came after it, [total] all of it. *)
Theorem c63_time_decay uniq c : uniq <> [] -> (forall t u, In (t, u) uniq -> 0 <= u) -> 0 < qsum (map snd uniq) -> - (1) < c -> c <= 1 ->
  exists rows ws, Permutation rows uniq /\ zsorted (map fst rows) /\ time_decay uniq c = Ok ws /\ map fst ws = map fst rows /\
    let us := map snd rows in
    let total := qsum us in
    forall i, (i < length us)%nat -> exists w, nth_error (map snd ws) i = Some w /\
      let later := qsum (skipn (S i) us) in
      w = (if qle 0 c then 1 - (1 - c) * (later / total) else qmax 0 (1 - later / ((1 + c) * total))) /\
      0 <= w /\ w <= 1 /\ c <= w /\ (S i = length us -> w = 1) /\ (c = 1 -> w = 1) /\
      (c < 0 -> (w = 0 <-> qsum (firstn (S i) us) <= - c * total)) /\
      (forall j w', (j <= i)%nat -> nth_error (map snd ws) j = Some w' -> w' <= w).
Proof.
  intros Hne Hu Ht Hc1 Hc2. set (rows := sort_index uniq). exists rows.
  assert (Hp : Permutation rows uniq) by apply sort_index_perm.
  set (us := map snd rows). assert (Hus : Permutation us (map snd uniq)) by now apply Permutation_map.
  assert (Hlen : length us = length uniq) by (unfold us; rewrite map_length; now apply Permutation_length).
  assert (Hune : us <> []) by (intro E; rewrite E in Hlen; destruct uniq; [congruence|discriminate]).
  assert (Hsum : qsum us = qsum (map snd uniq)) by now apply qsum_perm. rewrite <- Hsum in Ht.
  assert (Hnn : forall x, In x us -> 0 <= x) by (intros x Hx; apply (Permutation_in _ Hus) in Hx; apply in_map_iff in Hx as ([t u] & <- & H); eapply Hu; eauto).
  unfold time_decay. fold rows us. rewrite (cumsum_last Hune). cbn [bind]. set (T := qsum us) in *.
  assert (Hden : qeq (if qle 0 c then T else (c + 1) * T) 0 = false).
  { apply qeq_false. destruct (qle 0 c); [now apply Qc_pos_neq|]. apply Qc_pos_neq. apply Qcmul_pos; auto. qlra. }
  rewrite Hden. eexists. split; auto. split; [apply sort_index_sorted|]. split; [reflexivity|].
  split; [apply combine_fst; rewrite !map_length, cumsum_length; unfold us; now rewrite map_length|].
  cbn zeta. set (slope := if qle 0 c then (1 - c) / T else 1 / ((c + 1) * T)).
  assert (Hws : map snd (combine (map fst rows) (map (fun c0 : Qc => if qlt (1 - slope * T + slope * c0) 0 then 0 else 1 - slope * T + slope * c0) (cumsum us))) =
     map (fun c0 : Qc => if qlt (1 - slope * T + slope * c0) 0 then 0 else 1 - slope * T + slope * c0) (cumsum us)).
  { apply combine_snd. rewrite !map_length, cumsum_length. unfold us. now rewrite map_length. }
  rewrite Hws.
  assert (Hslope : 0 <= slope).
  { unfold slope. dcase (qle 0 c).
    - apply Qcdiv_nonneg; auto. qlra.
    - apply Qcdiv_nonneg; [qlra|]. apply Qcmul_pos; auto. qlra. }
  assert (Hcum : forall i, (i < length us)%nat -> nth_error (cumsum us) i = Some (qsum (firstn (S i) us)) /\ qsum (firstn (S i) us) + qsum (skipn (S i) us) = T /\ 0 <= qsum (skipn (S i) us) /\ 0 <= qsum (firstn (S i) us)).
  { intros i Hi. split; [now apply cumsum_nth|]. split; [rewrite <- qsum_app, firstn_skipn; reflexivity|].
    assert (Hsub : forall x, In x (firstn (S i) us) \/ In x (skipn (S i) us) -> In x us) by (intros x Hx; rewrite <- (firstn_skipn (S i) us); apply in_app_iff; auto).
    split; apply qsum_nonneg; auto. }
  assert (Hw : forall i, (i < length us)%nat -> nth_error (map (fun c0 : Qc => if qlt (1 - slope * T + slope * c0) 0 then 0 else 1 - slope * T + slope * c0) (cumsum us)) i =
     Some (if qlt (1 - slope * qsum (skipn (S i) us)) 0 then 0 else 1 - slope * qsum (skipn (S i) us))).
  { intros i Hi. destruct (Hcum i Hi) as (E1 & E2 & _). rewrite nth_error_map, E1. cbn [option_map].
    replace (1 - slope * T + slope * qsum (firstn (S i) us)) with (1 - slope * qsum (skipn (S i) us)) by (rewrite <- E2; ring). reflexivity. }
  intros i Hi. rewrite (Hw i Hi). eexists. split; [reflexivity|].
  destruct (Hcum i Hi) as (_ & E2 & Hl & Hf). set (later := qsum (skipn (S i) us)) in *. set (cum := qsum (firstn (S i) us)) in *.
  assert (Hlt : later <= T) by qlra.
  assert (Hval : (if qlt (1 - slope * later) 0 then 0 else 1 - slope * later) = if qle 0 c then 1 - (1 - c) * (later / T) else qmax 0 (1 - later / ((1 + c) * T))).
  { unfold slope. dcase (qle 0 c).
    - replace ((1 - c) / T * later) with ((1 - c) * (later / T)) by (unfold Qcdiv; ring).
      assert (Hq : later / T <= 1) by (apply Qcdiv_le_iff; auto; qlra). assert (0 <= later / T) by (apply Qcdiv_nonneg; auto).
      destruct (qlt (1 - (1 - c) * (later / T)) 0) eqn:E; auto. apply qlt_iff in E. exfalso.
      assert (0 <= (1 - c) * (1 - later / T)) by (apply Qcmul_nonneg; qlra). qnra.
    - replace (1 / ((c + 1) * T) * later) with (later / ((1 + c) * T)).
      2:{ replace ((c + 1) * T) with ((1 + c) * T) by ring. unfold Qcdiv. ring. }
      unfold qmax. set (v := 1 - later / ((1 + c) * T)). clearbody v.
      destruct (qlt v 0) eqn:E1, (qle 0 v) eqn:E2'; auto; [apply qlt_iff in E1; apply qle_iff in E2'; exfalso; qlra|apply qlt_false in E1; apply qle_false in E2'; exfalso; qlra]. }
  assert (Hsl : 0 <= slope * later) by now apply Qcmul_nonneg.
  split; [exact Hval|]. split; [dcase (qlt (1 - slope * later) 0); qlra|]. split; [dcase (qlt (1 - slope * later) 0); qlra|].
  split.
  { rewrite Hval. destruct (qle 0 c) eqn:E0; [apply qle_iff in E0|apply qle_false in E0].
    - assert (Hq : later / T <= 1) by (apply Qcdiv_le_iff; auto; qlra).
      assert (0 <= (1 - c) * (1 - later / T)) by (apply Qcmul_nonneg; qlra). qnra.
    - unfold qmax. dcase (qle 0 (1 - later / ((1 + c) * T))); qlra. }
  split.
  { intro E. assert (later = 0) as -> by (unfold later; rewrite skipn_all2 by lia; reflexivity). replace (slope * 0) with 0 by ring. reflexivity. }
  split.
  { intros ->. assert (slope = 0) as -> by (unfold slope; cbn; unfold Qcdiv; ring). replace (0 * later) with 0 by ring. reflexivity. }
  split.
  { intro Hneg. rewrite Hval. destruct (qle 0 c) eqn:E0; [apply qle_iff in E0; qlra|].
    assert (Hd : 0 < (1 + c) * T) by (apply Qcmul_pos; auto; qlra).
    assert (Hiff : 1 - later / ((1 + c) * T) <= 0 <-> (1 + c) * T <= later).
    { split; intro H.
      - assert (H' : 1 <= later / ((1 + c) * T)) by qlra. apply Qcdiv_ge_iff in H'; auto. replace ((1 + c) * T) with (1 * ((1 + c) * T)) by ring. auto.
      - assert (H' : 1 <= later / ((1 + c) * T)) by (apply Qcdiv_ge_iff; auto; replace (1 * ((1 + c) * T)) with ((1 + c) * T) by ring; auto). qlra. }
    assert (Hcumeq : cum = T - later) by qlra. rewrite Hcumeq.
    assert (Hlin : (1 + c) * T <= later <-> T - later <= - c * T).
    { replace ((1 + c) * T) with (T + c * T) by ring. replace (- c * T) with (- (c * T)) by ring. set (k := c * T). clearbody k. split; intro; qlra. }
    rewrite <- Hlin, <- Hiff. unfold qmax. set (v := 1 - later / ((1 + c) * T)). clearbody v. dcase (qle 0 v); split; intro; subst; try qlra; auto.
  }
  intros j w' Hj Hw'. rewrite (Hw j) in Hw' by lia. injection Hw' as <-. change (match us with [] => [] | _ :: l => skipn j l end) with (skipn (S j) us).
  assert (Hmono : later <= qsum (skipn (S j) us)).
  { assert (E : skipn (S j) us = firstn (i - j) (skipn (S j) us) ++ skipn (S i) us).
    { rewrite <- (firstn_skipn (i - j) (skipn (S j) us)) at 1. f_equal. rewrite skipn_skipn. f_equal. lia. }
    rewrite E, qsum_app. fold later. assert (0 <= qsum (firstn (i - j) (skipn (S j) us))); [|qlra].
    apply qsum_nonneg. intros x Hx. apply Hnn. rewrite <- (firstn_skipn (S j) us). apply in_app_iff. right. rewrite <- (firstn_skipn (i - j) (skipn (S j) us)). apply in_app_iff. now left. }
  assert (0 <= slope * (qsum (skipn (S j) us) - later)) by (apply Qcmul_nonneg; auto; qlra).
  set (L := qsum (skipn (S j) us)) in *. clearbody L. assert (1 - slope * L <= 1 - slope * later) by qnra.
  clear -H0 Hsl. set (a := slope * L) in *. set (b := slope * later) in *. clearbody a b. dcase (qlt (1 - a) 0); dcase (qlt (1 - b) 0); qlra.
Qed.
Print Assumptions c63_time_decay.
(** the oldest event weighs more than [oldest_weight], although the parameter is documented as its weight *)
Theorem c63_oldest_weight_refuted : exists uniq c ws, 0 < c /\ c < 1 /\ time_decay uniq c = Ok ws /\ exists t w, nth_error ws 0 = Some (t, w) /\ w <> c.
Proof.
  exists [(0%Z, 1); (1%Z, 1)], (q 1 2). eexists. split; [reflexivity|]. split; [reflexivity|]. split; [vm_compute; reflexivity|].
  eexists. eexists. split; [reflexivity|]. discriminate.
Qed.
Print Assumptions c63_oldest_weight_refuted.
Theorem c63_minus_one_raises uniq : uniq <> [] -> time_decay uniq (- (1)) = Err ZeroDivisionError.
Proof.
  intro H. unfold time_decay. rewrite cumsum_last.
  - cbn [bind]. change (qle 0 (- (1))) with false. cbn iota. replace ((- (1) + 1) * qsum (map snd (sort_index uniq))) with 0 by ring. reflexivity.
  - intro E. apply map_eq_nil in E. apply H. apply Permutation_nil. rewrite <- E. apply sort_index_perm.
Qed.
Print Assumptions c63_minus_one_raises.
Example c63_example : exists ws, time_decay [(5%Z, q 1 2); (1%Z, 1); (3%Z, q 1 2)] (q (-1) 2) = Ok ws /\ map (fun r => (fst r, this (snd r))) ws = [(1%Z, (0#1)%Q); (3%Z, (1#2)%Q); (5%Z, (1#1)%Q)].
Proof. eexists. split; [vm_compute; reflexivity|reflexivity]. Qed.
