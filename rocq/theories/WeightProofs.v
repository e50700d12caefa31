(** Proofs about labeling/weighting.py *)
From Verif Require Import Py RNum BarrierModel BarrierProofs WeightModel WeightSpec.
From Coq Require Import Sorted.
Set Implicit Arguments.
Unset Strict Implicit.
Open Scope Qc_scope.

(** ** drop_rare_labels *)
Lemma zmem_in t l : zmem t l = true <-> In t l.
Proof. unfold zmem. rewrite existsb_exists. split; [intros (x & H & E); apply Z.eqb_eq in E; now subst|intro; exists t; split; auto; apply Z.eqb_refl]. Qed.
Lemma filter_filter A (f g : A -> bool) l : filter f (filter g l) = filter (fun x => g x && f x) l.
Proof. induction l as [|x l IH]; cbn; auto. destruct (g x); cbn; [destruct (f x)|]; now rewrite ?IH. Qed.
Lemma filter_ext_in' A (f g : A -> bool) l : (forall x, In x l -> f x = g x) -> filter f l = filter g l.
Proof. induction l as [|x l IH]; cbn; intro H; auto. rewrite (H x) by now left. rewrite IH by (intros; apply H; now right). auto. Qed.

Lemma without_nil A (rows : list (option Z * A)) : without [] rows = rows.
Proof. unfold without. rewrite (filter_ext_in' (g := fun _ => true)); [|intros [[z|] a] _; auto]. induction rows; cbn; congruence. Qed.
Lemma without_cons A z d (rows : list (option Z * A)) : without (z :: d) rows = without d (filter (fun r => negb (label_is z r)) rows).
Proof.
  unfold without. rewrite filter_filter. apply filter_ext_in'. intros [[y|] a] _; cbn; auto.
  rewrite Z.eqb_sym. destruct (y =? z)%Z eqn:E; cbn; auto.
  - apply Z.eqb_eq in E. subst. now rewrite Z.eqb_refl.
  - rewrite Z.eqb_sym in E. now rewrite E.
Qed.

Lemma list_min_nat_le l x : In x l -> (list_min_nat l <= x)%nat.
Proof.
  destruct l as [|y l]; cbn; [tauto|]. revert x. assert (G : forall x, x = y \/ In x l -> (fold_right Nat.min y l <= x)%nat).
  { induction l as [|z l IH]; cbn; intros x [->|H]; auto; try tauto.
    - specialize (IH y (or_introl eq_refl)). lia.
    - destruct H as [->|H]; [lia|]. specialize (IH x (or_intror H)). lia. }
  intros x [->|H]; apply G; auto.
Qed.
Lemma list_min_nat_in l : l <> [] -> In (list_min_nat l) l.
Proof.
  destruct l as [|y l]; [congruence|]. intros _. cbn. induction l as [|z l IH]; cbn; [auto|].
  destruct (Nat.min_spec z (fold_right Nat.min y l)) as [[_ ->]|[_ ->]]; [tauto|]. destruct IH; tauto.
Qed.

Section DropRare.
  Variable A : Type.
  Variable tie : list Z -> Z.
  Hypothesis Htie : forall l, l <> [] -> In (tie l) l.
  Implicit Types rows : list (option Z * A).

  Lemma labels_of_in rows z : In z (labels_of rows) <-> exists a, In (Some z, a) rows.
  Proof.
    unfold labels_of. rewrite zset_in, somes_in, in_map_iff. split.
    - intros ([o a] & E & H). cbn in E. subst. eauto.
    - intros (a & H). exists (Some z, a). auto.
  Qed.
  Lemma rarest_spec rows : labels_of rows <> [] ->
    In (rarest tie rows) (labels_of rows) /\ forall y, In y (labels_of rows) -> (count_label (rarest tie rows) rows <= count_label y rows)%nat.
  Proof.
    intro H. unfold rarest. set (cand := filter _ _).
    assert (Hc : cand <> []).
    { assert (Hm : In (min_count rows) (map (fun z => count_label z rows) (labels_of rows))) by (apply list_min_nat_in; intro E; apply map_eq_nil in E; auto).
      apply in_map_iff in Hm as (z & Ez & Hz). intro E. assert (Hz' : In z cand) by (apply filter_In; split; auto; now apply Nat.eqb_eq). rewrite E in Hz'. destruct Hz'. }
    apply Htie in Hc. apply filter_In in Hc as [Hin Heq]. apply Nat.eqb_eq in Heq. split; auto. intros y Hy. rewrite Heq. apply list_min_nat_le. now apply (in_map (fun z => count_label z rows)).
  Qed.
  Lemma filter_len_lt B (f : B -> bool) l x : In x l -> f x = false -> (length (filter f l) < length l)%nat.
  Proof.
    induction l as [|y l IH]; cbn; [tauto|]. intros [->|H] E.
    - rewrite E. clear. induction l as [|y l IH]; cbn; auto. destruct (f y); cbn; lia.
    - specialize (IH H E). destruct (f y); cbn; lia.
  Qed.
  Lemma n_labelled_pos rows : labels_of rows <> [] -> 0 < qn (n_labelled rows).
  Proof.
    intro H. apply qn_pos. unfold n_labelled. destruct (labels_of rows) as [|z l] eqn:E; [congruence|].
    assert (Hz : In z (labels_of rows)) by (rewrite E; now left). unfold labels_of in Hz. apply zset_in in Hz.
    destruct (somes (map fst rows)); [destruct Hz|]. cbn. lia.
  Qed.

  Definition step_ok min_pct min_classes rows z : Prop :=
    In z (labels_of rows) /\ share rows z <= min_pct /\ (forall y, In y (labels_of rows) -> (count_label z rows <= count_label y rows)%nat) /\ (min_classes < length (labels_of rows))%nat.

  Lemma drop_rare_spec min_pct min_classes fuel rows : (length rows <= fuel)%nat ->
    exists out dropped, drop_rare tie fuel min_pct min_classes rows = Some out /\ out = without dropped rows /\
      ((labels_of out <> [] /\ forall z, In z (labels_of out) -> min_pct < share out z) \/ (length (labels_of out) <= min_classes)%nat) /\
      forall i z, nth_error dropped i = Some z -> step_ok min_pct min_classes (without (firstn i dropped) rows) z.
  Proof.
    revert rows; induction fuel as [|fuel IH]; intros rows Hlen; cbn [drop_rare].
    - destruct rows; [|cbn in Hlen; lia]. exists [], []. split; [reflexivity|]. split; [reflexivity|]. split; [right; cbn; lia|]. intros [|i] z; discriminate.
    - destruct (negb (length (labels_of rows) =? 0)%nat && forallb (fun z => qlt min_pct (share rows z)) (labels_of rows)) eqn:E1; cbn [orb].
      { exists rows, []. rewrite without_nil. split; auto. split; auto. split; [|intros [|i] z; discriminate]. left.
        apply andb_prop in E1 as [E1 E2]. split; [intro E; rewrite E in E1; discriminate|]. rewrite forallb_forall in E2. intros z Hz. now apply qlt_iff, E2. }
      destruct (Nat.leb_spec (length (labels_of rows)) min_classes) as [E2|E2].
      { exists rows, []. rewrite without_nil. split; auto. split; auto. split; auto. intros [|i] z; discriminate. }
      assert (Hne : labels_of rows <> []) by (intro E; rewrite E in E2; cbn in E2; lia).
      destruct (rarest_spec Hne) as [Hin Hmin]. set (z := rarest tie rows) in *.
      pose proof Hin as Hin'. apply labels_of_in in Hin' as (a & Ha).
      assert (Hlt : (length (filter (fun r => negb (label_is z r)) rows) < length rows)%nat).
      { apply filter_len_lt with (Some z, a); auto. cbn. now rewrite Z.eqb_refl. }
      destruct (IH (filter (fun r => negb (label_is z r)) rows)) as (out & dropped & H1 & H2 & H3 & H4); [lia|].
      exists out, (z :: dropped). split; auto. split; [now rewrite without_cons|]. split; auto.
      intros [|i] y; cbn [nth_error firstn].
      + intro E; injection E as <-. rewrite without_nil. split; auto. split; [|auto].
        apply andb_false_iff in E1 as [E1|E1]; [apply negb_false_iff, Nat.eqb_eq in E1; destruct (labels_of rows); [congruence|discriminate]|].
        assert (exists y, In y (labels_of rows) /\ share rows y <= min_pct) as (y & Hy & Hs).
        { clear -E1. induction (labels_of rows) as [|y l IH]; [discriminate|]. cbn in E1. apply andb_false_iff in E1 as [E|E].
          - exists y. split; [now left|]. now apply qlt_false in E.
          - destruct (IH E) as (x & Hx & Hs). exists x. split; auto. now right. }
        eapply Qcle_trans; [|exact Hs]. unfold share. pose proof (n_labelled_pos Hne) as Hpos. apply Qcdiv_le_iff; auto. rewrite Qcdiv_mul_cancel by now apply Qc_pos_neq. apply qn_le. now apply Hmin.
      + intro Hi. rewrite without_cons. auto.
  Qed.
End DropRare.

(** ** count_events_per_bar *)
Lemma bump_fold evs (l : list (Z * nat)) :
  fold_left bump evs l = map (fun r => (fst r, (snd r + concurrent evs (fst r))%nat)) l.
Proof.
  revert l; induction evs as [|e evs IH]; intro l; cbn [fold_left].
  - rewrite <- (map_id l) at 1. apply map_ext. intros [t c]. unfold concurrent. cbn. f_equal. lia.
  - rewrite IH. unfold bump. rewrite map_map. apply map_ext. intros [t c]. unfold concurrent, covers. cbn [fst snd filter].
    destruct (_ && _); cbn [length]; f_equal; lia.
Qed.
Lemma max_end_ge (e0 : Z * Z) es e : In e (e0 :: es) -> (snd e <= fold_right (fun e m => Z.max (snd e) m) (snd e0) es)%Z.
Proof.
  induction es as [|x es IH]; cbn [fold_right].
  - intros [->|[]]. lia.
  - intros [->|[->|H]]; [specialize (IH (or_introl eq_refl)); lia|lia|specialize (IH (or_intror H)); lia].
Qed.
Lemma concurrent_pos evs t : (0 < concurrent evs t)%nat <-> exists e, In e evs /\ (fst e <= t <= snd e)%Z.
Proof.
  unfold concurrent. split.
  - intro H. destruct (filter _ evs) as [|e l] eqn:E; [cbn in H; lia|].
    assert (Hin : In e (filter (fun e => (fst e <=? t)%Z && (t <=? snd e)%Z) evs)) by (rewrite E; now left). apply filter_In in Hin as [Hin Hc].
    exists e. split; auto. apply andb_prop in Hc. rewrite !Z.leb_le in Hc. lia.
  - intros (e & Hin & Hc). assert (Hin' : In e (filter (fun e => (fst e <=? t)%Z && (t <=? snd e)%Z) evs)).
    { apply filter_In. split; auto. rewrite andb_true_iff, !Z.leb_le. lia. }
    destruct (filter _ evs); [destruct Hin'|cbn; lia].
Qed.
Lemma slice_in_sorted bars t a b : zssorted bars -> In t bars ->
  In t (slice bars (searchsorted_left bars a) (searchsorted_left bars b + 1)) \/ (t < a)%Z \/ (b < t)%Z.
Proof.
  intros Hs Hin. apply zssorted_sorted in Hs as Hs'. apply In_nth_error in Hin as [i Hi].
  destruct (Z.lt_ge_cases t a) as [|Ha]; auto. destruct (Z.lt_ge_cases b t) as [|Hb]; auto. left.
  assert (H1 : (searchsorted_left bars a <= i)%nat).
  { destruct (Nat.le_gt_cases (searchsorted_left bars a) i); auto. apply (@searchsorted_left_spec _ a _ _ Hs' Hi) in H. lia. }
  assert (H2 : (i <= searchsorted_left bars b)%nat).
  { destruct (Nat.le_gt_cases i (searchsorted_left bars b)) as [|Hgt]; auto. exfalso.
    assert (Hlen : (i < length bars)%nat) by (apply nth_error_Some; congruence).
    destruct (nth_error bars (searchsorted_left bars b)) as [x|] eqn:Ex; [|apply nth_error_None in Ex; lia].
    assert (Hx : ~ (x < b)%Z) by (intro C; apply (@searchsorted_left_spec _ b _ _ Hs' Ex) in C; lia).
    assert (x < t)%Z by (apply (@ssorted_nth_lt bars (searchsorted_left bars b) i); auto). lia. }
  apply nth_error_In with (i - searchsorted_left bars a)%nat. rewrite nth_error_slice by lia.
  replace (searchsorted_left bars a + (i - searchsorted_left bars a))%nat with i by lia. auto.
Qed.

Lemma count_events_spec bars events : bars <> [] -> events <> [] ->
  exists i j, count_events_per_bar bars events = Ok (map (fun t => (t, concurrent (fill_ends (last bars 0%Z) events) t)) (slice bars i j)) /\
    (zssorted bars -> zsorted (map fst events) -> forall t, In t bars -> ~ In t (slice bars i j) -> concurrent (fill_ends (last bars 0%Z) events) t = 0%nat).
Proof.
  intros Hb He. unfold count_events_per_bar, py_last.
  destruct (exists_last Hb) as (l & x & ->). rewrite rev_app_distr, last_last. cbn [rev app bind].
  set (bars := l ++ [x]). destruct events as [|[s0 o0] es]; [congruence|].
  set (evs := fill_ends x ((s0, o0) :: es)).
  assert (Hevs : evs = (s0, match o0 with Some t => t | None => x end) :: fill_ends x es) by reflexivity.
  cbv zeta. change (fill_ends x ((s0, o0) :: es)) with evs. rewrite Hevs. cbn [fst snd]. set (mx := fold_right _ _ _).
  exists (searchsorted_left bars s0), (searchsorted_left bars mx + 1)%nat. split.
  - f_equal. rewrite <- Hevs, bump_fold, map_map. apply map_ext. intros t. cbn. reflexivity.
  - rewrite <- Hevs. intros Hs Hst t Ht Hn. destruct (concurrent evs t) eqn:E; auto. exfalso.
    assert (H0 : (0 < concurrent evs t)%nat) by lia. apply concurrent_pos in H0 as (e & Hin & Hc).
    destruct (@slice_in_sorted bars t s0 mx Hs Ht) as [H|[H|H]]; [auto| |].
    + assert (s0 <= fst e)%Z; [|lia]. assert (Hf : In (fst e) (map fst ((s0, o0) :: es))).
      { unfold evs, fill_ends in Hin. apply in_map_iff in Hin as (p & <- & Hp). cbn [fst]. now apply in_map. }
      cbn [map fst] in Hf, Hst. inversion Hst as [|? ? ? Hf']; subst. rewrite Forall_forall in Hf'. destruct Hf as [->|Hf]; [lia|auto].
    + rewrite Hevs in Hin. apply max_end_ge in Hin. cbn [snd] in Hin. fold mx in Hin. lia.
Qed.

Lemma lookup_map_index A (f : Z -> A) t l : lookup t (map (fun u => (u, f u)) l) = if zmem t l then Some (f t) else None.
Proof.
  destruct (zmem t l) eqn:E.
  - apply lookup_index. now apply zmem_in.
  - apply lookup_none. rewrite map_map. cbn. rewrite map_id. intro H. apply zmem_in in H. congruence.
Qed.
Lemma fill_ends_some last_bar (events : list (Z * Z)) : fill_ends last_bar (map (fun e => (fst e, Some (snd e))) events) = events.
Proof. unfold fill_ends. rewrite map_map. rewrite <- (map_id events) at 2. apply map_ext. now intros [s e]. Qed.

(** ** average uniqueness *)
Lemma filter_map_pair A B (p : A -> bool) (f : A -> B) l : map snd (filter (fun r => p (fst r)) (map (fun t => (t, f t)) l)) = map f (filter p l).
Proof. induction l as [|x l IH]; cbn; auto. destruct (p x); cbn; now rewrite IH. Qed.
Lemma existsb_false_iff A (p : A -> bool) l : existsb p l = false <-> forall x, In x l -> p x = false.
Proof.
  split.
  - intros H x Hx. destruct (p x) eqn:E; auto. assert (existsb p l = true) by (apply existsb_exists; eauto). congruence.
  - intro H. destruct (existsb p l) eqn:E; auto. apply existsb_exists in E as (x & Hx & E). rewrite H in E; auto.
Qed.

Lemma label_uniqueness_spec bars (events : list (Z * Z)) : zssorted bars -> bars <> [] -> events <> [] -> zsorted (map fst events) ->
  label_avg_uniqueness bars events =
    Ok (map (fun e => (fst e, if (length (bars_of bars e) =? 0)%nat then None else Some (qmean (map (fun t => 1 / qn (concurrent events t)) (bars_of bars e))))) events).
Proof.
  intros Hs Hb He Hst. unfold label_avg_uniqueness.
  destruct (@count_events_spec bars (map (fun e => (fst e, Some (snd e))) events) Hb) as (i & j & Hc & Hz).
  { intro E. apply map_eq_nil in E. auto. }
  rewrite Hc. cbn [bind]. rewrite fill_ends_some in *. f_equal. apply map_ext_in. intros e Hin. f_equal.
  replace (map (fun t => (t, match lookup t (map (fun t0 => (t0, concurrent events t0)) (slice bars i j)) with Some c => c | None => 0%nat end)) bars)
    with (map (fun t => (t, concurrent events t)) bars).
  2:{ apply map_ext_in. intros t Ht. f_equal. rewrite lookup_map_index. destruct (zmem t (slice bars i j)) eqn:E; auto.
      apply Hz; auto; [rewrite map_map; auto|]. intro C. apply zmem_in in C. congruence. }
  rewrite (filter_map_pair (covers e)). unfold avg_inverse. rewrite map_length. change (filter (covers e) bars) with (bars_of bars e).
  replace (existsb (Nat.eqb 0) (map (concurrent events) (bars_of bars e))) with false; [rewrite orb_false_r, map_map; reflexivity|].
  symmetry. apply existsb_false_iff. intros c Hcin. apply in_map_iff in Hcin as (t & <- & Ht). apply filter_In in Ht as [_ Ht].
  assert (0 < concurrent events t)%nat by (apply concurrent_pos; exists e; split; auto; apply andb_prop in Ht; rewrite !Z.leb_le in Ht; lia).
  apply Nat.eqb_neq. lia.
Qed.

Lemma nth_seq_map A (d : A) (l : list A) : map (fun i => nth i l d) (seq 0 (length l)) = l.
Proof.
  apply nth_error_ext. intro i. rewrite nth_error_map. destruct (Nat.lt_ge_cases i (length l)) as [H|H].
  - rewrite (nth_error_nth' (seq 0 (length l)) 0%nat) by (rewrite seq_length; auto). rewrite seq_nth by auto. cbn. symmetry. now apply nth_error_nth'.
  - rewrite (proj2 (nth_error_None _ _)) by (rewrite seq_length; auto). symmetry. now apply nth_error_None.
Qed.
Lemma combine_map_same A B C (f : A -> B) (g : A -> C) l : combine (map f l) (map g l) = map (fun x => (f x, g x)) l.
Proof. induction l; cbn; congruence. Qed.

(** column means on a 0/1 matrix *)
Lemma col_uniqueness_spec n_bars cols col : is_indicator n_bars cols -> In col cols ->
  col_uniqueness (row_sums n_bars cols) col =
    mean_opt (map (fun i => 1 / qn (list_sum (map (fun c => nth i c 0%nat) cols))) (filter (fun i => (nth i col 0 =? 1)%nat) (seq 0 n_bars))).
Proof.
  intros Hi Hin. destruct (Hi _ Hin) as [Hlen H01]. unfold col_uniqueness, row_sums. f_equal.
  rewrite <- (nth_seq_map 0%nat col) at 1. rewrite Hlen, combine_map_same.
  assert (Hge : forall i, (nth i col 0 <= list_sum (map (fun c => nth i c 0) cols))%nat).
  { intro i. clear -Hin. induction cols as [|c cols IH]; [destruct Hin|]. cbn [map]. unfold list_sum in *. cbn [fold_right]. destruct Hin as [->|H]; [lia|]. specialize (IH H). lia. }
  assert (Hv : forall i, nth i col 0%nat = 0%nat \/ nth i col 0%nat = 1%nat).
  { intro i. destruct (Nat.lt_ge_cases i (length col)); [apply H01, nth_In; auto|left; now apply nth_overflow]. }
  induction (seq 0 n_bars) as [|i l IH]; [reflexivity|]. cbn [map filter snd fst].
  set (s := list_sum (map (fun c => nth i c 0%nat) cols)) in *. specialize (Hge i). fold s in Hge. destruct (Hv i) as [E|E]; rewrite E in *; cbn [Nat.eqb].
  - destruct (Nat.eqb_spec s 0); cbn [negb map filter fst snd]; [auto|].
    destruct (qlt 0 (qn 0 / qn s)) eqn:C; [|auto]. apply qlt_iff in C. rewrite qn_0 in C. exfalso.
    assert (E0 : 0 / qn s = 0) by (unfold Qcdiv; ring). rewrite E0 in C. qlra.
  - destruct (Nat.eqb_spec s 0); cbn [negb map filter fst snd]; [lia|].
    assert (P : 0 < qn 1 / qn s) by (apply Qcdiv_pos; apply qn_pos; lia). apply qlt_iff in P. rewrite P. change (qn 1) with 1 at 1. fold s. now rewrite IH.
Qed.

Lemma list_sum_indicator (f : nat -> list nat) i l : (forall k, In k l -> nth i (f k) 0%nat = 0%nat \/ nth i (f k) 0%nat = 1%nat) ->
  list_sum (map (fun c => nth i c 0%nat) (map f l)) = length (filter (fun k => (nth i (f k) 0 =? 1)%nat) l).
Proof.
  unfold list_sum. induction l as [|k l IH]; intro H; [reflexivity|]. cbn [map fold_right filter].
  rewrite IH by (intros; apply H; now right). destruct (H k (or_introl eq_refl)) as [E|E]; rewrite E; cbn [Nat.eqb length]; lia.
Qed.

Lemma indicator_sub n_bars cols l : is_indicator n_bars cols -> (forall k, In k l -> (k < length cols)%nat) -> is_indicator n_bars (map (fun i => nth i cols []) l).
Proof. intros Hi Hl c Hc. apply in_map_iff in Hc as (k & <- & Hk). apply Hi, nth_In. auto. Qed.
Lemma indicator_01 n_bars cols k i : is_indicator n_bars cols -> (k < length cols)%nat -> nth i (nth k cols []) 0%nat = 0%nat \/ nth i (nth k cols []) 0%nat = 1%nat.
Proof.
  intros Hi Hk. destruct (Hi (nth k cols []) (nth_In _ _ Hk)) as [_ H]. destruct (Nat.lt_ge_cases i (length (nth k cols []))); [apply H, nth_In; auto|left; now apply nth_overflow].
Qed.

Lemma trial_uniqueness_spec n_bars cols samples k : is_indicator n_bars cols -> (forall j, In j samples -> (j < length cols)%nat) -> (k < length cols)%nat ->
  trial_uniqueness n_bars cols samples k = mean_opt (map (fun i => 1 / qn (1 + drawn_on cols samples i)) (support n_bars cols k)).
Proof.
  intros Hi Hs Hk. unfold trial_uniqueness, avg_uniqueness.
  assert (Hall : forall j, In j (samples ++ [k]) -> (j < length cols)%nat) by (intros j Hj; apply in_app_iff in Hj as [Hj|[<-|[]]]; auto).
  assert (Hsub := indicator_sub Hi Hall).
  set (M := map (fun i => nth i cols []) (samples ++ [k])) in *.
  assert (EM : map (col_uniqueness (row_sums n_bars M)) M = map (col_uniqueness (row_sums n_bars M)) (map (fun i => nth i cols []) samples) ++ [col_uniqueness (row_sums n_bars M) (nth k cols [])]).
  { unfold M at 2. rewrite map_app, map_app. reflexivity. }
  rewrite EM, last_last. rewrite (col_uniqueness_spec Hsub) by (unfold M; apply in_map_iff; exists k; split; auto; apply in_app_iff; right; now left).
  f_equal. unfold support. apply map_ext_in. intros i Hin. apply filter_In in Hin as [_ Hin]. do 2 f_equal.
  unfold M. rewrite list_sum_indicator by (intros j Hj; apply (@indicator_01 n_bars); auto).
  rewrite filter_app, app_length. cbn [filter]. rewrite Hin. cbn [length]. unfold drawn_on. lia.
Qed.

Lemma filter_one_self A (f : A -> bool) l k x : nth_error l k = Some x -> f x = true ->
  (length (filter f l) = 1%nat <-> forall j y, j <> k -> nth_error l j = Some y -> f y = false).
Proof.
  revert k; induction l as [|a l IH]; intros [|k] Hk Hx; cbn [nth_error] in Hk; try discriminate.
  - injection Hk as ->. cbn [filter]. rewrite Hx. cbn [length]. split.
    + intros E [|j] y Hj Hy; [congruence|]. cbn in Hy. apply nth_error_In in Hy. destruct (f y) eqn:Ey; auto. exfalso.
      assert (In y (filter f l)) by (apply filter_In; auto). destruct (filter f l); [auto|discriminate].
    + intro H. f_equal. rewrite filter_none; auto. intros y Hy. apply In_nth_error in Hy as [j Hj]. apply (H (S j)); auto.
  - cbn [filter]. assert (Hin : In x (filter f l)) by (apply filter_In; split; auto; now apply nth_error_In in Hk).
    destruct (f a) eqn:Ea; cbn [length].
    + split; [intro E; destruct (filter f l); [destruct Hin|discriminate]|]. intro H. specialize (H 0%nat a ltac:(lia) eq_refl). congruence.
    + rewrite (IH k) by auto. split; intros H j y Hj Hy.
      * destruct j as [|j]; cbn in Hy; [congruence|]. apply (H j); auto.
      * apply (H (S j)); auto.
Qed.
Lemma inv_count_bounds c : (0 < c)%nat -> 0 < 1 / qn c /\ 1 / qn c <= 1 /\ (1 / qn c = 1 <-> c = 1%nat).
Proof.
  intro Hc. assert (P : 0 < qn c) by now apply qn_pos. split; [apply Qcdiv_pos; [reflexivity|auto]|]. split.
  - apply Qcdiv_le_iff; auto. replace (1 * qn c) with (qn c) by ring. change 1 with (qn 1). apply qn_le. lia.
  - split; [|intros ->; reflexivity]. intro E. apply qn_inj. change (qn 1) with 1. rewrite <- (Qcdiv_mul_cancel 1 (Qc_pos_neq P)), E. ring.
Qed.
Lemma qmean_inverse_bounds A (f : A -> nat) l : l <> [] -> (forall x, In x l -> (0 < f x)%nat) ->
  0 < qmean (map (fun x => 1 / qn (f x)) l) /\ qmean (map (fun x => 1 / qn (f x)) l) <= 1 /\
  (qmean (map (fun x => 1 / qn (f x)) l) = 1 <-> forall x, In x l -> f x = 1%nat).
Proof.
  intros Hl Hf. assert (P : 0 < qn (length l)) by (apply qn_pos; destruct l; [congruence|cbn; lia]).
  unfold qmean. rewrite map_length.
  assert (S1 : qsum (map (fun x => 1 / qn (f x)) l) <= qsum (map (fun _ : A => 1) l)) by (apply qsum_map_le; intros x Hx; now apply inv_count_bounds, Hf).
  rewrite qsum_map_const in S1. replace (qn (length l) * 1) with (qn (length l)) in S1 by ring.
  split; [apply Qcdiv_pos; auto; apply qsum_pos; [intro E; apply map_eq_nil in E; auto|]|split].
  - intros y Hy. apply in_map_iff in Hy as (x & <- & Hx). now apply inv_count_bounds, Hf.
  - apply Qcdiv_le_iff; auto. qlra.
  - split.
    + intros E x Hx. assert (E' : qsum (map (fun x => 1 / qn (f x)) l) = qn (length l)) by (rewrite <- (Qcdiv_mul_cancel (qsum _) (Qc_pos_neq P)), E; ring).
      assert (Z0 : qsum (map (fun x => 1 - 1 / qn (f x)) l) = 0) by (rewrite (@qsum_map_sub _ (fun _ => 1)), qsum_map_const, E'; ring).
      assert (1 - 1 / qn (f x) = 0).
      { eapply qsum_zero_all; [|exact Z0|apply in_map_iff; exists x; split; [reflexivity|auto]].
        intros y Hy. apply in_map_iff in Hy as (z & <- & Hz). destruct (inv_count_bounds (Hf z Hz)) as (_ & B & _). qlra. }
      apply inv_count_bounds; [now apply Hf|]. qlra.
    + intro H. assert (E : qsum (map (fun x => 1 / qn (f x)) l) = qn (length l)).
      { transitivity (qsum (map (fun _ : A => 1) l)); [apply (@qsum_map_ext _ _ (fun _ => 1)); intros x Hx; now rewrite (H x Hx)|rewrite qsum_map_const; ring]. }
      rewrite E. unfold Qcdiv. apply Qcmult_inv_r. now apply Qc_pos_neq.
Qed.

Lemma indicators_ok bars events : is_indicator (length bars) (indicators bars events).
Proof.
  intros c Hc. unfold indicators in Hc. apply in_map_iff in Hc as (e & <- & He). split; [apply map_length|].
  intros x Hx. apply in_map_iff in Hx as (t & <- & _). destruct (covers e t); auto.
Qed.
Lemma indicator_nth bars e i : (i < length bars)%nat -> nth i (map (fun t => if covers e t then 1%nat else 0%nat) bars) 0%nat = if covers e (nth i bars 0%Z) then 1%nat else 0%nat.
Proof. intro H. rewrite (nth_indep _ 0%nat ((fun t => if covers e t then 1%nat else 0%nat) 0%Z)) by now rewrite map_length. now rewrite (map_nth (fun t => if covers e t then 1%nat else 0%nat)). Qed.
Lemma seq_filter_nth (bars : list Z) (f : Z -> Qc) (p : Z -> bool) n : (n <= length bars)%nat ->
  map (fun i => f (nth i bars 0%Z)) (filter (fun i => p (nth i bars 0%Z)) (seq 0 n)) = map f (filter p (map (fun i => nth i bars 0%Z) (seq 0 n))).
Proof. intros _. induction (seq 0 n) as [|i l IH]; cbn [filter map]; auto. destruct (p (nth i bars 0%Z)); cbn [map]; now rewrite IH. Qed.
Lemma matrix_uniqueness bars events e : In e events ->
  col_uniqueness (row_sums (length bars) (indicators bars events)) (map (fun t => if covers e t then 1%nat else 0%nat) bars) =
  mean_opt (map (fun t => 1 / qn (concurrent events t)) (bars_of bars e)).
Proof.
  intro He. rewrite (col_uniqueness_spec (@indicators_ok bars events)) by (apply in_map_iff; eauto). f_equal.
  transitivity (map (fun i => 1 / qn (concurrent events (nth i bars 0%Z))) (filter (fun i => covers e (nth i bars 0%Z)) (seq 0 (length bars)))).
  - transitivity (map (fun i => 1 / qn (concurrent events (nth i bars 0%Z))) (filter (fun i => (nth i (map (fun t => if covers e t then 1%nat else 0%nat) bars) 0 =? 1)%nat) (seq 0 (length bars)))).
    + apply map_ext_in. intros i Hi. apply filter_In in Hi as [Hi _]. apply in_seq in Hi. do 2 f_equal.
      unfold indicators. rewrite map_map. unfold concurrent, list_sum. clear He. induction events as [|x l IH]; cbn [map fold_right filter]; auto.
      rewrite indicator_nth, IH by lia. unfold covers. destruct (_ && _); cbn [length]; lia.
    + f_equal. apply filter_ext_in'. intros i Hi. apply in_seq in Hi. rewrite indicator_nth by lia. now destruct (covers e _).
  - rewrite (@seq_filter_nth bars (fun t => 1 / qn (concurrent events t)) (covers e)) by auto. now rewrite nth_seq_map.
Qed.

(** ** attribution *)
Open Scope R_scope.
Lemma rsum_filter A (f : A -> R) (p : A -> bool) l : rsum (map f (filter p l)) = rsum (map (fun x => if p x then f x else 0) l).
Proof. induction l as [|x l IH]; cbn [filter map rsum]; auto. destruct (p x); cbn [map rsum]; rewrite IH; lra. Qed.
Lemma rsum_map_swap A B (f : A -> B -> R) la lb : rsum (map (fun a => rsum (map (f a) lb)) la) = rsum (map (fun b => rsum (map (fun a => f a b) la)) lb).
Proof.
  induction la as [|a la IH]; cbn [map rsum].
  - symmetry. now apply rsum_map_0.
  - rewrite IH, <- rsum_map_add. apply rsum_map_ext. intros; reflexivity.
Qed.
Lemma rsum_cover events t x : rsum (map (fun e => if covers e t then x else 0) events) = INR (concurrent events t) * x.
Proof.
  unfold concurrent. induction events as [|e l IH]; cbn [map rsum filter]; [cbn; lra|]. rewrite IH. unfold covers.
  destruct (_ && _); cbn [length]; [rewrite S_INR; lra|lra].
Qed.
Close Scope R_scope.

(** ** sort_index *)
From Coq Require Import Permutation.
Lemma insert_row_perm A (x : Z * A) l : Permutation (insert_row x l) (x :: l).
Proof. induction l as [|y l IH]; cbn; auto. destruct (_ <=? _)%Z; auto. rewrite IH. constructor. Qed.
Lemma sort_index_perm A (l : list (Z * A)) : Permutation (sort_index l) l.
Proof. induction l as [|x l IH]; cbn; auto. rewrite insert_row_perm. now constructor. Qed.
Lemma insert_row_sorted A (x : Z * A) l : zsorted (map fst l) -> zsorted (map fst (insert_row x l)).
Proof.
  induction l as [|y l IH]; cbn; intro H; [repeat constructor|]. inversion H as [|? ? Hs Hf]; subst.
  destruct (Z.leb_spec (fst x) (fst y)); cbn.
  - constructor; auto. constructor; auto. eapply Forall_impl; [|exact Hf]. cbn; intros; lia.
  - constructor; auto. apply Forall_forall. intros t Ht. rewrite Forall_forall in Hf.
    apply (Permutation_in _ (Permutation_map fst (insert_row_perm x l))) in Ht. destruct Ht as [<-|Ht]; [lia|auto].
Qed.
Lemma sort_index_sorted A (l : list (Z * A)) : zsorted (map fst (sort_index l)).
Proof. induction l as [|x l IH]; cbn; [constructor|]. now apply insert_row_sorted. Qed.
Lemma log_returns_fst prev bars : map fst (log_returns prev bars) = map fst bars.
Proof. revert prev; induction bars as [|[t p] bars IH]; intro prev; cbn; auto. now rewrite IH. Qed.
