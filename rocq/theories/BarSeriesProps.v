(** C156: bar times given as a pandas Series, as CombinatorialPurgedCV declares them. *)
From Verif Require Import Py CVModel CVSpec CVProofs CVProps CombModel BarSeriesModel.
Set Implicit Arguments.
Unset Strict Implicit.
Open Scope Z_scope.

Lemma map_fst_combine A B (xs : list A) (ys : list B) : length xs = length ys -> map fst (combine xs ys) = xs.
Proof. revert ys. induction xs as [|a xs IH]; intros [|b ys] H; cbn in *; try lia; auto. f_equal. apply IH. lia. Qed.
Lemma map_snd_combine A B (xs : list A) (ys : list B) : length xs = length ys -> map snd (combine xs ys) = ys.
Proof. revert ys. induction xs as [|a xs IH]; intros [|b ys] H; cbn in *; try lia; auto. f_equal. apply IH. lia. Qed.
Lemma increasing_NoDup (l : list Z) : zssorted l -> NoDup l.
Proof. induction 1 as [|a l H IH HF]; constructor; auto. intro K. rewrite Forall_forall in HF. apply HF in K. lia. Qed.

(** a Series of bar times with the default labels 0, 1, 2, ... *)
Definition default_series (bars : list Z) : series := combine (map (fun i => Num (Z.of_nat i)) (seq 0 (length bars))) bars.
(** a Series of bar times labelled by themselves, as [DatetimeIndex.to_series()] gives *)
Definition own_series (bars : list Z) : series := map (fun t => (Time t, t)) bars.

Lemma default_values bars : map snd (default_series bars) = bars.
Proof. unfold default_series. apply map_snd_combine. now rewrite map_length, seq_length. Qed.
Lemma default_length bars : length (default_series bars) = length bars.
Proof. rewrite <- (default_values bars) at 2. now rewrite map_length. Qed.
Lemma by_label_num t (s : series) : (forall l v, In (l, v) s -> exists z, l = Num z) -> by_label (Time t) s = None.
Proof. induction s as [|[l v] s IH]; intro H; auto. cbn. destruct (H l v) as [z ->]; [now left|]. cbn. apply IH. intros; eapply H; right; eauto. Qed.
Lemma default_labels bars l v : In (l, v) (default_series bars) -> exists i, l = Num (Z.of_nat i).
Proof. intro H. apply in_combine_l, in_map_iff in H as (i & <- & _). eauto. Qed.
Lemma lookup_map (F : Z -> option Z) bars t : In t bars -> lookup_time (map (fun t => (t, F t)) bars) t = Ok (F t).
Proof. induction bars as [|b bars IH]; intro H; [destruct H|]. cbn. destruct (Z.eqb_spec b t) as [->|N]; auto. apply IH. destruct H; [congruence|auto]. Qed.
Lemma mapM_lookup (F : Z -> option Z) emb (tests : list event) : (forall t, In t tests -> lookup_time emb (snd t) = Ok (F (snd t))) ->
  mapM (fun t => do e <- lookup_time emb (snd t); Ok (fst t, e)) tests = Ok (map (fun t => (fst t, F (snd t))) tests).
Proof. induction tests as [|t tests IH]; intro H; auto. cbn [mapM map]. rewrite (H t) by now left. cbn [bind]. rewrite IH by (intros; apply H; now right). reflexivity. Qed.
Lemma purge_in events (F : Z -> option Z) (tests : list event) i :
  In i (map fst (fold_left (fun rows t => filter (fun r => negb (overlaps_series (fst t) (snd t) (snd r))) rows) (map (fun t => (fst t, F (snd t))) tests) (combine (seq 0 (length events)) events))) <->
  exists e, nth_error events i = Some e /\ forall t b', In t tests -> F (snd t) = Some b' -> overlaps (fst t) b' e = false.
Proof.
  rewrite (@fold_filter (nat * event) (Z * option Z) (fun t r => negb (overlaps_series (fst t) (snd t) (snd r)))), in_map_iff. split.
  - intros [[j e] [<- H]]. apply filter_In in H as [H1 H2]. apply combine_seq_nth in H1 as [_ H1]. rewrite Nat.sub_0_r in H1. exists e. split; auto. intros t b' Ht Hb. rewrite forallb_forall in H2.
    specialize (H2 (fst t, F (snd t)) ltac:(apply in_map_iff; exists t; auto)). cbn in H2. rewrite Hb in H2. cbn in H2. now apply negb_true_iff in H2.
  - intros [e [H1 H2]]. exists (i, e). split; auto. apply filter_In. split; [apply combine_seq_nth; split; [lia|now rewrite Nat.sub_0_r]|].
    apply forallb_forall. intros x Hx. apply in_map_iff in Hx as (t & <- & Ht). cbn. destruct (F (snd t)) as [b'|] eqn:E; auto. cbn. now rewrite (H2 t b').
Qed.
Lemma purge_none events (tests : list event) :
  map fst (fold_left (fun rows t => filter (fun r => negb (overlaps_series (fst t) (snd t) (snd r))) rows) (map (fun t : event => (fst t, @None Z)) tests) (combine (seq 0 (length events)) events)) = seq 0 (length events).
Proof.
  rewrite (@fold_filter (nat * event) (Z * option Z) (fun t r => negb (overlaps_series (fst t) (snd t) (snd r)))).
  assert (E : forall rows : list (nat * event), filter (fun r => forallb (fun t => negb (overlaps_series (fst t) (snd t) (snd r))) (map (fun t : event => (fst t, @None Z)) tests)) rows = rows).
  { induction rows as [|r rows IH]; auto. cbn [filter]. rewrite IH. replace (forallb _ _) with true; auto. symmetry. apply forallb_forall. intros x Hx. apply in_map_iff in Hx as (t & <- & _). reflexivity. }
  rewrite E. apply map_fst_combine. now rewrite seq_length.
Qed.

(** ** C156 *)
(** REFUTED: with the default labels and an embargo of less than one bar nothing is purged at all, whatever the events and the test intervals *)
Theorem c156_default_labels_refuted events tests bars pct : embargo_bars (length bars) pct 0 -> (forall t, In t tests -> In (snd t) bars) ->
  apply_purging_series events tests (default_series bars) pct = Ok (seq 0 (length events)).
Proof.
  intros Hst Hin. apply embargo_step_spec in Hst. unfold apply_purging_series, embargo_times_series. rewrite default_length, default_values, Hst. cbn [Nat.eqb bind].
  unfold reindexed. rewrite (map_ext _ (fun t => (t, (fun _ : Z => @None Z) t))) by (intro t; rewrite by_label_num; auto; intros l v H; apply default_labels in H as [i ->]; eauto).
  rewrite (@mapM_lookup (fun _ => None)) by (intros t Ht; apply (@lookup_map (fun _ => None)); auto). cbn [bind]. f_equal. apply purge_none.
Qed.
(** so every split of CombinatorialPurgedCV trains on its own test events *)
Theorem c156_splits_leak_refuted bnd events bars pct grps train test : embargo_bars (length bars) pct 0 -> (forall e, In e events -> In (snd e) bars) ->
  cpcv_split_series bnd events (default_series bars) pct grps = Ok (train, test) -> train = seq 0 (length events) /\ forall i, In i test -> In i train.
Proof.
  intros Hst Hin. unfold cpcv_split_series. destruct (iloc events _) as [tests|] eqn:E; cbn [bind]; [|discriminate]. apply iloc_rows in E. unfold rows_at in E.
  assert (HT : forall t, In t tests -> In (snd t) bars).
  { intros t Ht. apply Hin. clear -E Ht. induction E as [|i a idx rows Hi E IH]; [destruct Ht|]. destruct Ht as [<-|Ht]; [eapply nth_error_In; eauto|auto]. }
  rewrite c156_default_labels_refuted by auto. cbn [bind]. intros [= <- <-]. split; auto. intros i Hi. apply in_seq. split; [lia|].
  clear -E Hi. induction E as [|j a idx rows Hj E IH]; [destruct Hi|]. destruct Hi as [<-|Hi]; [apply nth_error_Some; congruence|auto].
Qed.
(** with an embargo of a bar or more it raises *)
Theorem c156_default_labels_raises events tests bars pct step : embargo_bars (length bars) pct step -> (0 < step)%nat -> bars <> [] ->
  apply_purging_series events tests (default_series bars) pct = Err KeyError.
Proof.
  intros Hst H0 Hne. apply embargo_step_spec in Hst. unfold apply_purging_series, embargo_times_series. rewrite default_length, Hst. rewrite (proj2 (Nat.eqb_neq _ _)) by lia.
  replace (item_minus_one (default_series bars)) with (@Err Z KeyError); auto. destruct bars as [|b bars]; [congruence|]. unfold default_series at 1. cbn [length seq map combine item_minus_one].
  replace (by_label (Num (-1)) _) with (@None Z); auto. symmetry. change ((Num (Z.of_nat 0), b) :: combine (map (fun i => Num (Z.of_nat i)) (seq 1 (length bars))) bars) with (default_series (b :: bars)).
  pose proof (@default_labels (b :: bars)) as HL. induction (default_series (b :: bars)) as [|[l v] s IH]; auto. cbn [by_label]. destruct (HL l v) as [i ->]; [now left|]. replace (label_eqb (Num (-1)) (Num (Z.of_nat i))) with false by (symmetry; apply Z.eqb_neq; lia). apply IH. intros; eapply HL; right; eauto.
Qed.

(** labelled by themselves: the values are found again, so there is no shift *)
Lemma own_lookup bars t : by_label (Time t) (own_series bars) = if existsb (Z.eqb t) bars then Some t else None.
Proof. induction bars as [|b bars IH]; auto. cbn. destruct (Z.eqb_spec t b) as [->|N]; auto. Qed.
Lemma own_values bars : map snd (own_series bars) = bars.
Proof. unfold own_series. rewrite map_map. cbn. apply map_id. Qed.
Lemma own_length bars : length (own_series bars) = length bars.
Proof. apply map_length. Qed.
(** without embargo the result is the one with an array *)
Theorem c156_own_labels events tests bars pct : embargo_bars (length bars) pct 0 -> zssorted bars -> (forall t, In t tests -> In (snd t) bars) ->
  apply_purging_series events tests (own_series bars) pct = apply_purging_and_embargo events tests (Some bars) pct.
Proof.
  intros Hst Hb Hin. apply embargo_step_spec in Hst. assert (ND : NoDup bars) by now apply increasing_NoDup. unfold apply_purging_series, embargo_times_series. rewrite own_length, own_values, Hst. cbn [Nat.eqb bind].
  unfold reindexed. rewrite (map_ext _ (fun t => (t, (fun t : Z => if existsb (Z.eqb t) bars then Some t else None) t))) by (intro t; now rewrite own_lookup).
  rewrite (@mapM_lookup (fun t => if existsb (Z.eqb t) bars then Some t else None)) by (intros t Ht; apply lookup_map; auto). cbn [bind]. unfold apply_purging_and_embargo.
  assert (M : mapM (fun t => do e <- lookup (embargo_times bars pct) (snd t); Ok (fst t, e)) tests = Ok tests).
  { clear -Hin Hst ND. induction tests as [|t tests IH]; auto. cbn [mapM]. rewrite IH by (intros; apply Hin; now right). assert (K : In (snd t) bars) by (apply Hin; now left). apply In_nth_error in K as [i K].
    assert (B : bar_after bars (embargo_step (length bars) pct) (snd t) (snd t)). { exists i. split; auto. rewrite Hst, Nat.add_0_r, Nat.min_l; auto. assert (i < length bars)%nat by (apply nth_error_Some; congruence). lia. }
    rewrite (proj2 (lookup_embargo pct (snd t) (snd t) ND) B). cbn [bind]. now destruct t. }
  rewrite M. cbn [bind]. f_equal. unfold purged_train_indices. f_equal. clear M. generalize (combine (seq 0 (length events)) events). induction tests as [|t tests IH]; intro rows; auto. cbn [map fold_left].
  assert (E : existsb (Z.eqb (snd t)) bars = true) by (apply existsb_exists; exists (snd t); split; [apply Hin; now left|apply Z.eqb_refl]). cbn [fst snd]. rewrite E. cbn [overlaps_series]. apply IH. intros; apply Hin; now right.
Qed.
Lemma existsb_firstn (bars : list Z) m b k : NoDup bars -> nth_error bars k = Some b -> existsb (Z.eqb b) (firstn m bars) = (k <? m)%nat.
Proof.
  revert m k. induction bars as [|c bars IH]; intros m k ND Hk; [destruct k; discriminate|]. inversion ND; subst. destruct m as [|m]; [destruct k; reflexivity|]. cbn [firstn existsb].
  destruct k as [|k]; cbn in Hk; [injection Hk as ->; now rewrite Z.eqb_refl|]. rewrite (IH m k) by auto. replace (b =? c) with false; [reflexivity|]. symmetry. apply Z.eqb_neq. intros ->. apply H1. eapply nth_error_In; eauto.
Qed.
Lemma existsb_skipn (bars : list Z) m b k : NoDup bars -> nth_error bars k = Some b -> existsb (Z.eqb b) (skipn m bars) = (m <=? k)%nat.
Proof.
  revert m k. induction bars as [|c bars IH]; intros m k ND Hk; [destruct k; discriminate|]. inversion ND; subst. destruct m as [|m]; cbn [skipn].
  - apply existsb_exists. exists b. split; [eapply nth_error_In; eauto|apply Z.eqb_refl].
  - destruct k as [|k]; cbn in Hk; [|now rewrite (IH m k)]. injection Hk as ->. cbn [Nat.leb]. apply not_true_iff_false. intro K. apply existsb_exists in K as (x & Hx & ->%Z.eqb_eq). apply H1. rewrite <- (firstn_skipn m bars). apply in_app_iff. now right.
Qed.
Lemma lookup_app m1 m2 k : lookup_time (m1 ++ m2) k = match lookup_time m1 k with Ok v => Ok v | Err _ => lookup_time m2 k end.
Proof. induction m1 as [|[a v] m1 IH]; auto. cbn. destruct (a =? k); auto. Qed.
Lemma lookup_absent (F : Z -> option Z) bars t : ~ In t bars -> lookup_time (map (fun t => (t, F t)) bars) t = Err KeyError.
Proof. induction bars as [|b bars IH]; intro H; auto. cbn. destruct (Z.eqb_spec b t) as [->|N]; [exfalso; apply H; now left|]. apply IH. intro; apply H; now right. Qed.
(** REFUTED: with an embargo of [step] bars a test interval that ends in the first [step] bars purges nothing, one that ends before the last [step]
    bars is not extended, and one that ends in the last [step] bars reaches to the last bar *)
Definition extended (bars : list Z) (step : nat) (b : Z) (b' : option Z) : Prop :=
  exists k, nth_error bars k = Some b /\ b' = if (length bars - step <=? k)%nat then Some (last bars 0) else if (k <? step)%nat then None else Some b.
Lemma extended_le bars step (t : event) b' : zssorted bars -> proper t -> extended bars step (snd t) (Some b') -> fst t <= b'.
Proof.
  intros Hb Ht (k & Hk & E). unfold proper in Ht. destruct (_ <=? k)%nat; [injection E as ->|destruct (k <? step)%nat; [discriminate|injection E as ->; lia]].
  enough (snd t <= last bars 0) by lia. apply nth_error_In in Hk. clear -Hb Hk. induction Hb as [|a l H IH HF]; [destruct Hk|]. destruct l as [|c l]; [cbn in *; intuition lia|].
  change (last (a :: c :: l) 0) with (last (c :: l) 0). destruct Hk as [->|Hk]; [|auto]. rewrite Forall_forall in HF. specialize (HF c ltac:(now left)). specialize (IH). assert (K : c <= last (c :: l) 0); [|lia].
  clear -H. revert c H. induction l as [|d l IH]; intros c H; cbn; [lia|]. inversion H; subst. rewrite Forall_forall in H3. specialize (H3 d ltac:(now left)). specialize (IH d H2). cbn in IH. lia.
Qed.
Theorem c156_own_labels_refuted events tests bars pct step : embargo_bars (length bars) pct step -> (0 < step)%nat -> zssorted bars -> (forall e, In e events -> proper e) -> (forall t, In t tests -> proper t) ->
  (forall t, In t tests -> In (snd t) bars) ->
  exists train, apply_purging_series events tests (own_series bars) pct = Ok train /\
    forall i, In i train <-> exists e, nth_error events i = Some e /\ forall t b', In t tests -> extended bars step (snd t) (Some b') -> ~ meets e (fst t, b').
Proof.
  intros Hst H0 Hb He Ht Hin. apply embargo_step_spec in Hst. assert (ND : NoDup bars) by now apply increasing_NoDup.
  set (n := length bars) in *. set (F := fun b => if existsb (Z.eqb b) (firstn (n - step) bars) then (if existsb (Z.eqb b) (skipn step bars) then Some b else None) else Some (last bars 0)).
  assert (HF : forall b k, nth_error bars k = Some b -> F b = if (n - step <=? k)%nat then Some (last bars 0) else if (k <? step)%nat then None else Some b).
  { intros b k Hk. assert (Kn : (k < n)%nat) by (apply nth_error_Some; congruence). unfold F. rewrite (@existsb_firstn bars (n - step) b k), (@existsb_skipn bars step b k) by auto.
    destruct (Nat.leb_spec (n - step) k), (Nat.ltb_spec k (n - step)), (Nat.ltb_spec k step), (Nat.leb_spec step k); auto; lia. }
  assert (HL : item_minus_one (own_series bars) = Ok (last bars 0) \/ bars = []).
  { destruct bars as [|b bars']; [now right|left]. cbn. f_equal. rewrite map_map. cbn [snd]. rewrite map_id. clear. revert b. induction bars' as [|c l IH]; intro b; auto. cbn [last]. destruct l; auto. }
  destruct HL as [HL|HL].
  2:{ exfalso. subst bars. subst n. unfold embargo_step in Hst. cbn in Hst. lia. }
  exists (map fst (fold_left (fun rows t => filter (fun r => negb (overlaps_series (fst t) (snd t) (snd r))) rows) (map (fun t : event => (fst t, F (snd t))) tests) (combine (seq 0 (length events)) events))). split.
  - unfold apply_purging_series, embargo_times_series. rewrite own_length, own_values. fold n. rewrite Hst, (proj2 (Nat.eqb_neq _ _)), HL by lia. cbn [bind].
    rewrite (@mapM_lookup F); [reflexivity|]. intros t Hti. apply Hin in Hti. unfold reindexed. replace (skipn step (own_series bars)) with (own_series (skipn step bars)) by (unfold own_series; now rewrite skipn_map).
    set (G := fun t => by_label (Time t) (own_series (skipn step bars))). change (map (fun t => (t, by_label (Time t) (own_series (skipn step bars))))) with (map (fun t => (t, G t))). rewrite lookup_app.
    destruct (existsb (Z.eqb (snd t)) (firstn (n - step) bars)) eqn:E.
    + pose proof E as E'. apply existsb_exists in E' as (x & Hx & Ex). apply Z.eqb_eq in Ex. rewrite (@lookup_map G) by congruence. unfold F, G. now rewrite own_lookup, E.
    + rewrite (@lookup_absent G). 2:{ intro K. rewrite (proj2 (existsb_exists _ _)) in E; [discriminate|]. exists (snd t). split; auto. apply Z.eqb_refl. }
      rewrite (@lookup_map (fun _ => Some (last bars 0))).
      * unfold F. now rewrite E.
      * rewrite <- (firstn_skipn (n - step) bars) in Hti. apply in_app_iff in Hti as [K|K]; auto. rewrite (proj2 (existsb_exists _ _)) in E; [discriminate|]. exists (snd t). split; auto. apply Z.eqb_refl.
  - intro i. rewrite purge_in. split; intros (e & H1 & H2); exists e; split; auto.
    + intros t b' Hti (k & Hk & Eb) M. specialize (H2 t b' Hti). rewrite (HF _ _ Hk) in H2. specialize (H2 (eq_sym Eb)).
      assert (X : extended bars step (snd t) (Some b')) by (exists k; auto). assert (LE : fst t <= b') by (eapply extended_le; eauto). rewrite <- (overlaps_meets LE) in M by (eapply He, nth_error_In; eauto). congruence.
    + intros t b' Hti EF. destruct (In_nth_error _ _ (Hin t Hti)) as [k Hk]. rewrite (HF _ _ Hk) in EF.
      assert (X : extended bars step (snd t) (Some b')) by (exists k; auto).
      assert (LE : fst t <= b') by (eapply extended_le; eauto). destruct (overlaps (fst t) b' e) eqn:O; auto. exfalso. apply (H2 t b' Hti X). apply overlaps_meets; auto. eapply He, nth_error_In; eauto.
Qed.

(** ** C158 *)
Lemma own_last bars : bars <> [] -> item_minus_one (own_series bars) = Ok (last bars 0) /\ py_last bars = Ok (last bars 0).
Proof.
  intro H. destruct bars as [|b bars]; [congruence|]. split.
  - cbn. f_equal. rewrite map_map. cbn [snd]. rewrite map_id. clear. revert b. induction bars as [|c l IH]; intro b; auto. cbn [last]. destruct l; auto.
  - rewrite (app_removelast_last 0 H) at 1. unfold py_last. now rewrite rev_unit.
Qed.
Lemma default_last bars : bars <> [] -> item_minus_one (default_series bars) = Err KeyError.
Proof.
  intro H. destruct bars as [|b bars]; [congruence|]. unfold default_series at 1. cbn [length seq map combine item_minus_one].
  replace (by_label (Num (-1)) _) with (@None Z); auto. symmetry. change ((Num (Z.of_nat 0), b) :: combine (map (fun i => Num (Z.of_nat i)) (seq 1 (length bars))) bars) with (default_series (b :: bars)).
  pose proof (@default_labels (b :: bars)) as HL. induction (default_series (b :: bars)) as [|[l v] s IH]; auto. cbn [by_label]. destruct (HL l v) as [i ->]; [now left|]. replace (label_eqb (Num (-1)) (Num (Z.of_nat i))) with false by (symmetry; apply Z.eqb_neq; lia). apply IH. intros; eapply HL; right; eauto.
Qed.
(** REFUTED: with the default labels both raise, whatever the events *)
Theorem c158_default_labels_refuted bars events : bars <> [] ->
  (forall budget, budgeted_size_series (default_series bars) events budget = Err KeyError) /\ (forall fit, mixture_size_series (default_series bars) events fit = Err KeyError).
Proof. intro H. unfold budgeted_size_series, mixture_size_series, count_events_series. rewrite (default_last H). split; reflexivity. Qed.
(** labelled by the times themselves it is the same as with an array *)
Theorem c158_own_labels bars events : bars <> [] ->
  (forall budget, budgeted_size_series (own_series bars) events budget = PositionModel.budgeted_position_size bars events budget) /\
  (forall fit, mixture_size_series (own_series bars) events fit = PositionModel.gaussian_mixture_position_size bars events fit).
Proof.
  intro H. assert (E : forall ev, count_events_series (own_series bars) ev = WeightModel.count_events_per_bar bars ev).
  { intro ev. unfold count_events_series, WeightModel.count_events_per_bar. destruct (own_last H) as [-> ->]. now rewrite own_values. }
  unfold budgeted_size_series, mixture_size_series. split; intros; rewrite !E, own_values; reflexivity.
Qed.

(** *** Non-vacuity: one event ends at bar 20 and is the test set; it stays in the training set *)
Definition bs_bars : list Z := [10; 20; 30; 40].
Definition bs_events : list event := [(10, 20); (20, 30); (30, 40)].
Example c156_case : apply_purging_series bs_events [(10, 20)] (default_series bs_bars) 0%Qc = Ok [0; 1; 2]%nat /\
  apply_purging_and_embargo bs_events [(10, 20)] (Some bs_bars) 0%Qc = Ok [2]%nat /\
  apply_purging_series bs_events [(10, 20)] (default_series bs_bars) (Q2Qc (1 # 4)) = Err KeyError /\
  apply_purging_series bs_events [(10, 20)] (own_series bs_bars) (Q2Qc (1 # 4)) = Ok [2]%nat /\
  apply_purging_and_embargo bs_events [(10, 20)] (Some bs_bars) (Q2Qc (1 # 4)) = Ok [] /\
  apply_purging_series bs_events [(5, 10)] (own_series bs_bars) (Q2Qc (1 # 4)) = Ok [0; 1; 2]%nat /\
  cpcv_split_series (fun g => g) bs_events (default_series bs_bars) 0%Qc [0%nat] = Ok ([0; 1; 2], [0])%nat.
Proof. repeat split; vm_compute; reflexivity. Qed.
Example c156_hyps : embargo_bars (length bs_bars) 0%Qc 0 /\ embargo_bars (length bs_bars) (Q2Qc (1 # 4)) 1 /\ zssorted bs_bars /\ (forall e, In e bs_events -> In (snd e) bs_bars) /\ (forall e, In e bs_events -> proper e).
Proof.
  split; [split; now vm_compute|]. split; [split; vm_compute; congruence|]. split; [repeat constructor; lia|]. split; intros e H; cbn in H; destruct H as [<-|[<-|[<-|[]]]]; cbn; auto; unfold proper; cbn; lia.
Qed.
Example c158_case : budgeted_size_series (own_series bs_bars) [(10, Some 20, 1); (20, Some 30, -1)] PositionModel.max_budget = Ok [(10, 1%Qc); (20, 0%Qc); (30, (- (1))%Qc); (40, 0%Qc)] /\
  budgeted_size_series (default_series bs_bars) [(10, Some 20, 1); (20, Some 30, -1)] PositionModel.max_budget = Err KeyError.
Proof. split; vm_compute; reflexivity. Qed.
Print Assumptions c158_default_labels_refuted.
Print Assumptions c158_own_labels.
Print Assumptions c156_default_labels_refuted.
Print Assumptions c156_splits_leak_refuted.
Print Assumptions c156_default_labels_raises.
Print Assumptions c156_own_labels.
Print Assumptions c156_own_labels_refuted.
