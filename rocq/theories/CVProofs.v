(** Lemmas about cross_validation.py. *)
From Verif Require Import Py CVModel CVSpec.
Set Implicit Arguments.
Unset Strict Implicit.
Open Scope Z_scope.

Lemma overlaps_meets a b e : a <= b -> proper e -> (overlaps a b e = true <-> meets e (a, b)).
Proof.
  destruct e as [s t]. unfold overlaps, proper, meets. cbn [fst snd]. intros Hab Hst. split.
  - intro H. exists (Z.max a s). apply orb_prop in H. destruct H as [H|H]; [apply orb_prop in H; destruct H as [H|H]|];
      apply andb_prop in H; destruct H as [H1 H2]; apply Z.leb_le in H1, H2; lia.
  - intros [x [H1 H2]].
    destruct (Z.leb_spec a s), (Z.leb_spec s b), (Z.leb_spec a t), (Z.leb_spec t b), (Z.leb_spec s a), (Z.leb_spec b t); cbn; auto; lia.
Qed.

Lemma fold_filter A B (f : B -> A -> bool) ts rows :
  fold_left (fun rs t => filter (f t) rs) ts rows = filter (fun r => forallb (fun t => f t r) ts) rows.
Proof.
  revert rows. induction ts as [|t ts IH]; intro rows; cbn [fold_left forallb].
  - induction rows as [|r rows IH]; cbn; congruence.
  - rewrite IH. clear. induction rows as [|r rows IH]; auto. cbn [filter].
    destruct (f t r); cbn [filter andb]; rewrite IH; reflexivity.
Qed.

Lemma purged_spec events tests :
  purged_train_indices events tests =
  map fst (filter (fun r => forallb (fun t => negb (overlaps (fst t) (snd t) (snd r))) tests) (combine (seq 0 (length events)) events)).
Proof. unfold purged_train_indices. now rewrite fold_filter. Qed.

Lemma combine_seq_nth A (l : list A) s i x : In (i, x) (combine (seq s (length l)) l) <-> (s <= i)%nat /\ nth_error l (i - s) = Some x.
Proof.
  revert s i. induction l as [|a l IH]; intros s i; cbn [length seq combine In].
  - split; [tauto|]. intros [_ H]. destruct (i - s)%nat; discriminate.
  - rewrite IH. split.
    + intros [H|[H1 H2]].
      * inversion H; subst. split; auto. now rewrite Nat.sub_diag.
      * split; [lia|]. replace (i - s)%nat with (S (i - S s)) by lia. exact H2.
    + intros [H1 H2]. destruct (Nat.eq_dec s i) as [->|N].
      * left. rewrite Nat.sub_diag in H2. cbn in H2. congruence.
      * right. split; [lia|]. replace (i - s)%nat with (S (i - S s)) in H2 by lia. exact H2.
Qed.

Lemma increasing_filter_map A (f : nat * A -> bool) (l : list A) s :
  increasing (map fst (filter f (combine (seq s (length l)) l))) /\
  forall i, In i (map fst (filter f (combine (seq s (length l)) l))) -> (s <= i)%nat.
Proof.
  revert s. induction l as [|a l IH]; intro s; cbn [length seq combine filter map].
  - split; [constructor|]. intros i [].
  - destruct (IH (S s)) as [H1 H2]. destruct (f (s, a)); cbn [map fst].
    + split.
      * constructor; auto. apply Forall_forall. intros i Hi. specialize (H2 i Hi). lia.
      * intros i [<-|Hi]; auto. specialize (H2 i Hi). lia.
    + split; auto. intros i Hi. specialize (H2 i Hi). lia.
Qed.

Lemma purged_in events tests i :
  In i (purged_train_indices events tests) <->
  exists e, nth_error events i = Some e /\ forall t, In t tests -> overlaps (fst t) (snd t) e = false.
Proof.
  rewrite purged_spec, in_map_iff. split.
  - intros [[j e] [<- H]]. apply filter_In in H. destruct H as [H1 H2]. apply combine_seq_nth in H1. destruct H1 as [_ H1].
    rewrite Nat.sub_0_r in H1. exists e. split; auto. intros t Ht. rewrite forallb_forall in H2. specialize (H2 t Ht).
    cbn in H2. now apply negb_true_iff in H2.
  - intros [e [H1 H2]]. exists (i, e). split; auto. apply filter_In. split.
    + apply combine_seq_nth. split; [lia|]. now rewrite Nat.sub_0_r.
    + apply forallb_forall. intros t Ht. cbn. rewrite H2; auto.
Qed.

Lemma purged_increasing events tests : increasing (purged_train_indices events tests).
Proof. rewrite purged_spec. apply increasing_filter_map. Qed.

(** ** Embargo *)
Lemma embargo_step_le n p1 p2 : (p1 <= p2)%Qc -> (0 <= p1)%Qc -> (embargo_step n p1 <= embargo_step n p2)%nat.
Proof.
  intros H H0. unfold embargo_step. pose proof (qn_nonneg n) as Hn.
  assert (A : (0 <= qn n * p1)%Qc) by (apply Qcmul_nonneg; auto).
  assert (B : (qn n * p1 <= qn n * p2)%Qc) by qnra.
  unfold qtrunc. destruct (qle_spec 0 (qn n * p1)) as [_|C]; [|contradiction].
  destruct (qle_spec 0 (qn n * p2)) as [_|C]; [|exfalso; apply C; qlra].
  apply qfloor_mono in B. lia.
Qed.

Lemma last_nth_error A (l : list A) d : l <> [] -> nth_error l (length l - 1) = Some (last l d).
Proof.
  intro H. destruct (exists_last H) as [l' [a ->]]. rewrite last_last, app_length. cbn.
  rewrite nth_error_app2 by lia. now replace (length l' + 1 - 1 - length l')%nat with 0%nat by lia.
Qed.

Lemma nth_error_combine2 A B (l1 : list A) (l2 : list B) i a b :
  nth_error l1 i = Some a -> nth_error l2 i = Some b -> nth_error (combine l1 l2) i = Some (a, b).
Proof.
  revert l2 i. induction l1 as [|x l1 IH]; intros [|y l2] [|i] H1 H2; try discriminate; cbn in *; [congruence|auto].
Qed.

Lemma embargo_times_nth bars pct i b : nth_error bars i = Some b ->
  exists b', nth_error (embargo_times bars pct) i = Some (b, b') /\
    nth_error bars (Nat.min (i + embargo_step (length bars) pct) (length bars - 1)) = Some b'.
Proof.
  intro H. assert (L : (i < length bars)%nat) by (apply nth_error_Some; congruence).
  unfold embargo_times. set (step := embargo_step _ _). set (n := length bars) in *.
  destruct (Nat.eqb_spec step 0) as [E|E].
  - exists b. split; [now apply nth_error_combine2|]. replace (Nat.min (i + step) (n - 1)) with i by lia. auto.
  - destruct (Nat.lt_ge_cases i (n - step)) as [A|A].
    + replace (Nat.min (i + step) (n - 1)) with (step + i)%nat by lia.
      destruct (nth_error bars (step + i)) as [b'|] eqn:EB; [|apply nth_error_None in EB; fold n in EB; lia].
      exists b'. split; auto. rewrite nth_error_app1.
      * apply nth_error_combine2; [now rewrite nth_error_firstn_lt|now rewrite nth_error_skipn].
      * rewrite combine_length, firstn_length, skipn_length. fold n. lia.
    + replace (Nat.min (i + step) (n - 1)) with (n - 1)%nat by lia.
      exists (last bars 0). split; [|apply last_nth_error; intros ->; cbn in L; lia].
      rewrite nth_error_app2; rewrite combine_length, firstn_length, skipn_length; fold n; [|lia].
      replace (Nat.min (Nat.min (n - step) n) (n - step))%nat with (n - step)%nat by lia.
      rewrite nth_error_map, nth_error_skipn. replace (n - step + (i - (n - step)))%nat with i by lia. now rewrite H.
Qed.

Lemma embargo_times_length bars pct : length (embargo_times bars pct) = length bars.
Proof.
  unfold embargo_times. set (step := embargo_step _ _). set (n := length bars).
  destruct (Nat.eqb_spec step 0).
  - rewrite combine_length. fold n. lia.
  - rewrite app_length, combine_length, map_length, firstn_length, !skipn_length. fold n. lia.
Qed.

Lemma embargo_keys bars pct : map fst (embargo_times bars pct) = bars.
Proof.
  apply nth_error_ext. intro i. rewrite nth_error_map.
  destruct (nth_error bars i) as [b|] eqn:E.
  - destruct (embargo_times_nth pct E) as [b' [-> _]]. reflexivity.
  - replace (nth_error (embargo_times bars pct) i) with (@None (Z * Z)); auto. symmetry. apply nth_error_None.
    rewrite embargo_times_length. now apply nth_error_None.
Qed.

Lemma lookup_ok m k v : NoDup (map fst m) -> (lookup m k = Ok v <-> In (k, v) m).
Proof.
  induction m as [|[k' v'] m IH]; intro ND; cbn [lookup map fst] in *.
  - split; [discriminate|intros []].
  - inversion ND as [|x l N ND']; subst. destruct (Z.eqb_spec k' k) as [->|E].
    + split.
      * intros [= ->]. now left.
      * intros [[= ->]|H]; auto. exfalso. apply N. apply (in_map fst) in H. exact H.
    + rewrite IH by auto. split; [now right|]. intros [[= ? ?]|H]; [congruence|auto].
Qed.
Lemma lookup_err m k e : lookup m k = Err e -> e = KeyError /\ ~ In k (map fst m).
Proof.
  induction m as [|[k' v'] m IH]; cbn [lookup map fst In]; [intros [= <-]; auto|].
  destruct (Z.eqb_spec k' k); [discriminate|]. intro H. destruct (IH H). split; auto. tauto.
Qed.

Lemma lookup_embargo bars pct b b' : NoDup bars ->
  (lookup (embargo_times bars pct) b = Ok b' <-> bar_after bars (embargo_step (length bars) pct) b b').
Proof.
  intro ND. rewrite lookup_ok by now rewrite embargo_keys. split.
  - intro H. apply In_nth_error in H. destruct H as [i H].
    assert (E : nth_error bars i = Some b) by (rewrite <- (embargo_keys bars pct), nth_error_map, H; reflexivity).
    exists i. split; auto. destruct (embargo_times_nth pct E) as [b2 [H1 H2]]. congruence.
  - intros [i [H1 H2]]. destruct (embargo_times_nth pct H1) as [b2 [H3 H4]]. apply nth_error_In with i. congruence.
Qed.

(** ** Folds *)
Lemma split_sizes_concat sizes from : concat (split_sizes sizes from) = seq from (list_sum sizes).
Proof.
  revert from. induction sizes as [|s sizes IH]; intro from; auto.
  cbn [split_sizes concat]. rewrite IH. change (list_sum (s :: sizes)) with (s + list_sum sizes)%nat. now rewrite seq_app.
Qed.
Lemma split_sizes_lengths sizes from : map (@length nat) (split_sizes sizes from) = sizes.
Proof. revert from. induction sizes; intro; cbn; auto. rewrite seq_length. now rewrite IHsizes. Qed.

Lemma list_sum_repeat x n : list_sum (repeat x n) = (n * x)%nat.
Proof. induction n; auto. cbn [repeat]. change (list_sum (x :: repeat x n)) with (x + list_sum (repeat x n))%nat. lia. Qed.

Lemma array_split_concat n k : (0 < k)%nat -> concat (array_split n k) = seq 0 n.
Proof.
  intro H. unfold array_split. rewrite split_sizes_concat. f_equal. rewrite list_sum_app, !list_sum_repeat.
  pose proof (Nat.div_mod n k) as D. pose proof (Nat.mod_upper_bound n k) as U.
  assert (n = k * (n / k) + n mod k)%nat by (apply D; lia).
  assert (n mod k < k)%nat by (apply U; lia). nia.
Qed.
Lemma array_split_lengths n k : map (@length nat) (array_split n k) = (repeat (n / k + 1) (n mod k) ++ repeat (n / k) (k - n mod k))%nat.
Proof. apply split_sizes_lengths. Qed.
Lemma array_split_length n k : (0 < k)%nat -> length (array_split n k) = k.
Proof.
  intro H. rewrite <- (map_length (@length nat)), array_split_lengths, app_length, !repeat_length.
  pose proof (Nat.mod_upper_bound n k). lia.
Qed.
Lemma array_split_sizes n k p : (0 < k)%nat -> In p (array_split n k) -> (n / k <= length p <= n / k + 1)%nat.
Proof.
  intros H Hp. apply (in_map (@length nat)) in Hp. rewrite array_split_lengths in Hp. apply in_app_iff in Hp.
  destruct Hp as [Hp|Hp]; apply repeat_spec in Hp; lia.
Qed.

(** each part is a range *)
Lemma split_sizes_seq sizes from p : In p (split_sizes sizes from) -> exists a, (from <= a)%nat /\ p = seq a (length p) /\ (a + length p <= from + list_sum sizes)%nat.
Proof.
  revert from. induction sizes as [|s sizes IH]; intros from [].
  - subst p. exists from. rewrite seq_length. split; [lia|]. split; auto. change (list_sum (s :: sizes)) with (s + list_sum sizes)%nat. lia.
  - destruct (IH _ H) as [a [A [B C]]]. exists a. split; [lia|]. split; auto. change (list_sum (s :: sizes)) with (s + list_sum sizes)%nat. lia.
Qed.

Lemma slice_seq n a len : (a + len <= n)%nat -> slice (seq 0 n) a (a + len) = seq a len.
Proof.
  intro H. unfold slice. replace n with (a + (len + (n - a - len)))%nat by lia.
  rewrite seq_app, skipn_app. rewrite seq_length, Nat.sub_diag. cbn [skipn].
  rewrite skipn_all2 by (rewrite seq_length; lia). cbn [app]. rewrite seq_app, firstn_app, seq_length.
  replace (a + len - a - len)%nat with 0%nat by lia. cbn [firstn]. rewrite app_nil_r.
  replace (a + len - a)%nat with len by lia. rewrite firstn_all2 by (rewrite seq_length; lia). reflexivity.
Qed.

Lemma last_seq a len d : (0 < len)%nat -> last (seq a len) d = (a + len - 1)%nat.
Proof. intro H. destruct len as [|len]; [lia|]. rewrite seq_S, last_last. lia. Qed.

Lemma fold_max_spec l x : is_max (fun y => y) (x :: l) (fold_left Z.max l x).
Proof.
  revert x. induction l as [|y l IH]; intro x; cbn [fold_left].
  - split; [exists x; cbn; auto|]. intros a [->|[]]. lia.
  - destruct (IH (Z.max x y)) as [[a [H1 H2]] H3]. split.
    + destruct H1 as [<-|H1]; [|exists a; cbn; auto].
      destruct (Z.max_spec x y) as [[_ M]|[_ M]]; [exists y|exists x]; rewrite <- H2, M; cbn; auto.
    + intros b [<-|[<-|H]].
      * specialize (H3 (Z.max x y) (or_introl eq_refl)). cbn in H3. lia.
      * specialize (H3 (Z.max x y) (or_introl eq_refl)). cbn in H3. lia.
      * apply H3. now right.
Qed.

Lemma increasing_seq s n : increasing (seq s n).
Proof.
  revert s. induction n; intro s; cbn; constructor; [apply IHn|]. apply Forall_forall. intros x Hx. apply in_seq in Hx. lia.
Qed.
Lemma increasing_filter f l : increasing l -> increasing (filter f l).
Proof.
  induction 1 as [|a l H IH HF]; cbn; [constructor|]. destruct (f a); auto. constructor; auto.
  apply Forall_forall. intros x Hx. apply filter_In in Hx. rewrite Forall_forall in HF. now apply HF.
Qed.
Lemma increasing_app l1 l2 : increasing l1 -> increasing l2 -> (forall x y, In x l1 -> In y l2 -> (x < y)%nat) -> increasing (l1 ++ l2).
Proof.
  induction 1 as [|a l H IH HF]; intros H2 HX; cbn; auto. constructor.
  - apply IH; auto. intros; apply HX; auto. now right.
  - apply Forall_forall. intros x Hx. apply in_app_iff in Hx. destruct Hx; [rewrite Forall_forall in HF; now apply HF|].
    apply HX; auto. now left.
Qed.
Lemma skipn_seq k n : skipn k (seq 0 n) = seq k (n - k).
Proof.
  destruct (Nat.le_gt_cases k n).
  - replace (seq 0 n) with (seq 0 (k + (n - k))) by (f_equal; lia). rewrite seq_app, skipn_app, seq_length, Nat.sub_diag.
    rewrite skipn_all2 by (rewrite seq_length; lia). reflexivity.
  - rewrite skipn_all2 by (rewrite seq_length; lia). replace (n - k)%nat with 0%nat by lia. reflexivity.
Qed.

(** number of leading starts <= v is the number of starts <= v *)
Lemma searchsorted_right_count l v : zsorted l -> searchsorted_right l v = length (filter (fun x => x <=? v) l).
Proof.
  induction 1 as [|a l H IH HF]; auto. cbn [searchsorted_right filter]. destruct (Z.leb_spec a v) as [L|L].
  - cbn [length]. now rewrite IH.
  - rewrite Forall_forall in HF. symmetry. apply length_zero_iff_nil.
    destruct (filter _ l) as [|x r] eqn:E; auto. assert (In x (filter (fun x => x <=? v) l)) by (rewrite E; now left).
    apply filter_In in H0. destruct H0 as [H0 H1]. apply HF in H0. apply Z.leb_le in H1. lia.
Qed.

Section KFold.
  Variable events : list event.
  Hypothesis Hsort : zsorted (map fst events).
  Hypothesis Hprop : forall e, In e events -> proper e.

  Lemma starts_le i j a b : (i <= j)%nat -> nth_error events i = Some a -> nth_error events j = Some b -> fst a <= fst b.
  Proof.
    intros H A B. apply (@sorted_nth_le (map fst events) i j); auto; rewrite nth_error_map; rewrite ?A, ?B; auto.
  Qed.

  Lemma started_by_searchsorted t : started_by events t = searchsorted_right (map fst events) t.
  Proof.
    rewrite searchsorted_right_count by auto. unfold started_by. clear. induction events as [|e l IH]; auto.
    cbn. destruct (fst e <=? t); cbn; auto.
  Qed.

  Lemma started_before i e t : nth_error events i = Some e -> (fst e <= t <-> (i < started_by events t)%nat).
  Proof.
    intro H. rewrite started_by_searchsorted. symmetry. apply searchsorted_right_spec; auto. now rewrite nth_error_map, H.
  Qed.

  Lemma kfold_train_ok embargo i j : (i < j <= length events)%nat ->
    exists tr first last_end,
      kfold_train events embargo i j = Ok tr /\
      nth_error events i = Some first /\
      is_max snd (slice events i j) last_end /\
      increasing tr /\
      (forall x, In x tr <-> exists e, nth_error events x = Some e /\
         (snd e < fst first \/ (started_by events last_end + 1 + embargo <= x)%nat)).
  Proof.
    intro H. unfold kfold_train, get.
    destruct (nth_error events i) as [first|] eqn:E; [|apply nth_error_None in E; lia]. cbn [bind].
    set (t1 := filter _ (seq 0 (length events))).
    assert (T1 : forall x, In x t1 <-> exists e, nth_error events x = Some e /\ snd e < fst first).
    { intro x. unfold t1. rewrite filter_In, in_seq. split.
      - intros [_ K]. destruct (nth_error events x) as [e|]; [|discriminate]. apply Z.ltb_lt in K. eauto.
      - intros [e [K1 K2]]. rewrite K1. split; [|now apply Z.ltb_lt].
        assert (x < length events)%nat by (apply nth_error_Some; congruence). lia. }
    assert (ES : slice (map snd events) i j = map snd (slice events i j)).
    { unfold slice. now rewrite skipn_map, firstn_map. }
    destruct (slice (map snd events) i j) as [|e0 es] eqn:SL.
    { exfalso. symmetry in ES. apply map_eq_nil in ES. unfold slice in ES. apply (f_equal (@length _)) in ES.
      rewrite firstn_length, skipn_length in ES. cbn in ES. lia. }
    set (m := fold_left Z.max es e0).
    assert (M : is_max snd (slice events i j) m).
    { destruct (fold_max_spec es e0) as [[a [A1 A2]] A3]. fold m in A2, A3. rewrite ES in A1. apply in_map_iff in A1.
      destruct A1 as [ev [B1 B2]]. split.
      - exists ev. split; auto. congruence.
      - intros b Hb. apply A3. rewrite ES. now apply in_map. }
    eexists. exists first, m. split; [reflexivity|]. split; auto. split; auto.
    rewrite <- started_by_searchsorted. set (p := started_by events m).
    assert (FM : fst first <= m).
    { assert (In first (slice events i j)).
      { apply nth_error_In with 0%nat. unfold slice. rewrite nth_error_firstn_lt by lia. rewrite nth_error_skipn, Nat.add_0_r. auto. }
      assert (snd first <= m) by (apply (proj2 M); auto).
      assert (proper first) by (apply Hprop; eapply nth_error_In; eauto). unfold proper in *. lia. }
    assert (IC : increasing t1) by (apply increasing_filter, increasing_seq).
    assert (X1 : forall x, In x t1 -> (x < i)%nat).
    { intros x Hx. apply T1 in Hx. destruct Hx as [e [K1 K2]]. destruct (Nat.lt_ge_cases x i) as [|G]; auto. exfalso.
      pose proof (starts_le G E K1). assert (proper e) by (apply Hprop; eapply nth_error_In; eauto). unfold proper in *. lia. }
    assert (IP : (i < p)%nat) by (apply (started_before m E); auto).
    destruct (Nat.ltb_spec (p + 1) (length events)) as [L|L].
    - rewrite skipn_seq. split.
      + apply increasing_app; auto; [apply increasing_seq|]. intros x y Hx Hy. apply X1 in Hx. apply in_seq in Hy. lia.
      + intro x. rewrite in_app_iff, T1, in_seq. split.
        * intros [[e [K1 K2]]|K]; [eauto|]. destruct (nth_error events x) as [e|] eqn:EE; [|apply nth_error_None in EE; lia].
          exists e. split; auto. right. lia.
        * intros [e [K1 [K2|K2]]]; [eauto|]. right. assert (x < length events)%nat by (apply nth_error_Some; congruence). lia.
    - split; auto. intro x. rewrite T1. split.
      + intros [e [K1 K2]]. eauto.
      + intros [e [K1 [K2|K2]]]; [eauto|]. assert (x < length events)%nat by (apply nth_error_Some; congruence). lia.
  Qed.
End KFold.

(** the whole split() *)
Lemma kfold_bounds n k : (1 <= k <= n)%nat ->
  mapM (fun p => match p with [] => Err IndexError | i :: _ => Ok (i, last p 0 + 1)%nat end) (array_split n k)
  = Ok (map (fun p => (hd 0 p, hd 0 p + length p)%nat) (array_split n k)).
Proof.
  intro H. assert (P : forall p, In p (array_split n k) -> (exists a, p = seq a (length p)) /\ (0 < length p)%nat).
  { intros p Hp. split.
    - destruct (split_sizes_seq Hp) as [a [_ [E _]]]. eauto.
    - apply array_split_sizes in Hp; [|lia]. assert (1 <= n / k)%nat by (apply Nat.div_le_lower_bound; lia). lia. }
  revert P. generalize (array_split n k). induction l as [|p l IH]; intro P; auto.
  cbn [mapM map]. destruct (P p (or_introl eq_refl)) as [[a E] L].
  assert (EL : (last p 0 + 1 = hd 0 p + length p)%nat).
  { rewrite E. rewrite seq_length, last_seq by auto. destruct (length p) as [|m]; [lia|]. cbn. lia. }
  replace (match p with [] => Err IndexError | i :: _ => Ok (i, last p 0 + 1)%nat end) with (Ok (hd 0 p, last p 0 + 1)%nat)
    by (destruct p; [cbn in L; lia|reflexivity]).
  cbn [bind]. rewrite IH by (intros; apply P; now right). cbn [bind]. now rewrite EL.
Qed.

Lemma kfold_split_ok events k pct :
  zsorted (map fst events) -> (forall e, In e events -> proper e) -> (1 <= k <= length events)%nat ->
  exists splits, kfold_split k pct events = Ok splits /\ map snd splits = array_split (length events) k /\
    forall tr te, In (tr, te) splits ->
      exists i j, (i < j <= length events)%nat /\ te = seq i (j - i) /\
        kfold_train events (embargo_step (length events) pct) i j = Ok tr.
Proof.
  intros Hs Hp Hk. unfold kfold_split. destruct (Nat.eqb_spec k 0) as [|_]; [lia|]. rewrite kfold_bounds by lia. cbn [bind].
  set (n := length events) in *.
  assert (P : forall p, In p (array_split n k) -> (exists a, p = seq a (length p) /\ (a + length p <= n)%nat) /\ (0 < length p)%nat).
  { intros p Hp'. split.
    - destruct (split_sizes_seq Hp') as [a [_ [E L]]]. exists a. split; auto. rewrite list_sum_app, !list_sum_repeat in L.
      pose proof (Nat.div_mod n k) as D. pose proof (Nat.mod_upper_bound n k) as U.
      assert (n = k * (n / k) + n mod k)%nat by (apply D; lia).
      assert (n mod k < k)%nat by (apply U; lia). nia.
    - apply array_split_sizes in Hp'; [|lia]. assert (1 <= n / k)%nat by (apply Nat.div_le_lower_bound; lia). lia. }
  revert P. generalize (array_split n k). induction l as [|p l IH]; intro P.
  - exists []. split; auto. split; auto. intros ? ? [].
  - destruct IH as [sp [E1 [E2 E3]]]; [intros; apply P; now right|].
    destruct (P p (or_introl eq_refl)) as [[a [E Lp]] L].
    cbn [map mapM fst snd].
    assert (HA : hd 0%nat p = a) by (rewrite E; destruct (length p); [lia|reflexivity]).
    rewrite HA.
    destruct (@kfold_train_ok events Hs Hp (embargo_step n pct) a (a + length p)) as [tr [f [m [T1 _]]]]; [fold n; lia|].
    rewrite T1. cbn [bind]. rewrite E1. cbn [bind]. rewrite slice_seq by auto. rewrite <- E.
    eexists. split; [reflexivity|]. split; [cbn; now rewrite E2|].
    intros tr' te [[= <- <-]|Hin]; [|now apply E3].
    exists a, (a + length p)%nat. split; [fold n; lia|]. split; auto. rewrite E at 1. f_equal. lia.
Qed.

Lemma iloc_rows A (l : list A) idx rows : iloc l idx = Ok rows <-> rows_at l idx rows.
Proof.
  unfold iloc, rows_at. split.
  - intro H. apply mapM_ok in H. induction H as [|i a is rs H _ IH]; constructor; auto. now apply get_ok.
  - induction 1 as [|i a is rs H _ IH]; auto. cbn [mapM]. unfold get at 1. rewrite H. cbn [bind]. now rewrite IH.
Qed.
Lemma iloc_in_range A (l : list A) idx : (forall i, In i idx -> (i < length l)%nat) -> exists rows, iloc l idx = Ok rows.
Proof.
  intro H. induction idx as [|i idx IH]; [exists []; auto|].
  destruct IH as [r E]; [intros; apply H; now right|]. unfold iloc in *. cbn [mapM]. unfold get at 1.
  destruct (nth_error l i) as [a|] eqn:EA; [|apply nth_error_None in EA; specialize (H i (or_introl eq_refl)); lia].
  cbn [bind]. rewrite E. cbn [bind]. eauto.
Qed.

Lemma embargo_step_spec n pct step : embargo_bars n pct step -> embargo_step n pct = step.
Proof.
  intros [H1 H2]. unfold embargo_step, qtrunc. assert (P : (0 <= qn n * pct)%Qc) by (pose proof (qn_nonneg step); qlra).
  apply qle_iff in P. rewrite P. rewrite (@qfloor_unique _ (Z.of_nat step)); [apply Nat2Z.id|exact H1|].
  rewrite qn_add in H2. exact H2.
Qed.
Lemma embargo_step_exists n pct : (0 <= pct)%Qc -> embargo_bars n pct (embargo_step n pct).
Proof.
  intro H. unfold embargo_step, qtrunc. pose proof (Qcmul_nonneg (qn_nonneg n) H) as P.
  pose proof (qfloor_le (qn n * pct)) as A. pose proof (qfloor_lt (qn n * pct)) as B.
  assert (F : (0 <= qfloor (qn n * pct))%Z) by (apply qfloor_ge; exact P).
  apply qle_iff in P. rewrite P. unfold embargo_bars, qn in *.
  rewrite Nat2Z.inj_add, Z2Nat.id by auto. split; auto. rewrite qz_add. exact B.
Qed.
