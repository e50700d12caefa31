(** Lemmas for CombProps. *)
From Verif Require Import Py CVModel CVSpec CVProofs CombModel CombSpec.
Set Implicit Arguments.
Unset Strict Implicit.
Open Scope nat_scope.

Lemma combinations_length A k (l : list A) : length (combinations k l) = binom (length l) k.
Proof.
  revert k. induction l as [|x l IH]; intros [|k]; auto. cbn [combinations]. rewrite app_length, map_length, !IH. reflexivity.
Qed.

Lemma combinations_In A k (l : list A) c x : In c (combinations k l) -> In x c -> In x l.
Proof.
  revert k c. induction l as [|y l IH]; intros [|k] c H Hx; cbn [combinations] in H.
  - destruct H as [<-|[]]; destruct Hx.
  - destruct H.
  - destruct H as [<-|[]]; destruct Hx.
  - apply in_app_iff in H. destruct H as [H|H].
    + apply in_map_iff in H. destruct H as [c' [<- H]]. destruct Hx as [<-|Hx]; [now left|]. right. eapply IH; eauto.
    + right. eapply IH; eauto.
Qed.

Lemma combinations_size A k (l : list A) c : In c (combinations k l) -> length c = k.
Proof.
  revert k c. induction l as [|y l IH]; intros [|k] c H; cbn [combinations] in H.
  - destruct H as [<-|[]]; auto.
  - destruct H.
  - destruct H as [<-|[]]; auto.
  - apply in_app_iff in H. destruct H as [H|H]; [|eapply IH; eauto].
    apply in_map_iff in H. destruct H as [c' [<- H]]. cbn. f_equal. eapply IH; eauto.
Qed.

Lemma combinations_sorted k s n c : In c (combinations k (seq s n)) -> StronglySorted lt c.
Proof.
  revert k s c. induction n as [|n IH]; intros [|k] s c H; cbn [combinations seq] in H.
  - destruct H as [<-|[]]; constructor.
  - destruct H.
  - destruct H as [<-|[]]; constructor.
  - apply in_app_iff in H. destruct H as [H|H]; [|eapply IH; eauto].
    apply in_map_iff in H. destruct H as [c' [<- H]]. constructor; [eapply IH; eauto|].
    apply Forall_forall. intros x Hx. apply (combinations_In H) in Hx. apply in_seq in Hx. lia.
Qed.

Lemma combinations_complete k s n c : StronglySorted lt c -> length c = k -> (forall g, In g c -> s <= g < s + n) ->
  In c (combinations k (seq s n)).
Proof.
  revert k s c. induction n as [|n IH]; intros k s c HS HL HR.
  - destruct c as [|x c]; [|specialize (HR x (or_introl eq_refl)); lia]. cbn in HL. subst k. now left.
  - destruct c as [|x c]; [cbn in HL; subst k; now left|]. cbn in HL. destruct k as [|k]; [lia|].
    cbn [seq combinations]. apply in_app_iff. inversion HS as [|? ? HS' HF]; subst. rewrite Forall_forall in HF.
    destruct (Nat.eq_dec x s) as [->|NE].
    + left. apply in_map. apply IH; auto. intros g Hg. pose proof (HF g Hg). specialize (HR g (or_intror Hg)). lia.
    + right. apply IH; auto. intros g Hg.
      assert (x <= g) by (destruct Hg as [->|Hg]; [lia|]; specialize (HF g Hg); lia).
      pose proof (HR x (or_introl eq_refl)). specialize (HR g Hg). lia.
Qed.

Lemma combinations_choice N k c : In c (combinations k (seq 0 N)) <-> choice N k c.
Proof.
  split.
  - intro H. split; [eapply combinations_sorted; eauto|]. split; [eapply combinations_size; eauto|].
    intros g Hg. apply (combinations_In H) in Hg. apply in_seq in Hg. lia.
  - intros [H1 [H2 H3]]. apply combinations_complete; auto. intros g Hg. apply H3 in Hg. lia.
Qed.

Lemma combinations_NoDup A k (l : list A) : NoDup l -> NoDup (combinations k l).
Proof.
  revert k. induction l as [|x l IH]; intros [|k] ND; cbn [combinations].
  - constructor; [intros []|constructor].
  - constructor.
  - constructor; [intros []|constructor].
  - inversion ND as [|? ? N ND']; subst. apply NoDup_app_intro.
    + apply FinFun.Injective_map_NoDup; [intros a b [=]; auto|auto].
    + auto.
    + intros c H1 H2. apply in_map_iff in H1. destruct H1 as [c' [<- _]]. apply N. eapply combinations_In; [exact H2|now left].
Qed.

Definition mem (g : nat) (c : list nat) : bool := existsb (Nat.eqb g) c.
Lemma mem_In g c : mem g c = true <-> In g c.
Proof.
  unfold mem. rewrite existsb_exists. split.
  - intros [x [H1 H2]]. apply Nat.eqb_eq in H2. congruence.
  - intro H. exists g. rewrite Nat.eqb_refl. auto.
Qed.
Lemma mem_false g c : mem g c = false <-> ~ In g c.
Proof. rewrite <- mem_In. destruct (mem g c); split; congruence. Qed.

Lemma filter_none A (f : A -> bool) l : (forall x, In x l -> f x = false) -> filter f l = [].
Proof.
  induction l as [|a l IH]; intro H; auto. cbn. rewrite (H a) by now left. apply IH. intros; apply H; now right.
Qed.
Lemma filter_all A (f : A -> bool) l : (forall x, In x l -> f x = true) -> filter f l = l.
Proof.
  induction l as [|a l IH]; intro H; auto. cbn. rewrite (H a) by now left. f_equal. apply IH. intros; apply H; now right.
Qed.
Lemma filter_map A B (f : B -> bool) (g : A -> B) l : filter f (map g l) = map g (filter (fun x => f (g x)) l).
Proof. induction l as [|a l IH]; auto. cbn. destruct (f (g a)); cbn; now rewrite IH. Qed.

(** how many combinations contain a given element *)
Lemma combinations_containing g k l : NoDup l -> In g l ->
  length (filter (mem g) (combinations (S k) l)) = binom (length l - 1) k.
Proof.
  revert k. induction l as [|x l IH]; intros k ND Hg; [destruct Hg|]. inversion ND as [|? ? N ND']; subst.
  cbn [combinations length]. rewrite filter_app, app_length, filter_map, map_length. rewrite Nat.sub_succ, Nat.sub_0_r.
  destruct (Nat.eq_dec g x) as [->|NE].
  - rewrite filter_all, combinations_length.
    2: { intros c _. apply mem_In. now left. }
    rewrite filter_none; [cbn; lia|]. intros c Hc. apply mem_false. intro C. apply N. eapply combinations_In; eauto.
  - destruct Hg as [E|Hg]; [congruence|].
    assert (LP : exists m, length l = S m) by (destruct l; [destruct Hg|cbn; eauto]). destruct LP as [m LP].
    rewrite (IH k ND' Hg). rewrite LP, Nat.sub_succ, Nat.sub_0_r.
    rewrite (filter_ext_in (fun c => mem g (x :: c)) (mem g)).
    2: { intros c _. unfold mem. cbn. destruct (Nat.eqb_spec g x); [congruence|]. reflexivity. }
    destruct k as [|k].
    + cbn [combinations]. destruct l; cbn; destruct m; reflexivity.
    + rewrite (IH k ND' Hg). rewrite LP, Nat.sub_succ, Nat.sub_0_r. reflexivity.
Qed.

(** ** The recorded state *)
Lemma append_at_length st g i : length (append_at st g i) = length st.
Proof. revert g. induction st as [|l st IH]; intros [|g]; cbn; auto. Qed.
Lemma append_at_nth st g i h l : nth_error st h = Some l ->
  nth_error (append_at st g i) h = Some (if h =? g then l ++ [i] else l).
Proof.
  revert g h. induction st as [|l' st IH]; intros [|g] [|h] H; try discriminate; cbn in *; auto; try congruence.
Qed.
Lemma record_length grps st i : length (record_split st i grps) = length st.
Proof. unfold record_split. revert st. induction grps as [|g grps IH]; intro st; cbn; auto. now rewrite IH, append_at_length. Qed.
Lemma record_nth grps st i h l : NoDup grps -> nth_error st h = Some l ->
  nth_error (record_split st i grps) h = Some (if mem h grps then l ++ [i] else l).
Proof.
  unfold record_split. revert st l. induction grps as [|g grps IH]; intros st l ND H; auto. inversion ND as [|? ? N ND']; subst.
  cbn [fold_left]. rewrite (IH _ _ ND' (append_at_nth g i H)). unfold mem. cbn [existsb].
  destruct (Nat.eqb_spec h g) as [->|NE]; cbn [orb]; auto.
  assert (E : existsb (Nat.eqb g) grps = false) by (apply mem_false; auto). now rewrite E.
Qed.

(** split indices (counted from [s]) whose combination contains [g] *)
Definition splits_testing (g s : nat) (combs : list (list nat)) : list nat :=
  map fst (filter (fun ic => mem g (snd ic)) (combine (seq s (length combs)) combs)).
Definition record_all (s : nat) (combs : list (list nat)) (st : cpcv_state) : cpcv_state :=
  fold_left (fun s ic => record_split s (fst ic) (snd ic)) (combine (seq s (length combs)) combs) st.

Lemma record_all_length s combs st : length (record_all s combs st) = length st.
Proof.
  unfold record_all. revert s st. induction combs as [|c combs IH]; intros s st; auto. cbn [length seq combine fold_left fst snd].
  now rewrite IH, record_length.
Qed.
Lemma record_all_nth s combs st h l : (forall c, In c combs -> NoDup c) -> nth_error st h = Some l ->
  nth_error (record_all s combs st) h = Some (l ++ splits_testing h s combs).
Proof.
  unfold record_all, splits_testing. revert s st l. induction combs as [|c combs IH]; intros s st l ND H.
  - cbn. now rewrite app_nil_r.
  - cbn [length seq combine fold_left fst snd filter].
    rewrite (IH (S s) _ (if mem h c then l ++ [s] else l)); [|intros; apply ND; now right|apply record_nth; auto; apply ND; now left].
    destruct (mem h c); cbn [map fst]; auto. now rewrite <- app_assoc.
Qed.

Lemma splits_testing_length g s combs : length (splits_testing g s combs) = length (filter (mem g) combs).
Proof.
  unfold splits_testing. rewrite map_length. revert s. induction combs as [|c combs IH]; intro s; auto.
  cbn [length seq combine filter snd]. destruct (mem g c); cbn [length]; rewrite IH; auto.
Qed.
Lemma splits_testing_In g combs i : In i (splits_testing g 0 combs) <-> exists c, nth_error combs i = Some c /\ In g c.
Proof.
  unfold splits_testing. rewrite in_map_iff. split.
  - intros [[i' c] [<- H]]. apply filter_In in H. destruct H as [H1 H2]. apply combine_seq_nth in H1. destruct H1 as [_ H1].
    cbn in H2. rewrite Nat.sub_0_r in H1. exists c. split; auto. now apply mem_In.
  - intros [c [H1 H2]]. exists (i, c). split; auto. apply filter_In. split; [|now apply mem_In].
    apply combine_seq_nth. rewrite Nat.sub_0_r. split; auto. lia.
Qed.
Lemma splits_testing_increasing g s combs : increasing (splits_testing g s combs).
Proof. apply increasing_filter_map. Qed.
Lemma increasing_NoDup l : increasing l -> NoDup l.
Proof.
  induction 1 as [|a l H IH HF]; constructor; auto. intro C. rewrite Forall_forall in HF. apply HF in C. lia.
Qed.

(** after [m] complete runs *)
Fixpoint runs (N k m : nat) : cpcv_state :=
  match m with O => cpcv_init N | S m' => record_all 0 (combinations k (seq 0 N)) (runs N k m') end.

Lemma combs_NoDup N k c : In c (combinations k (seq 0 N)) -> NoDup c.
Proof. intro H. apply increasing_NoDup. eapply combinations_sorted; eauto. Qed.

Lemma runs_nth N k m g : g < N ->
  nth_error (runs N k m) g = Some (concat (repeat (splits_testing g 0 (combinations k (seq 0 N))) m)).
Proof.
  intro H. induction m as [|m IH].
  - cbn. unfold cpcv_init. now rewrite nth_error_repeat.
  - cbn [runs]. rewrite (record_all_nth 0 (fun c => @combs_NoDup N k c) IH). f_equal.
    replace (S m) with (m + 1) by lia. rewrite repeat_app, concat_app. cbn. now rewrite app_nil_r.
Qed.
Lemma runs_length N k m : length (runs N k m) = N.
Proof. induction m; cbn [runs]; [apply repeat_length|now rewrite record_all_length]. Qed.

(** how many splits test a group *)
Lemma testing_count N k g : g < N -> 1 <= k -> length (splits_testing g 0 (combinations k (seq 0 N))) = binom (N - 1) (k - 1).
Proof.
  intros H K. rewrite splits_testing_length. destruct k as [|k]; [lia|]. rewrite combinations_containing.
  - rewrite seq_length. f_equal. lia.
  - apply seq_NoDup.
  - apply in_seq. lia.
Qed.

Lemma concat_repeat_nth A (l : list A) m i : i < m * length l -> nth_error (concat (repeat l m)) i = nth_error l (i mod length l).
Proof.
  revert i. induction m as [|m IH]; intros i H; [cbn in H; lia|]. cbn [repeat concat].
  destruct (Nat.lt_ge_cases i (length l)) as [L|L].
  - rewrite nth_error_app1, Nat.mod_small by auto. reflexivity.
  - rewrite nth_error_app2, IH by lia. f_equal. rewrite <- (Nat.mod_add (i - length l) 1 (length l)) by lia. f_equal. lia.
Qed.
Lemma concat_repeat_length A (l : list A) m : length (concat (repeat l m)) = m * length l.
Proof. induction m; cbn; auto. rewrite app_length, IHm. lia. Qed.

Lemma fold_min_const ms x : (forall y, In y ms -> y = x) -> fold_left Nat.min ms x = x.
Proof.
  induction ms as [|y ms IH]; intro H; auto. cbn. rewrite (H y) by now left. rewrite Nat.min_id. apply IH. intros; apply H; now right.
Qed.

(** the [i]-th path *)
Definition path_at (bnd : nat -> nat) (N k i : nat) : list (list nat * nat) :=
  combine (map (group_range bnd) (seq 0 N))
          (map (fun g => nth i (splits_testing g 0 (combinations k (seq 0 N))) 0) (seq 0 N)).

Lemma nth_error_seq0 n i : i < n -> nth_error (seq 0 n) i = Some i.
Proof. intro H. rewrite nth_error_nth' with (d := 0) by now rewrite seq_length. now rewrite seq_nth. Qed.

Lemma paths_after_runs bnd N k m : 1 <= N -> 1 <= k ->
  backtest_paths bnd N (runs N k m) = Ok (map (fun i => path_at bnd N k (i mod binom (N - 1) (k - 1))) (seq 0 (m * binom (N - 1) (k - 1)))).
Proof.
  intros HN HK. unfold backtest_paths. set (P := binom (N - 1) (k - 1)).
  set (st := runs N k m).
  assert (LN : forall g l, nth_error st g = Some l -> length l = m * P).
  { intros g l H. assert (g < N) by (rewrite <- (runs_length N k m); apply nth_error_Some; unfold st in H; congruence).
    unfold st in H. rewrite runs_nth in H by auto. inversion H. rewrite concat_repeat_length, testing_count by auto. reflexivity. }
  assert (EL : map (@length nat) st = repeat (m * P) N).
  { apply nth_error_ext. intro g. rewrite nth_error_map. destruct (nth_error st g) as [l|] eqn:E; cbn.
    - rewrite (LN g l E). symmetry. apply nth_error_repeat. rewrite <- (runs_length N k m). apply nth_error_Some. unfold st in E. congruence.
    - symmetry. apply nth_error_None. rewrite repeat_length. apply nth_error_None in E. unfold st in E. rewrite runs_length in E. auto. }
  rewrite EL. destruct N as [|N']; [lia|]. cbn [repeat].
  rewrite fold_min_const by (intros y Hy; now apply repeat_spec in Hy).
  set (N := S N') in *.
  assert (G : forall i, In i (seq 0 (m * P)) ->
     (do splits <- mapM (fun l => get l i) st; Ok (combine (map (group_range bnd) (seq 0 N)) splits)) = Ok (path_at bnd N k (i mod P))).
  { intros i Hi. apply in_seq in Hi.
    assert (E : mapM (fun l => get l i) st = Ok (map (fun g => nth (i mod P) (splits_testing g 0 (combinations k (seq 0 N))) 0) (seq 0 N))).
    { assert (ES : st = map (fun g => concat (repeat (splits_testing g 0 (combinations k (seq 0 N))) m)) (seq 0 N)).
      { apply nth_error_ext. intro g. rewrite nth_error_map. destruct (Nat.lt_ge_cases g N) as [L|L].
        - unfold st. rewrite runs_nth by auto. rewrite nth_error_seq0 by auto. reflexivity.
        - replace (nth_error st g) with (@None (list nat)) by (symmetry; apply nth_error_None; unfold st; rewrite runs_length; auto).
          replace (nth_error (seq 0 N) g) with (@None nat) by (symmetry; apply nth_error_None; rewrite seq_length; auto). reflexivity. }
      rewrite ES, mapM_map.
      assert (forall gs, (forall g, In g gs -> g < N) ->
         mapM (fun g => get (concat (repeat (splits_testing g 0 (combinations k (seq 0 N))) m)) i) gs =
         Ok (map (fun g => nth (i mod P) (splits_testing g 0 (combinations k (seq 0 N))) 0) gs)) as Q.
      { induction gs as [|g gs IH]; intro HG; auto. cbn [mapM map]. rewrite IH by (intros; apply HG; now right).
        assert (Lg : g < N) by (apply HG; now left). pose proof (@testing_count N k g Lg HK) as TC. fold P in TC.
        assert (EG : get (concat (repeat (splits_testing g 0 (combinations k (seq 0 N))) m)) i =
                     Ok (nth (i mod P) (splits_testing g 0 (combinations k (seq 0 N))) 0)); [|now rewrite EG].
        apply get_ok. rewrite concat_repeat_nth by (rewrite TC; lia). rewrite TC. apply nth_error_nth'. rewrite TC.
        apply Nat.mod_upper_bound. lia. }
      apply Q. intros g Hg. apply in_seq in Hg. lia. }
    rewrite E. reflexivity. }
  clear -G. induction (seq 0 (m * P)) as [|i is IH]; auto. cbn [mapM map]. rewrite G by now left. cbn [bind].
  rewrite IH by (intros; apply G; now right). reflexivity.
Qed.

(** ** Groups *)
Lemma groups_concat bnd N : (forall g, g < N -> bnd g <= bnd (S g)) ->
  concat (map (group_range bnd) (seq 0 N)) = seq (bnd 0) (bnd N - bnd 0) /\ bnd 0 <= bnd N.
Proof.
  induction N as [|N IH]; intro H.
  - cbn. now rewrite Nat.sub_diag.
  - destruct IH as [E L]; [intros; apply H; lia|]. rewrite seq_S, map_app, concat_app, E. cbn [map concat].
    rewrite app_nil_r. unfold group_range. cbn [plus]. rewrite Nat.add_1_r. pose proof (H N (Nat.lt_succ_diag_r N)).
    split; [|lia]. replace (bnd (S N) - bnd 0) with ((bnd N - bnd 0) + (bnd (S N) - bnd N)) by lia.
    rewrite seq_app. f_equal. f_equal. lia.
Qed.

Lemma exact_bnd_floor n N g : 1 <= N -> exact_bnd n N g = (g * n / N).
Proof.
  intro H. unfold exact_bnd. pose proof (@qn_pos N ltac:(lia)) as HN.
  assert (HS : (qn g * (qn n / qn N))%Qc = (qn (g * n) / qn N)%Qc) by (rewrite qn_mul; field; now apply Qc_pos_neq).
  rewrite HS. unfold qtrunc.
  assert (P : (0 <= qn (g * n) / qn N)%Qc) by (apply Qcdiv_nonneg; auto; apply qn_nonneg).
  apply qle_iff in P. rewrite P. rewrite (@qfloor_unique _ (Z.of_nat (g * n / N))); [apply Nat2Z.id| |].
  - apply Qcdiv_ge_iff; auto. change (qz (Z.of_nat (g * n / N))) with (qn (g * n / N)). rewrite <- qn_mul. apply qn_le.
    pose proof (Nat.mul_div_le (g * n) N ltac:(lia)). lia.
  - apply Qcdiv_lt_iff; auto. change (qz (Z.of_nat (g * n / N))) with (qn (g * n / N)). rewrite <- qn_S, <- qn_mul. apply qn_lt.
    pose proof (Nat.mul_succ_div_gt (g * n) N ltac:(lia)). lia.
Qed.

Lemma exact_bnd_0 n N : 1 <= N -> exact_bnd n N 0 = 0.
Proof. intro H. rewrite exact_bnd_floor by auto. apply Nat.div_0_l. lia. Qed.
Lemma exact_bnd_N n N : 1 <= N -> exact_bnd n N N = n.
Proof. intro H. rewrite exact_bnd_floor by auto. rewrite Nat.mul_comm. apply Nat.div_mul. lia. Qed.
Lemma exact_bnd_step n N g : 1 <= N -> n / N <= exact_bnd n N (S g) - exact_bnd n N g <= n / N + 1 /\ exact_bnd n N g <= exact_bnd n N (S g).
Proof.
  intro H. rewrite !exact_bnd_floor by auto. replace (S g * n) with (g * n + n) by lia.
  pose proof (Nat.div_mod (g * n) N ltac:(lia)) as D1. pose proof (Nat.div_mod n N ltac:(lia)) as D2.
  pose proof (Nat.div_mod (g * n + n) N ltac:(lia)) as D3.
  pose proof (Nat.mod_upper_bound (g * n) N ltac:(lia)). pose proof (Nat.mod_upper_bound n N ltac:(lia)).
  pose proof (Nat.mod_upper_bound (g * n + n) N ltac:(lia)).
  set (a := g * n / N) in *. set (b := n / N) in *. set (c := (g * n + n) / N) in *.
  set (r1 := (g * n) mod N) in *. set (r2 := n mod N) in *. set (r3 := (g * n + n) mod N) in *.
  assert (N * c + r3 = N * a + r1 + (N * b + r2)) by lia.
  assert (c >= a + b) by nia. assert (c <= a + b + 1) by nia. lia.
Qed.

Section Boundaries.
  Variable bnd : nat -> nat.
  Variable N n : nat.
  Hypothesis B0 : bnd 0 = 0.
  Hypothesis BM : forall g, g < N -> bnd g <= bnd (S g).
  Hypothesis BN : bnd N <= n.

  Lemma bnd_mono g h : g <= h -> h <= N -> bnd g <= bnd h.
  Proof. induction 1 as [|h H IH]; intro; auto. specialize (IH ltac:(lia)). specialize (BM (g := h) ltac:(lia)). lia. Qed.

  Lemma group_below g i : g < N -> In i (group_range bnd g) -> i < n.
  Proof.
    unfold group_range. intros H Hi. apply in_seq in Hi. rewrite Nat.add_1_r in Hi.
    pose proof (@bnd_mono (S g) N ltac:(lia) ltac:(lia)). lia.
  Qed.

  Lemma test_rows_increasing c : StronglySorted lt c -> (forall g, In g c -> g < N) -> increasing (concat (map (group_range bnd) c)).
  Proof.
    induction 1 as [|g c HS IH HF]; intro HN; cbn [map concat]; [constructor|]. apply increasing_app.
    - apply increasing_seq.
    - apply IH. intros; apply HN; now right.
    - intros x y Hx Hy. unfold group_range in Hx. apply in_seq in Hx. rewrite Nat.add_1_r in Hx.
      apply in_concat in Hy. destruct Hy as [r [Hr Hy]]. apply in_map_iff in Hr. destruct Hr as [h [<- Hh]].
      unfold group_range in Hy. apply in_seq in Hy. rewrite Forall_forall in HF. pose proof (HF h Hh).
      pose proof (HN h (or_intror Hh)). pose proof (@bnd_mono (S g) h ltac:(lia) ltac:(lia)). lia.
  Qed.
End Boundaries.

Lemma cpcv_run_state bnd N k events bars pct st st' splits :
  cpcv_run bnd N k events bars pct st = Ok (st', splits) ->
  st' = record_all 0 (combinations k (seq 0 N)) st /\
  Forall2 (fun c sp => cpcv_split bnd events bars pct c = Ok sp) (combinations k (seq 0 N)) splits.
Proof.
  unfold cpcv_run. destruct (mapM _ _) as [sp|] eqn:E; [|discriminate]. cbn [bind]. intros [= <- <-]. split; auto.
  now apply mapM_ok in E.
Qed.

Lemma cpcv_runs_state bnd N k events bars pct m st :
  cpcv_runs bnd N k events bars pct m (cpcv_init N) = Ok st -> st = runs N k m.
Proof.
  assert (G : forall m a st, cpcv_runs bnd N k events bars pct m (runs N k a) = Ok st -> st = runs N k (a + m)).
  { clear. induction m as [|m IH]; intros a st H; cbn [cpcv_runs] in H.
    - inversion H. f_equal. lia.
    - destruct (cpcv_run bnd N k events bars pct (runs N k a)) as [[st1 sp]|] eqn:E; [|discriminate]. cbn [bind fst] in H.
      apply cpcv_run_state in E. destruct E as [-> _]. apply (IH (S a)) in H. rewrite H. f_equal. lia. }
  apply (G m 0).
Qed.

(** ** PBO *)
Lemma binom_0_r n : binom n 0 = 1.
Proof. destruct n; reflexivity. Qed.
Lemma binom_gt n k : n < k -> binom n k = 0.
Proof. revert k. induction n as [|n IH]; intros [|k] H; try lia; auto. cbn. rewrite !IH by lia. reflexivity. Qed.
Lemma binom_diag n : binom n n = 1.
Proof. induction n as [|n IH]; auto. cbn. rewrite IH, binom_gt by lia. reflexivity. Qed.
Lemma binom_sym a b : binom (a + b) a = binom (a + b) b.
Proof.
  remember (a + b) as n eqn:E. revert a b E. induction n as [|n IH]; intros a b E.
  - assert (a = 0) by lia. assert (b = 0) by lia. subst. reflexivity.
  - destruct a as [|a]; [cbn in E; subst b; now rewrite binom_diag|].
    destruct b as [|b]; [rewrite Nat.add_0_r in E; rewrite <- E; now rewrite binom_diag|].
    cbn. rewrite (IH a (S b)) by lia. rewrite (IH (S a) b) by lia. lia.
Qed.
Lemma binom_half m : 1 <= m -> 2 * binom (2 * m - 1) (m - 1) = binom (2 * m) m.
Proof.
  intro H. destruct m as [|m]; [lia|]. replace (2 * S m) with (S (m + S m)) by lia.
  rewrite Nat.sub_succ, Nat.sub_0_r, Nat.sub_succ, Nat.sub_0_r. cbn [binom].
  pose proof (binom_sym m (S m)). lia.
Qed.

Lemma pbo_train_In size parts i : In i (pbo_train size parts) <-> exists p, In p parts /\ p * size <= i < (p + 1) * size.
Proof.
  unfold pbo_train. rewrite in_concat. split.
  - intros [r [Hr Hi]]. apply in_map_iff in Hr. destruct Hr as [p [<- Hp]]. apply in_seq in Hi. exists p. split; auto. nia.
  - intros [p [Hp Hi]]. eexists. split; [apply in_map; exact Hp|]. apply in_seq. nia.
Qed.
Lemma pbo_train_length size parts : length (pbo_train size parts) = length parts * size.
Proof.
  unfold pbo_train. induction parts as [|p parts IH]; auto. cbn [map concat length]. rewrite app_length, seq_length, IH. nia.
Qed.
Lemma pbo_train_NoDup size parts : NoDup parts -> NoDup (pbo_train size parts).
Proof.
  induction 1 as [|p parts N ND IH]; cbn; [constructor|]. apply NoDup_app_intro; auto; [apply seq_NoDup|].
  intros x H1 H2. apply in_seq in H1. apply (pbo_train_In size parts x) in H2. destruct H2 as [p' [Hp' Hx]].
  apply N. assert (p' = p) by nia. congruence.
Qed.
Lemma pbo_test_In n train i : In i (pbo_test n train) <-> i < n /\ ~ In i train.
Proof.
  unfold pbo_test. rewrite filter_In, in_seq. rewrite <- mem_In. unfold mem. destruct (existsb (Nat.eqb i) train); cbn; split; intros [H1 H2];
    split; auto; try lia; try congruence.
Qed.

Lemma argmax_from_spec bi b i l full :
  nth_error full bi = Some b -> (forall j x, nth_error l j = Some x -> nth_error full (i + j) = Some x) ->
  (forall j x, j < i -> nth_error full j = Some x -> (x <= b)%Qc) -> length full = i + length l ->
  exists m, nth_error full (argmax_from bi b i l) = Some m /\ forall x, In x full -> (x <= m)%Qc.
Proof.
  revert bi b i. induction l as [|y l IH]; intros bi b i Hb Hl Hm HL; cbn [argmax_from].
  - exists b. split; auto. intros x Hx. apply In_nth_error in Hx. destruct Hx as [j Hj]. apply (Hm j); auto.
    cbn in HL. rewrite Nat.add_0_r in HL. rewrite <- HL. apply nth_error_Some. congruence.
  - assert (Hy : nth_error full i = Some y) by (rewrite <- (Nat.add_0_r i); apply Hl; reflexivity).
    assert (Hl' : forall j x, nth_error l j = Some x -> nth_error full (S i + j) = Some x).
    { intros j x Hj. replace (S i + j) with (i + S j) by lia. now apply Hl. }
    destruct (qlt_spec b y) as [L|L].
    + apply IH; auto; [|cbn in HL; lia]. intros j x Hj Hx. destruct (Nat.eq_dec j i) as [->|].
      * assert (x = y) by congruence. subst. apply Qcle_refl.
      * apply Qcle_trans with b; [apply (Hm j); auto; lia|]. now apply Qclt_le_weak.
    + apply Qcnot_lt_le in L. apply IH; auto; [|cbn in HL; lia]. intros j x Hj Hx. destruct (Nat.eq_dec j i) as [->|].
      * assert (x = y) by congruence. now subst.
      * apply (Hm j); auto. lia.
Qed.
Lemma argmax_spec l i : argmax l = Ok i -> exists m, nth_error l i = Some m /\ forall x, In x l -> (x <= m)%Qc.
Proof.
  unfold argmax. destruct l as [|x l]; [discriminate|]. intros [= <-]. apply argmax_from_spec; auto.
  intros j y Hj Hy. assert (j = 0) by lia. subst j. cbn in Hy. inversion Hy. apply Qcle_refl.
Qed.
Lemma argmax_ok l : l <> [] -> exists i, argmax l = Ok i.
Proof. destruct l; [congruence|]. cbn. eauto. Qed.

Lemma position_spec x l i : In x l -> nth_error l (position x l i - i) = Some x /\ i <= position x l i.
Proof.
  revert i. induction l as [|y l IH]; intros i H; [destruct H|]. cbn [position]. destruct (Nat.eqb_spec y x) as [->|NE].
  - rewrite Nat.sub_diag. auto.
  - destruct H as [E|H]; [congruence|]. destruct (IH (S i) H) as [H1 H2]. split; [|lia].
    replace (position x l (S i) - i) with (S (position x l (S i) - S i)) by lia. exact H1.
Qed.

(** the position in the ascending order counts the strictly smaller values, up to ties *)
Lemma count_le_incl A (f : A -> bool) (l : list A) (s : list A) : NoDup (filter f l) -> incl (filter f l) s -> count f l <= length s.
Proof. intros. unfold count. now apply NoDup_incl_length. Qed.

Lemma count_map A B (f : B -> bool) (g : A -> B) l : count f (map g l) = count (fun a => f (g a)) l.
Proof. unfold count. now rewrite filter_map, map_length. Qed.

Lemma list_as_map l : l = map (fun i => nth i l 0%Qc) (seq 0 (length l)).
Proof.
  apply nth_error_ext. intro i. rewrite nth_error_map. destruct (Nat.lt_ge_cases i (length l)) as [H|H].
  - rewrite nth_error_seq0 by auto. cbn. now apply nth_error_nth'.
  - rewrite (proj2 (nth_error_None l i) H). replace (nth_error (seq 0 (length l)) i) with (@None nat); auto.
    symmetry. apply nth_error_None. now rewrite seq_length.
Qed.

Lemma rank_bounds l p b x r : sorts_ascending l p -> nth_error l b = Some x -> nth_error p r = Some b ->
  count (fun y => qlt y x) l <= r /\ count (fun y => qlt x y) l <= length l - 1 - r.
Proof.
  intros [HP HS] Hx Hr.
  assert (LP : length p = length l) by (rewrite (Permutation_length HP); apply seq_length).
  assert (Lr : r < length p) by (apply nth_error_Some; congruence).
  assert (V : forall a, In a p -> nth_error l a = Some (nth a l 0%Qc)).
  { intros a Ha. apply nth_error_nth'. apply (Permutation_in _ HP) in Ha. apply in_seq in Ha. lia. }
  assert (NDp : NoDup p) by (eapply Permutation_NoDup; [apply Permutation_sym; exact HP|apply seq_NoDup]).
  assert (F : forall f, count f l = count (fun a => f (nth a l 0%Qc)) p).
  { intro f. rewrite (list_as_map l) at 1. rewrite count_map. unfold count.
    clear -HP. induction HP; cbn; auto.
    - destruct (f (nth x l 0%Qc)); cbn; auto.
    - destruct (f (nth x l 0%Qc)), (f (nth y l 0%Qc)); cbn; auto.
    - congruence. }
  rewrite !F. pose proof (firstn_skipn (S r) p) as SP. rewrite <- (firstn_skipn r p) in Lr |- *.
  assert (X : nth b l 0%Qc = x) by (rewrite (V b) in Hx by (eapply nth_error_In; eauto); congruence).
  split.
  - rewrite firstn_skipn. apply Nat.le_trans with (length (firstn r p)); [|rewrite firstn_length; lia].
    apply count_le_incl; [now apply NoDup_filter|]. intros a Ha. apply filter_In in Ha. destruct Ha as [Ha Hq].
    apply qlt_iff in Hq. pose proof Ha as Ha'. apply In_nth_error in Ha. destruct Ha as [i Hi].
    destruct (Nat.lt_ge_cases i r) as [L|L].
    + apply nth_error_In with i. now rewrite nth_error_firstn_lt.
    + exfalso. destruct (Nat.eq_dec i r) as [->|NE].
      * assert (a = b) by congruence. subst a. rewrite X in Hq. now apply Qclt_irrefl in Hq.
      * assert (C : (x <= nth a l 0)%Qc) by (eapply (HS r i b a); eauto; lia). apply (Qclt_not_le _ _ Hq C).
  - rewrite firstn_skipn. apply Nat.le_trans with (length (skipn (S r) p)); [|rewrite skipn_length; lia].
    apply count_le_incl; [now apply NoDup_filter|]. intros a Ha. apply filter_In in Ha. destruct Ha as [Ha Hq].
    apply qlt_iff in Hq. pose proof Ha as Ha'. apply In_nth_error in Ha. destruct Ha as [i Hi].
    destruct (Nat.le_gt_cases i r) as [L|L].
    + exfalso. destruct (Nat.eq_dec i r) as [->|NE].
      * assert (a = b) by congruence. subst a. rewrite X in Hq. now apply Qclt_irrefl in Hq.
      * assert (C : (nth a l 0 <= x)%Qc) by (eapply (HS i r a b); eauto; lia). apply (Qclt_not_le _ _ Hq C).
    + apply nth_error_In with (i - S r). rewrite nth_error_skipn. now replace (S r + (i - S r)) with i by lia.
Qed.
