(** Lemmas for MetricsProps. *)
From Verif Require Import Py MetricsModel MetricsSpec.
Set Implicit Arguments.
Unset Strict Implicit.
Open Scope Qc_scope.

(** ** Sorting *)
Lemma zinsert_perm x l : Permutation (x :: l) (zinsert x l).
Proof.
  induction l as [|y l IH]; cbn; auto. destruct (x <=? y)%Z; auto.
  apply perm_trans with (y :: x :: l); [apply perm_swap|]. now apply perm_skip.
Qed.
Lemma zsort_perm l : Permutation l (zsort l).
Proof. induction l as [|x l IH]; cbn; auto. apply perm_trans with (x :: zsort l); auto. apply zinsert_perm. Qed.
Lemma zinsert_sorted x l : zsorted l -> zsorted (zinsert x l).
Proof.
  induction 1 as [|y l H IH HF]; cbn; [repeat constructor|]. destruct (Z.leb_spec x y) as [L|L].
  - constructor; [constructor; auto|]. constructor; auto. rewrite Forall_forall in *. intros z Hz. specialize (HF z Hz). lia.
  - constructor; auto. rewrite Forall_forall in *. intros z Hz.
    apply (Permutation_in _ (Permutation_sym (zinsert_perm x l))) in Hz. destruct Hz as [<-|Hz]; [lia|auto].
Qed.
Lemma zsort_sorted l : zsorted (zsort l).
Proof. induction l; cbn; [constructor|now apply zinsert_sorted]. Qed.
Lemma sorted_nodup_strict l : zsorted l -> NoDup l -> zssorted l.
Proof.
  induction 1 as [|y l H IH HF]; intro ND; constructor; inversion ND as [|? ? N ND']; subst; auto.
  rewrite Forall_forall in *. intros z Hz. specialize (HF z Hz). assert (y <> z) by congruence. lia.
Qed.

Lemma qinsert_sorted_id x l : (forall y, In y l -> x < y) -> qinsert x l = x :: l.
Proof.
  destruct l as [|y l]; intro H; auto. cbn. assert (L : qle x y = true) by (apply qle_iff, Qclt_le_weak, H; now left). now rewrite L.
Qed.
Lemma qsort_sorted_id l : StronglySorted Qclt l -> qsort l = l.
Proof.
  induction 1 as [|x l H IH HF]; auto. cbn. unfold qsort in IH. rewrite IH. apply qinsert_sorted_id. now apply Forall_forall.
Qed.

(** ** Position timings *)
Lemma nth_removelast A (l : list A) i a : nth_error (removelast l) i = Some a <-> nth_error l i = Some a /\ (S i < length l)%nat.
Proof.
  revert i. induction l as [|x l IH]; intro i.
  - cbn. split; [intro H; destruct i; discriminate|intros [H _]; destruct i; discriminate].
  - destruct l as [|y l].
    + cbn. split; [intro H; destruct i; discriminate|intros [_ H]; lia].
    + change (removelast (x :: y :: l)) with (x :: removelast (y :: l)). destruct i as [|i].
      * cbn. split; [intro; split; auto; lia|tauto].
      * cbn [nth_error]. rewrite IH. cbn [length]. split; intros [A1 A2]; split; auto; lia.
Qed.
Lemma shift1_nth A (l : list A) i x : nth_error (shift1 l) i = Some x <->
  (i < length l)%nat /\ match i with O => x = None | S j => exists a, nth_error l j = Some a /\ x = Some a end.
Proof.
  unfold shift1. destruct l as [|a l].
  - cbn. split; [destruct i; discriminate|intros [H _]; lia].
  - destruct i as [|j]; cbn [nth_error].
    + cbn. split; [intros [= <-]; split; auto; lia|intros [_ ->]; auto].
    + rewrite nth_error_map. split.
      * destruct (nth_error (removelast (a :: l)) j) as [b|] eqn:E; [|discriminate]. cbn [option_map]. intros [= <-].
        apply nth_removelast in E. destruct E as [E L]. split; auto. eauto.
      * intros [L [b [H ->]]]. assert (E : nth_error (removelast (a :: l)) j = Some b) by (apply nth_removelast; auto). now rewrite E.
Qed.
Lemma nth_error_combine A B (l1 : list A) (l2 : list B) i a b :
  nth_error (combine l1 l2) i = Some (a, b) <-> nth_error l1 i = Some a /\ nth_error l2 i = Some b.
Proof.
  revert l2 i. induction l1 as [|x l1 IH]; intros l2 i.
  - cbn. split; [destruct i; discriminate|intros [H _]; destruct i; discriminate].
  - destruct l2 as [|y l2].
    + cbn. split; [destruct i; discriminate|intros [_ H]; destruct i; discriminate].
    + destruct i as [|i]; cbn; [|apply IH]. split; [intros [= -> ->]; auto|intros [[= ->] [= ->]]; auto].
Qed.
Lemma in_nth A (l : list A) a : In a l <-> exists i, nth_error l i = Some a.
Proof. split; [apply In_nth_error|intros [i H]; eapply nth_error_In; eauto]. Qed.

Lemma times_inj ps i j t p q : times_increase ps -> nth_error ps i = Some (t, p) -> nth_error ps j = Some (t, q) -> i = j.
Proof.
  intros H Hi Hj. unfold times_increase in H.
  assert (A : nth_error (map fst ps) i = Some t) by now rewrite nth_error_map, Hi.
  assert (B : nth_error (map fst ps) j = Some t) by now rewrite nth_error_map, Hj.
  destruct (Nat.lt_trichotomy i j) as [L|[L|L]]; auto; exfalso.
  - pose proof (@ssorted_nth_lt (map fst ps) i j t t H A B L). lia.
  - pose proof (@ssorted_nth_lt (map fst ps) j i t t H B A L). lia.
Qed.

Lemma timings_In ps t : times_increase ps ->
  (In t (position_timings ps) <-> nth_error ps 0 = Some (t, 0) \/ exists i, closes ps i t \/ flips ps i t).
Proof.
  intro HT. unfold position_timings. split.
  - intro H. apply (Permutation_in _ (Permutation_sym (zsort_perm _))) in H. apply nodup_In, in_app_iff in H. destruct H as [H|H].
    + apply filter_In in H. destruct H as [H1 H2].
      apply in_map_iff in H1. destruct H1 as [[t' p] [E H1]]. cbn in E. subst t'. apply filter_In in H1. destruct H1 as [H1 Hp].
      cbn in Hp. apply qeq_iff in Hp. subst p. apply in_nth in H1. destruct H1 as [i Hi].
      apply existsb_exists in H2. destruct H2 as [t' [H2 E]]. apply Z.eqb_eq in E. subst t'.
      apply in_map_iff in H2. destruct H2 as [[t' o] [E H2]]. cbn in E. subst t'. apply filter_In in H2. destruct H2 as [H2 Ho]. cbn in Ho.
      apply in_nth in H2. destruct H2 as [j Hj]. apply nth_error_combine in Hj. destruct Hj as [J1 J2].
      rewrite nth_error_map in J1. destruct (nth_error ps j) as [[t'' p']|] eqn:EJ; [|discriminate]. cbn in J1. inversion J1; subst t''.
      assert (i = j) by (eapply times_inj; eauto). subst j. assert (p' = 0) by congruence. subst p'.
      apply shift1_nth in J2. destruct J2 as [L J2]. destruct i as [|i]; [now left|]. right. exists i. left.
      destruct J2 as [a [Ha ->]]. rewrite nth_error_map in Ha. destruct (nth_error ps i) as [[t0 p0]|] eqn:E0; [|discriminate].
      cbn in Ha. inversion Ha; subst a. apply negb_true_iff, qeq_false in Ho. exists p0, t0, 0. auto.
    + apply in_map_iff in H. destruct H as [[t' x] [E H]]. cbn in E. subst t'. apply filter_In in H. destruct H as [H Hx]. cbn in Hx.
      apply qlt_iff in Hx. apply in_map_iff in H. destruct H as [[[t' p] p0] [E H]]. cbn in E. inversion E; subst t' x.
      apply in_nth in H. destruct H as [i Hi]. apply nth_error_combine in Hi. destruct Hi as [I1 I2].
      rewrite nth_error_map in I2. destruct (nth_error (removelast ps) i) as [[t0 p0']|] eqn:E0; [|discriminate]. cbn in I2. inversion I2; subst p0'.
      apply nth_removelast in E0. destruct E0 as [E0 L]. right. exists i. right. exists p0, t0, p. split; auto.
      split; [destruct ps; [cbn in L; lia|exact I1]|].
      destruct (Qclt_le_dec 0 p) as [P|P].
      * left. split; auto. apply Qcnot_le_lt. intro C. assert (0 <= p * p0) by (apply Qcmul_nonneg; auto; now apply Qclt_le_weak).
        apply (Qclt_not_le _ _ Hx). auto.
      * assert (P' : p < 0).
        { apply Qcle_lt_or_eq in P. destruct P as [P|P]; auto. subst p. exfalso. rewrite Qcmult_0_l in Hx. now apply Qclt_irrefl in Hx. }
        right. split; auto. apply Qcnot_le_lt. intro C. apply (Qclt_not_le _ _ Hx). qnra.
  - intro H. apply (Permutation_in _ (zsort_perm _)). apply nodup_In, in_app_iff. destruct H as [H|[i [H|H]]].
    + left. apply filter_In. split.
      * apply in_map_iff. exists (t, 0). split; auto. apply filter_In. split; [eapply nth_error_In; eauto|]. reflexivity.
      * apply existsb_exists. exists t. split; [|apply Z.eqb_refl]. apply in_map_iff. exists (t, None). split; auto. apply filter_In.
        split; auto. apply in_nth. exists 0%nat. apply nth_error_combine. split; [now rewrite nth_error_map, H|].
        apply shift1_nth. split; auto. destruct ps; [discriminate|cbn; lia].
    + destruct H as [p0 [t0 [p [H1 [H2 [H3 ->]]]]]]. left. apply filter_In. split.
      * apply in_map_iff. exists (t, 0). split; auto. apply filter_In. split; [eapply nth_error_In; eauto|]. reflexivity.
      * apply existsb_exists. exists t. split; [|apply Z.eqb_refl]. apply in_map_iff. exists (t, Some p0). split; auto. apply filter_In.
        split; [|cbn; apply negb_true_iff; now apply qeq_false]. apply in_nth. exists (S i). apply nth_error_combine. split; [now rewrite nth_error_map, H2|].
        apply shift1_nth. split.
        -- rewrite map_length. apply nth_error_Some. congruence.
        -- exists p0. split; auto. now rewrite nth_error_map, H1.
    + destruct H as [p0 [t0 [p [H1 [H2 H3]]]]]. right. apply in_map_iff. exists (t, p * p0). split; auto. apply filter_In. split.
      * apply in_map_iff. exists ((t, p), p0). split; auto. apply in_nth. exists i. apply nth_error_combine. split.
        -- destruct ps; [discriminate|exact H2].
        -- assert (L : (S i < length ps)%nat) by (apply nth_error_Some; congruence).
           assert (E : nth_error (removelast ps) i = Some (t0, p0)) by (apply nth_removelast; auto). now rewrite nth_error_map, E.
      * cbn. apply qlt_iff. destruct H3 as [[A B]|[A B]]; qnra.
Qed.

(** ** Holding period *)
Definition days (t0 t : Z) : Qc := qz (t - t0) / ns_per_day.
Lemma ns_per_day_pos : 0 < ns_per_day.
Proof. reflexivity. Qed.
Lemma days_mono t0 a b : (a <= b)%Z -> days t0 a <= days t0 b.
Proof.
  intro H. unfold days. apply Qcdiv_le_iff; [apply ns_per_day_pos|]. rewrite Qcdiv_mul_cancel; [|discriminate]. apply qz_le. lia.
Qed.
Lemma days_refl t0 : days t0 t0 = 0.
Proof. unfold days. rewrite Z.sub_diag. rewrite qz_0; unfold Qcdiv; ring. Qed.
Lemma days_sub t0 a b : days t0 b - days t0 a = qz (b - a) / ns_per_day.
Proof. unfold days. rewrite !qz_sub. field. discriminate. Qed.

Definition hp_sum (hp : list (Qc * Qc)) : Qc := qsum (map (fun r => fst r * snd r) hp).
Definition hp_w (hp : list (Qc * Qc)) : Qc := qsum (map snd hp).
Definition hp_within (d : Qc) (hp : list (Qc * Qc)) : Prop := forall r, In r hp -> 0 <= fst r <= d /\ 0 <= snd r.
Lemma hp_sum_snoc hp a b : hp_sum (hp ++ [(a, b)]) = hp_sum hp + a * b.
Proof. unfold hp_sum. rewrite map_app, qsum_app. cbn. ring. Qed.
Lemma hp_w_snoc hp a b : hp_w (hp ++ [(a, b)]) = hp_w hp + b.
Proof. unfold hp_w. rewrite map_app, qsum_app. cbn. ring. Qed.

Lemma step_exposure t0 E hp t p t' p' : (t0 <= t < t')%Z -> 0 <= E <= days t0 t -> hp_within (days t0 t) hp ->
  forall E' hp', hp_step t0 (E, hp) (t, p) (t', p') = (E', hp') ->
  hp_sum hp' + qabs p' * (days t0 t' - E') = hp_sum hp + qabs p * (days t0 t' - E) /\
  hp_w hp' = hp_w hp + closed_qty p p' /\
  0 <= E' <= days t0 t' /\ hp_within (days t0 t') hp'.
Proof.
  intros HT HE HW E' hp' H. assert (HD : days t0 t <= days t0 t') by (apply days_mono; lia).
  assert (HW' : hp_within (days t0 t') hp) by (intros r Hr; destruct (HW r Hr) as [[? ?] ?]; repeat split; auto; eapply Qcle_trans; eauto).
  unfold hp_step in H. cbn [fst snd] in H. fold (days t0 t') in H. set (d := days t0 t) in *. set (d' := days t0 t') in *. clearbody d d'.
  destruct (qle 0 ((p' - p) * p)) eqn:E1.
  - destruct (qeq p' 0) eqn:E2; inversion H; subst E' hp'; clear H.
    + apply qeq_iff in E2. subst p'. apply qle_iff in E1. assert (P : p = 0).
      { assert (p * p = 0) by qnra. destruct (Qcmult_integral _ _ H); auto. }
      subst p. cbn [qabs]. change (qabs 0) with 0. unfold closed_qty. change (qabs 0) with 0.
      replace (if qlt (0 * 0) 0 then 0 else qmax 0 (0 - 0)) with 0 by (symmetry; apply Qc_is_canon; vm_compute; reflexivity). split; [ring|split; [ring|split; [split; qlra|auto]]].
    + apply qle_iff in E1. apply qeq_false in E2.
      assert (C : (0 < p' /\ 0 <= p /\ p <= p') \/ (p' < 0 /\ p <= 0 /\ p' <= p)).
      { destruct (Qclt_le_dec 0 p') as [P|P].
        - left. split; auto. destruct (Qclt_le_dec p 0) as [N|N]; [exfalso; qnra|]. split; auto.
          destruct (Qclt_le_dec p' p) as [N'|N']; auto. exfalso. qnra.
        - right. assert (p' < 0) by (apply Qcle_lt_or_eq in P; destruct P; auto; contradiction). split; auto.
          destruct (Qclt_le_dec 0 p) as [N|N]; [exfalso; qnra|]. split; auto.
          destruct (Qclt_le_dec p p') as [N'|N']; auto. exfalso. qnra. }
      set (E' := (E * p + d' * (p' - p)) / p'). assert (EQ : E' * p' = E * p + d' * (p' - p)) by (unfold E'; now apply Qcdiv_mul_cancel).
      clearbody E'. destruct C as [[C1 [C2 C3]]|[C1 [C2 C3]]].
      * rewrite (@qabs_pos p' (Qclt_le_weak _ _ C1)), (@qabs_pos p C2). split; [replace (p' * (d' - E')) with (p' * d' - E' * p') by ring; rewrite EQ; ring|]. split.
        -- unfold closed_qty. assert (N : qlt (p * p') 0 = false) by (apply qlt_false; qnra). rewrite N.
           rewrite (@qabs_pos p' (Qclt_le_weak _ _ C1)), (@qabs_pos p C2). unfold qmax. destruct (qle 0 (p - p')) eqn:E3; [apply qle_iff in E3; qlra|ring].
        -- split; auto. assert (B1 : 0 <= E' * p') by (rewrite EQ; qnra). assert (B2 : E' * p' <= d' * p') by (rewrite EQ; qnra).
           split; [destruct (Qclt_le_dec E' 0); auto; exfalso; qnra|destruct (Qclt_le_dec d' E'); auto; exfalso; qnra].
      * rewrite (@qabs_neg p' (Qclt_le_weak _ _ C1)), (@qabs_neg p C2). split; [replace (- p' * (d' - E')) with (E' * p' - p' * d') by ring; rewrite EQ; ring|]. split.
        -- unfold closed_qty. assert (N : qlt (p * p') 0 = false) by (apply qlt_false; qnra). rewrite N.
           rewrite (@qabs_neg p' (Qclt_le_weak _ _ C1)), (@qabs_neg p C2). unfold qmax. destruct (qle 0 (- p - - p')) eqn:E3; [apply qle_iff in E3; qlra|ring].
        -- split; auto. assert (B1 : 0 <= E' * - p') by (replace (E' * - p') with (- (E' * p')) by ring; rewrite EQ; qnra).
           assert (B2 : E' * - p' <= d' * - p') by (replace (E' * - p') with (- (E' * p')) by ring; rewrite EQ; qnra).
           split; [destruct (Qclt_le_dec E' 0); auto; exfalso; qnra|destruct (Qclt_le_dec d' E'); auto; exfalso; qnra].
  - apply qle_false in E1. destruct (qlt (p' * p) 0) eqn:E2; inversion H; subst E' hp'; clear H.
    + rewrite hp_sum_snoc, hp_w_snoc. unfold closed_qty. rewrite (Qcmult_comm p p'), E2. split; [ring|]. split; auto. split; [split; qlra|].
      intros r Hr. apply in_app_iff in Hr. destruct Hr as [Hr|[<-|[]]]; auto. cbn. repeat split; try qlra. apply qabs_nonneg.
    + apply qlt_false in E2. rewrite hp_sum_snoc, hp_w_snoc. unfold closed_qty. rewrite (Qcmult_comm p p').
      assert (E3 : qlt (p' * p) 0 = false) by now apply qlt_false. rewrite E3.
      assert (A : qabs (p' - p) = qabs p - qabs p' /\ 0 <= qabs p - qabs p').
      { destruct (Qclt_le_dec 0 p) as [P|P].
        - assert (0 <= p') by (destruct (Qclt_le_dec p' 0); auto; exfalso; qnra). assert (p' < p) by (apply Qcnot_le_lt; intro; qnra).
          rewrite (@qabs_pos p), (@qabs_pos p'), (@qabs_neg (p' - p)) by qlra. split; [ring|qlra].
        - assert (p' <= 0) by (destruct (Qclt_le_dec 0 p'); auto; exfalso; qnra). assert (p < p') by (apply Qcnot_le_lt; intro; qnra).
          rewrite (@qabs_neg p), (@qabs_neg p'), (@qabs_pos (p' - p)) by qlra. split; [ring|qlra]. }
      destruct A as [A1 A2]. rewrite A1. split; [ring|]. split; [|split; [split; qlra|]].
      * unfold qmax. destruct (qle 0 (qabs p - qabs p')) eqn:E4; [reflexivity|]. apply qle_false in E4. qlra.
      * intros r Hr. apply in_app_iff in Hr. destruct Hr as [Hr|[<-|[]]]; auto. cbn. repeat split; try qlra.
Qed.

Lemma loop_exposure t0 rest : forall E hp t p, (t0 <= t)%Z -> times_increase ((t, p) :: rest) ->
  0 <= E <= days t0 t -> hp_within (days t0 t) hp ->
  forall E' hp', hp_loop t0 (E, hp) (t, p) rest = (E', hp') ->
  let l := last rest (t, p) in
  hp_sum hp' + qabs (snd l) * (days t0 (fst l) - E') = hp_sum hp + qabs p * (days t0 t - E) + exposure ns_per_day ((t, p) :: rest) /\
  hp_w hp' = hp_w hp + total_closed ((t, p) :: rest) /\
  0 <= E' <= days t0 (fst l) /\ hp_within (days t0 (fst l)) hp'.
Proof.
  induction rest as [|[t' p'] rest IH]; intros E hp t p H0 HT HE HW E' hp' H.
  - cbn in H. inversion H; subst. cbn. split; [ring|split; [ring|split; auto]].
  - cbn [hp_loop] in H. destruct (hp_step t0 (E, hp) (t, p) (t', p')) as [E1 hp1] eqn:ES.
    unfold times_increase in HT. cbn [map fst] in HT. inversion HT as [|? ? HT' HF]; subst. inversion HF as [|? ? L _]; subst.
    assert (B : (t0 <= t < t')%Z) by lia.
    destruct (step_exposure B HE HW ES) as [S1 [S2 [S3 S4]]]. assert (B' : (t0 <= t')%Z) by lia.
    specialize (IH E1 hp1 t' p' B' HT' S3 S4 _ _ H). cbn zeta in IH.
    replace (last ((t', p') :: rest) (t, p)) with (last rest (t', p')).
    2:{ destruct rest as [|r rest]; auto. change (last ((t', p') :: r :: rest) (t, p)) with (last (r :: rest) (t, p)).
        clear. revert r. induction rest as [|r' rest IH]; intro r; auto. change (last (r' :: rest) (t', p') = last (r' :: rest) (t, p)). apply IH. }
    cbn zeta. destruct IH as [I1 [I2 [I3 I4]]]. split; [|split; [|split; auto]].
    + rewrite I1, S1. change (exposure ns_per_day ((t, p) :: (t', p') :: rest)) with (qabs p * (qz (t' - t) / ns_per_day) + exposure ns_per_day ((t', p') :: rest)).
      rewrite <- (days_sub t0). ring.
    + rewrite I2, S2. change (total_closed ((t, p) :: (t', p') :: rest)) with (closed_qty p p' + total_closed ((t', p') :: rest)). ring.
Qed.

Definition scale (c : Qc) (ps : series) : series := map (fun r => (fst r, c * snd r)) ps.
Lemma qlt_scale_sq c x : c <> 0 -> qlt (c * c * x) 0 = qlt x 0 /\ qle 0 (c * c * x) = qle 0 x.
Proof.
  intro H. assert (S : 0 < c * c) by (destruct (Qclt_le_dec 0 c); [qnra|]; assert (c < 0) by (apply Qcle_lt_or_eq in q; destruct q; auto; contradiction); qnra).
  set (s := c * c) in *. clearbody s. destruct (qlt x 0) eqn:E.
  - apply qlt_iff in E. assert (L : s * x < 0) by qnra. split; [now apply qlt_iff|].
    transitivity false; [now apply qle_false|symmetry; now apply qle_false].
  - apply qlt_false in E. assert (L : 0 <= s * x) by qnra. split; [now apply qlt_false|].
    transitivity true; [now apply qle_iff|symmetry; now apply qle_iff].
Qed.
Lemma step_scale t0 c E hp a b : c <> 0 ->
  hp_step t0 (E, map (fun r => (fst r, qabs c * snd r)) hp) (fst a, c * snd a) (fst b, c * snd b) =
  let '(E', hp') := hp_step t0 (E, hp) a b in (E', map (fun r => (fst r, qabs c * snd r)) hp').
Proof.
  intro H. destruct a as [ta p], b as [tb p']. unfold hp_step. cbn [fst snd].
  replace ((c * p' - c * p) * (c * p)) with (c * c * ((p' - p) * p)) by ring. rewrite (proj2 (qlt_scale_sq _ H)).
  destruct (qle 0 ((p' - p) * p)).
  - destruct (qeq p' 0) eqn:E1.
    + apply qeq_iff in E1. subst. rewrite Qcmult_0_r. reflexivity.
    + apply qeq_false in E1. assert (E2 : qeq (c * p') 0 = false) by (apply qeq_false; now apply Qcmul_neq_0). rewrite E2. f_equal. field. split; [discriminate|auto].
  - replace (c * p' * (c * p)) with (c * c * (p' * p)) by ring. rewrite (proj1 (qlt_scale_sq _ H)).
    destruct (qlt (p' * p) 0); rewrite map_app; cbn; f_equal; do 3 f_equal.
    + apply qabs_mul.
    + rewrite <- qabs_mul. f_equal. ring.
Qed.
Lemma loop_scale t0 c rest : c <> 0 -> forall E hp a,
  hp_loop t0 (E, map (fun r => (fst r, qabs c * snd r)) hp) (fst a, c * snd a) (scale c rest) =
  let '(E', hp') := hp_loop t0 (E, hp) a rest in (E', map (fun r => (fst r, qabs c * snd r)) hp').
Proof.
  intro H. induction rest as [|b rest IH]; intros E hp a; [reflexivity|]. unfold scale. cbn [map hp_loop]. rewrite (step_scale _ _ _ _ _ H).
  destruct (hp_step t0 (E, hp) a b) as [E1 hp1]. apply IH.
Qed.
Lemma holding_period_scale c ps : c <> 0 -> holding_period (scale c ps) = holding_period ps.
Proof.
  intro H. destruct ps as [|a rest]; auto. unfold holding_period, scale. cbn [map].
  pose proof (@loop_scale (fst a) c rest H 0 [] a) as L. cbn [map] in L. unfold scale in L. cbn [fst]. rewrite L.
  destruct (hp_loop (fst a) (0, []) a rest) as [E hp]. cbn [snd]. rewrite !map_map. cbn [fst snd].
  rewrite (@qsum_map_scale _ (fun r : Qc * Qc => snd r) (qabs c) hp).
  rewrite (@qsum_map_ext _ (fun x : Qc * Qc => fst x * (qabs c * snd x)) (fun x => qabs c * (fst x * snd x))) by (intros; ring).
  rewrite (@qsum_map_scale _ (fun r : Qc * Qc => fst r * snd r) (qabs c) hp).
  assert (P : 0 < qabs c) by (pose proof (qabs_nonneg c) as N; apply Qcle_lt_or_eq in N; destruct N as [N|N]; auto; symmetry in N; apply -> qabs_0 in N; contradiction).
  set (w := qsum (map snd hp)). replace (qlt 0 (qabs c * w)) with (qlt 0 w).
  - destruct (qlt 0 w) eqn:E1; auto. apply qlt_iff in E1. do 2 f_equal. field. split; now apply Qc_pos_neq.
  - destruct (qlt 0 w) eqn:E1; symmetry.
    + apply qlt_iff in E1. apply qlt_iff. now apply Qcmul_pos.
    + apply qlt_false in E1. apply qlt_false. qnra.
Qed.

(** ** Time weighted return *)
Lemma portfolio_cons v cf steps : exists rows, portfolio v cf steps = (v, cf) :: rows.
Proof. destruct steps as [|[r c] steps]; cbn; eauto. Qed.
Lemma twr_portfolio steps : forall v cf, solvent (portfolio v cf steps) ->
  twr_rets (v, cf) (tl (portfolio v cf steps)) = Some (map fst steps).
Proof.
  induction steps as [|[r cf'] steps IH]; intros v cf H; auto. cbn [portfolio tl].
  set (v' := (v + cf) * (1 + r)) in *. cbn [portfolio] in H. fold v' in H. destruct (portfolio_cons v' cf' steps) as [rows E].
  rewrite E in *. cbn [solvent] in H. destruct H as [H1 H2]. cbn [twr_rets fst snd].
  destruct (qeq (v + cf) 0) eqn:EQ; [apply qeq_iff in EQ; contradiction|].
  specialize (IH v' cf'). rewrite E in IH. cbn [tl] in IH. rewrite IH by exact H2. cbn [map fst]. do 2 f_equal. unfold v'. now field.
Qed.
Lemma growth_prod rs : qprod (map (fun x => 1 + x) rs) = growth rs.
Proof. induction rs as [|r rs IH]; auto. cbn [map]. unfold qprod in *. cbn [fold_right growth]. now rewrite IH. Qed.

(** ** Concentration *)
Section Hhi.
Variable l : list Qc.
Hypothesis Hn : (2 <= length l)%nat.
Let n := qn (length l).
Let s := qsum l.
Hypothesis Hs : s <> 0.
Let w := map (fun r => r / s) l.

Lemma n_pos : 0 < n.
Proof. apply qn_pos. lia. Qed.
Lemma n_ge2 : 2 <= n.
Proof. unfold n. change (qz 2) with (qn 2). now apply qn_le. Qed.
Lemma w_sum : qsum w = 1.
Proof.
  unfold w. rewrite (@qsum_map_ext _ (fun r => r / s) (fun r => (/ s) * r)) by (intros; unfold Qcdiv; ring).
  rewrite (@qsum_map_scale _ (fun r => r) (/ s) l), map_id. fold s. now field.
Qed.
Lemma denom_pos : 0 < 1 - 1 / n.
Proof. assert (1 / n < 1) by (apply Qcdiv_lt_iff; [apply n_pos|]; pose proof n_ge2; qlra). qlra. Qed.
Lemma hhi_value : get_hhi l = Some ((qsum (map (fun x => x * x) w) - 1 / n) / (1 - 1 / n)).
Proof.
  unfold get_hhi. fold s. fold n. destruct (qeq s 0) eqn:E; [apply qeq_iff in E; contradiction|].
  destruct (qeq (1 - 1 / n) 0) eqn:E2; [apply qeq_iff in E2; pose proof denom_pos; rewrite E2 in *; now apply Qclt_irrefl in H|].
  do 4 f_equal. unfold w. now rewrite map_map.
Qed.
Lemma w_var : qsum (map (fun x => x * x) w) - 1 / n = qsum (map (fun x => (x - 1 / n) * (x - 1 / n)) w).
Proof.
  assert (L : length w = length l) by (unfold w; apply map_length). pose proof w_sum as S. clearbody w.
  rewrite (@qsum_map_ext _ (fun x => (x - 1 / n) * (x - 1 / n)) (fun x => x * x + ((- (2 / n)) * x + (1 / n) * (1 / n)))).
  2:{ intros. pose proof n_pos as P. apply Qc_pos_neq in P. change (qz 2) with (1 + 1). unfold Qcdiv. ring. }
  rewrite (@qsum_map_add _ (fun x => x * x) (fun x => (- (2 / n)) * x + (1 / n) * (1 / n))).
  rewrite (@qsum_map_add _ (fun x => (- (2 / n)) * x) (fun _ => (1 / n) * (1 / n))).
  rewrite qsum_map_const, (@qsum_map_scale _ (fun x => x) (- (2 / n)) w), map_id, S, L. fold n. pose proof n_pos as P. apply Qc_pos_neq in P.
  change (qz 2) with (1 + 1). now field.
Qed.

Lemma w_all_equal : all_equal l <-> (forall x, In x w -> x = 1 / n).
Proof.
  split.
  - intros H x Hx. unfold w in Hx. apply in_map_iff in Hx. destruct Hx as [r [<- Hr]].
    assert (S : s = n * r). { unfold s. rewrite <- (map_id l). rewrite (@qsum_map_ext _ (fun x => x) (fun _ => r)) by (intros; now apply H). apply qsum_map_const. }
    assert (r <> 0) by (intros ->; apply Hs; rewrite S; ring). rewrite S. pose proof n_pos as P. apply Qc_pos_neq in P. now field.
  - intros H x y Hx Hy. assert (X : x / s = y / s).
    { transitivity (1 / n); [|symmetry]; apply H; unfold w; apply in_map_iff; eauto. }
    rewrite <- (Qcdiv_mul_cancel x Hs), X. now apply Qcdiv_mul_cancel.
Qed.
Lemma sq_nonneg (x : Qc) : 0 <= x * x.
Proof. qnra. Qed.
Lemma sq_zero (x : Qc) : x * x = 0 -> x = 0.
Proof. intro H. destruct (Qcmult_integral _ _ H); auto. Qed.
Lemma hhi_zero : qsum (map (fun x => x * x) w) - 1 / n = 0 <-> all_equal l.
Proof.
  rewrite w_var, w_all_equal. split.
  - intros H x Hx. assert (Z : (x - 1 / n) * (x - 1 / n) = 0).
    { apply (@qsum_zero_all (map (fun x => (x - 1 / n) * (x - 1 / n)) w)); auto.
      - intros y Hy. apply in_map_iff in Hy. destruct Hy as [z [<- _]]. apply sq_nonneg.
      - apply in_map_iff. eauto. }
    apply sq_zero in Z. rewrite <- (Qcplus_0_r (1 / n)), <- Z. ring.
  - intros H. apply qsum_map_0. intros x Hx. rewrite (H x Hx). ring.
Qed.

Hypothesis Hw : forall x, In x l -> 0 <= x / s.
Lemma w_nonneg x : In x w -> 0 <= x.
Proof. unfold w. intro H. apply in_map_iff in H. destruct H as [r [<- Hr]]. auto. Qed.
Lemma w_le1 x : In x w -> x <= 1.
Proof. intro H. rewrite <- w_sum. apply qsum_ge_elem; auto. apply w_nonneg. Qed.
Lemma hhi_le1 : qsum (map (fun x => x * x) w) <= 1.
Proof.
  apply Qcle_trans with (qsum (map (fun x => x) w)).
  - apply qsum_map_le. intros x Hx. pose proof (w_nonneg Hx). pose proof (w_le1 Hx). qnra.
  - rewrite map_id, w_sum. apply Qcle_refl.
Qed.
Lemma split_first_nz (k : list Qc) : (exists x, In x k /\ x <> 0) -> exists l1 x l2, k = l1 ++ x :: l2 /\ x <> 0 /\ forall y, In y l1 -> y = 0.
Proof.
  induction k as [|a k IH]; intros [x [Hx Nx]]; [contradiction|]. destruct (qeq_spec a 0) as [->|N].
  - destruct Hx as [<-|Hx]; [contradiction|]. destruct IH as [l1 [y [l2 [E [N H]]]]]; eauto. exists (0 :: l1), y, l2. subst. repeat split; auto.
    intros z [<-|Hz]; auto.
  - exists [], a, k. repeat split; auto. intros y [].
Qed.
Lemma hhi_one : qsum (map (fun x => x * x) w) = 1 <-> single_bet l.
Proof.
  split.
  - intro H. assert (B : forall x, In x w -> x = 0 \/ x = 1).
    { assert (Z : qsum (map (fun x => x - x * x) w) = 0) by (rewrite (@qsum_map_sub _ (fun x => x) (fun x => x * x)), map_id, w_sum, H; ring).
      intros x Hx. assert (Z1 : x - x * x = 0).
      { apply (@qsum_zero_all (map (fun x => x - x * x) w)); auto; [|apply in_map_iff; eauto].
        intros y Hy. apply in_map_iff in Hy. destruct Hy as [z [<- Hz]]. pose proof (w_nonneg Hz). pose proof (w_le1 Hz). qnra. }
      assert (x * (1 - x) = 0) by (rewrite <- Z1; ring). destruct (Qcmult_integral _ _ H0) as [?|Q]; auto. right.
      rewrite <- (Qcplus_0_r x), <- Q. ring. }
    destruct (@split_first_nz l) as [l1 [x [l2 [E [Nx H1]]]]].
    { assert (D : Exists (fun x => x <> 0) l).
      { destruct (Exists_dec (fun x => x <> 0) l) as [D|D]; auto.
        { intro x. destruct (qeq_spec x 0); [right|left]; auto. }
        exfalso. apply Hs. unfold s. rewrite <- (map_id l). apply qsum_map_0. intros x Hx. destruct (qeq_spec x 0); auto. exfalso. apply D. apply Exists_exists. eauto. }
      now apply Exists_exists in D. }
    exists l1, x, l2. repeat split; auto.
    assert (X : x / s = 1).
    { destruct (B (x / s)) as [C|C]; auto. { unfold w. apply in_map_iff. exists x. split; auto. rewrite E. apply in_app_iff. right. now left. }
      apply Qcdiv_0 in C; [contradiction|exact Hs]. }
    intros y Hy. pose proof w_sum as S. unfold w in S. rewrite E in S. rewrite map_app, qsum_app in S. cbn [map qsum] in S. rewrite X in S.
    assert (Q1 : qsum (map (fun r => r / s) l1) = 0) by (apply qsum_map_0; intros z Hz; rewrite (H1 z Hz); unfold Qcdiv; ring).
    rewrite Q1 in S. assert (Q2 : qsum (map (fun r => r / s) l2) = 0) by (set (qq := qsum _) in *; clearbody qq; clear - S; qlra).
    assert (Y : y / s = 0).
    { apply (@qsum_zero_all (map (fun r => r / s) l2)); auto; [|apply in_map_iff; eauto]. intros z Hz. apply in_map_iff in Hz. destruct Hz as [u [<- Hu]].
      apply Hw. rewrite E. apply in_app_iff. right. now right. }
    now apply Qcdiv_0 in Y.
  - intros [l1 [x [l2 [E [Nx [H1 H2]]]]]]. assert (S : s = x).
    { unfold s. rewrite E, qsum_app. cbn [qsum]. rewrite <- (map_id l1), <- (map_id l2), !qsum_map_0 by auto. ring. }
    unfold w. rewrite map_map, E, map_app, qsum_app. cbn [map qsum]. rewrite !qsum_map_0.
    + rewrite S. now field.
    + intros y Hy. rewrite (H2 y Hy). unfold Qcdiv. ring.
    + intros y Hy. rewrite (H1 y Hy). unfold Qcdiv. ring.
Qed.
End Hhi.

Lemma qsum_neg l : l <> [] -> (forall x, In x l -> x < 0) -> qsum l < 0.
Proof.
  induction l as [|x l IH]; intros N H; [congruence|]. cbn. destruct l as [|y l].
  - specialize (H x (or_introl eq_refl)). cbn. qlra.
  - assert (qsum (y :: l) < 0) by (apply IH; [discriminate|intros; apply H; now right]). specialize (H x (or_introl eq_refl)). qlra.
Qed.
Lemma Qcdiv_neg_nonneg a b : a <= 0 -> b < 0 -> 0 <= a / b.
Proof.
  intros A B. assert (b <> 0) by (intros ->; now apply Qclt_irrefl in B).
  replace (a / b) with ((- a) / (- b)); [apply Qcdiv_nonneg; qlra|]. field. split; auto. intro C. qlra.
Qed.

Lemma get_hhi_perm a b : Permutation a b -> get_hhi a = get_hhi b.
Proof.
  intro P. unfold get_hhi. rewrite (qsum_perm P), (Permutation_length P).
  destruct (qeq (qsum b) 0); auto. now rewrite (qsum_perm (Permutation_map (fun r => r / qsum b * (r / qsum b)) P)).
Qed.
Lemma get_hhi_scale c l : c <> 0 -> get_hhi (map (fun r => c * r) l) = get_hhi l.
Proof.
  intro H. unfold get_hhi. rewrite map_length, (@qsum_map_scale _ (fun r => r) c l), map_id, map_map.
  replace (qeq (c * qsum l) 0) with (qeq (qsum l) 0).
  - destruct (qeq (qsum l) 0) eqn:E; auto. apply qeq_false in E.
    rewrite (@qsum_map_ext _ (fun x => c * x / (c * qsum l) * (c * x / (c * qsum l))) (fun r => r / qsum l * (r / qsum l))); auto.
    intros. f_equal; field; auto.
  - destruct (qeq (qsum l) 0) eqn:E; symmetry.
    + apply qeq_iff in E. apply qeq_iff. rewrite E. ring.
    + apply qeq_false in E. apply qeq_false. now apply Qcmul_neq_0.
Qed.
Lemma filter_scale (f : Qc -> bool) c l : (forall x, f (c * x) = f x) -> filter f (map (fun r => c * r) l) = map (fun r => c * r) (filter f l).
Proof. intro H. induction l as [|x l IH]; auto. cbn. rewrite H. destruct (f x); cbn; now rewrite IH. Qed.
Lemma Permutation_filter A (f : A -> bool) a b : Permutation a b -> Permutation (filter f a) (filter f b).
Proof.
  induction 1; cbn; auto.
  - destruct (f x); auto.
  - destruct (f x), (f y); auto. constructor.
  - eapply perm_trans; eauto.
Qed.

(** ** Drawdowns *)
Fixpoint highs (m : Qc) (rows : series) : series :=
  match rows with [] => [] | (t, v) :: r => if qlt m v then (t, v) :: highs v r else highs m r end.
Lemma drop_highs rows : forall m seen, (forall x, In x seen -> x <= m) -> In m seen ->
  drop_duplicates seen (combine (map fst rows) (running_max m (map snd rows))) = highs m rows.
Proof.
  induction rows as [|[t v] rows IH]; intros m seen H1 H2; auto. cbn [map fst snd running_max combine drop_duplicates highs].
  unfold qmax. destruct (qlt m v) eqn:E.
  - apply qlt_iff in E. assert (L : qle m v = true) by (apply qle_iff; now apply Qclt_le_weak). rewrite L.
    assert (N : existsb (qeq v) seen = false).
    { destruct (existsb (qeq v) seen) eqn:EX; auto. apply existsb_exists in EX. destruct EX as [x [Hx Q]]. apply qeq_iff in Q. subst x.
      exfalso. apply (Qclt_not_le _ _ E). auto. }
    rewrite N. f_equal. apply IH; [|now left]. intros x [<-|Hx]; [apply Qcle_refl|]. apply Qcle_trans with m; auto. now apply Qclt_le_weak.
  - apply qlt_false in E. assert (M : (if qle m v then v else m) = m).
    { destruct (qle m v) eqn:L; auto. apply qle_iff in L. now apply Qcle_antisym. }
    rewrite M. assert (X : existsb (qeq m) seen = true) by (apply existsb_exists; exists m; split; auto; now apply qeq_iff). rewrite X. now apply IH.
Qed.
Definition all_highs (rows : series) : series := match rows with [] => [] | (t, v) :: r => (t, v) :: highs v r end.
Lemma drop_all rows : drop_duplicates [] (combine (map fst rows) (expanding_max (map snd rows))) = all_highs rows.
Proof.
  destruct rows as [|[t v] rows]; auto. cbn [map fst snd expanding_max combine drop_duplicates existsb all_highs]. f_equal.
  apply drop_highs; [|now left]. intros x [<-|[]]. apply Qcle_refl.
Qed.
Lemma highs_In rows : forall m t h, In (t, h) (highs m rows) <->
  exists i, nth_error rows i = Some (t, h) /\ m < h /\ forall j y, (j < i)%nat -> nth_error (map snd rows) j = Some y -> y < h.
Proof.
  induction rows as [|[t0 v] rows IH]; intros m t h.
  - cbn. split; [tauto|]. intros [i [H _]]. destruct i; discriminate.
  - cbn [highs]. destruct (qlt m v) eqn:E.
    + apply qlt_iff in E. cbn [In]. rewrite IH. split.
      * intros [Q|[i [H1 [H2 H3]]]].
        -- inversion Q; subst. exists 0%nat. repeat split; auto. intros; lia.
        -- exists (S i). repeat split; auto; [eapply Qclt_trans; eauto|]. intros [|j] y L Hy; cbn in Hy; [inversion Hy; subst; auto|]. apply (H3 j); auto; lia.
      * intros [[|i] [H1 [H2 H3]]]; [left; now inversion H1|]. right. exists i. repeat split; auto.
        -- apply (H3 0%nat); auto; lia.
        -- intros j y L Hy. apply (H3 (S j)); auto; lia.
    + apply qlt_false in E. rewrite IH. split.
      * intros [i [H1 [H2 H3]]]. exists (S i). repeat split; auto. intros [|j] y L Hy; cbn in Hy; [inversion Hy; subst; eapply Qcle_lt_trans; eauto|].
        apply (H3 j); auto; lia.
      * intros [[|i] [H1 [H2 H3]]]; [inversion H1; subst; exfalso; now apply (Qclt_not_le _ _ H2)|]. exists i. repeat split; auto.
        intros j y L Hy. apply (H3 (S j)); auto; lia.
Qed.
Lemma all_highs_In rows t h : In (t, h) (all_highs rows) <->
  exists i, nth_error rows i = Some (t, h) /\ new_high (map snd rows) i.
Proof.
  destruct rows as [|[t0 v] rows].
  - cbn. split; [tauto|]. intros [i [H _]]. destruct i; discriminate.
  - cbn [all_highs In]. rewrite highs_In. split.
    + intros [Q|[i [H1 [H2 H3]]]].
      * inversion Q; subst. exists 0%nat. split; auto. exists h. split; auto. intros; lia.
      * exists (S i). split; auto. exists h. split; [cbn; now rewrite nth_error_map, H1|].
        intros [|j] y L Hy; cbn in Hy; [inversion Hy; subst; auto|]. apply (H3 j); auto; lia.
    + intros [[|i] [H1 [x [H2 H3]]]]; [left; now inversion H1|]. right. exists i. cbn in H1, H2. split; auto.
      rewrite nth_error_map, H1 in H2. cbn in H2. inversion H2; subst x. split; [apply (H3 0%nat); auto; lia|].
      intros j y L Hy. apply (H3 (S j)); auto; lia.
Qed.
Lemma highs_values m rows : StronglySorted Qclt (map snd (highs m rows)) /\ forall x, In x (map snd (highs m rows)) -> m < x.
Proof.
  revert m. induction rows as [|[t v] rows IH]; intro m; [cbn; split; [constructor|tauto]|]. cbn [highs]. destruct (qlt m v) eqn:E; auto.
  apply qlt_iff in E. destruct (IH v) as [I1 I2]. cbn. split.
  - constructor; auto. now apply Forall_forall.
  - intros x [<-|Hx]; auto. eapply Qclt_trans; eauto.
Qed.
Lemma all_highs_values rows : StronglySorted Qclt (map snd (all_highs rows)).
Proof. destruct rows as [|[t v] rows]; cbn; constructor; [apply highs_values|]. apply Forall_forall. apply highs_values. Qed.
Lemma highs_times m rows : times_increase rows -> times_increase (highs m rows) /\ forall r, In r (highs m rows) -> In r rows.
Proof.
  revert m. induction rows as [|[t v] rows IH]; intros m H; [split; auto; constructor|]. unfold times_increase in H. cbn in H. inversion H as [|? ? H1 H2]; subst.
  cbn [highs]. destruct (qlt m v).
  - destruct (IH v H1) as [I1 I2]. split.
    + unfold times_increase. cbn. constructor; auto. apply Forall_forall. intros x Hx. apply in_map_iff in Hx. destruct Hx as [r [<- Hr]].
      rewrite Forall_forall in H2. apply H2. apply in_map. auto.
    + intros r [<-|Hr]; [now left|right; auto].
  - destruct (IH m H1) as [I1 I2]. split; auto. intros r Hr. right; auto.
Qed.
Lemma all_highs_times rows : times_increase rows -> times_increase (all_highs rows).
Proof.
  destruct rows as [|[t v] rows]; intro H; auto. unfold times_increase in *. cbn in *. inversion H as [|? ? H1 H2]; subst.
  destruct (highs_times v H1) as [I1 I2]. constructor; auto. apply Forall_forall. intros x Hx. apply in_map_iff in Hx. destruct Hx as [r [<- Hr]].
  rewrite Forall_forall in H2. apply H2. apply in_map. auto.
Qed.
Lemma combine_split A B (l : list (A * B)) : combine (map fst l) (map snd l) = l.
Proof. induction l as [|[a b] l IH]; cbn; f_equal; auto. Qed.

Lemma dd_rows_eq rets : dd_rows rets =
  filter (fun r => qlt (dd_min r) (dd_hwm r))
    (map (fun p => {| dd_time := fst p; dd_hwm := snd p; dd_min := group_min (expanding_max (map snd rets)) (map snd rets) (snd p) |}) (all_highs rets)).
Proof. unfold dd_rows. rewrite drop_all, (qsort_sorted_id (all_highs_values rets)), combine_split. reflexivity. Qed.

Definition prefix_max (v : list Qc) (j : nat) (M : Qc) : Prop :=
  (exists k, (k <= j)%nat /\ nth_error v k = Some M) /\ forall k y, (k <= j)%nat -> nth_error v k = Some y -> y <= M.
Lemma running_max_length m v : length (running_max m v) = length v.
Proof. revert m. induction v; intro m; cbn; auto. Qed.
Lemma expanding_max_length v : length (expanding_max v) = length v.
Proof. destruct v; cbn; auto. now rewrite running_max_length. Qed.
Lemma running_max_nth v : forall m j M, nth_error (running_max m v) j = Some M ->
  m <= M /\ (M = m \/ exists k, (k <= j)%nat /\ nth_error v k = Some M) /\ forall k y, (k <= j)%nat -> nth_error v k = Some y -> y <= M.
Proof.
  induction v as [|x v IH]; intros m j M H; [destruct j; discriminate|]. cbn [running_max] in H. destruct j as [|j]; cbn in H.
  - inversion H; subst M. split; [apply qmax_l|]. split.
    + destruct (qmax_cases m x) as [-> | ->]; [now left|]. right. exists 0%nat. split; auto.
    + intros [|k] y L Hy; [|lia]. cbn in Hy. inversion Hy; subst. apply qmax_r.
  - destruct (IH _ _ _ H) as [A [B C]]. split; [eapply Qcle_trans; [apply qmax_l|exact A]|]. split.
    + destruct B as [->|[k [L Hk]]].
      * destruct (qmax_cases m x) as [-> | ->]; [now left|]. right. exists 0%nat. split; [lia|auto].
      * right. exists (S k). split; [lia|auto].
    + intros [|k] y L Hy; cbn in Hy.
      * inversion Hy; subst. eapply Qcle_trans; [apply (qmax_r m)|exact A].
      * apply (C k); auto. lia.
Qed.
Lemma expanding_max_nth v j M : nth_error (expanding_max v) j = Some M -> prefix_max v j M.
Proof.
  destruct v as [|x v]; intro H; [destruct j; discriminate|]. destruct j as [|j]; cbn in H.
  - inversion H; subst. split; [exists 0%nat; auto|]. intros [|k] y L Hy; [|lia]. cbn in Hy. inversion Hy; subst. apply Qcle_refl.
  - apply running_max_nth in H. destruct H as [A [B C]]. split.
    + destruct B as [->|[k [L Hk]]]; [exists 0%nat; split; [lia|auto]|exists (S k); split; [lia|auto]].
    + intros [|k] y L Hy; cbn in Hy; [inversion Hy; subst; auto|]. apply (C k); auto. lia.
Qed.
Lemma prefix_max_unique v j M M' : prefix_max v j M -> prefix_max v j M' -> M = M'.
Proof. intros [[k [L H]] A] [[k' [L' H']] A']. apply Qcle_antisym; eauto. Qed.

(** hwm at [j] is the value of the new high [i] exactly on the stretch of [i] *)
Lemma stretch_iff v i j h : nth_error v i = Some h -> new_high v i -> (j < length v)%nat ->
  (nth_error (expanding_max v) j = Some h <-> before_next_high v i j).
Proof.
  intros Hi [h' [Hi' HN]] Hj. assert (h' = h) by congruence. subst h'. clear Hi'. split.
  - intro H. apply expanding_max_nth in H. destruct H as [[k [L Hk]] A].
    assert (i <= k)%nat. { destruct (Nat.lt_ge_cases k i) as [C|C]; auto. exfalso. pose proof (HN k h C Hk) as X. now apply Qclt_irrefl in X. }
    split; [lia|]. intros k' Lk' [x [Hx HX]]. assert (h < x) by (apply (HX i); auto; lia).
    assert (x <= h) by (apply (A k'); auto; lia). qlra.
  - intros [L H]. assert (B : forall k y, (k <= j)%nat -> nth_error v k = Some y -> y <= h).
    { intro k. induction k as [k IH] using (well_founded_induction lt_wf). intros y Lk Hk.
      destruct (Nat.lt_trichotomy k i) as [C|[C|C]].
      - apply Qclt_le_weak. eauto.
      - subst. assert (y = h) by congruence. subst. apply Qcle_refl.
      - destruct (Qclt_le_dec h y) as [D|D]; auto. exfalso. apply (H k); [lia|]. exists y. split; auto. intros k' z L' Hz.
        apply Qcle_lt_trans with h; auto. apply (IH k' L'); auto. lia. }
    destruct (nth_error (expanding_max v) j) as [M|] eqn:E.
    + f_equal. apply expanding_max_nth in E. apply (prefix_max_unique E). split; auto. exists i. split; auto. lia.
    + apply nth_error_None in E. rewrite expanding_max_length in E. lia.
Qed.
Lemma group_min_spec v i h : nth_error v i = Some h -> new_high v i -> low_until_next_high v i (group_min (expanding_max v) v h).
Proof.
  intros Hi HN. assert (IN : forall x, In x (map snd (filter (fun r => qeq (fst r) h) (combine (expanding_max v) v))) <->
    exists j, before_next_high v i j /\ nth_error v j = Some x).
  { intro x. rewrite in_map_iff. split.
    - intros [[m x'] [E H]]. cbn in E. subst x'. apply filter_In in H. destruct H as [H Q]. cbn in Q. apply qeq_iff in Q. subst m.
      apply in_nth in H. destruct H as [j H]. apply nth_error_combine in H. destruct H as [H1 H2]. exists j. split; auto.
      apply (@stretch_iff v i j h); auto. apply nth_error_Some. congruence.
    - intros [j [B H]]. exists (h, x). split; auto. apply filter_In. split; [|cbn; now apply qeq_iff]. apply in_nth. exists j.
      apply nth_error_combine. split; auto. apply (@stretch_iff v i j h); auto. apply nth_error_Some. congruence. }
  unfold group_min. destruct (map snd (filter (fun r => qeq (fst r) h) (combine (expanding_max v) v))) as [|x l] eqn:E.
  - exfalso. apply (proj2 (IN h)). exists i. split; auto. split; [|intros; lia]. split; auto. apply nth_error_Some. congruence.
  - split.
    + apply IN. apply lmin_in.
    + intros j y B Hy. apply lmin_le. apply IN. eauto.
Qed.
Lemma low_unique v i m m' : low_until_next_high v i m -> low_until_next_high v i m' -> m = m'.
Proof. intros [[j [A1 A2]] A3] [[j' [B1 B2]] B3]. apply Qcle_antisym; eauto. Qed.

Lemma dd_rows_In rets t h m : times_increase rets -> (In {| dd_time := t; dd_hwm := h; dd_min := m |} (dd_rows rets) <->
  exists i, nth_error rets i = Some (t, h) /\ new_high (map snd rets) i /\ low_until_next_high (map snd rets) i m /\ m < h).
Proof.
  intro HT. rewrite dd_rows_eq, filter_In. cbn [dd_min dd_hwm]. rewrite qlt_iff, in_map_iff. split.
  - intros [[[t' h'] [E H]] L]. cbn [fst snd] in E. inversion E; subst t' h' m. apply all_highs_In in H. destruct H as [i [Hi HN]].
    exists i. repeat split; auto; apply (@group_min_spec _ i h); auto; now rewrite nth_error_map, Hi.
  - intros [i [Hi [HN [HL L]]]]. split; auto. exists (t, h). split; [|apply all_highs_In; eauto]. cbn. f_equal.
    apply (@low_unique (map snd rets) i); auto. apply group_min_spec; auto. now rewrite nth_error_map, Hi.
Qed.
Lemma filter_sorted A (f : A -> bool) (g : A -> Z) l : StronglySorted Z.lt (map g l) -> StronglySorted Z.lt (map g (filter f l)).
Proof.
  induction l as [|x l IH]; intro H; [constructor|]. cbn in H. inversion H as [|? ? H1 H2]; subst. cbn. destruct (f x); auto. cbn. constructor; auto.
  rewrite Forall_forall in *. intros y Hy. apply H2. apply in_map_iff in Hy. destruct Hy as [z [<- Hz]]. apply filter_In in Hz. apply in_map. tauto.
Qed.
Lemma dd_rows_sorted rets : times_increase rets -> StronglySorted Z.lt (map dd_time (dd_rows rets)).
Proof.
  intro H. rewrite dd_rows_eq. apply filter_sorted. rewrite map_map. cbn [dd_time]. now apply all_highs_times.
Qed.
Lemma new_high_dec v j : {new_high v j} + {~ new_high v j}.
Proof.
  destruct (nth_error v j) as [x|] eqn:E.
  - destruct (forallb (fun y => qlt y x) (firstn j v)) eqn:F.
    + left. exists x. split; auto. intros k y L Hk. rewrite forallb_forall in F. apply qlt_iff. apply F.
      apply nth_error_In with k. rewrite (nth_error_firstn_lt v L). exact Hk.
    + right. intros [x' [E' H]]. assert (x' = x) by congruence. subst x'. apply Bool.not_true_iff_false in F. apply F. apply forallb_forall.
      intros y Hy. apply In_nth_error in Hy. destruct Hy as [k Hk]. apply qlt_iff.
      assert (L : (k < j)%nat). { assert (k < length (firstn j v))%nat by (apply nth_error_Some; congruence). rewrite firstn_length in H0. lia. }
      apply (H k); auto. rewrite (nth_error_firstn_lt v L) in Hk. exact Hk.
  - right. intros [x [H _]]. congruence.
Qed.
Lemma last_high v j : (j < length v)%nat -> exists i, new_high v i /\ before_next_high v i j.
Proof.
  induction j as [|j IH]; intro L.
  - exists 0%nat. split; [|split; [lia|intros; lia]]. destruct (nth_error v 0) as [x|] eqn:E; [|apply nth_error_None in E; lia]. exists x. split; auto. intros; lia.
  - destruct (new_high_dec v (S j)) as [H|H].
    + exists (S j). split; auto. split; [lia|intros; lia].
    + destruct IH as [i [H1 [H2 H3]]]; [lia|]. exists i. split; auto. split; [lia|]. intros k Lk. destruct (Nat.eq_dec k (S j)) as [->|N]; auto. apply H3. lia.
Qed.
Lemma stretch_max v i j k h y : nth_error v i = Some h -> new_high v i -> before_next_high v i j -> (k <= j)%nat -> nth_error v k = Some y -> y <= h.
Proof.
  intros Hi HN HB L Hk. assert (E : nth_error (expanding_max v) j = Some h).
  { apply (stretch_iff Hi HN); auto. destruct HB. lia. }
  apply expanding_max_nth in E. destruct E as [_ A]. eauto.
Qed.

(** consecutive elements of a sorted list of times *)
Lemma under_water_In l t d : In (t, d) (under_water l) <-> exists i b, nth_error l i = Some t /\ nth_error l (S i) = Some b /\ d = qz (b - t) / ns_per_day.
Proof.
  induction l as [|a [|b l] IH]; [cbn; split; [tauto|intros [i [x [H _]]]; destruct i; discriminate]|
    cbn; split; [tauto|intros [i [x [_ [H _]]]]; destruct i; discriminate]|].
  change (under_water (a :: b :: l)) with ((a, qz (b - a) / ns_per_day) :: under_water (b :: l)). cbn [In]. rewrite IH. split.
  - intros [E|[i [x [H1 [H2 H3]]]]]; [inversion E; subst; exists 0%nat, b; auto|exists (S i), x; auto].
  - intros [[|i] [x [H1 [H2 H3]]]]; [cbn in H1, H2; inversion H1; inversion H2; subst; now left|right; exists i, x; auto].
Qed.
