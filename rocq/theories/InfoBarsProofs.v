From Verif Require Import Py SeriesModel SeriesSpec SeriesProofs BarsModel BarsSpec BarsProofs.
Set Implicit Arguments.
Open Scope Qc_scope.

(** *** grouping an already grouped stream *)
Lemma group_insert_last A k (r : A) (gs : list (Z * list A)) :
  (forall k', In k' (map fst gs) -> (k' < k)%Z) -> group_insert k r gs = gs ++ [(k, [r])].
Proof.
  induction gs as [|[k' rs] gs IH]; intro H; auto. cbn [group_insert].
  assert (k' < k)%Z by (apply H; now left).
  destruct (Z.ltb_spec k k'); [lia|]. destruct (Z.eqb_spec k k'); [lia|].
  cbn. f_equal. apply IH. intros; apply H; now right.
Qed.
Lemma group_insert_same A k (r : A) (gs : list (Z * list A)) rs :
  (forall k', In k' (map fst gs) -> (k' < k)%Z) ->
  group_insert k r (gs ++ [(k, rs)]) = gs ++ [(k, rs ++ [r])].
Proof.
  induction gs as [|[k' rs'] gs IH]; intro H.
  - cbn. rewrite Z.ltb_irrefl, Z.eqb_refl. reflexivity.
  - cbn [group_insert app]. assert (k' < k)%Z by (apply H; now left).
    destruct (Z.ltb_spec k k'); [lia|]. destruct (Z.eqb_spec k k'); [lia|].
    f_equal. apply IH. intros; apply H; now right.
Qed.

Lemma zssorted_app_lt l k : zssorted (l ++ [k]) -> zssorted l /\ forall k', In k' l -> (k' < k)%Z.
Proof.
  induction l as [|a l IH]; cbn; intro H.
  - split; [constructor|intros ? []].
  - inversion H as [|? ? H1 H2]; subst. destruct (IH H1) as [A B]. rewrite Forall_app in H2. destruct H2 as [C D].
    split; [constructor; auto|]. intros k' [<-|Hk]; auto. now inversion D.
Qed.

Lemma groupby_of_keyed A (gs : list (Z * list A)) :
  zssorted (map fst gs) -> Forall (fun g => g <> []) (map snd gs) -> groupby (keyed gs) = gs.
Proof.
  induction gs as [|[k rs] gs IH] using rev_ind; intros S NE; auto.
  rewrite map_app in S, NE. cbn in S, NE. apply zssorted_app_lt in S. destruct S as [S Hlt].
  apply Forall_app in NE. destruct NE as [NE1 NE2]. inversion NE2 as [|? ? Hrs _]; subst.
  specialize (IH S NE1).
  unfold keyed. rewrite map_app, concat_app. cbn [map concat fst snd]. rewrite app_nil_r. fold (keyed gs).
  clear NE2. induction rs as [|r rs IHr] using rev_ind; [congruence|].
  rewrite map_app, app_assoc. cbn [map]. rewrite groupby_snoc. cbn [fst snd].
  destruct rs as [|r0 rs0].
  - cbn [map]. rewrite app_nil_r, IH. now apply group_insert_last.
  - rewrite IHr by discriminate. now apply group_insert_same.
Qed.

(** *** bar ids from end positions *)
Inductive incr_from (n : nat) : nat -> list nat -> Prop :=
| incr_nil : forall s, s = n -> incr_from n s []
| incr_cons : forall s e es, (s <= e)%nat -> (e < n)%nat -> incr_from n (S e) es -> incr_from n s (e :: es).

Fixpoint ids_of (cur s : nat) (es : list nat) : list Z :=
  match es with [] => [] | e :: es' => repeat (Z.of_nat cur) (S e - s) ++ ids_of (S cur) (S e) es' end.

Lemma tick_bar_id_loop_ok n m : forall done e es i,
  (i <= S e)%nat -> (e < n)%nat -> incr_from n (S e) es -> (m = n - i)%nat ->
  tick_bar_id_loop (done ++ e :: es) m i (length done) =
  Ok (repeat (Z.of_nat (length done)) (S e - i) ++ ids_of (S (length done)) (S e) es).
Proof.
  induction m as [|m IH]; intros done e es i Hi He Hinc Hm.
  - assert (i = S e) by lia. assert (S e = n) by lia. inversion Hinc; subst; [|lia].
    replace (S e - S e)%nat with 0%nat by lia. reflexivity.
  - cbn [tick_bar_id_loop].
    assert (G : get (done ++ e :: es) (length done) = Ok e).
    { unfold get. rewrite nth_error_app2 by lia. rewrite Nat.sub_diag. reflexivity. }
    rewrite G. cbn [bind]. destruct (Nat.ltb_spec e i) as [L|L].
    + assert (i = S e) by lia. subst i. inversion Hinc as [|? e' es' H1 H2 H3]; subst; [lia|].
      specialize (IH (done ++ [e]) e' es' (S (S e))). rewrite app_length in IH. cbn [length] in IH.
      rewrite Nat.add_1_r in IH. rewrite <- app_assoc in IH. cbn [app] in IH.
      rewrite IH by (auto; lia). cbn [bind]. f_equal.
      replace (S e - S e)%nat with 0%nat by lia. cbn [repeat app ids_of].
      replace (S e' - S e)%nat with (S (S e' - S (S e)))%nat by lia. reflexivity.
    + rewrite IH by (auto; lia). cbn [bind]. f_equal.
      replace (S e - i)%nat with (S (S e - S i))%nat by lia. reflexivity.
Qed.

Lemma compute_tick_bar_id_ok n ends : (0 < n)%nat -> incr_from n 0 ends ->
  compute_tick_bar_id n ends = Ok (ids_of 0 0 ends).
Proof.
  intros Hn H. unfold compute_tick_bar_id. inversion H as [|s e es H1 H2 H3]; subst; [lia|].
  change 0%nat with (@length nat []) at 2. change (e :: es) with ([] ++ e :: es) at 1.
  rewrite (@tick_bar_id_loop_ok n n [] e es 0); auto; lia.
Qed.

Fixpoint number {A} (cur : nat) (gs : list (list A)) : list (Z * list A) :=
  match gs with [] => [] | g :: gs' => (Z.of_nat cur, g) :: number (S cur) gs' end.
Lemma number_snd A cur (gs : list (list A)) : map snd (number cur gs) = gs.
Proof. revert cur. induction gs; intro; cbn; congruence. Qed.
Lemma number_ge A cur (gs : list (list A)) k : In k (map fst (number cur gs)) -> (Z.of_nat cur <= k)%Z.
Proof.
  revert cur. induction gs as [|g gs IH]; intros cur; [intros []|]. intros [<-|H]; [cbn; lia|].
  apply IH in H. lia.
Qed.
Lemma number_sorted A cur (gs : list (list A)) : zssorted (map fst (number cur gs)).
Proof.
  revert cur. induction gs as [|g gs IH]; intro cur; cbn; constructor; auto.
  apply Forall_forall. intros k Hk. apply number_ge in Hk. lia.
Qed.

Lemma combine_repeat A (k : Z) (l : list A) : combine (repeat k (length l)) l = map (pair k) l.
Proof. induction l; cbn; congruence. Qed.
Lemma combine_app A B (a1 a2 : list A) (b1 b2 : list B) :
  length a1 = length b1 -> combine (a1 ++ a2) (b1 ++ b2) = combine a1 b1 ++ combine a2 b2.
Proof.
  revert b1. induction a1 as [|a a1 IH]; intros [|b b1] H; cbn in *; try discriminate; auto.
  f_equal. apply IH. congruence.
Qed.

Lemma combine_ids A (l : list A) n ends : forall cur s,
  length l = n -> incr_from n s ends ->
  combine (ids_of cur s ends) (skipn s l) = keyed (number cur (cut s ends l)).
Proof.
  induction ends as [|e es IH]; intros cur s Hl H.
  - reflexivity.
  - inversion H as [|? ? ? H1 H2 H3]; subst. cbn [ids_of cut number].
    assert (Ee : skipn s l = firstn (S e - s) (skipn s l) ++ skipn (S e) l).
    { rewrite <- (firstn_skipn (S e - s) (skipn s l)) at 1. f_equal. rewrite skipn_skipn. f_equal. lia. }
    rewrite Ee at 1.
    assert (Lf : length (firstn (S e - s) (skipn s l)) = (S e - s)%nat).
    { rewrite firstn_length, skipn_length. lia. }
    rewrite combine_app by (rewrite repeat_length, Lf; auto).
    unfold keyed. cbn [map concat fst snd]. fold (keyed (number (S cur) (cut (S e) es l))).
    f_equal; [|apply IH; auto].
    rewrite <- Lf at 1. apply combine_repeat.
Qed.

Lemma cut_nonempty A (l : list A) n ends : forall s, length l = n -> incr_from n s ends ->
  Forall (fun g => g <> []) (cut s ends l).
Proof.
  induction ends as [|e es IH]; intros s Hl H; cbn [cut]; constructor; inversion H as [|? ? ? H1 H2 H3]; subst; auto.
  intro E. apply (f_equal (@length _)) in E. rewrite firstn_length, skipn_length in E. cbn [length] in E. lia.
Qed.
Lemma cut_concat A (l : list A) n ends : forall s, length l = n -> incr_from n s ends ->
  concat (cut s ends l) = skipn s l.
Proof.
  induction ends as [|e es IH]; intros s Hl H; cbn [cut concat]; inversion H as [|? ? ? H1 H2 H3]; subst; auto.
  - symmetry. apply skipn_all.
  - rewrite IH by auto.
    replace (skipn (S e) l) with (skipn (S e - s) (skipn s l)).
    + apply (firstn_skipn (S e - s) (skipn s l)).
    + rewrite skipn_skipn. replace (S e - s + s)%nat with (S e) by lia. reflexivity.
Qed.

Lemma group_by_ends ticks ends :
  ticks <> [] -> incr_from (length ticks) 0 ends ->
  exists bars,
    (do ids <- compute_tick_bar_id (length ticks) ends; group_ticks_to_bars (combine ids ticks)) = Ok bars /\
    divides_into ticks (cut 0 ends ticks) /\ Forall2 is_bar_of (cut 0 ends ticks) bars.
Proof.
  intros Hne H. assert (0 < length ticks)%nat by (destruct ticks; [congruence|cbn; lia]).
  rewrite compute_tick_bar_id_ok by auto. cbn [bind].
  pose proof (combine_ids ticks 0 eq_refl H) as E. cbn [skipn] in E.
  unfold group_ticks_to_bars. rewrite E.
  rewrite groupby_of_keyed.
  - rewrite number_snd. destruct (mapM_bar_stats (cut_nonempty ticks eq_refl H)) as [bars [E1 E2]].
    exists bars. repeat split; auto.
    + apply (cut_concat ticks eq_refl H).
    + apply (cut_nonempty ticks eq_refl H).
  - apply number_sorted.
  - rewrite number_snd. apply (cut_nonempty ticks eq_refl H).
Qed.

(** *** sums over a range *)
Lemma range_sum_snoc l s i b : (s <= i)%nat -> nth_error l i = Some b ->
  range_sum l s i = (if (s <? i)%nat then range_sum l s (i - 1) else 0) + b.
Proof.
  intros Hs Hn. unfold range_sum.
  assert (E : firstn (S i - s) (skipn s l) = firstn (i - s) (skipn s l) ++ [b]).
  { replace (S i - s)%nat with (S (i - s))%nat by lia.
    assert (N : nth_error (skipn s l) (i - s) = Some b).
    { rewrite nth_error_skipn. replace (s + (i - s))%nat with i by lia. auto. }
    revert N. generalize (skipn s l) (i - s)%nat. clear. intros l m. revert l.
    induction m as [|m IH]; intros [|x l] N; cbn in N; try discriminate.
    - inversion N; subst. reflexivity.
    - cbn [firstn app]. f_equal. now apply IH. }
  rewrite E, qsum_app. cbn [qsum].
  destruct (Nat.ltb_spec s i).
  - replace (S (i - 1) - s)%nat with (i - s)%nat by lia. ring.
  - replace (i - s)%nat with 0%nat by lia. cbn. ring.
Qed.

(** running sum of the bar s..i-1 *)
Definition partial_sum (l : list Qc) (s i : nat) : Qc := if (s <? i)%nat then range_sum l s (i - 1) else 0.
Lemma partial_sum_step l s i b : (s <= i)%nat -> nth_error l i = Some b ->
  range_sum l s i = partial_sum l s i + b.
Proof. exact (@range_sum_snoc l s i b). Qed.
Lemma partial_sum_next l s i : (s <= i)%nat -> partial_sum l s (S i) = range_sum l s i.
Proof. intro H. unfold partial_sum. destruct (Nat.ltb_spec s (S i)); [|lia]. f_equal. lia. Qed.
Lemma partial_sum_empty l s : partial_sum l s s = 0.
Proof. unfold partial_sum. now rewrite Nat.ltb_irrefl. Qed.

(** *** histories *)
Lemma next_start_snoc h e : next_start (h ++ [e]) = S e.
Proof. unfold next_start. rewrite last_last. destruct h; reflexivity. Qed.
Lemma bar_lengths_snoc h e : forall s,
  bar_lengths s (h ++ [e]) = bar_lengths s h ++ [(S e - match h with [] => s | _ => S (last h 0) end)%nat].
Proof.
  induction h as [|a h IH]; intro s; [reflexivity|].
  cbn [app bar_lengths]. rewrite IH. cbn [app]. do 3 f_equal.
  destruct h; reflexivity.
Qed.
Lemma bar_lengths_snoc0 h e : bar_lengths 0 (h ++ [e]) = bar_lengths 0 h ++ [(S e - next_start h)%nat].
Proof. rewrite bar_lengths_snoc. destruct h; reflexivity. Qed.
Lemma bar_lengths_length s h : length (bar_lengths s h) = length h.
Proof. revert s. induction h; intro; cbn; auto. Qed.

(** the ends chosen so far are all first closes *)
Definition all_first trig big (h : list nat) : Prop :=
  forall k e, nth_error h k = Some e ->
    (next_start (firstn k h) <= e)%nat /\
    (forall i, (i < e)%nat -> ~ may_close trig big (firstn k h) i) /\
    may_close trig big (firstn k h) e.

Lemma all_first_snoc trig big h e :
  all_first trig big h -> (next_start h <= e)%nat ->
  (forall i, (i < e)%nat -> ~ may_close trig big h i) -> may_close trig big h e ->
  all_first trig big (h ++ [e]).
Proof.
  intros A B C D k x Hk. destruct (Nat.lt_ge_cases k (length h)) as [L|L].
  - rewrite nth_error_app1 in Hk by auto. rewrite firstn_app. replace (k - length h)%nat with 0%nat by lia.
    cbn [firstn]. rewrite app_nil_r. now apply A.
  - assert (k = length h).
    { assert (k < length (h ++ [e]))%nat by (apply nth_error_Some; congruence). rewrite app_length in H. cbn in H. lia. }
    subst k. rewrite nth_error_app2, Nat.sub_diag in Hk by lia. cbn in Hk. inversion Hk; subst.
    rewrite firstn_app, firstn_all, Nat.sub_diag. cbn [firstn]. rewrite app_nil_r. auto.
Qed.

Lemma all_first_incr trig big h n : all_first trig big h -> (next_start h <= n)%nat ->
  forall es, incr_from n (next_start h) es -> incr_from n 0 (h ++ es).
Proof.
  induction h as [|e h IH] using rev_ind; intros A B es E; [exact E|].
  rewrite <- app_assoc. cbn [app]. rewrite next_start_snoc in *.
  assert (Ah : all_first trig big h).
  { intros k x Hk. assert (L : (k < length h)%nat) by (apply nth_error_Some; congruence).
    specialize (A k x). rewrite nth_error_app1 in A by auto. specialize (A Hk).
    rewrite firstn_app in A. replace (k - length h)%nat with 0%nat in A by lia. cbn [firstn] in A.
    now rewrite app_nil_r in A. }
  destruct (A (length h) e) as [H1 _].
  { rewrite nth_error_app2, Nat.sub_diag by lia. reflexivity. }
  rewrite firstn_app, firstn_all, Nat.sub_diag in H1. cbn [firstn] in H1. rewrite app_nil_r in H1.
  apply IH; auto; [lia|]. constructor; auto.
Qed.

(** closing the last bar *)
Lemma finish_ends trig big h n : (0 < n)%nat ->
  all_first trig big h -> (next_start h <= n)%nat ->
  (forall i, (i < n)%nat -> ~ may_close trig big h i) ->
  let ends := if (next_start h <? n)%nat then h ++ [(n - 1)%nat] else h in
  ends_at_first_close trig big n ends /\ incr_from n 0 ends.
Proof.
  intros Hn A B C ends. unfold ends. clear ends.
  assert (Hlt : forall k e, nth_error h k = Some e -> (e < n)%nat).
  { destruct h as [|x h _] using rev_ind; [intros [|k] e; discriminate|].
    intros k e Hk. rewrite next_start_snoc in B.
    assert (G : incr_from n 0 ((h ++ [x]) ++ (if (S x <? n)%nat then [(n-1)%nat] else []))).
    { eapply all_first_incr; eauto; rewrite next_start_snoc; auto.
      destruct (Nat.ltb_spec (S x) n); repeat constructor; try lia. }
    assert (K : In e ((h ++ [x]) ++ (if (S x <? n)%nat then [(n-1)%nat] else []))).
    { apply in_app_iff. left. eapply nth_error_In; eauto. }
    revert G K. generalize ((h ++ [x]) ++ (if (S x <? n)%nat then [(n-1)%nat] else [])) 0%nat. clear.
    intros l s G. induction G; intros [].
    - subst. auto.
    - apply IHG. auto. }
  destruct (Nat.ltb_spec (next_start h) n) as [L|L].
  - split.
    + split; [auto|]. split.
      { rewrite app_length. cbn [length]. rewrite nth_error_app2 by lia.
        replace (length h + 1 - 1 - length h)%nat with 0%nat by lia. reflexivity. }
      intros k e Hk. destruct (Nat.lt_ge_cases k (length h)) as [Lk|Lk].
      * rewrite nth_error_app1 in Hk by auto. rewrite firstn_app. replace (k - length h)%nat with 0%nat by lia.
        cbn [firstn]. rewrite app_nil_r. destruct (A _ _ Hk) as [P [Q R]]. repeat split; auto. eapply Hlt; eauto.
      * assert (k = length h).
        { assert (k < length (h ++ [(n - 1)%nat]))%nat by (apply nth_error_Some; congruence). rewrite app_length in H. cbn in H. lia. }
        subst k. rewrite nth_error_app2, Nat.sub_diag in Hk by lia. cbn in Hk. inversion Hk; subst.
        rewrite firstn_app, firstn_all, Nat.sub_diag. cbn [firstn]. rewrite app_nil_r.
        repeat split; try lia.
        { intros i Hi. apply C. lia. }
        right. rewrite app_length. cbn. lia.
    + eapply all_first_incr; eauto. repeat constructor; lia.
  - assert (En : next_start h = n) by lia.
    destruct h as [|x h _] using rev_ind; [cbn in En; lia|].
    rewrite next_start_snoc in *. split.
    + split; [auto|]. split.
      { rewrite app_length. cbn [length]. rewrite nth_error_app2 by lia.
        replace (length h + 1 - 1 - length h)%nat with 0%nat by lia. cbn. f_equal. lia. }
      intros k e Hk. destruct (A _ _ Hk) as [P [Q R]]. repeat split; auto. eapply Hlt; eauto.
    + rewrite <- (app_nil_r (h ++ [x])). eapply all_first_incr; eauto; rewrite next_start_snoc; auto.
      constructor. auto.
Qed.

(** *** imbalance bars *)
Section Imb.
  Variables (P : imb_params) (E_b : option Qc) (flow : list Qc).
  Hypothesis Hspan : (1 <= im_b_span P)%Z.
  Let thr := imbalance_threshold (im_E_T_init P) (im_T_span P) (im_b_span P) E_b flow.
  Let trig := imbalance_trigger (im_E_T_init P) (im_T_span P) (im_b_span P) E_b (im_max P) flow.
  Let big := size_reached (im_min P) flow.

  Record imb_inv (i : nat) (s : imb_state) : Prop := {
    ii_start : i_start s = next_start (rev (i_ends s));
    ii_le : (i_start s <= i)%nat;
    ii_pos : (1 <= i)%nat;
    ii_T : rev (i_T s) = map qn (bar_lengths 0 (rev (i_ends s)));
    ii_theta : i_theta s = partial_sum flow (i_start s) i;
    ii_size : i_size s = partial_sum (map qabs flow) (i_start s) i;
    ii_thr : i_thr s = thr (rev (i_ends s));
    ii_pad : i_pad s = true <-> exists j, (Nat.max 1 (i_start s) <= j < i)%nat /\ trig (rev (i_ends s)) (i_start s) j;
    ii_open : forall j, (j < i)%nat -> ~ may_close trig big (rev (i_ends s)) j;
    ii_first : all_first trig big (rev (i_ends s)) }.

  Lemma imb_init_inv b0 rest : flow = b0 :: rest -> imb_inv 1 (imb_init P E_b b0).
  Proof.
    intro Ef. constructor; cbn; auto; try lia.
    - unfold partial_sum, range_sum. rewrite Ef. cbn. ring.
    - unfold partial_sum, range_sum. rewrite Ef. cbn [map skipn firstn Nat.ltb Nat.leb Nat.sub qsum]. ring.
    - split; [discriminate|]. intros [j [H _]]. lia.
    - intros j Hj [H _]. cbn in H. lia.
    - intros [|k] e; discriminate.
  Qed.

  Lemma ge_thr_iff i h s : ge_thr (qabs (range_sum flow s i)) (thr h) = true \/ ge_max (range_sum (map qabs flow) s i) (im_max P) = true
     <-> trig h s i.
  Proof.
    unfold trig, imbalance_trigger. fold thr. unfold ge_thr, ge_max. split.
    - intros [H|H].
      + destruct (thr h) as [t|]; [|discriminate]. left. exists t. split; auto. now apply qle_iff.
      + destruct (im_max P) as [m|]; [|discriminate]. right. exists m. split; auto. now apply qle_iff.
    - intros [[t [-> H]]|[m [-> H]]]; [left|right]; now apply qle_iff.
  Qed.

  Lemma imb_threshold_ok h i : h <> [] -> last h 0%nat = i -> (1 <= i < length flow)%nat ->
    imb_threshold P flow (map qn (bar_lengths 0 h)) i = Ok (match thr h with Some t => t | None => 0 end).
  Proof.
    intros Hh Hl Hi. unfold imb_threshold, ewma_last.
    assert (Hb : bar_lengths 0 h <> []) by (destruct h; [congruence|discriminate]).
    rewrite map_length, bar_lengths_length.
    assert (Hlen : (0 < length h)%nat) by (destruct h; [congruence|cbn; lia]).
    rewrite fast_ewma_last; [|destruct (bar_lengths 0 h); [congruence|discriminate]|].
    2: { destruct (Nat.eqb_spec (im_T_span P) 0); lia. }
    cbn [bind]. rewrite fast_ewma_last; [|destruct flow; [cbn in Hi; lia|destruct i; [lia|discriminate]]|lia].
    cbn [bind]. unfold thr, imbalance_threshold. destruct h as [|x h']; [congruence|].
    rewrite Hl. reflexivity.
  Qed.

  Lemma rev_eq_nil A (l : list A) : rev l = [] -> l = [].
  Proof. intro H. apply (f_equal (@rev A)) in H. now rewrite rev_involutive in H. Qed.

  Lemma imb_step_inv i b s : nth_error flow i = Some b -> imb_inv i s ->
    exists s', imb_step P flow i b s = Ok s' /\ imb_inv (S i) s' /\ (exists l, i_ends s' = l ++ i_ends s).
  Proof.
    intros Hb [I1 I2 I3 I4 I5 I6 I7 I8 I9 I10].
    assert (Hi : (i < length flow)%nat) by (apply nth_error_Some; congruence).
    pose proof (partial_sum_step _ I2 Hb) as Eth. rewrite <- I5 in Eth.
    assert (Hb' : nth_error (map qabs flow) i = Some (qabs b)) by now apply map_nth_error.
    pose proof (partial_sum_step _ I2 Hb') as Esz. rewrite <- I6 in Esz.
    unfold imb_step. cbv zeta. rewrite <- Eth, <- Esz.
    set (fire := ge_thr (qabs (range_sum flow (i_start s) i)) (i_thr s)
                 || ge_max (range_sum (map qabs flow) (i_start s) i) (im_max P) || i_pad s).
    assert (Hfire : fire = true <-> exists j, (Nat.max 1 (i_start s) <= j <= i)%nat /\ trig (rev (i_ends s)) (i_start s) j).
    { unfold fire. rewrite I7, !orb_true_iff, ge_thr_iff. rewrite I8. split.
      - intros [H|[j [Hj H]]]; [exists i; split; auto; lia|exists j; split; auto; lia].
      - intros [j [Hj H]]. destruct (Nat.eq_dec j i) as [->|N]; [now left|]. right. exists j. split; auto. lia. }
    destruct fire eqn:Ef.
    - assert (Hf : exists j, (Nat.max 1 (i_start s) <= j <= i)%nat /\ trig (rev (i_ends s)) (i_start s) j) by now apply Hfire.
      destruct (qlt_spec (range_sum (map qabs flow) (i_start s) i) (im_min P)) as [Hs|Hs].
      + eexists. split; [reflexivity|]. split; [|exists []; reflexivity].
        constructor; cbn [i_start i_ends i_T i_theta i_size i_thr i_pad]; auto; try lia.
        * symmetry. now apply partial_sum_next.
        * symmetry. now apply partial_sum_next.
        * split; auto. intros _. destruct Hf as [j [Hj H]]. exists j. split; auto. lia.
        * intros j Hj. destruct (Nat.eq_dec j i) as [->|N]; [|apply I9; lia].
          intros [_ [Hbig _]]. unfold big, size_reached in Hbig. rewrite <- I1 in Hbig. qlra.
      + cbn [rev].
        assert (HL : rev (qn (i - i_start s + 1) :: i_T s) = map qn (bar_lengths 0 (rev (i_ends s) ++ [i]))).
        { cbn [rev]. rewrite bar_lengths_snoc0, map_app, I4, I1. cbn [map]. do 3 f_equal. rewrite <- I1. lia. }
        cbn [rev] in HL. rewrite HL.
        rewrite imb_threshold_ok; [|destruct (rev (i_ends s)); discriminate|apply last_last|lia].
        cbn [bind]. eexists. split; [reflexivity|]. split; [|exists [i]; reflexivity].
        assert (Hclose : may_close trig big (rev (i_ends s)) i).
        { unfold may_close. rewrite <- I1. split; [lia|]. split; auto.
          unfold big, size_reached. qlra. }
        constructor; cbn [i_start i_ends i_T i_theta i_size i_thr i_pad rev]; auto; try lia.
        * now rewrite next_start_snoc.
        * now rewrite partial_sum_empty.
        * now rewrite partial_sum_empty.
        * unfold thr, imbalance_threshold. destruct (rev (i_ends s) ++ [i]) eqn:E; [destruct (rev (i_ends s)); discriminate|].
          reflexivity.
        * split; [discriminate|]. intros [j [Hj _]]. lia.
        * intros j Hj [H _]. rewrite next_start_snoc in H. lia.
        * apply all_first_snoc; auto. now rewrite <- I1.
    - assert (Hf : ~ exists j, (Nat.max 1 (i_start s) <= j <= i)%nat /\ trig (rev (i_ends s)) (i_start s) j).
      { intro C. apply Hfire in C. discriminate. }
      eexists. split; [reflexivity|]. split; [|exists []; reflexivity].
      constructor; cbn [i_start i_ends i_T i_theta i_size i_thr i_pad]; auto; try lia.
      + symmetry. now apply partial_sum_next.
      + symmetry. now apply partial_sum_next.
      + split.
        * intro H. apply I8 in H. destruct H as [j [Hj H]]. exists j. split; auto. lia.
        * intros [j [Hj H]]. exfalso. apply Hf. exists j. split; auto. lia.
      + intros j Hj. destruct (Nat.eq_dec j i) as [->|N]; [|apply I9; lia].
        intros [_ [_ H]]. rewrite <- I1 in H. auto.
  Qed.

  Lemma imb_loop_inv rest : forall i s, skipn i flow = rest -> imb_inv i s -> (i <= length flow)%nat ->
    exists s', imb_loop P flow rest i s = Ok s' /\ imb_inv (length flow) s' /\ exists l, i_ends s' = l ++ i_ends s.
  Proof.
    induction rest as [|b rest IH]; intros i s Hr Hi Hle; cbn [imb_loop].
    - exists s. split; auto. assert (i = length flow).
      { apply (f_equal (@length _)) in Hr. rewrite skipn_length in Hr. cbn in Hr. lia. }
      subst i. split; auto. exists []. reflexivity.
    - assert (Hb : nth_error flow i = Some b).
      { pose proof (nth_error_skipn flow i 0) as H. rewrite Hr, Nat.add_0_r in H. cbn in H. congruence. }
      destruct (imb_step_inv Hb Hi) as [s' [E [Hi' [l Hl]]]]. rewrite E. cbn [bind].
      destruct (IH (S i) s') as [s'' [E' [Hi'' [l' Hl']]]]; auto.
      + replace (S i) with (1 + i)%nat by lia. rewrite <- skipn_skipn, Hr. reflexivity.
      + apply nth_error_Some. congruence.
      + exists s''. split; auto. split; auto. exists (l' ++ l). rewrite Hl', Hl. apply app_assoc.
  Qed.

  Lemma compute_imbalance_ok : flow <> [] ->
    exists ends Ts dbg, compute_imbalance_bar_sizes P flow E_b = Ok ((ends, Ts), dbg) /\
      ends_at_first_close trig big (length flow) ends /\ incr_from (length flow) 0 ends /\
      Ts = map qn (bar_lengths 0 ends).
  Proof.
    intro Hne. assert (exists b0 rest, flow = b0 :: rest) as [b0 [rest Ef]].
    { destruct flow as [|b0 rest]; [congruence|]. eauto. }
    assert (Hr : skipn 1 flow = rest) by (rewrite Ef; reflexivity).
    assert (Hl : (1 <= length flow)%nat) by (rewrite Ef; cbn; lia).
    destruct (imb_loop_inv Hr (imb_init_inv Ef) Hl) as [s [E [Hi _]]].
    assert (EC : compute_imbalance_bar_sizes P flow E_b =
      Ok (imb_finish (length flow) s, (rev (i_thetas s), rev (i_thrs s)))).
    { transitivity (do s <- imb_loop P flow rest 1 (imb_init P E_b b0);
        Ok (imb_finish (length flow) s, (rev (i_thetas s), rev (i_thrs s)))).
      - rewrite Ef at 1. unfold compute_imbalance_bar_sizes. rewrite Ef. reflexivity.
      - rewrite E. reflexivity. }
    rewrite EC. destruct Hi as [I1 I2 I3 I4 I5 I6 I7 I8 I9 I10].
    pose proof (finish_ends (n := length flow) (h := rev (i_ends s)) Hl I10 ltac:(lia) I9) as [F1 F2].
    unfold imb_finish. rewrite I1 in *.
    destruct (next_start (rev (i_ends s)) <? length flow)%nat eqn:EL.
    - do 3 eexists. split; [reflexivity|]. split; [auto|]. split; [auto|].
      rewrite bar_lengths_snoc0, map_app, I4. cbn [map]. do 3 f_equal. lia.
    - do 3 eexists. split; [reflexivity|]. auto.
  Qed.
End Imb.
