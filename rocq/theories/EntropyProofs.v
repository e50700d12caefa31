(** Lemmas for EntropyProps. *)
From Verif Require Import Py RNum EntropyModel EntropySpec.
Set Implicit Arguments.
Unset Strict Implicit.
Open Scope nat_scope.

Lemma str_eqb_iff a b : str_eqb a b = true <-> a = b.
Proof. unfold str_eqb. destruct (str_dec a b); split; auto; discriminate. Qed.
Lemma str_eqb_false a b : str_eqb a b = false <-> a <> b.
Proof. unfold str_eqb. destruct (str_dec a b); split; auto; try discriminate. congruence. Qed.

(** ** Word library *)
Lemma lib_add_keys w p lib x : In x (map fst (lib_add w p lib)) <-> x = w \/ In x (map fst lib).
Proof.
  induction lib as [|[w' ps] lib IH]; cbn; [intuition|]. destruct (str_eqb w w') eqn:E; cbn.
  - apply str_eqb_iff in E. subst. intuition.
  - rewrite IH. intuition.
Qed.
Lemma lib_add_nodup w p lib : NoDup (map fst lib) -> NoDup (map fst (lib_add w p lib)).
Proof.
  induction lib as [|[w' ps] lib IH]; cbn; intro H; [repeat constructor; auto|]. inversion H as [|? ? N ND]; subst. destruct (str_eqb w w') eqn:E; cbn; constructor; auto.
  rewrite lib_add_keys. apply str_eqb_false in E. intuition.
Qed.
Lemma lib_add_In w p lib x ps : NoDup (map fst lib) -> In (x, ps) (lib_add w p lib) ->
  (x <> w /\ In (x, ps) lib) \/ (x = w /\ ((exists ps0, In (w, ps0) lib /\ ps = ps0 ++ [p]) \/ (~ In w (map fst lib) /\ ps = [p]))).
Proof.
  induction lib as [|[w' ps'] lib IH]; cbn; intros ND H.
  - destruct H as [H|[]]. inversion H; subst. right. split; auto.
  - inversion ND as [|? ? N ND']; subst. destruct (str_eqb w w') eqn:E.
    + apply str_eqb_iff in E. subst w'. destruct H as [H|H].
      * inversion H; subst. right. split; auto. left. exists ps'. auto.
      * left. split; auto. intros ->. apply N. now apply (in_map fst) in H.
    + apply str_eqb_false in E. destruct H as [H|H].
      * inversion H; subst. left. split; [congruence|auto].
      * destruct (IH ND' H) as [[A B]|[A [[ps0 [B C]]|[B C]]]].
        -- left. auto.
        -- right. split; auto. left. exists ps0. auto.
        -- right. split; auto. right. split; auto. intros [D|D]; [congruence|auto].
Qed.
Lemma lib_add_total w p lib : list_sum (map (fun e => length (snd e)) (lib_add w p lib)) = S (list_sum (map (fun e => length (snd e)) lib)).
Proof.
  induction lib as [|[w' ps] lib IH]; auto. cbn [lib_add]. destruct (str_eqb w w'); cbn [map snd list_sum fold_right] in *.
  - rewrite app_length. cbn [length]. unfold list_sum in *. cbn [fold_right]. lia.
  - unfold list_sum in *. cbn [fold_right] in *. lia.
Qed.
Definition adds (items : list (str * nat)) : list (str * list nat) := fold_left (fun lib e => lib_add (fst e) (snd e) lib) items [].
Lemma adds_ok items : NoDup (map fst (adds items)) /\
  (forall x, In x (map fst (adds items)) <-> In x (map fst items)) /\
  (forall x ps, In (x, ps) (adds items) -> length ps = occurrences x (map fst items)) /\
  list_sum (map (fun e => length (snd e)) (adds items)) = length items.
Proof.
  induction items as [|[w p] items IH] using rev_ind; [cbn; split; [constructor|]; split; [tauto|]; split; [intros ? ? []|auto]|].
  destruct IH as [I1 [I2 [I3 I4]]]. unfold adds in *. rewrite fold_left_app. cbn [fold_left fst snd]. set (lib := fold_left _ items []) in *. clearbody lib.
  split; [now apply lib_add_nodup|]. split; [|split].
  - intro x. rewrite lib_add_keys, map_app, in_app_iff, I2. cbn. intuition.
  - intros x ps H. rewrite map_app. unfold occurrences in *. rewrite count_occ_app. cbn [map fst count_occ].
    apply lib_add_In in H; auto. destruct H as [[A B]|[-> [[ps0 [B ->]]|[B ->]]]].
    + rewrite (I3 x ps B). destruct (list_eq_dec Nat.eq_dec w x); [congruence|]. lia.
    + rewrite app_length, (I3 w ps0 B). destruct (list_eq_dec Nat.eq_dec w w); [|congruence]. cbn. lia.
    + destruct (list_eq_dec Nat.eq_dec w w); [|congruence]. rewrite I2 in B. apply (count_occ_not_In (list_eq_dec Nat.eq_dec)) in B. rewrite B. reflexivity.
  - rewrite lib_add_total, app_length, I4. cbn. lia.
Qed.
Lemma seq_shift_add n w : map (fun i => i + w) (seq 0 n) = seq w n.
Proof.
  apply nth_error_ext. intro i. rewrite nth_error_map. destruct (Nat.lt_ge_cases i n) as [L|L].
  - rewrite !nth_error_nth' with (d := 0) by now rewrite seq_length. rewrite !seq_nth by auto. cbn. f_equal. lia.
  - rewrite !(proj2 (nth_error_None _ _)) by now rewrite seq_length. reflexivity.
Qed.
Lemma word_lib_adds msg w : word_lib msg w = adds (map (fun i => (firstn w (skipn i msg), i)) (seq 0 (S (length msg) - w))).
Proof.
  unfold word_lib, adds. generalize (@nil (str * list nat)) as lib. rewrite <- seq_shift_add.
  induction (seq 0 (S (length msg) - w)) as [|i l IH]; intro lib; auto. cbn [map fold_left fst snd]. unfold slice.
  replace (i + w - w) with i by lia. replace (i + w - i) with w by lia. apply IH.
Qed.
Lemma windows_items msg w : map fst (map (fun i => (firstn w (skipn i msg), i)) (seq 0 (S (length msg) - w))) = windows w msg.
Proof. now rewrite map_map. Qed.

Open Scope R_scope.
Lemma n_words_eq msg w : (w <= length msg)%nat -> INR (length msg) - INR w + 1 = INR (length (windows w msg)).
Proof. intro H. unfold windows. rewrite map_length, seq_length, Nat.sub_succ_l, S_INR, minus_INR by auto. ring. Qed.
Lemma rsum_INR A (f : A -> nat) l : rsum (map (fun x => INR (f x)) l) = INR (list_sum (map f l)).
Proof. induction l as [|a l IH]; [reflexivity|]. cbn [map rsum]. rewrite IH. unfold list_sum. cbn [fold_right]. now rewrite plus_INR. Qed.

(** ** Entropy bounds *)
Definition distribution (ps : list R) : Prop := (forall p, In p ps -> 0 < p) /\ rsum ps = 1.
Lemma dist_le1 ps p : distribution ps -> In p ps -> p <= 1.
Proof. intros [H1 H2] Hp. rewrite <- H2. apply rsum_ge_elem; auto. intros; left; auto. Qed.
Lemma ln_le x : 0 < x -> ln x <= x - 1.
Proof.
  intro H. pose proof (exp_ineq1_le (ln x)) as E. rewrite exp_ln in E by auto. lra.
Qed.
Lemma ln_nonpos x : 0 < x <= 1 -> ln x <= 0.
Proof. intro H. pose proof (ln_le (proj1 H)). lra. Qed.
Lemma gibbs ps : distribution ps -> 0 <= - rsum (map (fun p => p * ln p) ps) <= ln (INR (length ps)).
Proof.
  intros HD. assert (NE : ps <> []) by (intros ->; destruct HD as [_ C]; cbn in C; lra). assert (K := INR_length_pos NE). set (k := INR (length ps)) in *. split.
  - replace (- rsum (map (fun p => p * ln p) ps)) with (rsum (map (fun p => (-1) * (p * ln p)) ps)) by (rewrite rsum_map_scale; ring).
    apply rsum_nonneg. intros x Hx. apply in_map_iff in Hx. destruct Hx as [p [<- Hp]]. assert (0 < p) by now apply HD. assert (p <= 1) by now apply (dist_le1 HD).
    assert (ln p <= 0) by (apply ln_nonpos; lra). nra.
  - assert (E : rsum (map (fun p => (-1) * (p * ln p) - ln k * p) ps) <= rsum (map (fun p => / k - p) ps)).
    { apply rsum_map_le. intros p Hp. assert (P : 0 < p) by now apply HD. assert (L := @ln_le (/ (k * p))). rewrite ln_Rinv in L by (apply Rmult_lt_0_compat; auto).
      rewrite ln_mult in L by auto. assert (P2 : 0 < / (k * p)) by (apply Rinv_0_lt_compat; apply Rmult_lt_0_compat; auto). specialize (L P2).
      assert (p * (- (ln k + ln p)) <= p * (/ (k * p) - 1)) by (apply Rmult_le_compat_l; lra).
      replace (p * (/ (k * p) - 1)) with (/ k - p) in H by (field; lra). lra. }
    rewrite (@rsum_map_sub _ (fun p => -1 * (p * ln p)) (fun p => ln k * p)), (@rsum_map_sub _ (fun _ => / k) (fun p => p)) in E.
    rewrite rsum_map_scale, (@rsum_map_scale _ (fun p => p) (ln k)), map_id, rsum_map_const, (proj2 HD) in E. fold k in E.
    rewrite Rinv_r in E by lra. lra.
Qed.
Lemma entropy_zero ps : distribution ps -> (- rsum (map (fun p => p * ln p) ps) = 0 <-> length ps = 1%nat).
Proof.
  intro HD. split.
  - intro H. destruct ps as [|p [|p' ps]]; [destruct HD as [_ C]; cbn in C; lra|auto|]. exfalso.
    set (l := p :: p' :: ps) in *. assert (B : forall x, In x l -> 0 < x < 1).
    { intros x Hx. split; [now apply HD|]. assert (x <= 1) by now apply (dist_le1 HD). destruct H0 as [?|E]; auto. exfalso.
      destruct HD as [H1 H2]. apply in_split in Hx. destruct Hx as [l1 [l2 EL]]. rewrite EL, rsum_app in H2. cbn [rsum] in H2.
      assert (N1 : 0 <= rsum l1) by (apply rsum_nonneg; intros y Hy; left; apply H1; rewrite EL; apply in_app_iff; now left).
      assert (N2 : 0 <= rsum l2) by (apply rsum_nonneg; intros y Hy; left; apply H1; rewrite EL; apply in_app_iff; right; now right).
      assert (ND : l1 <> [] \/ l2 <> []) by (destruct l1; [right; destruct l2; [unfold l in EL; discriminate|discriminate]|left; discriminate]).
      destruct ND as [ND|ND].
      - assert (0 < rsum l1) by (apply rsum_pos; auto; intros y Hy; apply H1; rewrite EL; apply in_app_iff; now left). lra.
      - assert (0 < rsum l2) by (apply rsum_pos; auto; intros y Hy; apply H1; rewrite EL; apply in_app_iff; right; now right). lra. }
    assert (P : 0 < rsum (map (fun p => (-1) * (p * ln p)) l)).
    { apply rsum_pos; [discriminate|]. intros x Hx. apply in_map_iff in Hx. destruct Hx as [y [<- Hy]]. specialize (B y Hy).
      assert (ln y < 0) by (rewrite <- ln_1; apply ln_increasing; lra). nra. }
    rewrite rsum_map_scale in P. lra.
  - intro H. destruct ps as [|p [|p' ps]]; try discriminate. destruct HD as [_ E]. cbn in *. assert (p = 1) by lra. subst. rewrite ln_1. ring.
Qed.
Lemma ln2_pos : 0 < ln 2.
Proof. rewrite <- ln_1. apply ln_increasing; lra. Qed.
Lemma entropy_log2 l : - rsum (map (fun p => p * log2 p) l) = (- rsum (map (fun p => p * ln p) l)) / ln 2.
Proof.
  rewrite (rsum_map_ext (g := fun p => / ln 2 * (p * ln p))); [|intros; unfold log2, Rdiv; ring]. rewrite rsum_map_scale. unfold Rdiv. ring.
Qed.
Close Scope R_scope.

(** ** Lempel-Ziv *)
Lemma in_lib_iff sub lib : existsb (str_eqb sub) lib = true <-> In sub lib.
Proof.
  rewrite existsb_exists. split; [intros [x [H E]]; apply str_eqb_iff in E; now subst|intro H; exists sub; split; auto; now apply str_eqb_iff].
Qed.
Lemma prefix_snoc p (s : str) c : prefix p (s ++ [c]) -> prefix p s \/ p = s ++ [c].
Proof.
  intros [r E]. destruct r as [|x r] using rev_ind; [right; now rewrite app_nil_r in E|]. left. rewrite app_assoc in E. apply app_inj_tail in E. destruct E as [E _]. now exists r.
Qed.
Definition known (lib : list str) (s : str) : Prop := forall p, prefix p s -> p <> [] -> In p lib.
Lemma lz_inner_spec rest : forall lib cur lib' rest', known lib cur -> lz_inner lib cur rest = (lib', rest') ->
  (lib' = lib /\ rest' = [] /\ known lib (cur ++ rest)) \/
  (exists p, p <> [] /\ rest = p ++ rest' /\ lib' = lib ++ [cur ++ p] /\ ~ In (cur ++ p) lib /\
     forall p', prefix p' (cur ++ p) -> p' <> cur ++ p -> p' <> [] -> In p' lib).
Proof.
  induction rest as [|c rest IH]; intros lib cur lib' rest' HK H; cbn in H.
  - inversion H; subst. left. rewrite app_nil_r. auto.
  - destruct (existsb (str_eqb (cur ++ [c])) lib) eqn:E.
    + apply in_lib_iff in E. assert (HK' : known lib (cur ++ [c])). { intros p Hp NP. apply prefix_snoc in Hp. destruct Hp as [Hp| ->]; auto. }
      destruct (IH _ _ _ _ HK' H) as [[A [B C]]|[p [A [B [C [D F]]]]]].
      * left. rewrite <- app_assoc in C. auto.
      * right. exists (c :: p). subst. rewrite <- app_assoc in *. repeat split; auto; try discriminate.
    + inversion H; subst. right. exists [c]. repeat split; auto; try discriminate.
      * intro C. apply in_lib_iff in C. congruence.
      * intros p' Hp N1 N2. apply prefix_snoc in Hp. destruct Hp as [Hp|Hp]; [auto|contradiction].
Qed.
Lemma lz_outer_spec fuel : forall lib rest, length rest <= fuel -> lz78 lib rest (lz_outer fuel lib rest).
Proof.
  induction fuel as [|fuel IH]; intros lib rest L.
  - destruct rest; [|cbn in L; lia]. cbn. apply lz_stop. intros p [r E] N. destruct p; [congruence|discriminate].
  - destruct rest as [|c rest]; [cbn; apply lz_stop; intros p [r E] N; destruct p; [congruence|discriminate]|].
    cbn [lz_outer]. destruct (lz_inner lib [] (c :: rest)) as [lib' rest'] eqn:E.
    assert (K0 : known lib []) by (intros p [r EE] N; destruct p; [congruence|discriminate]).
    destruct (lz_inner_spec K0 E) as [[A [B C]]|[p [A [B [C [D F]]]]]].
    + subst. destruct fuel; cbn; apply lz_stop; exact C.
    + cbn [app] in *. rewrite B. subst lib'. apply lz_phrase; auto. apply IH. apply (f_equal (@length nat)) in B. rewrite app_length in B. cbn [length] in *.
      destruct p; [congruence|]. cbn in B. lia.
Qed.
(** the dictionary: a parse of the message *)
Lemma lz78_parse lib rest out : lz78 lib rest out -> exists ps tail, out = lib ++ ps /\ rest = concat ps ++ tail /\ (tail = [] \/ In tail out) /\
  (NoDup lib -> NoDup out) /\
  (forall k p, nth_error ps k = Some p -> p <> [] /\ forall p', prefix p' p -> p' <> p -> p' <> [] -> In p' (lib ++ firstn k ps)).
Proof.
  induction 1 as [lib rest H|lib p rest out N NI H HL IH].
  - exists [], rest. rewrite app_nil_r. split; auto. split; auto. split.
    + destruct rest as [|c rest]; [now left|right]. apply H; [exists []; now rewrite app_nil_r|discriminate].
    + split; auto. intros k p E. destruct k; discriminate.
  - destruct IH as [ps [tail [E1 [E2 [E3 [E4 E5]]]]]]. exists (p :: ps), tail. split; [rewrite E1, <- app_assoc; reflexivity|].
    split; [cbn; rewrite E2, app_assoc; reflexivity|]. split; auto. split.
    + intro ND. apply E4. apply NoDup_app_intro; auto; [repeat constructor; auto|]. intros x Hx [<-|[]]. auto.
    + intros [|k] q Hq; cbn in Hq.
      * inversion Hq; subst. split; auto. cbn. rewrite app_nil_r. auto.
      * destruct (E5 k q Hq) as [A B]. split; auto. intros p' P1 P2 P3. specialize (B p' P1 P2 P3). rewrite <- app_assoc in B. exact B.
Qed.
Lemma lz78_det lib rest o1 : lz78 lib rest o1 -> forall o2, lz78 lib rest o2 -> o1 = o2.
Proof.
  induction 1 as [lib rest H|lib p rest out N NI H HL IH]; intros o2 H2.
  - inversion H2; subst; auto. exfalso. apply H1. apply H; auto. now exists rest0.
  - inversion H2 as [lib0 rest0 HS E1 E2|lib0 p0 rest0 out0 N0 NI0 H0 HL0 E1 E2]; subst.
    + exfalso. apply NI. apply HS; auto. now exists rest.
    + assert (EP : p = p0).
      { assert (PP : prefix p p0 \/ prefix p0 p).
        { clear - E2. revert p0 rest rest0 E2. induction p as [|a p IH]; intros p0 rest rest0 E; [left; now exists p0|].
          destruct p0 as [|b p0]; [right; now exists (a :: p)|]. cbn in E. inversion E; subst. destruct (IH p0 rest rest0 H1) as [[r R]|[r R]]; subst.
          - left. now exists r.
          - right. now exists r. }
        destruct (str_dec p p0) as [|D]; auto. exfalso. destruct PP as [PP|PP]; [apply NI, H0; auto|apply NI0, H; auto]. }
      subst p0. apply app_inv_head in E2. subst rest0. now apply IH.
Qed.

(** ** Longest match *)
Lemma fold_last {A} (f : nat -> bool) (g : nat -> A) n m0 :
  let m := fold_left (fun m l => if f l then g l else m) (seq 0 n) m0 in
  (m = m0 /\ forall l, l < n -> f l = false) \/ (exists l, l < n /\ f l = true /\ m = g l /\ forall l', l < l' < n -> f l' = false).
Proof.
  induction n as [|n IH]; [left; cbn; split; auto; intros; lia|]. rewrite seq_S, fold_left_app. cbn [fold_left Nat.add]. cbn zeta in IH.
  set (m := fold_left _ (seq 0 n) m0) in *. clearbody m. destruct (f n) eqn:E.
  - right. exists n. repeat split; auto; intros; lia.
  - destruct IH as [[A1 A2]|[l [A1 [A2 [A3 A4]]]]].
    + left. split; auto. intros l L. destruct (Nat.eq_dec l n) as [->|]; [auto|]. apply A2. lia.
    + right. exists l. repeat split; auto. intros l' L. destruct (Nat.eq_dec l' n) as [->|]; [auto|]. apply A4. lia.
Qed.
Lemma slice_eq_iff (msg : str) i j L : i + L <= length msg -> j + L <= length msg ->
  (slice msg i (i + L) = slice msg j (j + L) <-> forall k, k < L -> nth_error msg (j + k) = nth_error msg (i + k)).
Proof.
  intros Hi Hj. unfold slice. replace (i + L - i) with L by lia. replace (j + L - j) with L by lia. split.
  - intros E k Hk. rewrite <- !nth_error_skipn. rewrite <- (nth_error_firstn_lt (skipn j msg) Hk), <- (nth_error_firstn_lt (skipn i msg) Hk). now rewrite E.
  - intro H. apply nth_error_ext. intro k. destruct (Nat.lt_ge_cases k L) as [C|C].
    + rewrite !(nth_error_firstn_lt _ C), !nth_error_skipn. symmetry. auto.
    + rewrite !(proj2 (nth_error_None _ _)); auto; rewrite firstn_length; lia.
Qed.
Lemma match_at_iff msg i n l : n <= i -> l < n -> i + n <= length msg -> (match_at msg i n l = true <-> matches msg i n (S l)).
Proof.
  intros H1 H2 H3. unfold match_at, matches. rewrite existsb_exists. split.
  - intros [j [Hj E]]. apply in_seq in Hj. exists j. split; [lia|]. apply str_eqb_iff in E. rewrite <- !Nat.add_assoc in E. intros k Hk. apply (@slice_eq_iff msg i j (l + 1)); auto; lia.
  - intros [j [Hj E]]. exists j. split; [apply in_seq; lia|]. apply str_eqb_iff. rewrite <- !Nat.add_assoc. apply (@slice_eq_iff msg i j (l + 1)); try lia. intros k Hk. apply E. lia.
Qed.
Lemma longest_match_spec msg i n : n <= i -> i + n <= length msg ->
  exists L, longest_match msg i n = (S L, slice msg i (i + L)) /\ L <= n /\ (L = 0 \/ matches msg i n L) /\ forall L', L < L' <= n -> ~ matches msg i n L'.
Proof.
  intros H1 H2. unfold longest_match. pose proof (fold_last (match_at msg i n) (fun l => slice msg i (i + l + 1)) n []) as F. cbn zeta in F. cbn zeta.
  set (m := fold_left _ _ _) in *. clearbody m. destruct F as [[-> A]|[l [A1 [A2 [-> A4]]]]].
  - exists 0. split; [|split; [lia|split; [now left|]]].
    + unfold slice. replace (i + 0 - i) with 0 by lia. reflexivity.
    + intros L' HL M. destruct L' as [|L']; [lia|]. apply match_at_iff in M; try lia. rewrite A in M; [discriminate|lia].
  - exists (S l). replace (i + S l) with (i + l + 1) by lia. split; [|split; [lia|split]].
    + f_equal. unfold slice. rewrite firstn_length, skipn_length. lia.
    + right. apply match_at_iff; auto.
    + intros L' HL M. destruct L' as [|L']; [lia|]. apply match_at_iff in M; try lia. rewrite A4 in M; [discriminate|lia].
Qed.

(** ** Quantiles *)
Open Scope Qc_scope.
Lemma qsearch_le l v : (qsearch_left l v <= length l)%nat.
Proof. induction l; cbn; [lia|]. destruct (qlt a v); lia. Qed.
Lemma qsearch_mono l v v' : v <= v' -> (qsearch_left l v <= qsearch_left l v')%nat.
Proof.
  intro H. induction l as [|x l IH]; cbn; [lia|]. destruct (qlt x v) eqn:E; [|lia]. apply qlt_iff in E.
  assert (E' : qlt x v' = true) by (apply qlt_iff; eapply Qclt_le_trans; eauto). rewrite E'. lia.
Qed.
Lemma qsearch_full l v : qsearch_left l v = length l <-> forall x, In x l -> x < v.
Proof.
  induction l as [|x l IH]; cbn; [split; auto; intros _ y []|]. destruct (qlt x v) eqn:E.
  - apply qlt_iff in E. rewrite Nat.succ_inj_wd, IH. split; [intros H y [<-|Hy]; auto|intros H y Hy; apply H; auto].
  - apply qlt_false in E. split; [discriminate|]. intro H. specialize (H x (or_introl eq_refl)). exfalso. now apply (Qclt_not_le _ _ H).
Qed.
Lemma qsearch_spec l v : StronglySorted Qcle l -> forall i x, nth_error l i = Some x -> ((i < qsearch_left l v)%nat <-> x < v).
Proof.
  induction 1 as [|y l H IH HF]; intros i x Hi; [destruct i; discriminate|]. cbn. destruct (qlt y v) eqn:E.
  - apply qlt_iff in E. destruct i as [|i]; cbn in Hi.
    + inversion Hi; subst. split; auto. intro; lia.
    + rewrite <- (IH i x Hi). split; intro; lia.
  - apply qlt_false in E. split; [lia|]. intro C. exfalso. rewrite Forall_forall in HF. apply (Qclt_not_le _ _ C). destruct i as [|i]; cbn in Hi.
    + now inversion Hi; subst.
    + apply nth_error_In in Hi. eapply Qcle_trans; eauto.
Qed.

Lemma qinsert_perm x l : Permutation (x :: l) (qinsert_asc x l).
Proof.
  induction l as [|y l IH]; cbn; auto. destruct (qle x y); auto.
  apply perm_trans with (y :: x :: l); [apply perm_swap|]. now apply perm_skip.
Qed.
Lemma qsort_perm l : Permutation l (qsort_asc l).
Proof. induction l as [|x l IH]; cbn; auto. apply perm_trans with (x :: qsort_asc l); auto. apply qinsert_perm. Qed.
Lemma qinsert_sorted x l : StronglySorted Qcle l -> StronglySorted Qcle (qinsert_asc x l).
Proof.
  induction 1 as [|y l H IH HF]; cbn; [repeat constructor|]. destruct (qle x y) eqn:E.
  - apply qle_iff in E. constructor; [constructor; auto|]. constructor; auto. rewrite Forall_forall in *. intros z Hz. eapply Qcle_trans; eauto.
  - apply qle_false in E. constructor; auto. rewrite Forall_forall in *. intros z Hz.
    apply (Permutation_in _ (Permutation_sym (qinsert_perm x l))) in Hz. destruct Hz as [<-|Hz]; [now apply Qclt_le_weak|auto].
Qed.
Lemma qsort_sorted l : StronglySorted Qcle (qsort_asc l).
Proof. induction l; cbn; [constructor|now apply qinsert_sorted]. Qed.

Section Quantile.
Variable s : list Qc.
Hypothesis SS : StronglySorted Qcle s.
Hypothesis NE : s <> [].
Lemma nth_sorted i j d d' : (i <= j < length s)%nat -> nth i s d <= nth j s d'.
Proof.
  intro H. clear NE. revert i j H. induction SS as [|x l HS IH HF]; intros i j H; [cbn in H; lia|]. destruct j as [|j]; [assert (i = 0%nat) by lia; subst; cbn; apply Qcle_refl|].
  cbn [length] in H. destruct i as [|i]; cbn.
  - rewrite Forall_forall in HF. apply HF. apply nth_In. lia.
  - apply IH; auto. lia.
Qed.
(** interpolation at a real position v in [0, n-1] *)
Definition interp (v : Qc) : Qc :=
  let lo := Z.to_nat (qfloor v) in nth lo s 0 + (v - qz (qfloor v)) * (nth (S lo) s (nth lo s 0) - nth lo s 0).
Lemma np_quantile_interp prob : np_quantile s prob = interp (prob * qn (length s - 1)).
Proof. reflexivity. Qed.
Lemma floor_range v : 0 <= v <= qn (length s - 1) -> (0 <= qfloor v)%Z /\ (Z.to_nat (qfloor v) < length s)%nat /\ (v < qz (qfloor v) + 1).
Proof.
  intros [H1 H2]. assert (L : (0 < length s)%nat) by (destruct s; [congruence|cbn; lia]).
  assert (F0 : (0 <= qfloor v)%Z) by (rewrite <- (qfloor_qz 0); now apply qfloor_mono).
  assert (F1 : (qfloor v <= Z.of_nat (length s - 1))%Z) by (rewrite <- (qfloor_qz (Z.of_nat (length s - 1))); now apply qfloor_mono).
  repeat split; auto; [lia|apply qfloor_lt].
Qed.
Lemma next_ge lo : (lo < length s)%nat -> nth lo s 0 <= nth (S lo) s (nth lo s 0).
Proof.
  intro H. destruct (Nat.lt_ge_cases (S lo) (length s)) as [C|C].
  - apply nth_sorted. lia.
  - rewrite (nth_overflow s (nth lo s 0)) by lia. apply Qcle_refl.
Qed.
Lemma interp_bounds v : 0 <= v <= qn (length s - 1) ->
  nth (Z.to_nat (qfloor v)) s 0 <= interp v <= nth (S (Z.to_nat (qfloor v))) s (nth (Z.to_nat (qfloor v)) s 0).
Proof.
  intro H. destruct (floor_range H) as [F0 [F1 F2]]. pose proof (next_ge F1) as N. pose proof (qfloor_le v) as F3. unfold interp.
  set (a := nth (Z.to_nat (qfloor v)) s 0) in *. set (b := nth (S (Z.to_nat (qfloor v))) s a) in *. set (z := qz (qfloor v)) in *. clearbody a b z.
  assert (0 <= (v - z) * (b - a)) by (apply Qcmul_nonneg; qlra). assert (0 <= (1 - (v - z)) * (b - a)) by (apply Qcmul_nonneg; qlra). split; [qlra|qnra].
Qed.
Lemma interp_mono v v' : 0 <= v -> v <= v' -> v' <= qn (length s - 1) -> interp v <= interp v'.
Proof.
  intros H1 H2 H3. assert (B : 0 <= v <= qn (length s - 1)) by (split; auto; eapply Qcle_trans; eauto). assert (B' : 0 <= v' <= qn (length s - 1)) by (split; auto; eapply Qcle_trans; eauto).
  destruct (floor_range B) as [F0 [F1 F2]]. destruct (floor_range B') as [F0' [F1' F2']].
  assert (FM : (qfloor v <= qfloor v')%Z) by now apply qfloor_mono. destruct (Z.eq_dec (qfloor v) (qfloor v')) as [E|N].
  - unfold interp. rewrite <- E. pose proof (next_ge F1) as N. set (a := nth (Z.to_nat (qfloor v)) s 0) in *. set (b := nth (S (Z.to_nat (qfloor v))) s a) in *.
    set (z := qz (qfloor v)). clearbody a b z. assert (0 <= (v' - v) * (b - a)) by (apply Qcmul_nonneg; qlra). qnra.
  - destruct (interp_bounds B) as [_ U]. destruct (interp_bounds B') as [L _]. eapply Qcle_trans; [exact U|]. eapply Qcle_trans; [|exact L].
    apply nth_sorted. lia.
Qed.
Lemma interp_max v : 0 <= v <= qn (length s - 1) -> interp v <= nth (length s - 1) s 0.
Proof.
  intro B. destruct (interp_bounds B) as [_ U]. eapply Qcle_trans; [exact U|]. destruct (floor_range B) as [F0 [F1 F2]].
  destruct (Nat.lt_ge_cases (S (Z.to_nat (qfloor v))) (length s)) as [C|C].
  - apply nth_sorted. lia.
  - rewrite (nth_overflow s (nth (Z.to_nat (qfloor v)) s 0)) by lia. apply nth_sorted. lia.
Qed.
Lemma interp_last : interp (qn (length s - 1)) = nth (length s - 1) s 0.
Proof.
  unfold interp. unfold qn at 1 2 3 4 5. rewrite qfloor_qz, Nat2Z.id. rewrite (nth_overflow s (nth (length s - 1) s 0)) by lia. ring.
Qed.
Lemma interp_first : interp 0 = nth 0 s 0.
Proof. unfold interp. change (qfloor 0) with 0%Z. change (Z.to_nat 0) with 0%nat. rewrite qz_0. ring. Qed.
End Quantile.
Lemma last_is_max s : StronglySorted Qcle s -> s <> [] -> forall x, In x s -> x <= nth (length s - 1) s 0.
Proof.
  intros SS NE x Hx. apply (In_nth s x 0) in Hx. destruct Hx as [i [L <-]]. apply nth_sorted; auto. lia.
Qed.
