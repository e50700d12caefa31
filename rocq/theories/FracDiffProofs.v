(** Lemmas for FracDiffProps. *)
From Verif Require Import Py FracDiffModel FracDiffSpec.
Set Implicit Arguments.
Unset Strict Implicit.
Open Scope Qc_scope.

(** ** Sums *)
Lemma sum_to_S n f : sum_to (S n) f = sum_to n f + f (S n).
Proof. unfold sum_to. rewrite (seq_S (S n)), map_app, qsum_app. cbn [map qsum Nat.add]. ring. Qed.
Lemma sum_to_0 f : sum_to 0 f = f 0%nat.
Proof. unfold sum_to. cbn. ring. Qed.
Lemma sum_to_ext n f g : (forall k, (k <= n)%nat -> f k = g k) -> sum_to n f = sum_to n g.
Proof. intro H. unfold sum_to. apply qsum_map_ext. intros k Hk. apply in_seq in Hk. apply H. lia. Qed.
Lemma sum_to_add n f g : sum_to n (fun k => f k + g k) = sum_to n f + sum_to n g.
Proof. apply qsum_map_add. Qed.
Lemma sum_to_scale n c f : sum_to n (fun k => c * f k) = c * sum_to n f.
Proof. apply qsum_map_scale. Qed.
Lemma sum_to_head n f : sum_to (S n) f = f 0%nat + sum_to n (fun k => f (S k)).
Proof. unfold sum_to. cbn [seq map qsum]. f_equal. rewrite <- (seq_shift n 1). cbn [map qsum]. now rewrite map_map. Qed.
Lemma triangle n F : sum_to n (fun k => sum_to (n - k) (F k)) = sum_to n (fun m => sum_to m (fun k => F k (m - k)%nat)).
Proof.
  induction n as [|n IH]; [now rewrite !sum_to_0|]. rewrite (sum_to_S n (fun m => sum_to m _)), <- IH, sum_to_S. replace (S n - S n)%nat with 0%nat by lia. rewrite sum_to_0.
  rewrite (sum_to_S n (fun k => F k (S n - k)%nat)). replace (S n - S n)%nat with 0%nat by lia.
  rewrite (sum_to_ext (g := fun k => sum_to (n - k) (F k) + F k (S n - k)%nat)); [rewrite sum_to_add; ring|].
  intros k Hk. replace (S n - k)%nat with (S (n - k)) by lia. now rewrite sum_to_S.
Qed.
Lemma sum_to_rev n f : sum_to n f = sum_to n (fun k => f (n - k)%nat).
Proof.
  revert f. induction n as [|n IH]; intro f; [now rewrite !sum_to_0|]. rewrite sum_to_head, sum_to_S. replace (S n - S n)%nat with 0%nat by lia. rewrite IH.
  rewrite (sum_to_ext (f := fun k => f (S n - k)%nat) (g := fun k => f (S (n - k)))); [ring|]. intros k Hk. f_equal. lia.
Qed.

(** ** Coefficients *)
Lemma coeff_0 d : coeff d 0 = 1.
Proof. unfold coeff. cbn [falling fact Qcpower]. change (qn 1) with 1. field; discriminate. Qed.
Lemma fact_pos k : 0 < qn (fact k).
Proof. apply qn_pos, lt_O_fact. Qed.
Lemma coeff_S d k : coeff d (S k) = - coeff d k * (d - qn k) / qn (S k).
Proof.
  unfold coeff. cbn [falling fact Qcpower]. replace (fact k + k * fact k)%nat with (S k * fact k)%nat by lia. rewrite qn_mul. field. split; apply Qc_pos_neq; [apply fact_pos|apply qn_pos; lia].
Qed.
Lemma coeff_rec d k : qn (S k) * coeff d (S k) = (qn k - d) * coeff d k.
Proof. rewrite coeff_S. field. apply qn_neq_0. lia. Qed.
Theorem vandermonde a b n : sum_to n (fun k => coeff a k * coeff b (n - k)) = coeff (a + b) n.
Proof.
  induction n as [|n IH]; [rewrite sum_to_0; cbn [Nat.sub]; rewrite !coeff_0; ring|].
  apply (Qcmul_cancel_r (c := qn (S n))); [apply qn_neq_0; lia|]. rewrite (Qcmult_comm (coeff (a + b) (S n))), coeff_rec, <- IH. rewrite Qcmult_comm, <- sum_to_scale.
  rewrite (sum_to_ext (g := fun k => qn k * coeff a k * coeff b (S n - k) + coeff a k * (qn (S n - k) * coeff b (S n - k)))).
  2:{ intros k Hk. replace (qn (S n)) with (qn k + qn (S n - k)) by (rewrite <- qn_add; f_equal; lia). ring. }
  rewrite sum_to_add, (sum_to_head n (fun k => qn k * coeff a k * coeff b (S n - k))), (sum_to_S n (fun k => coeff a k * (qn (S n - k) * coeff b (S n - k)))).
  replace (S n - S n)%nat with 0%nat by lia. rewrite qn_0.
  rewrite (sum_to_ext (f := fun k => qn (S k) * coeff a (S k) * coeff b (S n - S k)) (g := fun k => (qn k - a) * (coeff a k * coeff b (n - k)))) by (intros k Hk; rewrite coeff_rec; cbn [Nat.sub]; ring).
  rewrite (sum_to_ext (f := fun k => coeff a k * (qn (S n - k) * coeff b (S n - k))) (g := fun k => (qn (n - k) - b) * (coeff a k * coeff b (n - k)))).
  2:{ intros k Hk. replace (S n - k)%nat with (S (n - k)) by lia. rewrite coeff_rec. ring. }
  rewrite <- (sum_to_scale n (qn n - (a + b))). match goal with |- 0 * _ * _ + ?A + (?B + _) = _ => replace (0 * coeff a 0 * coeff b (S n - 0) + A + (B + coeff a (S n) * (0 * coeff b 0))) with (A + B) by ring end.
  rewrite <- sum_to_add. apply sum_to_ext. intros k Hk. replace (qn n) with (qn k + qn (n - k)) by (rewrite <- qn_add; f_equal; lia). ring.
Qed.
Theorem fdiff_compose a b x i : fdiff b (fdiff a x) i = fdiff (a + b) x i.
Proof.
  unfold fdiff at 1. rewrite (sum_to_ext (g := fun k => sum_to (i - k) (fun j => coeff b k * coeff a j * x (i - (k + j))%nat))).
  2:{ intros k Hk. unfold fdiff. rewrite <- sum_to_scale. apply sum_to_ext. intros j Hj. rewrite Qcmult_assoc. do 2 f_equal. lia. }
  rewrite triangle. unfold fdiff. apply sum_to_ext. intros m Hm. rewrite <- vandermonde, Qcmult_comm, <- sum_to_scale, sum_to_rev. apply sum_to_ext. intros k Hk.
  replace (m - k + (m - (m - k)))%nat with m by lia. replace (m - (m - k))%nat with k by lia. ring.
Qed.
Lemma coeff_order0 k : (0 < k)%nat -> coeff 0 k = 0.
Proof.
  intro H. unfold coeff. assert (F : falling 0 k = 0). { induction k as [|k IH]; [lia|]. cbn [falling]. destruct k as [|k]; [cbn; rewrite qn_0; ring|]. rewrite IH by lia. ring. }
  rewrite F. unfold Qcdiv. ring.
Qed.
Lemma coeff_order1 k : (1 < k)%nat -> coeff 1 k = 0.
Proof.
  intro H. unfold coeff. assert (F : falling 1 k = 0). { induction k as [|k IH]; [lia|]. cbn [falling]. destruct k as [|[|k]]; [lia|cbn; change (qn 1) with 1; ring|]. rewrite IH by lia. ring. }
  rewrite F. unfold Qcdiv. ring.
Qed.
Lemma sum_to_zero n f : (forall k, (k <= n)%nat -> f k = 0) -> sum_to n f = 0.
Proof. intro H. unfold sum_to. apply qsum_map_0. intros k Hk. apply in_seq in Hk. apply H. lia. Qed.
Lemma fdiff_0 x i : fdiff 0 x i = x i.
Proof.
  unfold fdiff. destruct i as [|i]; [rewrite sum_to_0, coeff_0; cbn; ring|]. rewrite sum_to_head, coeff_0, sum_to_zero; [replace (S i - 0)%nat with (S i) by lia; ring|].
  intros k Hk. rewrite coeff_order0 by lia. ring.
Qed.
Lemma fdiff_1_0 x : fdiff 1 x 0 = x 0%nat.
Proof. unfold fdiff. rewrite sum_to_0, coeff_0. cbn. ring. Qed.
Lemma fdiff_1_S x i : fdiff 1 x (S i) = x (S i) - x i.
Proof.
  unfold fdiff. rewrite sum_to_head, coeff_0. replace (S i - 0)%nat with (S i) by lia. destruct i as [|i].
  - rewrite sum_to_0. cbn [Nat.sub]. unfold coeff. cbn [falling fact Qcpower Nat.add Nat.mul]. change (qn 1) with 1. rewrite qn_0. field; discriminate.
  - rewrite sum_to_head, sum_to_zero; [|intros k Hk; rewrite coeff_order1 by lia; ring]. cbn [Nat.sub]. unfold coeff. cbn [falling fact Qcpower Nat.add Nat.mul]. change (qn 1) with 1. rewrite qn_0. field; discriminate.
Qed.

(** ** The weights *)
Lemma next_w_coeff d k : (0 < k)%nat -> next_w d k (coeff d (k - 1)) = coeff d k.
Proof.
  intro H. destruct k as [|k]; [lia|]. unfold next_w. replace (S k - 1)%nat with k by lia. rewrite coeff_S, qn_S. f_equal. ring.
Qed.
Lemma weights_loop_coeff d n : forall k, (0 < k)%nat -> weights_loop d n k (coeff d (k - 1)) = map (coeff d) (seq k n).
Proof.
  induction n as [|n IH]; intros k H; auto. cbn [weights_loop seq map]. rewrite next_w_coeff by auto. f_equal. rewrite <- IH by lia. f_equal. f_equal. lia.
Qed.
Lemma get_weights_coeff d size : get_weights d size = rev (map (coeff d) (seq 0 (S (size - 1)))).
Proof. unfold get_weights. f_equal. cbn [seq map]. rewrite coeff_0. f_equal. rewrite <- (coeff_0 d) at 1. change 0%nat with (1 - 1)%nat at 1. now rewrite weights_loop_coeff by lia. Qed.
Lemma fixed_loop_prefix d thr n : forall k, (0 < k)%nat -> exists m, (m <= n)%nat /\ weights_fixed_loop d thr n k (coeff d (k - 1)) = map (coeff d) (seq k m) /\
  (forall j, (k <= j < k + m)%nat -> thr <= qabs (coeff d j)) /\ ((m < n)%nat -> qabs (coeff d (k + m)) < thr).
Proof.
  induction n as [|n IH]; intros k H.
  - exists 0%nat. repeat split; auto; intros; lia.
  - cbn [weights_fixed_loop]. rewrite next_w_coeff by auto. destruct (qlt_spec (qabs (coeff d k)) thr) as [C|C].
    + exists 0%nat. split; [lia|]. split; auto. split; [intros; lia|]. intros _. now rewrite Nat.add_0_r.
    + destruct (IH (S k)) as [m [A [B [D E]]]]; [lia|]. replace (S k - 1)%nat with k in B by lia. exists (S m). split; [lia|]. split; [cbn [seq map]; now rewrite B|]. split.
      * intros j Hj. destruct (Nat.eq_dec j k) as [->|N]; [now apply Qcnot_lt_le|]. apply D. lia.
      * intro L. replace (k + S m)%nat with (S k + m)%nat by lia. apply E. lia.
Qed.
(** once below 1 in magnitude, the coefficients never grow again *)
Lemma coeff_abs_S d k : qabs (coeff d (S k)) = qabs (coeff d k) * qabs (d - qn k) / qn (S k).
Proof.
  assert (P : 0 < qn (S k)) by (apply qn_pos; lia). rewrite coeff_S. unfold Qcdiv. rewrite !qabs_mul, qabs_opp, (@qabs_pos (/ qn (S k))); auto.
  rewrite <- (Qcmult_1_l (/ qn (S k))). apply (@Qcdiv_nonneg 1); auto. discriminate.
Qed.
Lemma coeff_shrinks d k : qabs (coeff d k) < 1 -> - (1) < d /\ d < qz 2 * qn k - 1.
Proof.
  induction k as [|k IH]; intro H; [rewrite coeff_0 in H; rewrite qabs_pos in H by discriminate; now apply Qclt_irrefl in H|].
  destruct (Qclt_le_dec (qabs (coeff d k)) 1) as [C|C].
  - destruct (IH C) as [A B]. split; auto. rewrite qn_S. qlra.
  - assert (P : 0 < qn (S k)) by (apply qn_pos; lia). rewrite coeff_abs_S in H. apply Qcdiv_lt_iff in H; auto. rewrite qn_S in *.
    assert (Q : qabs (d - qn k) < qn k + 1). { apply Qcnot_le_lt. intro L. pose proof (qabs_nonneg (d - qn k)). set (a := qabs (coeff d k)) in *. set (b := qabs (d - qn k)) in *. clearbody a b. assert (0 <= (a - 1) * b) by (apply Qcmul_nonneg; qlra). qnra. }
    assert (Q' : d - qn k < qn k + 1 /\ - (d - qn k) < qn k + 1). { unfold qabs in Q. destruct (qle_spec 0 (d - qn k)); split; qlra. }
    destruct Q'. split; qlra.
Qed.
Lemma coeff_decreasing d k : qabs (coeff d k) < 1 -> forall j, (k <= j)%nat -> qabs (coeff d (S j)) <= qabs (coeff d j).
Proof.
  intros H j Hj. destruct (coeff_shrinks H) as [A B]. rewrite coeff_abs_S. assert (P : 0 < qn (S j)) by (apply qn_pos; lia). apply Qcdiv_le_iff; auto.
  assert (KJ : qn k <= qn j) by (apply qn_le; lia). rewrite qn_S. assert (Q : qabs (d - qn j) <= qn j + 1) by (apply qabs_le; split; qlra).
  pose proof (qabs_nonneg (coeff d j)) as N. set (a := qabs (coeff d j)) in *. set (b := qabs (d - qn j)) in *. clearbody a b. assert (0 <= a * (qn j + 1 - b)) by (apply Qcmul_nonneg; qlra). qnra.
Qed.
Lemma coeff_decreasing_le d k : qabs (coeff d k) < 1 -> forall j, (k <= j)%nat -> qabs (coeff d j) <= qabs (coeff d k).
Proof.
  intros H j Hj. induction j as [|j IH]; [assert (k = 0%nat) by lia; subst; apply Qcle_refl|]. destruct (Nat.eq_dec k (S j)) as [->|N]; [apply Qcle_refl|].
  apply Qcle_trans with (qabs (coeff d j)); [apply (coeff_decreasing H); lia|apply IH; lia].
Qed.

(** ** Prepared columns *)
Lemma ffill_all l v : exists vs, ffill (Some v) l = map Some vs /\ length vs = length l.
Proof.
  revert v. induction l as [|x l IH]; intro v; [exists []; auto|]. cbn [ffill]. destruct x as [w|].
  - destruct (IH w) as [vs [E L]]. exists (w :: vs). cbn. now rewrite E, L.
  - destruct (IH v) as [vs [E L]]. exists (v :: vs). cbn. now rewrite E, L.
Qed.
Lemma dropna_full vs : forall i, dropna_from i (map Some vs) = combine (seq i (length vs)) vs.
Proof. induction vs as [|v vs IH]; intro i; auto. cbn. now rewrite IH. Qed.
(** the prepared column starts at the first observation and has a value at every later position *)
Lemma ffill_split col : exists a vs, ffill None col = repeat None a ++ map Some vs /\ (a + length vs = length col)%nat /\ (forall i, (i < a)%nat -> nth_error col i = Some None).
Proof.
  induction col as [|x col IH]; [exists 0%nat, []; cbn; repeat split; auto; intros; lia|]. destruct x as [v|]; cbn [ffill].
  - destruct (ffill_all col v) as [vs [E L]]. exists 0%nat, (v :: vs). cbn. rewrite E, L. repeat split; auto. intros; lia.
  - destruct IH as [a [vs [E [L H]]]]. exists (S a), vs. cbn. rewrite E. split; [auto|]. split; [lia|]. intros [|i] Hi; auto. apply H. lia.
Qed.
Lemma dropna_repeat a l : forall i, dropna_from i (repeat None a ++ l) = dropna_from (i + a) l.
Proof. induction a as [|a IH]; intro i; cbn; [now rewrite Nat.add_0_r|]. rewrite IH. f_equal. lia. Qed.
Lemma ffill_nth col i : forall prev v, nth_error (ffill prev col) i = Some (Some v) -> last_seen col i v \/ (prev = Some v /\ forall k, (k <= i)%nat -> nth_error col k = Some None).
Proof.
  revert i. induction col as [|x col IH]; intros i prev v H; [destruct i; discriminate|]. cbn [ffill] in H. destruct i as [|i]; cbn [nth_error] in H.
  - destruct x as [w|].
    + left. exists 0%nat. split; auto. injection H as <-. split; auto. intros; lia.
    + injection H as ->. right. split; auto. intros k Hk. assert (k = 0%nat) by lia. now subst.
  - destruct (IH _ _ _ H) as [[j [A [B C]]]|[E C]].
    + left. exists (S j). split; [lia|]. split; auto. intros [|k] Hk; [lia|]. apply C. lia.
    + destruct x as [w|].
      * left. exists 0%nat. split; [lia|]. injection E as ->. split; auto. intros [|k] Hk; [lia|]. apply C. lia.
      * right. split; auto. intros [|k] Hk; auto. apply C. lia.
Qed.
Lemma prepared_spec col : exists a vs, prepared col = combine (seq a (length vs)) vs /\ (a + length vs = length col)%nat /\
  (forall i, (i < a)%nat -> nth_error col i = Some None) /\ (forall i v, nth_error vs i = Some v -> last_seen col (a + i) v).
Proof.
  destruct (ffill_split col) as [a [vs [E [L H]]]]. exists a, vs. split; [unfold prepared; rewrite E, dropna_repeat, dropna_full; reflexivity|]. split; auto. split; auto.
  intros i v Hi. assert (N : nth_error (ffill None col) (a + i) = Some (Some v)).
  { rewrite E, nth_error_app2 by (rewrite repeat_length; lia). rewrite repeat_length, nth_error_map. replace (a + i - a)%nat with i by lia. now rewrite Hi. }
  destruct (ffill_nth N) as [?|[C _]]; [auto|discriminate].
Qed.
Lemma prepared_full xs : prepared (map Some xs) = combine (seq 0 (length xs)) xs.
Proof.
  unfold prepared. replace (ffill None (map Some xs)) with (map Some xs); [apply dropna_full|]. generalize (@None Qc). induction xs as [|x xs IH]; intro o; auto. cbn. now rewrite <- IH.
Qed.
Lemma nth_combine_seq a (vs : list Qc) i : (i < length vs)%nat -> nth i (combine (seq a (length vs)) vs) (0%nat, 0) = ((a + i)%nat, nth i vs 0).
Proof. intro H. rewrite combine_nth by now rewrite seq_length. now rewrite seq_nth by auto. Qed.

(** ** Dot products *)
Lemma dot_app a b c e : length a = length c -> dot (a ++ b) (c ++ e) = dot a c + dot b e.
Proof.
  intro L. unfold dot. revert c L. induction a as [|x a IH]; intros [|z c] L; try discriminate; cbn [app combine map qsum]; [ring|]. rewrite IH by (cbn in L; lia). cbn. ring.
Qed.
Lemma dot_rev c m : forall l, length l = S m -> dot (rev (map c (seq 0 (S m)))) l = sum_to m (fun k => c k * nth (m - k) l 0).
Proof.
  induction m as [|m IH]; intros l L.
  - destruct l as [|x [|? ?]]; try discriminate. rewrite sum_to_0. unfold dot. cbn. ring.
  - destruct l as [|x l]; [discriminate|]. rewrite seq_S, map_app, rev_app_distr. cbn [map rev app Nat.add]. change (c (S m) :: rev (map c (seq 0 (S m)))) with ([c (S m)] ++ rev (map c (seq 0 (S m)))).
    change (x :: l) with ([x] ++ l). rewrite dot_app by reflexivity. cbn [length] in L. rewrite IH by lia. rewrite sum_to_S. replace (S m - S m)%nat with 0%nat by lia. cbn [app nth].
    rewrite (sum_to_ext (g := fun k => c k * match (S m - k)%nat with 0%nat => x | S p => nth p l 0 end)).
    + unfold dot. cbn. ring.
    + intros k Hk. replace (S m - k)%nat with (S (m - k)) by lia. reflexivity.
Qed.
Lemma skipn_weights d n j : (j < n)%nat -> skipn (n - (j + 1)) (rev (map (coeff d) (seq 0 n))) = rev (map (coeff d) (seq 0 (S j))).
Proof.
  intro H. rewrite skipn_rev, map_length, seq_length, firstn_map. do 2 f_equal. replace (n - (n - (j + 1)))%nat with (S j) by lia.
  replace n with (S j + (n - S j))%nat by lia. rewrite seq_app, firstn_app, seq_length, Nat.sub_diag. change (firstn 0 (seq (0 + S j) (n - S j))) with (@nil nat). rewrite app_nil_r. apply firstn_all2. rewrite seq_length. lia.
Qed.

(** ** Skipped points *)
Lemma antitone_count (f : nat -> bool) m : (forall i j, (i <= j)%nat -> f j = true -> f i = true) -> forall i, (i < m)%nat -> ((i < length (filter f (seq 0 m)))%nat <-> f i = true).
Proof.
  intro A. induction m as [|m IH]; intros i Hi; [lia|]. rewrite seq_S, filter_app, app_length. cbn [filter Nat.add]. destruct (f m) eqn:E.
  - assert (ALL : filter f (seq 0 m) = seq 0 m). { clear IH Hi. assert (H : forall x, In x (seq 0 m) -> f x = true) by (intros x Hx; apply in_seq in Hx; apply (A x m); auto; lia). induction (seq 0 m) as [|x l IH]; auto. cbn. rewrite (H x (or_introl eq_refl)), IH; auto. intros; apply H; now right. }
    rewrite ALL, seq_length. cbn [length]. split; [intros _; apply (A i m); auto; lia|lia].
  - cbn [length]. rewrite Nat.add_0_r. destruct (Nat.eq_dec i m) as [->|N]; [|apply IH; lia]. rewrite E. split; [|discriminate].
    intro C. exfalso. assert (length (filter f (seq 0 m)) <= m)%nat; [|lia]. clear. rewrite <- (seq_length m 0) at 2. induction (seq 0 m) as [|x l IH]; cbn; [lia|]. destruct (f x); cbn; lia.
Qed.
Lemma count_reverse (f : nat -> bool) m : length (filter (fun j => f (m - 1 - j)%nat) (seq 0 m)) = length (filter f (seq 0 m)).
Proof.
  assert (E : map (fun j => (m - 1 - j)%nat) (seq 0 m) = rev (seq 0 m)).
  { apply nth_error_ext. intro i. rewrite nth_error_map. destruct (Nat.lt_ge_cases i m) as [C|C].
    - rewrite !nth_error_nth' with (d := 0%nat) by (rewrite ?rev_length, seq_length; auto). rewrite rev_nth by now rewrite seq_length. rewrite !seq_nth, seq_length by (rewrite ?seq_length; lia). cbn. f_equal. lia.
    - rewrite !(proj2 (nth_error_None _ _)); auto; rewrite ?rev_length, seq_length; auto. }
  assert (H : length (filter f (map (fun j => (m - 1 - j)%nat) (seq 0 m))) = length (filter (fun j => f (m - 1 - j)%nat) (seq 0 m))).
  { clear E. induction (seq 0 m) as [|x l IH]; auto. cbn [map filter]. destruct (f _); cbn [length]; auto. }
  rewrite <- H, E. clear. induction (seq 0 m) as [|x l IH]; auto. cbn [rev filter]. rewrite filter_app, app_length, IH. cbn [filter]. destruct (f x); cbn [length]; lia.
Qed.
Lemma total_pos d n : (0 < n)%nat -> 0 < qsum (map (fun k => qabs (coeff d k)) (seq 0 n)).
Proof.
  intro H. destruct n as [|n]; [lia|]. cbn [seq map qsum]. rewrite coeff_0. assert (0 <= qsum (map (fun k => qabs (coeff d k)) (seq 1 n))) by (apply qsum_nonneg; intros x Hx; apply in_map_iff in Hx; destruct Hx as [k [<- _]]; apply qabs_nonneg).
  rewrite qabs_pos by discriminate. qlra.
Qed.
Lemma omitted_antitone d n i j : (i <= j)%nat -> omitted_share d n j <= omitted_share d n i.
Proof.
  intro H. unfold omitted_share. destruct n as [|n]; [cbn; apply Qcle_refl|]. pose proof (@total_pos d (S n) ltac:(lia)) as P. apply Qcdiv_le_iff; auto. rewrite Qcdiv_mul_cancel by now apply Qc_pos_neq.
  destruct (Nat.lt_ge_cases j n) as [C|C].
  - replace (S n - S i)%nat with ((j - i) + (S n - S j))%nat by lia. rewrite seq_app, map_app, qsum_app. replace (S i + (j - i))%nat with (S j) by lia.
    assert (0 <= qsum (map (fun k => qabs (coeff d k)) (seq (S i) (j - i)))) by (apply qsum_nonneg; intros x Hx; apply in_map_iff in Hx; destruct Hx as [k [<- _]]; apply qabs_nonneg). qlra.
  - replace (S n - S j)%nat with 0%nat by lia. cbn [seq map qsum]. apply qsum_nonneg. intros x Hx. apply in_map_iff in Hx. destruct Hx as [k [<- _]]. apply qabs_nonneg.
Qed.
Lemma last_nth_error A (l : list A) d : l <> [] -> nth_error l (length l - 1) = Some (last l d).
Proof.
  intro H. destruct l as [|x l] using rev_ind; [congruence|]. rewrite app_length. cbn [length]. replace (length l + 1 - 1)%nat with (length l) by lia. rewrite nth_error_app2, Nat.sub_diag, last_last by lia. reflexivity.
Qed.
Lemma qsum_rev l : qsum (rev l) = qsum l.
Proof. apply qsum_perm. apply Permutation_sym, Permutation_rev. Qed.
Lemma losses_eq d n : (0 < n)%nat -> removelast (weight_losses (rev (map (coeff d) (seq 0 n)))) = map (fun j => omitted_share d n (n - 2 - j)) (seq 0 (n - 1)).
Proof.
  intro H. set (L := map (fun k => qabs (coeff d k)) (seq 0 n)). unfold weight_losses. rewrite map_rev, map_map. fold L. assert (LL : length L = n) by (unfold L; now rewrite map_length, seq_length).
  set (c := cumsum (rev L)). assert (LC : length c = n) by (unfold c; now rewrite cumsum_length, rev_length).
  assert (CN : forall j, (j < n)%nat -> nth_error c j = Some (qsum (skipn (n - S j) L))).
  { intros j Hj. unfold c. rewrite cumsum_nth by (rewrite rev_length; lia). f_equal. rewrite firstn_rev, qsum_rev, LL. reflexivity. }
  assert (NC : c <> []) by (intro C; rewrite C in LC; cbn in LC; lia).
  assert (EL : last c 0 = qsum L). { pose proof (last_nth_error 0 NC) as E. rewrite LC, CN in E by lia. injection E as E. rewrite <- E. replace (n - S (n - 1))%nat with 0%nat by lia. reflexivity. }
  rewrite EL. apply nth_error_ext. intro j. rewrite nth_error_map. rewrite removelast_firstn_len, map_length, LC. destruct (Nat.lt_ge_cases j (n - 1)) as [C|C].
  - rewrite nth_error_firstn_lt by lia. rewrite nth_error_map, CN by lia. rewrite nth_error_nth' with (d := 0%nat) by now rewrite seq_length. rewrite seq_nth by auto. cbn [option_map Nat.add]. f_equal. unfold omitted_share. fold L. f_equal. f_equal.
    replace (n - S j)%nat with (S (n - 2 - j)) by lia. set (i := (n - 2 - j)%nat). assert (i < n)%nat by lia. unfold L. clear - H0. rewrite skipn_map. f_equal.
    apply nth_error_ext. intro k. rewrite nth_error_skipn. destruct (Nat.lt_ge_cases k (n - S i)) as [C|C].
    + rewrite !nth_error_nth' with (d := 0%nat) by (rewrite seq_length; lia). rewrite !seq_nth by lia. reflexivity.
    + rewrite !(proj2 (nth_error_None _ _)); auto; rewrite seq_length; lia.
  - rewrite !(proj2 (nth_error_None _ _)); auto; [now rewrite seq_length|]. rewrite firstn_length. lia.
Qed.
Lemma num_skips_spec d n thr : (0 < n)%nat -> 0 <= thr -> forall i, (i < n)%nat -> ((i < num_skips (get_weights d n) thr)%nat <-> thr < omitted_share d n i).
Proof.
  intros H T0 i Hi. rewrite get_weights_coeff. replace (S (n - 1)) with n by lia. unfold num_skips. rewrite losses_eq by auto.
  set (f := fun i => qlt thr (omitted_share d n i)). assert (E : length (filter (fun x => qlt thr x) (map (fun j => omitted_share d n (n - 2 - j)) (seq 0 (n - 1)))) = length (filter f (seq 0 (n - 1)))).
  { rewrite <- count_reverse. replace (n - 1 - 1)%nat with (n - 2)%nat by lia. unfold f. generalize (seq 0 (n - 1)) as l. induction l as [|x l IH]; auto. cbn [map filter]. destruct (qlt thr _); cbn [length]; auto. }
  rewrite E. rewrite <- qlt_iff. fold (f i). assert (AN : forall i j, (i <= j)%nat -> f j = true -> f i = true) by (intros a b Hab Hf; unfold f in *; apply qlt_iff; apply qlt_iff in Hf; eapply Qclt_le_trans; [exact Hf|now apply omitted_antitone]).
  destruct (Nat.eq_dec i (n - 1)) as [->|N].
  - assert (F : f (n - 1)%nat = false). { unfold f. apply qlt_false. unfold omitted_share. replace (n - S (n - 1))%nat with 0%nat by lia. cbn [seq map qsum]. unfold Qcdiv. rewrite Qcmult_0_l. exact T0. }
    rewrite F. split; [|discriminate]. intro C. exfalso. assert (length (filter f (seq 0 (n - 1))) <= n - 1)%nat; [|lia]. rewrite <- (seq_length (n - 1) 0) at 2. clear. induction (seq 0 (n - 1)) as [|x l IH]; cbn; [lia|]. destruct (f x); cbn; lia.
  - apply antitone_count; auto. lia.
Qed.
Lemma omitted_le1 d n i : omitted_share d n i <= 1.
Proof.
  unfold omitted_share. destruct n as [|n]; [cbn; discriminate|]. pose proof (@total_pos d (S n) ltac:(lia)) as P. apply Qcdiv_le_iff; auto. rewrite Qcmult_1_l.
  destruct (Nat.lt_ge_cases i n) as [C|C].
  - replace (seq 0 (S n)) with (seq 0 (S i) ++ seq (S i) (S n - S i)) by (rewrite <- seq_app; f_equal; lia). rewrite map_app, qsum_app.
    assert (0 <= qsum (map (fun k => qabs (coeff d k)) (seq 0 (S i)))) by (apply qsum_nonneg; intros x Hx; apply in_map_iff in Hx; destruct Hx as [k [<- _]]; apply qabs_nonneg). qlra.
  - replace (S n - S i)%nat with 0%nat by lia. cbn [seq map qsum]. now apply Qclt_le_weak.
Qed.
