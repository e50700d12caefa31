From Verif Require Import Py SeriesModel SeriesSpec.
Set Implicit Arguments.
Open Scope Qc_scope.

Lemma power_sum_shift r j l : power_sum r (S j) l = r * power_sum r j l.
Proof. revert j. induction l; intro j; cbn [power_sum]; [ring|]. rewrite IHl. cbn. ring. Qed.

Lemma power_sum_cons r x l : power_sum r 0 (x :: l) = x + r * power_sum r 0 l.
Proof. cbn [power_sum]. rewrite power_sum_shift. cbn. ring. Qed.

Lemma power_sum_snoc r j l x : power_sum r j (l ++ [x]) = power_sum r j l + r ^ (j + length l) * x.
Proof.
  revert j. induction l as [|a l IH]; intro j.
  - cbn. rewrite Nat.add_0_r. ring.
  - cbn [app power_sum]. rewrite IH. cbn [length]. replace (S j + length l)%nat with (j + S (length l))%nat by lia. ring.
Qed.

Lemma power_sum_pos r l : 0 <= r -> l <> [] -> (forall x, In x l -> 0 < x) -> 0 < power_sum r 0 l.
Proof.
  intros Hr Hl H. induction l as [|a l IH]; [congruence|].
  rewrite power_sum_cons. assert (0 < a) by (apply H; now left).
  destruct l as [|b l].
  - cbn. qlra.
  - assert (0 < power_sum r 0 (b :: l)) by (apply IH; [congruence|intros; apply H; now right]).
    assert (0 <= r * power_sum r 0 (b :: l)) by (apply Qcmul_nonneg; auto; qlra). qlra.
Qed.

Lemma ones_repeat (l : list Qc) : map (fun _ => 1) l = repeat 1 (length l).
Proof. induction l; cbn; congruence. Qed.

Definition den (r : Qc) (n : nat) : Qc := power_sum r 0 (repeat 1 n).

Lemma den_S r n : den r (S n) = den r n + r ^ n.
Proof.
  unfold den. assert (repeat 1 (S n) = repeat 1 n ++ [1]) as ->.
  { change [1] with (repeat 1 1). rewrite <- repeat_app. f_equal. lia. }
  rewrite power_sum_snoc, repeat_length. cbn [plus]. ring.
Qed.

Lemma den_pos r n : 0 <= r -> (0 < n)%nat -> 0 < den r n.
Proof.
  intros Hr Hn. apply power_sum_pos; auto.
  - destruct n; [lia|discriminate].
  - intros x Hx. apply repeat_spec in Hx. subst. qlra.
Qed.

Lemma alpha_range span : (1 <= span)%Z -> 0 < ewma_alpha span /\ ewma_alpha span <= 1.
Proof.
  intro H. unfold ewma_alpha.
  assert (Hp : 2 <= qz (span + 1)) by (apply qz_le; lia).
  split.
  - apply Qcdiv_pos; qlra.
  - apply Qcdiv_le_iff; qlra.
Qed.

Lemma ewma_adj_loop_ok alpha pre xs :
  0 <= 1 - alpha -> (0 < length pre)%nat ->
  exists ys,
    ewma_adj_loop alpha (length pre) (den (1 - alpha) (length pre)) (power_sum (1 - alpha) 0 (rev pre)) xs = Ok ys
    /\ length ys = length xs
    /\ forall j, (j < length xs)%nat ->
         nth_error ys j = Some (power_sum (1 - alpha) 0 (rev (pre ++ firstn (S j) xs)) / den (1 - alpha) (length pre + S j)).
Proof.
  intros Ha. revert pre. induction xs as [|x xs IH]; intros pre Hp.
  - exists []. cbn. repeat split; auto. intros; lia.
  - cbn [ewma_adj_loop].
    rewrite <- den_S.
    assert (Hd : 0 < den (1 - alpha) (S (length pre))) by (apply den_pos; auto; lia).
    destruct (qeq_spec (den (1 - alpha) (S (length pre))) 0) as [E|_];
      [exfalso; rewrite E in Hd; qlra|].
    assert (El : length (pre ++ [x]) = S (length pre)) by (rewrite app_length; cbn; lia).
    assert (En : power_sum (1 - alpha) 0 (rev (pre ++ [x])) = power_sum (1 - alpha) 0 (rev pre) * (1 - alpha) + x).
    { rewrite rev_app_distr. cbn [rev app]. rewrite power_sum_cons. ring. }
    destruct (IH (pre ++ [x])) as [ys [E1 [E2 E3]]]; [lia|].
    rewrite El, En in E1. rewrite E1. cbn [bind].
    eexists. split; [reflexivity|]. split; [cbn; lia|].
    intros [|j] Hj; cbn [nth_error].
    + cbn [firstn]. rewrite En. do 2 f_equal. f_equal. lia.
    + cbn [length] in Hj. rewrite E3 by lia. rewrite <- app_assoc. cbn [app firstn].
      do 2 f_equal. f_equal. rewrite El. lia.
Qed.

Lemma fast_ewma_adjusted xs span :
  xs <> [] -> (1 <= span)%Z ->
  exists ys, fast_ewma xs span true = Ok ys /\ length ys = length xs /\
    forall i, (i < length xs)%nat ->
      nth_error ys i = Some (exp_weighted_mean (1 - ewma_alpha span) (firstn (S i) xs)).
Proof.
  intros Hne Hs. destruct xs as [|x xs]; [congruence|].
  unfold fast_ewma. destruct (Z.eqb_spec (span + 1) 0); [lia|].
  destruct (alpha_range Hs) as [A1 A2].
  destruct (@ewma_adj_loop_ok (ewma_alpha span) [x] xs) as [ys [E1 [E2 E3]]]; [qlra|cbn; lia|].
  assert (D1 : den (1 - ewma_alpha span) 1 = 1) by (unfold den; cbn; ring).
  assert (P1 : power_sum (1 - ewma_alpha span) 0 [x] = x) by (cbn; ring).
  cbn [rev app length] in E1. rewrite D1, P1 in E1. rewrite E1. cbn [bind].
  eexists. split; [reflexivity|]. split; [cbn; lia|].
  unfold exp_weighted_mean. intros [|i] Hi; cbn [nth_error].
  - cbn [firstn rev app map]. rewrite P1. f_equal. cbn. field. discriminate.
  - cbn [length] in Hi. rewrite E3 by lia. rewrite ones_repeat.
    fold (den (1 - ewma_alpha span) (length (firstn (S (S i)) (x :: xs)))).
    f_equal. f_equal. f_equal. rewrite firstn_length. cbn [length]. lia.
Qed.

(** bounds of a weighted mean *)
Lemma power_sum_bounds r lo hi l j :
  0 <= r -> (forall x, In x l -> lo <= x /\ x <= hi) ->
  lo * power_sum r j (map (fun _ => 1) l) <= power_sum r j l /\
  power_sum r j l <= hi * power_sum r j (map (fun _ => 1) l).
Proof.
  intros Hr. revert j. induction l as [|a l IH]; intros j H; cbn [power_sum map].
  - split; qlra.
  - destruct (IH (S j)) as [I1 I2]; [intros; apply H; now right|].
    destruct (H a (or_introl eq_refl)) as [H1 H2].
    assert (Hp : 0 <= r ^ j) by now apply Qcpower_nonneg.
    assert (lo * r ^ j <= r ^ j * a) by (rewrite (Qcmult_comm lo); rewrite !(Qcmult_comm (r^j)); now apply Qcmult_le_compat_r).
    assert (r ^ j * a <= hi * r ^ j) by (rewrite !(Qcmult_comm (r^j)); now apply Qcmult_le_compat_r).
    split; qlra.
Qed.

Lemma map_rev_ones (l : list Qc) : map (fun _ => 1) (rev l) = map (fun _ => 1) l.
Proof. rewrite !ones_repeat, rev_length. reflexivity. Qed.

Lemma exp_weighted_mean_bounds r lo hi seen :
  0 <= r -> seen <> [] -> (forall x, In x seen -> lo <= x /\ x <= hi) ->
  lo <= exp_weighted_mean r seen /\ exp_weighted_mean r seen <= hi.
Proof.
  intros Hr Hne H. unfold exp_weighted_mean.
  assert (Hd : 0 < power_sum r 0 (map (fun _ => 1) seen)).
  { apply power_sum_pos; auto.
    - destruct seen; [congruence|discriminate].
    - intros x Hx. apply in_map_iff in Hx. destruct Hx as [? [<- _]]. qlra. }
  rewrite Qcdiv_ge_iff, Qcdiv_le_iff by auto.
  destruct (@power_sum_bounds r lo hi (rev seen) 0 Hr) as [I1 I2].
  - intros x Hx. apply H. now apply in_rev.
  - rewrite map_rev_ones in I1, I2. auto.
Qed.

(** unadjusted recursion *)
Lemma ewma_noadj_loop_length a prev xs : length (ewma_noadj_loop a prev xs) = length xs.
Proof. revert prev. induction xs; cbn; auto. Qed.

Lemma ewma_noadj_loop_nth a prev xs j :
  (j < length xs)%nat ->
  nth_error (ewma_noadj_loop a prev xs) j =
  Some ((1 - a) ^ S j * prev + a * power_sum (1 - a) 0 (rev (firstn (S j) xs))).
Proof.
  revert prev j. induction xs as [|x xs IH]; intros prev j Hj; cbn [length] in Hj; [lia|].
  cbn [ewma_noadj_loop]. destruct j as [|j]; cbn [nth_error].
  - f_equal. cbn. ring.
  - rewrite IH by lia. cbn [firstn rev]. f_equal.
    rewrite power_sum_snoc. cbn [plus]. rewrite app_length || idtac.
    assert (E : length (rev (match xs with [] => [] | a0 :: l => a0 :: firstn j l end)) = S j).
    { rewrite rev_length. destruct xs; cbn in Hj |- *; [lia|]. rewrite firstn_length. lia. }
    rewrite E.
    change (firstn (S j) xs) with (match xs with [] => [] | a0 :: l => a0 :: firstn j l end).
    change ((1 - a) ^ S (S j)) with ((1 - a) * (1 - a) ^ (S j)). ring.
Qed.

Lemma fast_ewma_unadjusted x xs span :
  (1 <= span)%Z ->
  exists ys, fast_ewma (x :: xs) span false = Ok ys /\ length ys = S (length xs) /\
    nth_error ys 0 = Some x /\
    forall i, (i < length xs)%nat ->
      nth_error ys (S i) = Some ((1 - ewma_alpha span) ^ S i * x
         + ewma_alpha span * power_sum (1 - ewma_alpha span) 0 (rev (firstn (S i) xs))).
Proof.
  intro Hs. unfold fast_ewma. destruct (Z.eqb_spec (span + 1) 0); [lia|].
  eexists. split; [reflexivity|]. split; [cbn; now rewrite ewma_noadj_loop_length|]. split; [reflexivity|].
  intros i Hi. cbn [nth_error]. now apply ewma_noadj_loop_nth.
Qed.

(** the value taken by callers: the mean of the whole series *)
Lemma py_last_nth A (l : list A) n a : length l = S n -> nth_error l n = Some a -> py_last l = Ok a.
Proof.
  intros Hl Hn. unfold py_last. destruct l as [|b l] using rev_ind; [discriminate|].
  rewrite rev_app_distr. cbn. rewrite app_length in Hl. cbn in Hl.
  rewrite nth_error_app2 in Hn by lia. replace (n - length l)%nat with 0%nat in Hn by lia. cbn in Hn.
  inversion Hn. reflexivity.
Qed.

Lemma fast_ewma_last xs span :
  xs <> [] -> (1 <= span)%Z ->
  (do ys <- fast_ewma xs span true; py_last ys) = Ok (exp_weighted_mean (1 - ewma_alpha span) xs).
Proof.
  intros Hne Hs. destruct (fast_ewma_adjusted Hne Hs) as [ys [E1 [E2 E3]]].
  rewrite E1. cbn [bind]. destruct xs as [|x xs]; [congruence|].
  apply py_last_nth with (n := length xs); [cbn in E2; lia|].
  rewrite E3 by (cbn; lia). do 2 f_equal. apply firstn_all2. cbn. lia.
Qed.

(** tick rule *)
Lemma tick_rule_loop_length p b ps : length (tick_rule_loop p b ps) = length ps.
Proof. revert p b. induction ps; cbn; auto. Qed.
Lemma tick_rule_length ps b0 : length (tick_rule ps b0) = length ps.
Proof. destruct ps; cbn; auto. now rewrite tick_rule_loop_length. Qed.

Lemma sign_of_change p q : q <> p -> qabs (q - p) / (q - p) = move_sign p q.
Proof.
  intro H. assert (q - p <> 0) by (intro C; apply H; qlra).
  unfold qabs, move_sign. destruct (qle_spec 0 (q - p)), (qlt_spec p q); try (exfalso; apply H; qlra); try (exfalso; qlra).
  - field. auto.
  - field. auto.
Qed.

Lemma tick_rule_loop_spec ps p b i bi :
  nth_error (tick_rule_loop p b ps) i = Some bi ->
  (exists k x y, (k <= i)%nat /\ nth_error (p :: ps) k = Some x /\ nth_error (p :: ps) (S k) = Some y /\
     x <> y /\ bi = move_sign x y /\
     (forall j, (k < j <= i)%nat -> nth_error (p :: ps) (S j) = Some y))
  \/ (bi = b /\ forall j, (j <= i)%nat -> nth_error (p :: ps) (S j) = Some p).
Proof.
  revert p b i. induction ps as [|q ps IH]; intros p b i H; [destruct i; discriminate|].
  cbn [tick_rule_loop] in H. destruct i as [|i]; cbn [nth_error] in H.
  - inversion H; subst; clear H. destruct (qeq_spec (q - p) 0) as [E|E].
    + right. split; auto. intros j Hj. assert (j = 0)%nat by lia. subst. cbn. f_equal. qlra.
    + left. exists 0%nat, p, q. cbn. repeat split; auto.
      * intro C. apply E. subst. ring.
      * apply sign_of_change. intro C. apply E. subst. ring.
      * intros; lia.
  - apply IH in H. destruct H as [[k [x [y [H1 [H2 [H3 [H4 [H5 H6]]]]]]]]|[H1 H2]].
    + left. exists (S k), x, y. repeat split; auto; try lia.
      intros j Hj. destruct j as [|j]; [lia|]. cbn [nth_error]. apply (H6 j). lia.
    + destruct (qeq_spec (q - p) 0) as [E|E].
      * right. split; auto. assert (q = p) by qlra. subst q.
        intros [|j] Hj; [reflexivity|]. cbn [nth_error]. apply (H2 j). lia.
      * left. exists 0%nat, p, q. cbn [nth_error]. repeat split; auto; try lia.
        -- intro C. apply E. subst. ring.
        -- rewrite H1. apply sign_of_change. intro C. apply E. subst. ring.
        -- intros [|j] Hj; [lia|]. cbn [nth_error]. apply (H2 j). lia.
Qed.

(** prefix property *)
Lemma tick_rule_loop_app p b ps qs0 :
  firstn (length ps) (tick_rule_loop p b (ps ++ qs0)) = tick_rule_loop p b ps.
Proof.
  revert p b. induction ps as [|x ps IH]; intros p b; [reflexivity|].
  cbn [tick_rule_loop app length firstn]. f_equal. apply IH.
Qed.
Lemma tick_rule_app ps qs0 b0 :
  firstn (length ps) (tick_rule (ps ++ qs0) b0) = tick_rule ps b0.
Proof.
  destruct ps as [|p ps]; [reflexivity|]. cbn [tick_rule app length firstn]. f_equal. apply tick_rule_loop_app.
Qed.
