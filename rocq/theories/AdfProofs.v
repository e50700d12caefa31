(** Lemmas about the regressions inside [adfuller]. *)
From Verif Require Import Py RNum Normal StructModel StructProps RegModel RegProofs RegProps StatsModel AdfModel.
Set Implicit Arguments.
Unset Strict Implicit.
Open Scope R_scope.

Lemma sum_n_cut a b f : sum_n (a + b) f = sum_n a f + sum_n b (fun i => f (a + i)%nat).
Proof.
  unfold sum_n. rewrite seq_app, map_app, rsum_app. f_equal. cbn [plus]. rewrite <- (map_map (fun i => a + i)%nat f). f_equal. f_equal.
  replace a with (a + 0)%nat at 1 by lia. generalize 0%nat at 1 2. induction b as [|b IH]; intros s; cbn; auto. f_equal. rewrite <- IH. f_equal. lia.
Qed.
Lemma nth_map_seq A (f : nat -> A) n t d : (t < n)%nat -> nth t (map f (seq 0 n)) d = f t.
Proof. intros H. rewrite (nth_indep _ d (f 0%nat)) by (now rewrite map_length, seq_length). rewrite map_nth, seq_nth by auto. reflexivity. Qed.
Lemma adf_y_length x s : length (adf_y x s) = (length x - 1 - s)%nat. Proof. unfold adf_y. now rewrite map_length, seq_length. Qed.

Section Entries.
  Variables (x : list R) (s l t : nat).
  Hypothesis Ht : (t < length x - 1 - s)%nat.
  Lemma y_entry : col (adf_y x s) t = nth (s + 1 + t) x 0 - nth (s + t) x 0.
  Proof. unfold col, adf_y. now rewrite nth_map_seq. Qed.
  Lemma x_row : nth t (adf_x x s l) [] = nth (s + t) x 0 :: map (fun lag => nth (s + 1 + t - lag) x 0 - nth (s + t - lag) x 0) (seq 1 l) ++ [1].
  Proof. unfold adf_x. now rewrite nth_map_seq. Qed.
  Lemma x_level : design (adf_x x s l) t 0 = nth (s + t) x 0. Proof. unfold design. now rewrite x_row. Qed.
  Lemma x_lag i : (i < l)%nat -> design (adf_x x s l) t (S i) = nth (s + t - i) x 0 - nth (s + t - S i) x 0.
  Proof.
    intros Hi. unfold design. rewrite x_row. cbn [nth]. rewrite app_nth1 by (rewrite map_length, seq_length; lia).
    rewrite (nth_indep _ 0 ((fun lag => nth (s + 1 + t - lag) x 0 - nth (s + t - lag) x 0) 0%nat)) by (rewrite map_length, seq_length; lia).
    rewrite (map_nth (fun lag => nth (s + 1 + t - lag) x 0 - nth (s + t - lag) x 0)), seq_nth by lia. replace (s + 1 + t - (1 + i))%nat with (s + t - i)%nat by lia. replace (s + t - (1 + i))%nat with (s + t - S i)%nat by lia. reflexivity.
  Qed.
  Lemma x_const : design (adf_x x s l) t (S l) = 1.
  Proof. unfold design. rewrite x_row. cbn [nth]. rewrite app_nth2 by (rewrite map_length, seq_length; lia). now rewrite map_length, seq_length, Nat.sub_diag. Qed.
End Entries.

(** the rows are those of the library's own regression *)
Lemma adf_rows_get_yx x n : (n + 1 < length x)%nat -> get_yx x C (LagInt n) = Ok (adf_y x n, adf_x x n n).
Proof.
  intros H. destruct (@c77_integer_lags x C n H) as (y & xs & E & L1 & L2 & _). rewrite E. destruct (rows_formula H E) as [L P]. do 2 f_equal.
  - apply nth_ext with (d := 0) (d' := 0); [rewrite adf_y_length; lia|]. intros t Ht. destruct (P t Ht) as [-> _]. symmetry. apply (@y_entry x n t). lia.
  - apply nth_ext with (d := []) (d' := []). { unfold adf_x. rewrite map_length, seq_length. lia. } intros t Ht. rewrite x_row by lia. destruct (P t ltac:(lia)) as [_ ->]. reflexivity.
Qed.

(** ** fewer lags, fewer rows *)
Lemma fewer_lags x s l m : (l <= m)%nat -> dependent (length x - 1 - s) (l + 2) (design (adf_x x s l)) -> dependent (length x - 1 - s) (m + 2) (design (adf_x x s m)).
Proof.
  intros Hl (v & (j & Hj & Hv) & H). exists (fun j => if (j <=? l)%nat then v j else if (j =? S m)%nat then v (S l) else 0). split.
  - destruct (le_lt_dec j l) as [J|J].
    + exists j. split; [lia|]. now rewrite (proj2 (Nat.leb_le j l)) by lia.
    + exists (S m). split; [lia|]. rewrite (proj2 (Nat.leb_gt (S m) l)), Nat.eqb_refl by lia. replace (S l) with j by lia. exact Hv.
  - intros t Ht. etransitivity; [|exact (H t Ht)]. replace (m + 2)%nat with (S l + (m - l + 1))%nat by lia. replace (l + 2)%nat with (S l + 1)%nat by lia. rewrite (sum_n_cut (S l) (m - l + 1)), (sum_n_cut (S l) 1). f_equal.
    + apply sum_n_ext. intros i Hi. rewrite (proj2 (Nat.leb_le i l)) by lia. f_equal. destruct i as [|i]; [now rewrite !x_level by auto|now rewrite !x_lag by (auto; lia)].
    + rewrite (sum_n_cut (m - l) 1). rewrite sum_n_0.
      * unfold sum_n. cbn [seq map rsum fold_right]. replace (S l + (m - l + 0))%nat with (S m) by lia. replace (S l + 0)%nat with (S l) by lia. rewrite (proj2 (Nat.leb_gt (S m) l)), Nat.eqb_refl by lia. rewrite !x_const by auto. ring.
      * intros i Hi. rewrite (proj2 (Nat.leb_gt (S l + i) l)), (proj2 (Nat.eqb_neq (S l + i) (S m))) by lia. ring.
Qed.
Lemma fewer_rows x s s' l : (s <= s')%nat -> dependent (length x - 1 - s) (l + 2) (design (adf_x x s l)) -> dependent (length x - 1 - s') (l + 2) (design (adf_x x s' l)).
Proof.
  intros Hs (v & Hv & H). exists v. split; auto. intros t Ht. rewrite <- (H (s' - s + t)%nat) by lia. apply sum_n_ext. intros j Hj. f_equal.
  destruct j as [|j]; [rewrite !x_level by lia; f_equal; lia|]. destruct (Nat.eq_dec j l) as [->|]; [now rewrite !x_const by lia|].
  rewrite !x_lag by lia. f_equal; f_equal; lia.
Qed.
Lemma independent_down x m l : (l <= m)%nat -> ~ dependent (length x - 1 - m) (m + 2) (design (adf_x x m m)) ->
  ~ dependent (length x - 1 - m) (l + 2) (design (adf_x x m l)) /\ ~ dependent (length x - 1 - l) (l + 2) (design (adf_x x l l)).
Proof.
  intros Hl H. split; intro D; apply H.
  - now apply (@fewer_lags x m l m).
  - apply (@fewer_lags x m l m Hl). now apply (@fewer_rows x l m l).
Qed.

(** ** new units and level *)
Section Affine.
  Variables (x : list R) (a b : R).
  Hypothesis Ha : a <> 0.
  Let x' := map (fun v => a * v + b) x.
  Lemma x'_len : length x' = length x. Proof. apply map_length. Qed.
  Lemma x'_nth i : (i < length x)%nat -> nth i x' 0 = a * nth i x 0 + b.
  Proof. intros Hi. unfold x'. rewrite (nth_indep _ 0 ((fun v => a * v + b) 0)) by (now rewrite map_length). now rewrite (map_nth (fun v => a * v + b)). Qed.
  Variables (s l : nat).
  Hypothesis Hl : (l <= s)%nat.
  Let T := (length x - 1 - s)%nat.
  Lemma y'_col t : (t < T)%nat -> col (adf_y x' s) t = a * col (adf_y x s) t.
  Proof. intros Ht. unfold T in Ht. rewrite !y_entry by (rewrite ?x'_len; lia). rewrite !x'_nth by lia. ring. Qed.
  Lemma x'_design t j : (t < T)%nat -> (j < l + 2)%nat -> design (adf_x x' s l) t j =
    (if (j =? S l)%nat then 1 else a) * design (adf_x x s l) t j + if (j =? 0)%nat then b else 0.
  Proof.
    intros Ht Hj. unfold T in Ht. destruct j as [|j].
    - cbn [Nat.eqb]. rewrite !x_level by (rewrite ?x'_len; lia). rewrite x'_nth by lia. ring.
    - cbn [Nat.eqb]. destruct (Nat.eqb_spec j l) as [->|N]; [rewrite !x_const by (rewrite ?x'_len; lia); ring|].
      rewrite !x_lag by (rewrite ?x'_len; lia). rewrite !x'_nth by lia. ring.
  Qed.
  (** coefficients that give [a] times the old fit *)
  Definition coef (c : nat -> R) (j : nat) : R := if (j =? S l)%nat then a * c j - b * c 0%nat else c j.
  Definition uncoef (c : nat -> R) (j : nat) : R := if (j =? S l)%nat then (c j + b * c 0%nat) / a else c j.
  Lemma coef_uncoef c j : coef (uncoef c) j = c j.
  Proof. unfold coef, uncoef. cbn [Nat.eqb]. destruct (j =? S l)%nat; [field; exact Ha|reflexivity]. Qed.
  Lemma coef_fit c t : (t < T)%nat -> sum_n (l + 2) (fun j => design (adf_x x' s l) t j * coef c j) = a * sum_n (l + 2) (fun j => design (adf_x x s l) t j * c j).
  Proof.
    intros Ht. rewrite <- sum_n_scale. apply Rminus_diag_uniq. rewrite <- sum_n_sub.
    rewrite (@sum_n_ext _ _ (fun j => (if (j =? 0)%nat then b * c j else 0) + (if (j =? S l)%nat then (- (b * c 0%nat)) * design (adf_x x s l) t j else 0))).
    - rewrite sum_n_add, (@sum_n_pick (l + 2) 0 c b), (@sum_n_pick (l + 2) (S l) (design (adf_x x s l) t)) by lia. rewrite x_const by exact Ht. ring.
    - intros j Hj. rewrite x'_design by auto. unfold coef. destruct (Nat.eqb_spec j (S l)) as [->|]; cbn [Nat.eqb]; [ring|]. destruct (j =? 0)%nat; ring.
  Qed.
  Lemma coef_resid c t : (t < T)%nat -> residual (l + 2) (design (adf_x x' s l)) (col (adf_y x' s)) (coef c) t = a * residual (l + 2) (design (adf_x x s l)) (col (adf_y x s)) c t.
  Proof. intros Ht. unfold residual. rewrite coef_fit, y'_col by auto. ring. Qed.
  Lemma coef_sse c : sse T (l + 2) (design (adf_x x' s l)) (col (adf_y x' s)) (coef c) = a ^ 2 * sse T (l + 2) (design (adf_x x s l)) (col (adf_y x s)) c.
  Proof. unfold sse. rewrite <- sum_n_scale. apply sum_n_ext. intros t Ht. rewrite coef_resid by auto. ring. Qed.
  Lemma uncoef_sse c : sse T (l + 2) (design (adf_x x' s l)) (col (adf_y x' s)) c = a ^ 2 * sse T (l + 2) (design (adf_x x s l)) (col (adf_y x s)) (uncoef c).
  Proof. rewrite <- coef_sse. unfold sse, residual. apply sum_n_ext. intros t _. now rewrite (@sum_n_ext (l + 2) (fun j => design (adf_x x' s l) t j * c j) (fun j => design (adf_x x' s l) t j * coef (uncoef c) j)) by (intros; now rewrite coef_uncoef). Qed.
  Lemma affine_dependent : dependent T (l + 2) (design (adf_x x' s l)) -> dependent T (l + 2) (design (adf_x x s l)).
  Proof.
    intros (v & (j & Hj & Hv) & H). exists (uncoef v). split.
    - destruct (Req_EM_T (v 0%nat) 0) as [Z|Z]; [|exists 0%nat; split; [lia|exact Z]]. exists j. split; auto. unfold uncoef. rewrite Z, Rmult_0_r, Rplus_0_r. destruct (j =? S l)%nat; auto.
      unfold Rdiv. apply Rmult_integral_contrapositive_currified; auto. now apply Rinv_neq_0_compat.
    - intros t Ht. apply (Rmult_eq_reg_l a); auto. rewrite <- coef_fit by auto. rewrite Rmult_0_r, <- (H t Ht). apply sum_n_ext. intros. now rewrite coef_uncoef.
  Qed.
  Lemma affine_tstat : adf_tstat (l + 2) (adf_y x' s) (adf_x x' s l) = adf_tstat (l + 2) (adf_y x s) (adf_x x s l).
  Proof.
    assert (LT : length (adf_y x s) = T) by apply adf_y_length. assert (LT' : length (adf_y x' s) = T) by (rewrite adf_y_length, x'_len; reflexivity).
    apply (@units_same (l + 2) (adf_y x s) (adf_y x' s) (adf_x x s l) (adf_x x' s l) ltac:(congruence) ltac:(lia) a (fun v => coef (fun j => v j / a)) (fun v j => a * uncoef v j) Ha) with (comb := fun i j => (if (j =? i)%nat then if (i =? S l)%nat then 1 else a else 0) + if (i =? 0)%nat then if (j =? S l)%nat then b else 0 else 0); rewrite ?LT.
    - apply y'_col.
    - intros v t Ht. rewrite coef_fit by auto. rewrite <- sum_n_scale. apply sum_n_ext. intros; field; exact Ha.
    - intros v t Ht. rewrite (@sum_n_ext _ _ (fun j => a * (design (adf_x x s l) t j * uncoef v j))) by (intros; ring). rewrite sum_n_scale, <- coef_fit by auto. apply sum_n_ext. intros. now rewrite coef_uncoef.
    - intros v (j & Hj & Hv). destruct (Req_EM_T (v 0%nat) 0) as [Z|Z].
      + exists j. split; auto. unfold coef. rewrite Z. unfold Rdiv. rewrite Rmult_0_l, Rmult_0_r, Rminus_0_r. destruct (j =? S l)%nat; [replace (a * (v j * / a)) with (v j) by (field; exact Ha); exact Hv|].
        apply Rmult_integral_contrapositive_currified; auto. now apply Rinv_neq_0_compat.
      + exists 0%nat. split; [lia|]. unfold coef. cbn [Nat.eqb]. unfold Rdiv. apply Rmult_integral_contrapositive_currified; auto. now apply Rinv_neq_0_compat.
    - intros v (j & Hj & Hv). destruct (Req_EM_T (v 0%nat) 0) as [Z|Z].
      + exists j. split; auto. unfold uncoef. rewrite Z, Rmult_0_r, Rplus_0_r. destruct (j =? S l)%nat; [replace (a * (v j / a)) with (v j) by (field; exact Ha); exact Hv|]. now apply Rmult_integral_contrapositive_currified.
      + exists 0%nat. split; [lia|]. unfold uncoef. cbn [Nat.eqb]. now apply Rmult_integral_contrapositive_currified.
    - intros t i Ht Hi. rewrite x'_design by auto.
      rewrite (@sum_n_ext (l + 2) _ (fun j => (if (j =? i)%nat then (if (i =? S l)%nat then 1 else a) * design (adf_x x s l) t j else 0) + (if (j =? S l)%nat then (if (i =? 0)%nat then b else 0) * design (adf_x x s l) t j else 0))).
      + rewrite sum_n_add, !sum_n_pick by lia. rewrite x_const by auto. ring.
      + intros j _. destruct (j =? i)%nat, (j =? S l)%nat, (i =? 0)%nat; ring.
    - intros i Hi. destruct i as [|i]; cbn [Nat.eqb]; ring.
    - intros v c. unfold coef. cbn [Nat.eqb]. field. exact Ha.
  Qed.
End Affine.

(** ** the search for the number of lags *)
Section Best.
  Variable f : nat -> option R.
  Let best m := fold_left (fun best l => if aic_lt (f l) (f best) then l else best) (seq 1 m) 0%nat.
  Lemma best_S m : best (S m) = if aic_lt (f (S m)) (f (best m)) then S m else best m.
  Proof. unfold best. rewrite seq_S, fold_left_app. reflexivity. Qed.
  Lemma best_spec m : (best m <= m)%nat /\ forall l, (l <= m)%nat -> aic_lt (f l) (f (best m)) = false /\ ((l < best m)%nat -> aic_lt (f (best m)) (f l) = true).
  Proof.
    induction m as [|m [I1 I2]].
    - split; [reflexivity|]. intros l Hl. replace l with 0%nat by lia. split; [|intro H; exfalso; unfold best in H; cbn in H; lia]. unfold best. cbn. destruct (f 0%nat) as [v|]; cbn; auto. destruct (Rlt_dec v v); auto; lra.
    - rewrite best_S. destruct (aic_lt (f (S m)) (f (best m))) eqn:E.
      + split; [lia|]. intros l Hl. destruct (Nat.eq_dec l (S m)) as [->|N].
        * split; [|lia]. destruct (f (S m)) as [v|]; cbn; auto. destruct (Rlt_dec v v); auto; lra.
        * destruct (I2 l ltac:(lia)) as [J _]. assert (K : aic_lt (f (S m)) (f l) = true).
          { destruct (f (S m)) as [u|], (f (best m)) as [v|], (f l) as [w|]; cbn in *; try discriminate; auto. destruct (Rlt_dec u v), (Rlt_dec w v), (Rlt_dec u w); auto; try discriminate; lra. }
          split; [|intros _; exact K]. destruct (f (S m)) as [u|], (f l) as [w|]; cbn in *; try discriminate; auto. destruct (Rlt_dec u w), (Rlt_dec w u); auto; try discriminate; lra.
      + split; [lia|]. intros l Hl. destruct (Nat.eq_dec l (S m)) as [->|N]; [split; [exact E|lia]|]. apply I2. lia.
  Qed.
  Lemma best_ext (g : nat -> option R) m : (forall l l', (l <= m)%nat -> (l' <= m)%nat -> aic_lt (g l) (g l') = aic_lt (f l) (f l')) ->
    fold_left (fun best l => if aic_lt (g l) (g best) then l else best) (seq 1 m) 0%nat = best m.
  Proof.
    induction m as [|m IH]; intros H; auto. rewrite best_S, seq_S, fold_left_app, IH by (intros; apply H; lia). cbn [fold_left plus]. rewrite H by (destruct (best_spec m); lia). reflexivity.
  Qed.
End Best.

(** ** the largest number of lags *)
Lemma schwert_spec n : (12 ^ 4 * Z.of_nat n <= 100 * Z.of_nat (schwert n) ^ 4)%Z /\ forall c, (c < schwert n)%nat -> (100 * Z.of_nat c ^ 4 < 12 ^ 4 * Z.of_nat n)%Z.
Proof.
  unfold schwert. set (P := fun c : nat => (12 ^ 4 * Z.of_nat n <=? 100 * Z.of_nat c ^ 4)%Z).
  assert (G : forall len s, (exists c, (s <= c < s + len)%nat /\ P c = true) -> let h := hd 0%nat (filter P (seq s len)) in P h = true /\ forall c, (s <= c < h)%nat -> P c = false).
  { induction len as [|len IH]; intros s (c & Hc & HP); [lia|]. cbn [seq filter]. destruct (P s) eqn:E; [cbn [hd]; split; auto; intros; lia|].
    destruct (IH (S s)) as [I1 I2]. { exists c. split; auto. destruct (Nat.eq_dec c s) as [->|]; [congruence|lia]. } cbv zeta. split; auto. intros c' Hc'. destruct (Nat.eq_dec c' s) as [->|]; auto. apply I2. lia. }
  destruct (G (n + 13)%nat 0%nat) as [G1 G2].
  { exists (n + 12)%nat. split; [lia|]. apply Z.leb_le. rewrite Nat2Z.inj_add. set (z := Z.of_nat n). assert (0 <= z)%Z by lia. change (Z.of_nat 12) with 12%Z. change (12 ^ 4)%Z with 20736%Z.
    replace ((z + 12) ^ 4)%Z with (z ^ 4 + 48 * z ^ 3 + 864 * z ^ 2 + 6912 * z + 20736)%Z by ring. assert (0 <= z ^ 4)%Z by (apply Z.pow_nonneg; lia). assert (0 <= z ^ 3)%Z by (apply Z.pow_nonneg; lia). assert (0 <= z ^ 2)%Z by (apply Z.pow_nonneg; lia). lia. }
  cbv zeta in *. split; [apply Z.leb_le; exact G1|]. intros c Hc. apply Z.leb_gt. apply G2. lia.
Qed.
