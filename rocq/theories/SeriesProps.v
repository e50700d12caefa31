(** Properties C13 (fast_ewma) and C14 (tick rule). *)
From Verif Require Import Py SeriesModel SeriesSpec SeriesProofs.
Set Implicit Arguments.
Open Scope Qc_scope.

(** C13: for a non-empty series and span >= 1 the adjusted average never fails, has the series' length,
    and entry i is the weighted mean of entries 0..i with weights (1-a)^j, a = 2/(span+1). *)
Theorem c13_ewma_adjusted_is_weighted_mean : forall xs span,
  xs <> [] -> (1 <= span)%Z ->
  exists ys, fast_ewma xs span true = Ok ys /\ length ys = length xs /\
    forall i, (i < length xs)%nat ->
      nth_error ys i = Some (exp_weighted_mean (1 - 2 / qz (span + 1)) (firstn (S i) xs)).
Proof. exact fast_ewma_adjusted. Qed.
Print Assumptions c13_ewma_adjusted_is_weighted_mean.

(** C13: the unadjusted average is the closed form of y_0 = x_0, y_i = a x_i + (1-a) y_{i-1}. *)
Theorem c13_ewma_unadjusted_closed_form : forall x xs span,
  (1 <= span)%Z ->
  exists ys, fast_ewma (x :: xs) span false = Ok ys /\ length ys = S (length xs) /\
    nth_error ys 0 = Some x /\
    forall i, (i < length xs)%nat ->
      let a := 2 / qz (span + 1) in
      nth_error ys (S i) = Some ((1 - a) ^ S i * x + a * power_sum (1 - a) 0 (rev (firstn (S i) xs))).
Proof. exact fast_ewma_unadjusted. Qed.
Print Assumptions c13_ewma_unadjusted_closed_form.

Lemma noadj_bounds a xs lo hi : 0 <= a -> a <= 1 -> forall prev i y, lo <= prev /\ prev <= hi ->
  nth_error (ewma_noadj_loop a prev xs) i = Some y -> (forall x, In x (firstn (S i) xs) -> lo <= x /\ x <= hi) -> lo <= y /\ y <= hi.
Proof.
  intros A0 A1. induction xs as [|x xs IH]; intros prev i y [P1 P2] Hy Hb; [destruct i; discriminate|].
  cbn [ewma_noadj_loop] in Hy. destruct (Hb x) as [X1 X2]; [now left|].
  assert (S1 : lo <= x * a + prev * (1 - a) /\ x * a + prev * (1 - a) <= hi) by (split; qnra).
  destruct i as [|i]; [cbn in Hy; now inversion Hy; subst y|]. apply (IH _ i y S1 Hy). intros z Hz. apply Hb. now right.
Qed.
Lemma noadj_app a xs zs : forall prev, firstn (length xs) (ewma_noadj_loop a prev (xs ++ zs)) = ewma_noadj_loop a prev xs.
Proof. induction xs as [|x xs IH]; intro prev; cbn; [reflexivity|]. now rewrite IH. Qed.
(** C13: each entry lies between any bounds of the values seen so far. *)
Theorem c13_ewma_bounded_by_prefix : forall xs span adjust ys i y lo hi,
  (1 <= span)%Z -> fast_ewma xs span adjust = Ok ys -> nth_error ys i = Some y ->
  (forall x, In x (firstn (S i) xs) -> lo <= x /\ x <= hi) -> lo <= y /\ y <= hi.
Proof.
  intros xs span adjust ys i y lo hi Hs He Hy Hb.
  assert (Hne : xs <> []).
  { intro. subst. unfold fast_ewma in He. destruct (span + 1 =? 0)%Z; discriminate. }
  destruct adjust.
  - destruct (fast_ewma_adjusted Hne Hs) as [ys' [E1 [E2 E3]]].
    rewrite He in E1. inversion E1; subst ys'.
    assert (Hi : (i < length xs)%nat) by (rewrite <- E2; apply nth_error_Some; congruence).
    rewrite E3 in Hy by auto. inversion Hy; subst.
    destruct (alpha_range Hs). apply exp_weighted_mean_bounds; auto.
    + qlra.
    + destruct xs; [congruence|discriminate].
  - unfold fast_ewma in He. destruct (span + 1 =? 0)%Z; [discriminate|]. destruct xs as [|x xs]; [congruence|].
    inversion He; subst ys. destruct (alpha_range Hs) as [A0 A1]. destruct (Hb x) as [X1 X2]; [now left|].
    destruct i as [|i]; [cbn in Hy; now inversion Hy; subst y|].
    apply (@noadj_bounds (ewma_alpha span) xs lo hi) with (prev := x) (i := i); auto; [qlra|].
    intros z Hz. apply Hb. now right.
Qed.
Print Assumptions c13_ewma_bounded_by_prefix.

(** C13: causality; values appended to the series do not change earlier averages. *)
Theorem c13_ewma_causal : forall xs zs span adjust ys ys',
  xs <> [] -> (1 <= span)%Z ->
  fast_ewma xs span adjust = Ok ys -> fast_ewma (xs ++ zs) span adjust = Ok ys' ->
  firstn (length xs) ys' = ys.
Proof.
  intros xs zs span adjust ys ys' Hne Hs E E'. destruct adjust.
  2: { unfold fast_ewma in E, E'. destruct (span + 1 =? 0)%Z; [discriminate|]. destruct xs as [|x xs]; [congruence|].
       cbn [app] in E'. inversion E; inversion E'; subst ys ys'. cbn [length firstn]. now rewrite noadj_app. }
  destruct (fast_ewma_adjusted Hne Hs) as [y1 [A1 [A2 A3]]].
  assert (Hne' : xs ++ zs <> []) by (destruct xs; [congruence|discriminate]).
  destruct (fast_ewma_adjusted Hne' Hs) as [y2 [B1 [B2 B3]]].
  rewrite E in A1. rewrite E' in B1. inversion A1; inversion B1; subst y1 y2.
  apply nth_error_ext. intro i.
  destruct (Nat.lt_ge_cases i (length xs)) as [L|L].
  - rewrite A3 by auto. rewrite nth_error_firstn_lt by auto.
    rewrite B3 by (rewrite app_length; lia).
    f_equal. f_equal. rewrite firstn_app. replace (S i - length xs)%nat with 0%nat by lia.
    cbn [firstn]. now rewrite app_nil_r.
  - transitivity (@None Qc); [|symmetry]; apply nth_error_None; rewrite ?firstn_length; lia.
Qed.
Print Assumptions c13_ewma_causal.

(** a concrete run: span 3 means a = 1/2 *)
Example c13_example :
  option_map (map this) (match fast_ewma (qs [1; 4; 2]%Q) 3 true with Ok l => Some l | Err _ => None end)
  = Some [1; 3; (17 # 7)]%Q.
Proof. vm_compute. reflexivity. Qed.

(** C14: trade i gets the sign of the last non-zero price change at or before i, or b0. *)
Theorem c14_tick_rule_last_move : forall prices b0 i b,
  nth_error (tick_rule prices b0) i = Some b ->
  (exists k x y, (k < i)%nat /\ nth_error prices k = Some x /\ nth_error prices (S k) = Some y /\ x <> y /\
     b = move_sign x y /\ (forall j, (S k <= j <= i)%nat -> nth_error prices j = Some y))
  \/ (b = b0 /\ forall j p0, (j <= i)%nat -> nth_error prices 0 = Some p0 -> nth_error prices j = Some p0).
Proof.
  intros prices b0 i b H. destruct prices as [|p ps]; [destruct i; discriminate|].
  cbn [tick_rule] in H. destruct i as [|i]; cbn [nth_error] in H.
  - inversion H; subst. right. split; auto. intros j p0 Hj Hp. assert (j = 0)%nat by lia. now subst.
  - apply tick_rule_loop_spec in H. destruct H as [[k [x [y [H1 [H2 [H3 [H4 [H5 H6]]]]]]]]|[H1 H2]].
    + left. exists k, x, y. repeat split; auto; try lia.
      intros j Hj. destruct (Nat.eq_dec j (S k)) as [->|N]; [exact H3|].
      destruct j as [|j]; [lia|]. apply H6. lia.
    + right. split; auto. intros j p0 Hj Hp. cbn in Hp. inversion Hp; subst p0.
      destruct j as [|j]; [reflexivity|]. apply H2. lia.
Qed.
Print Assumptions c14_tick_rule_last_move.

(** C14: one flag per trade, and every flag is 1, -1 or b0. *)
Theorem c14_tick_rule_values : forall prices b0,
  length (tick_rule prices b0) = length prices /\
  forall b, In b (tick_rule prices b0) -> b = 1 \/ b = - (1) \/ b = b0.
Proof.
  intros prices b0. split; [apply tick_rule_length|]. intros b Hb.
  apply In_nth_error in Hb. destruct Hb as [i Hi]. apply c14_tick_rule_last_move in Hi.
  destruct Hi as [[k [x [y [_ [_ [_ [_ [-> _]]]]]]]]|[-> _]]; auto.
  unfold move_sign. destruct (qlt x y); auto.
Qed.
Print Assumptions c14_tick_rule_values.

(** C14: causality. *)
Theorem c14_tick_rule_causal : forall prices later b0,
  firstn (length prices) (tick_rule (prices ++ later) b0) = tick_rule prices b0.
Proof. exact tick_rule_app. Qed.
Print Assumptions c14_tick_rule_causal.

Example c14_example :
  map this (tick_rule (qs [5; 5; 6; 6; 4; 4; 4; 7]%Q) (q (-1) 1)) = [-1; -1; 1; 1; -1; -1; -1; 1]%Q.
Proof. vm_compute. reflexivity. Qed.
