(** C135 against the exact average: the float series differs from [fast_ewma] over the rationals by a bounded amount. *)
From Coq Require Import ZArith QArith Qcanon Qreals Reals Lra Lia List Bool.
From Flocq Require Import Core BinarySingleNaN.
From Verif Require Import Py Num RNum Float64 FloatBarsModel FloatBarsProofs FloatHRPProofs FloatRetModel FloatRetProps FloatSeriesModel FloatSeriesProofs FloatSeriesProps FloatCusumProps.
From Verif Require Import SeriesModel SeriesSpec SeriesProofs.
Import ListNotations.
Set Implicit Arguments.
Unset Strict Implicit.
Open Scope R_scope.

Lemma qr_mul x y : qr (x * y)%Qc = qr x * qr y.
Proof. unfold qr. rewrite <- Q2R_mult. apply Qeq_eqR. apply (Qred_correct (this x * this y)). Qed.
Lemma qr_1 : qr 1%Qc = 1.
Proof. unfold qr. cbn. unfold Q2R. cbn. lra. Qed.
Lemma qr_eq_0 x : qr x = 0 -> x = 0%Qc.
Proof. intro H. apply Qc_is_canon. apply eqR_Qeq. fold (qr x). rewrite H. symmetry. apply qr_0. Qed.
Lemma qr_inv x : x <> 0%Qc -> qr (/ x)%Qc = / qr x.
Proof. intro H. assert (N : qr x <> 0) by (intro C; apply H; now apply qr_eq_0). apply Rmult_eq_reg_l with (qr x); auto. rewrite <- qr_mul, Qcmult_inv_r, qr_1, Rinv_r by auto. reflexivity. Qed.
Lemma qr_div x y : y <> 0%Qc -> qr (x / y)%Qc = qr x / qr y.
Proof. intro H. unfold Qcdiv. now rewrite qr_mul, qr_inv. Qed.
Lemma qr_z z : qr (qz z) = IZR z.
Proof. unfold qr, qz. cbn [this Q2Qc]. rewrite (Qeq_eqR _ _ (Qred_correct _)). unfold Q2R. cbn. field. Qed.
Lemma qr_n n : qr (qn n) = INR n.
Proof. unfold qn. rewrite qr_z. symmetry. apply INR_IZR_INZ. Qed.
Lemma qr_pow x n : qr (x ^ n)%Qc = qr x ^ n.
Proof. induction n as [|n IH]; cbn [Qcpower pow]; [apply qr_1|]. now rewrite qr_mul, IH. Qed.
Lemma qr_le x y : (x <= y)%Qc <-> qr x <= qr y.
Proof. unfold qr, Qcle. split; intro H; [now apply Qle_Rle|now apply Rle_Qle]. Qed.
Lemma qr_abs x : qr (qabs x) = Rabs (qr x).
Proof.
  unfold qabs. destruct (qle 0 x) eqn:E.
  - apply qle_iff, qr_le in E. rewrite qr_0 in E. now rewrite Rabs_right by lra.
  - rewrite qr_opp. assert (L : (x < 0)%Qc) by (apply Qcnot_le_lt; intro C; apply qle_iff in C; congruence). apply qr_lt in L. rewrite qr_0 in L. now rewrite Rabs_left.
Qed.

(** ** the exact mean over the reals *)
Lemma qr_power_sum r xs : xs <> [] -> qr (power_sum r 0 (rev xs)) = ew_sum (qr r) (map qr xs) (length xs - 1).
Proof.
  induction xs as [|x xs IH] using rev_ind; [congruence|]. intros _. rewrite rev_app_distr. cbn [rev app]. rewrite power_sum_cons, qr_add, qr_mul, app_length. cbn [length].
  replace (length xs + 1 - 1)%nat with (length xs) by lia. rewrite map_app. cbn [map]. destruct xs as [|y xs]; [cbn [map app length]; rewrite ew_sum_0; cbn [rev power_sum nth]; rewrite qr_0; ring|].
  rewrite IH by discriminate. cbn [length]. replace (S (length xs) - 1)%nat with (length xs) by lia. rewrite ew_sum_S.
  replace (nth (S (length xs)) (map qr (y :: xs) ++ [qr x]) 0) with (qr x); [|rewrite app_nth2 by (rewrite map_length; cbn [length]; lia); rewrite map_length; cbn [length]; now rewrite Nat.sub_diag].
  replace (ew_sum (qr r) (map qr (y :: xs) ++ [qr x]) (length xs)) with (ew_sum (qr r) (map qr (y :: xs)) (length xs)); [ring|].
  unfold ew_sum. f_equal. apply map_ext_in. intros j Hj. apply in_seq in Hj. f_equal. rewrite app_nth1; auto. rewrite map_length. cbn [length]. lia.
Qed.
Lemma qr_den r n : qr (den r (S n)) = ew_weight (qr r) n.
Proof.
  induction n as [|n IH]; [unfold den, ew_weight; cbn [repeat power_sum seq map pow]; rewrite qr_add, qr_mul, qr_0; cbn [Qcpower]; rewrite qr_1; unfold rsum; cbn; ring|].
  rewrite den_S, qr_add, IH, ew_weight_S, qr_pow. reflexivity.
Qed.
Lemma qr_exp_mean r xs : (0 <= r)%Qc -> xs <> [] -> qr (exp_weighted_mean r xs) = ew_sum (qr r) (map qr xs) (length xs - 1) / ew_weight (qr r) (length xs - 1).
Proof.
  intros Hr Hx. unfold exp_weighted_mean. rewrite ones_repeat. fold (den r (length xs)). assert (L : (0 < length xs)%nat) by (destruct xs; [congruence|cbn; lia]).
  rewrite qr_div; [|intro C; pose proof (@den_pos r (length xs) Hr L) as D; rewrite C in D; discriminate].
  rewrite qr_power_sum by congruence. replace (den r (length xs)) with (den r (S (length xs - 1))) by (f_equal; lia). now rewrite qr_den.
Qed.

(** ** how the mean depends on the decay *)
Lemma pow_diff d d' i : 0 <= d <= 1 -> 0 <= d' <= 1 -> Rabs (d ^ i - d' ^ i) <= INR i * Rabs (d - d').
Proof.
  intros H H'. induction i as [|i IH]; [cbn; rewrite Rminus_diag_eq, Rabs_R0 by auto; lra|]. cbn [pow]. rewrite S_INR.
  replace (d * d ^ i - d' * d' ^ i) with (d * (d ^ i - d' ^ i) + (d - d') * d' ^ i) by ring. apply Rle_trans with (1 := Rabs_triang _ _). rewrite !Rabs_mult.
  assert (P : 0 <= d' ^ i <= 1) by (split; [apply pow_le; lra|]; rewrite <- (pow1 i); apply pow_incr; lra).
  rewrite (Rabs_right d) by lra. rewrite (Rabs_right (d' ^ i)) by lra. pose proof (Rabs_pos (d ^ i - d' ^ i)). pose proof (Rabs_pos (d - d')). nra.
Qed.
Lemma rsum_abs_diff (A : Type) (f g : A -> R) (B : R) l : (forall x, In x l -> Rabs (f x - g x) <= B) -> Rabs (rsum (map f l) - rsum (map g l)) <= INR (length l) * B.
Proof.
  induction l as [|a l IH]; intro H; [cbn; rewrite Rminus_diag_eq, Rabs_R0 by auto; lra|]. cbn [map length]. rewrite S_INR. change (rsum (f a :: map f l)) with (f a + rsum (map f l)). change (rsum (g a :: map g l)) with (g a + rsum (map g l)).
  replace (f a + rsum (map f l) - (g a + rsum (map g l))) with ((f a - g a) + (rsum (map f l) - rsum (map g l))) by ring. apply Rle_trans with (1 := Rabs_triang _ _).
  pose proof (H a (or_introl eq_refl)). assert (Rabs (rsum (map f l) - rsum (map g l)) <= INR (length l) * B) by (apply IH; intros; apply H; now right). lra.
Qed.
Lemma mean_decay d d' M xs j : 0 <= d <= 1 -> 0 <= d' <= 1 -> 0 <= M -> (forall i, (i <= j)%nat -> Rabs (nth i xs 0) <= M) ->
  Rabs (ew_sum d xs j / ew_weight d j - ew_sum d' xs j / ew_weight d' j) <= 2 * INR (S j) * INR j * Rabs (d - d') * M.
Proof.
  intros Hd Hd' HM Hx. pose proof (@ew_weight_ge1 d j ltac:(lra)) as W1. pose proof (@ew_weight_ge1 d' j ltac:(lra)) as W2.
  pose proof (@ew_sum_bound d' M xs j ltac:(lra) HM Hx) as SB. pose proof (Rabs_pos (d - d')) as D0. pose proof (pos_INR j) as J0.
  assert (DW : Rabs (ew_weight d j - ew_weight d' j) <= INR (S j) * (INR j * Rabs (d - d'))).
  { unfold ew_weight. rewrite <- (seq_length (S j) 0) at 3. apply rsum_abs_diff. intros i Hi. apply in_seq in Hi. apply Rle_trans with (1 := pow_diff i Hd Hd'). apply Rmult_le_compat_r; auto. apply le_INR. lia. }
  assert (DS : Rabs (ew_sum d xs j - ew_sum d' xs j) <= INR (S j) * (INR j * Rabs (d - d') * M)).
  { unfold ew_sum. rewrite <- (seq_length (S j) 0) at 3. apply rsum_abs_diff. intros i Hi. apply in_seq in Hi. rewrite <- Rmult_minus_distr_r, Rabs_mult. apply Rmult_le_compat; try apply Rabs_pos; [|apply Hx; lia].
    apply Rle_trans with (1 := pow_diff (j - i) Hd Hd'). apply Rmult_le_compat_r; auto. apply le_INR. lia. }
  set (S1 := ew_sum d xs j) in *. set (S2 := ew_sum d' xs j) in *. set (V1 := ew_weight d j) in *. set (V2 := ew_weight d' j) in *. clearbody S1 S2 V1 V2.
  replace (S1 / V1 - S2 / V2) with ((S1 - S2) / V1 + (S2 / V2) * ((V2 - V1) / V1)) by (field; lra). apply Rle_trans with (1 := Rabs_triang _ _). rewrite Rabs_mult.
  assert (Q : forall a, Rabs (a / V1) <= Rabs a). { intro a. unfold Rdiv. rewrite Rabs_mult, Rabs_inv, (Rabs_right V1) by lra. pose proof (Rabs_pos a). rewrite <- (Rmult_1_r (Rabs a)) at 2. apply Rmult_le_compat_l; auto. rewrite <- Rinv_1. apply Rinv_le_contravar; lra. }
  assert (Q2 : Rabs (S2 / V2) <= M). { unfold Rdiv. rewrite Rabs_mult, Rabs_inv, (Rabs_right V2) by lra. apply Rmult_le_reg_r with V2; [lra|]. rewrite Rmult_assoc, Rinv_l, Rmult_1_r by lra. exact SB. }
  assert (T1 : Rabs ((S1 - S2) / V1) <= INR (S j) * (INR j * Rabs (d - d') * M)) by (apply Rle_trans with (1 := Q _); exact DS).
  assert (T2 : Rabs (S2 / V2) * Rabs ((V2 - V1) / V1) <= M * (INR (S j) * (INR j * Rabs (d - d')))). { apply Rmult_le_compat; try apply Rabs_pos; auto. apply Rle_trans with (1 := Q _). rewrite Rabs_minus_sym. exact DW. }
  lra.
Qed.

(** C135: the [j]-th average of the float series is within 13 n^2 2^-53 M of the exact average of the first n = j+1 values, M bounding them *)
Theorem c135_ewma_exact span M series xs ys j y v : (1 <= span < 2 ^ 53)%Z -> bpow radix2 (-1000) <= M <= bpow radix2 900 -> INR (S j) <= bpow radix2 20 ->
  Forall2 (fun x q => fin x /\ fv x = qr q /\ Rabs (qr q) <= M) series xs -> fast_ewma xs span true = Ok ys -> nth_error ys j = Some v -> nth_error (fewma fpow series span) j = Some y ->
  fin y /\ Rabs (fv y - qr v) <= 13 * INR (S j) ^ 2 * bpow radix2 (-53) * M.
Proof.
  intros Hs HM Hj HF EX Ev Ey. pose proof (bpow_gt_0 radix2 (-1000)) as B0. destruct (fdecay_spec Hs) as (Fd & Bd & Dd).
  assert (LY : (j < length series)%nat) by (rewrite <- (fewma_length fpow span); apply nth_error_Some; congruence). pose proof (Forall2_length HF) as LL.
  assert (HI : forall x, In x series -> fin x /\ Rabs (fv x) <= M). { clear - HF. induction HF as [|x q l1 l2 (A & B & C) HF IH]; intros z Hz; [destruct Hz|]. destruct Hz as [<-|Hz]; auto. rewrite B. auto. }
  destruct (@c135_ewma span M series j y) as [F B]; auto. { intros x Hx. apply HI. rewrite <- (firstn_skipn (S j) series). apply in_or_app. now left. }
  split; auto. assert (XN : xs <> []) by (intro C; rewrite C in LL; cbn in LL; lia). destruct (@fast_ewma_adjusted xs span XN ltac:(lia)) as (ys' & E1 & _ & E3). rewrite EX in E1. injection E1 as <-.
  rewrite E3 in Ev by lia. assert (v = exp_weighted_mean (1 - ewma_alpha span) (firstn (S j) xs)) by congruence. subst v. destruct (@alpha_range span ltac:(lia)) as [A1 A2].
  assert (R0 : (0 <= 1 - ewma_alpha span)%Qc) by qlra. rewrite qr_exp_mean; auto; [|destruct xs; [congruence|discriminate]].
  assert (LF : length (firstn (S j) xs) = S j) by (rewrite firstn_length; lia). rewrite LF. replace (S j - 1)%nat with j by lia.
  assert (QA : qr (1 - ewma_alpha span)%Qc = 1 - 2 / IZR (span + 1)). { rewrite qr_sub, qr_1. unfold ewma_alpha. rewrite qr_div, qr_z; [change 2%Qc with (qz 2); now rewrite qr_z|]. intro C. apply (f_equal qr) in C. rewrite qr_z, qr_0 in C. apply eq_IZR in C. lia. }
  rewrite QA. set (d' := 1 - 2 / IZR (span + 1)) in *. assert (Bd' : 0 <= d' <= 1). { rewrite <- QA. split; [rewrite <- qr_0; now apply qr_le|]. rewrite <- qr_1. apply qr_le. qlra. }
  set (zs := map fv (firstn (S j) series)). assert (EZ : map qr (firstn (S j) xs) = zs). { unfold zs. clear - HF. revert j. induction HF as [|x q l1 l2 (A & B & C) HF IH]; intro j; [reflexivity|]. cbn [firstn map]. f_equal; auto. destruct j as [|j]; [reflexivity|]. apply IH. }
  rewrite EZ. change (rsum (map (fun i => fv (fdecay span) ^ (j - i) * nth i (map fv series) 0) (seq 0 (S j))) / rsum (map (fun k => fv (fdecay span) ^ k) (seq 0 (S j)))) with (ew_sum (fv (fdecay span)) (map fv series) j / ew_weight (fv (fdecay span)) j) in B.
  replace (ew_sum (fv (fdecay span)) (map fv series) j) with (ew_sum (fv (fdecay span)) zs j) in B.
  2:{ unfold ew_sum, zs. f_equal. apply map_ext_in. intros i Hi. apply in_seq in Hi. f_equal. rewrite <- firstn_map. rewrite <- (firstn_skipn (S j) (map fv series)) at 2. rewrite app_nth1; auto. rewrite firstn_length, map_length. lia. }
  assert (HZ : forall i, (i <= j)%nat -> Rabs (nth i zs 0) <= M). { intros i Hi. assert (IN : In (nth i zs 0) zs) by (apply nth_In; unfold zs; rewrite map_length, firstn_length; lia). unfold zs at 2 in IN. apply in_map_iff in IN. destruct IN as (x & <- & Hx). apply HI. rewrite <- (firstn_skipn (S j) series). apply in_or_app. now left. }
  pose proof (@mean_decay (fv (fdecay span)) d' M zs j Bd Bd' ltac:(lra) HZ) as MD. pose proof u64_pos as U. pose proof (pos_INR j) as J0. pose proof (S_INR j) as SJ.
  assert (MD2 : 2 * INR (S j) * INR j * Rabs (fv (fdecay span) - d') * M <= 2 * INR (S j) * INR j * (2 * u64) * M). { apply Rmult_le_compat_r; [lra|]. apply Rmult_le_compat_l; auto. apply Rmult_le_pos; [|lra]. rewrite SJ. lra. }
  fold u64 in *. change (bpow radix2 (-53)) with u64. apply Rle_trans with (9 * INR (S j) ^ 2 * u64 * M + 2 * INR (S j) * INR j * (2 * u64) * M).
  - match goal with H : Rabs (fv y - ?a) <= _ |- Rabs (fv y - ?b) <= _ => replace (fv y - b) with ((fv y - a) + (a - b)) by ring; apply Rle_trans with (1 := Rabs_triang _ _) end. lra.
  - replace (9 * INR (S j) ^ 2 * u64 * M + 2 * INR (S j) * INR j * (2 * u64) * M) with ((9 * INR (S j) ^ 2 + 4 * INR (S j) * INR j) * (u64 * M)) by ring.
    replace (13 * INR (S j) ^ 2 * u64 * M) with (13 * INR (S j) ^ 2 * (u64 * M)) by ring. apply Rmult_le_compat_r; [apply Rmult_le_pos; lra|]. rewrite SJ. nra.
Qed.
Print Assumptions c135_ewma_exact.

Example c135_exact_nonvacuous : exists y v, nth_error (fewma fpow [fz 3; fz (-1); fz 2] 9) 2 = Some y /\ (exists ys, fast_ewma [qz 3; qz (-1); qz 2] 9 true = Ok ys /\ nth_error ys 2 = Some v) /\ fin y /\ Rabs (fv y - qr v) <= 13 * 9 * bpow radix2 (-53) * 4.
Proof.
  destruct (nth_error (fewma fpow [fz 3; fz (-1); fz 2] 9) 2) as [y|] eqn:E; [|apply nth_error_None in E; rewrite fewma_length in E; cbn in E; lia].
  destruct (@fast_ewma_adjusted [qz 3; qz (-1); qz 2] 9) as (ys & A & B & C); [discriminate|lia|]. specialize (C 2%nat ltac:(cbn; lia)).
  eexists. eexists. split; [reflexivity|]. split; [exists ys; split; [exact A|exact C]|]. assert (G := @c135_ewma_exact 9 4 [fz 3; fz (-1); fz 2] [qz 3; qz (-1); qz 2] ys 2 y). 
  replace (13 * 9) with (13 * INR 3 ^ 2) by (cbn; ring). eapply G; eauto; try lia.
  - split; [apply Rle_trans with (bpow radix2 0); [apply bpow_le; lia|cbn; lra]|apply Rle_trans with (bpow radix2 2); [cbn; lra|apply bpow_le; lia]].
  - cbn. lra.
  - assert (H : forall z, (Z.abs z <= 4)%Z -> fin (fz z) /\ fv (fz z) = qr (qz z) /\ Rabs (qr (qz z)) <= 4) by (intros z Hz; destruct (@fz_spec z ltac:(lia)) as [F V]; rewrite qr_z, V; split; auto; split; auto; rewrite <- abs_IZR; now apply IZR_le).
    do 3 (apply Forall2_cons; [apply H; lia|]). apply Forall2_nil.
Qed.
