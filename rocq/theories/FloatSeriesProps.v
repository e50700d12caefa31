(** C135-C137: exponentially weighted averages, fractional differencing weights and the CUSUM filter in binary64. *)
From Coq Require Import ZArith Reals Lra Lia List Bool.
From Flocq Require Import Core BinarySingleNaN.
From Verif Require Import RNum Float64 FloatBarsModel FloatBarsProofs FloatHRPProofs FloatRetModel FloatRetProps FloatSeriesModel FloatSeriesProofs.
Import ListNotations.
Set Implicit Arguments.
Unset Strict Implicit.
Open Scope R_scope.

(** C135: with a power function accurate to [ep], each average differs from the exact weighted mean (decay as rounded) by a multiple of the
    largest value that grows with the index only *)
Theorem c135_ewma_any_power pw span ep M series j y : (1 <= span < 2 ^ 53)%Z -> 0 <= ep -> bpow radix2 (-1000) <= M <= bpow radix2 900 ->
  (forall x, In x (firstn (S j) series) -> fin x /\ Rabs (fv x) <= M) -> INR (S j) * (u64 + ep) <= / 16 ->
  (forall i, (1 <= i <= j)%nat -> fin (pw (fdecay span) i) /\ Rabs (fv (pw (fdecay span) i) - fv (fdecay span) ^ i) <= ep) ->
  nth_error (fewma pw series span) j = Some y ->
  fin y /\ Rabs (fv y - rsum (map (fun i => fv (fdecay span) ^ (j - i) * nth i (map fv series) 0) (seq 0 (S j))) / rsum (map (fun i => fv (fdecay span) ^ i) (seq 0 (S j))))
           <= M * (9 * INR j * u64 + 3 * INR j * ep + 2 * u64).
Proof.
  intros Hs He HM Hx Hn Hp E. destruct (fdecay_spec Hs) as (Fd & Bd & _).
  assert (LJ : (j < length series)%nat) by (rewrite <- (fewma_length pw span); apply nth_error_Some; congruence).
  assert (E' : nth_error (fewma pw (firstn (S j) series) span) j = Some y).
  { rewrite fewma_prefix. rewrite <- (firstn_skipn (S j) (fewma pw series span)) in E. rewrite nth_error_app1 in E; auto. rewrite firstn_length, fewma_length. lia. }
  set (pre := firstn (S j) series) in *. assert (LP : length pre = S j) by (unfold pre; rewrite firstn_length; lia).
  destruct pre as [|x0 xs] eqn:EP; [discriminate|]. rewrite <- EP in LP, Hx.
  destruct (@fewma_from_spec pw (fdecay span) ep M pre) with (x0 := x0) (xs := xs) (j := j) (y := y) as [F B]; auto; try (intros; rewrite EP in *; auto; fail).
  { now rewrite LP. } { intros i Hi. apply Hp. lia. }
  split; auto. unfold ew_sum, ew_weight in B.
  replace (map (fun i => fv (fdecay span) ^ (j - i) * nth i (map fv series) 0) (seq 0 (S j))) with (map (fun i => fv (fdecay span) ^ (j - i) * nth i (map fv pre) 0) (seq 0 (S j))); auto.
  apply map_ext_in. intros i Hi. apply in_seq in Hi. f_equal. rewrite <- (firstn_skipn (S j) series), map_app. rewrite app_nth1; [fold pre; rewrite ?EP; reflexivity|]. rewrite map_length. fold pre. lia.
Qed.
(** with Numba's power the error stays below 9 n^2 2^-53 times the largest of the first n values *)
Theorem c135_ewma span M series j y : (1 <= span < 2 ^ 53)%Z -> bpow radix2 (-1000) <= M <= bpow radix2 900 -> INR (S j) <= bpow radix2 20 ->
  (forall x, In x (firstn (S j) series) -> fin x /\ Rabs (fv x) <= M) -> nth_error (fewma fpow series span) j = Some y ->
  fin y /\ Rabs (fv y - rsum (map (fun i => fv (fdecay span) ^ (j - i) * nth i (map fv series) 0) (seq 0 (S j))) / rsum (map (fun i => fv (fdecay span) ^ i) (seq 0 (S j))))
           <= 9 * INR (S j) ^ 2 * u64 * M.
Proof.
  intros Hs HM Hj Hx E. destruct (fdecay_spec Hs) as (Fd & Bd & _). pose proof u64_pos as U. pose proof eta_le_u as EU. pose proof eta_pos as E0. pose proof (pos_INR j) as J0. pose proof (S_INR j) as SJ.
  pose proof (bpow_gt_0 radix2 (-1000)) as B0. assert (PE : pe <= 2 * u64) by (unfold pe; lra). pose proof pe_pos as P0.
  destruct (@c135_ewma_any_power fpow span (INR j * (2 * u64)) M series j y) as [F B]; auto.
  - apply Rmult_le_pos; lra.
  - assert (T : bpow radix2 20 * u64 <= / 2 ^ 33) by (unfold ulp64; rewrite <- bpow_plus; cbn; lra). assert (N1 : INR (S j) * u64 <= / 2 ^ 33) by (apply Rle_trans with (2 := T); apply Rmult_le_compat_r; lra).
    assert (N2 : INR (S j) * (INR j * (2 * u64)) <= 2 * (bpow radix2 20 * / 2 ^ 33)). { replace (INR (S j) * (INR j * (2 * u64))) with (2 * (INR j * (INR (S j) * u64))) by ring. apply Rmult_le_compat_l; [lra|]. apply Rmult_le_compat; try lra. apply Rmult_le_pos; lra. }
    rewrite Rmult_plus_distr_l. apply Rle_trans with (/ 2 ^ 33 + 2 * (bpow radix2 20 * / 2 ^ 33)); [lra|]. change (bpow radix2 20) with 1048576. lra.
  - intros i Hi. destruct (@fpow_spec (fdecay span) i Fd Bd) as (F & _ & Q). split; auto. apply Rle_trans with (1 := Q). apply Rmult_le_compat; try lra; [apply pos_INR|apply le_INR; lia].
  - split; auto. apply Rle_trans with (1 := B). replace (9 * INR (S j) ^ 2 * u64 * M) with (M * (9 * INR (S j) ^ 2 * u64)) by ring. apply Rmult_le_compat_l; [lra|].
    rewrite SJ. replace (9 * INR j * u64 + 3 * INR j * (INR j * (2 * u64)) + 2 * u64) with ((9 * INR j + 6 * INR j ^ 2 + 2) * u64) by ring. apply Rmult_le_compat_r; [lra|].
    destruct j as [|j]; [cbn; lra|]. assert (1 <= INR (S j)) by (rewrite S_INR; pose proof (pos_INR j); lra). nra.
Qed.
(** the rounded decay is within 2^-52 of 1 - 2/(span+1), and the power function within i 2^-52 of the exact power *)
Theorem c135_decay span : (1 <= span < 2 ^ 53)%Z -> fin (fdecay span) /\ 0 <= fv (fdecay span) <= 1 /\ Rabs (fv (fdecay span) - (1 - 2 / IZR (span + 1))) <= bpow radix2 (-52).
Proof. intro H. destruct (fdecay_spec H) as (A & B & C). split; auto. split; auto. replace (bpow radix2 (-52)) with (2 * u64); auto. unfold ulp64. change 2 with (bpow radix2 1). now rewrite <- bpow_plus. Qed.
Theorem c135_power a i : fin a -> 0 <= fv a <= 1 -> fin (fpow a i) /\ 0 <= fv (fpow a i) <= 1 /\ Rabs (fv (fpow a i) - fv a ^ i) <= INR i * bpow radix2 (-52).
Proof.
  intros F B. destruct (@fpow_spec a i F B) as (X & Y & Z). split; auto. split; auto. apply Rle_trans with (1 := Z). apply Rmult_le_compat_l; [apply pos_INR|]. unfold pe.
  replace (bpow radix2 (-52)) with (2 * u64); [pose proof eta_le_u; lra|]. unfold ulp64. change 2 with (bpow radix2 1). now rewrite <- bpow_plus.
Qed.
(** the average of a constant need not be that constant *)
Theorem c135_constant_refuted : exists y, nth_error (fewma fpow [fz 1; fz 1; fz 1] 5) 2 = Some y /\ fin y /\ fv (fz 1) < fv y.
Proof.
  assert (C : match nth_error (fewma fpow [fz 1; fz 1; fz 1] 5) 2 with Some y => is_finite y && flt (fz 1) y | None => false end = true) by (vm_compute; reflexivity).
  destruct (nth_error (fewma fpow [fz 1; fz 1; fz 1] 5) 2) as [y|]; [|discriminate]. apply andb_prop in C. destruct C as [F C]. exists y. repeat split; auto.
  destruct (@fz_spec 1 ltac:(lia)) as [F1 _]. now apply (flt_spec F1 F).
Qed.
Example c135_nonvacuous : (forall x, In x (firstn 3 [fz 3; fz (-1); fz 2]) -> fin x /\ Rabs (fv x) <= 4) /\ nth_error (fewma fpow [fz 3; fz (-1); fz 2] 9) 2 <> None.
Proof.
  split; [|apply nth_error_Some; rewrite fewma_length; cbn [length]; lia]. intros x [<-|[<-|[<-|[]]]]; [destruct (@fz_spec 3)|destruct (@fz_spec (-1))|destruct (@fz_spec 2)]; try lia; (split; [assumption|]); rewrite H0; apply Rabs_le; lra.
Qed.
Print Assumptions c135_ewma_any_power.
Print Assumptions c135_ewma.
Print Assumptions c135_decay.
Print Assumptions c135_power.
Print Assumptions c135_constant_refuted.

(** ** C136: the weights of fractional differencing.  The weight of lag k is the k-th from the end of the list. *)
Lemma lag_weights order size : rev (fget_weights order size) = fz 1 :: fweights_from order (fz 1) 1 (size - 1).
Proof. unfold fget_weights. apply rev_involutive. Qed.
(** for orders between 0 and 1: one weight per observation; the weight of lag k is finite, 1 at lag 0 and in [-1, 0] after it, no larger in
    magnitude than the one before, and within 5 k 2^-53 of (-1)^k d(d-1)...(d-k+1)/k! *)
Theorem c136_weights order size : fin order -> 0 <= fv order <= 1 -> (1 <= size)%nat -> (Z.of_nat size <= 2 ^ 50)%Z ->
  length (fget_weights order size) = size /\
  forall k v, nth_error (rev (fget_weights order size)) k = Some v ->
    fin v /\ (k = 0%nat -> fv v = 1) /\ ((1 <= k)%nat -> -1 <= fv v <= 0) /\
    Rabs (fv v - (-1) ^ k * rprod (map (fun j => fv order - INR j) (seq 0 k)) / INR (fact k)) <= 5 * INR k * bpow radix2 (-53) /\
    forall v', nth_error (rev (fget_weights order size)) (S k) = Some v' -> Rabs (fv v') <= Rabs (fv v).
Proof.
  intros Fo Ho Hs HZ. destruct (@fz_spec 1 ltac:(lia)) as [F1 V1]. destruct (@fweights_from_spec order (size - 1) Fo Ho 1%nat (fz 1)) as [L P]; auto; try lia; try (rewrite V1; lra).
  { rewrite V1. cbn [Nat.sub]. unfold rcoeff. cbn [seq map rprod pow fact INR]. replace (1 - 1 * 1 / 1) with 0 by field. rewrite Rabs_R0. lra. }
  split. { unfold fget_weights. rewrite rev_length. cbn [length]. rewrite L. lia. }
  intros k v. rewrite lag_weights. destruct k as [|k]; cbn [nth_error]; intro H.
  - assert (v = fz 1) by congruence. subst v. split; auto. split; auto. split; [lia|]. split.
    + cbn [seq map rprod pow fact INR]. rewrite V1. replace (1 - 1 * 1 / 1) with 0 by field. rewrite Rabs_R0. lra.
    + intros v' Hv'. destruct (P 0%nat v' Hv') as (_ & _ & _ & Q). now apply Q.
  - destruct (P k v H) as (Q1 & Q2 & Q3 & _). split; auto. split; [lia|]. split; auto. split; [exact Q3|].
    intros v' Hv'. destruct (P (S k) v' Hv') as (_ & _ & _ & Q). apply Q. cbn [nth_error]. exact H.
Qed.
Print Assumptions c136_weights.
(** whole orders m small enough for C(m,j) m to fit in 53 bits: the weights are exactly the signed binomial coefficients, so 0 beyond lag m *)
Theorem c136_whole_orders m size k v : (Z.of_nat m <= 2 ^ 52)%Z -> (forall j, (j <= m)%nat -> (choose m j * Z.of_nat m <= 2 ^ 53)%Z) -> (Z.of_nat size <= 2 ^ 50)%Z ->
  nth_error (rev (fget_weights (fz (Z.of_nat m)) size)) k = Some v -> fin v /\ fv v = IZR (if Nat.even k then choose m k else - choose m k).
Proof.
  intros ZM HC HZ. rewrite lag_weights. destruct (@fz_spec 1 ltac:(lia)) as [F1 V1]. destruct k as [|k]; cbn [nth_error]; intro H.
  - assert (v = fz 1) by congruence. subst v. split; auto. rewrite V1. cbn [Nat.even]. now destruct m.
  - apply (@fweights_from_int m (size - 1) ZM HC 1%nat (fz 1)) with (j := k); auto; try lia. rewrite V1. now destruct m.
Qed.
Print Assumptions c136_whole_orders.
(** order 1 is the first difference, order 0 the series itself *)
Theorem c136_order_one size k v : (Z.of_nat size <= 2 ^ 50)%Z -> nth_error (rev (fget_weights (fz 1) size)) k = Some v -> fin v /\ fv v = (if (k =? 0)%nat then 1 else if (k =? 1)%nat then -1 else 0).
Proof.
  intros HZ H. destruct (@c136_whole_orders 1 size k v) as [F V]; [lia|intros [|[|j]] Hj; cbn [choose]; lia|exact HZ|exact H|]. split; auto. rewrite V. destruct k as [|[|k]]; auto.
  cbn [Nat.eqb]. rewrite choose_0 by lia. now destruct (Nat.even (S (S k))).
Qed.
Print Assumptions c136_order_one.
Theorem c136_order_zero size k v : (Z.of_nat size <= 2 ^ 50)%Z -> nth_error (rev (fget_weights (fz 0) size)) k = Some v -> fin v /\ fv v = (if (k =? 0)%nat then 1 else 0).
Proof.
  intros HZ H. destruct (@c136_whole_orders 0 size k v) as [F V]; [lia|intros [|j] Hj; cbn [choose]; lia|exact HZ|exact H|]. split; auto. rewrite V. destruct k as [|k]; auto.
  cbn [Nat.eqb]. rewrite choose_0 by lia. now destruct (Nat.even (S k)).
Qed.
Print Assumptions c136_order_zero.
(** the fixed window: the weights kept are those of the lags below some [m]; all of them but the leading 1 are at least the threshold in
    magnitude, and no lag from [m] on reaches it *)
Theorem c136_fixed_window order t width : fin order -> 0 <= fv order <= 1 -> fin t -> (1 <= width)%nat -> (Z.of_nat width <= 2 ^ 50)%Z ->
  exists m, (1 <= m <= width)%nat /\ rev (fget_weights_fixed order t width) = firstn m (rev (fget_weights order width)) /\
  forall k v, nth_error (rev (fget_weights order width)) k = Some v -> (1 <= k)%nat -> ((k < m)%nat <-> fv t <= Rabs (fv v)).
Proof.
  intros Fo Ho Ft Hs HZ. destruct (c136_weights Fo Ho Hs HZ) as [L P]. destruct (@fweights_fixed_prefix order t (width - 1) 1%nat (fz 1)) as (m & M1 & M2 & M3 & M4).
  exists (S m). split; [lia|]. unfold fget_weights_fixed. rewrite rev_involutive, lag_weights in *. cbn [firstn]. split; [now rewrite M2|].
  assert (DEC : forall d k v, nth_error (fz 1 :: fweights_from order (fz 1) 1 (width - 1)) k = Some v -> forall v', nth_error (fz 1 :: fweights_from order (fz 1) 1 (width - 1)) (k + d) = Some v' -> Rabs (fv v') <= Rabs (fv v)).
  { induction d as [|d IH]; intros k v H v' H'; [rewrite Nat.add_0_r in H'; rewrite H in H'; injection H' as <-; lra|].
    destruct (nth_error (fz 1 :: fweights_from order (fz 1) 1 (width - 1)) (S k)) as [x|] eqn:E.
    - apply Rle_trans with (Rabs (fv x)); [apply (IH (S k) x E); now replace (S k + d)%nat with (k + S d)%nat by lia|]. destruct (P k v H) as (_ & _ & _ & _ & Q). now apply Q.
    - apply nth_error_None in E. assert (k + S d < length (fz 1 :: fweights_from order (fz 1) 1 (width - 1)))%nat by (apply nth_error_Some; congruence). lia. }
  intros k v H K1. destruct k as [|k]; [lia|]. destruct (P (S k) v H) as (Fv & _). destruct (fabs_spec Fv) as [Fa Va]. split; intro LT.
  - assert (IN : In v (firstn m (fweights_from order (fz 1) 1 (width - 1)))). { cbn [nth_error] in H. apply nth_error_In with k. rewrite <- (firstn_skipn m (fweights_from order (fz 1) 1 (width - 1))) in H. rewrite nth_error_app1 in H; auto. rewrite firstn_length.
      assert (k < length (firstn m (fweights_from order (fz 1) 1 (width - 1)) ++ skipn m (fweights_from order (fz 1) 1 (width - 1))))%nat by (apply nth_error_Some; congruence). rewrite app_length, firstn_length, skipn_length in H0. lia. }
    specialize (M3 v IN). destruct (Rle_lt_dec (fv t) (Rabs (fv v))) as [C|C]; auto. rewrite <- Va in C. apply (flt_spec Fa Ft) in C. congruence.
  - destruct (Nat.lt_ge_cases (S k) (S m)) as [C|C]; auto. exfalso. assert (KL : (k < width - 1)%nat). { assert (S k < length (fz 1 :: fweights_from order (fz 1) 1 (width - 1)))%nat by (apply nth_error_Some; congruence). rewrite <- lag_weights, rev_length, L in H0. lia. }
    destruct (M4 ltac:(lia)) as (x & X1 & X2). assert (X3 : Rabs (fv v) <= Rabs (fv x)). { apply (DEC (k - m)%nat (S m) x X1). now replace (S m + (k - m))%nat with (S k) by lia. }
    destruct (P (S m) x X1) as (Fx & _). destruct (fabs_spec Fx) as [Fb Vb]. apply (flt_spec Fb Ft) in X2. rewrite Vb in X2. lra.
Qed.
Print Assumptions c136_fixed_window.
(** orders below 2^-54 leave the series undifferenced: every weight after lag 0 is 0, not within any factor of the binomial weight *)
Lemma rnd64_near_minus_one x : 0 <= x < bpow radix2 (-54) -> rnd64 (x - 1) = -1.
Proof.
  intro H. assert (F : format64 (-1)) by (apply (@format64_int (-1)); lia). apply Rle_antisym.
  - apply round_N_le_midp; [apply valid64|exact F|]. replace (succ radix2 (FLT_exp (3 - 1024 - 53) 53) (-1)) with (-1 + bpow radix2 (-53)).
    + replace ((-1 + (-1 + bpow radix2 (-53))) / 2) with (-1 + bpow radix2 (-54)); [lra|]. replace (bpow radix2 (-53)) with (2 * bpow radix2 (-54)) by (change 2 with (bpow radix2 1); now rewrite <- bpow_plus). field.
    + replace (-1) with (- bpow radix2 0) at 2 by (cbn; ring). rewrite succ_opp. rewrite (pred_bpow radix2 (FLT_exp (3 - 1024 - 53) 53)). change (FLT_exp (3 - 1024 - 53) 53 0) with (-53)%Z. change (bpow radix2 0) with 1. ring.
  - rewrite <- (rnd64_id F) at 1. apply rnd64_mono. lra.
Qed.
Theorem c136_small_orders order size k v : fin order -> 0 <= fv order < bpow radix2 (-54) -> (Z.of_nat size <= 2 ^ 50)%Z -> (1 <= k)%nat ->
  nth_error (rev (fget_weights order size)) k = Some v -> fv v = 0.
Proof.
  intros Fo Ho HZ Hk H. destruct (@fz_spec 1 ltac:(lia)) as [F1 V1]. pose proof u64_pos as U. assert (SM : bpow radix2 (-54) <= 1) by (change 1 with (bpow radix2 0); apply bpow_le; lia).
  assert (S1 : (1 <= size)%nat). { destruct size as [|size]; [|lia]. rewrite lag_weights in H. destruct k as [|[|k]]; cbn in H; try lia; discriminate. }
  destruct (@c136_weights order size Fo ltac:(lra) S1 HZ) as [L P].
  assert (W1 : forall x, nth_error (rev (fget_weights order size)) 1 = Some x -> fv x = 0).
  { intros x Hx. rewrite lag_weights in Hx. cbn [nth_error] in Hx. destruct (size - 1)%nat as [|m]; [discriminate|]. cbn [fweights_from nth_error] in Hx. assert (x = fnext_weight order (fz 1) 1) by congruence. subst x. clear Hx.
    unfold fnext_weight. change (Z.of_nat 1) with 1%Z. pose proof big_1 as B1. destruct (@fsub_spec order (fz 1) Fo F1) as [Fa Va]; [rewrite V1; apply Rabs_le; lra|]. rewrite V1, rnd64_near_minus_one in Va by auto.
    destruct (@fadd_spec _ (fz 1) Fa F1) as [Fb Vb]; [rewrite Va, V1; replace (-1 + 1) with 0 by ring; rewrite Rabs_R0; lra|]. rewrite Va, V1 in Vb. replace (-1 + 1) with 0 in Vb by ring. rewrite rnd64_0 in Vb.
    destruct (fopp_spec F1) as [Fn Vn]. destruct (@fmul_spec _ _ Fn Fb) as [Fp Vp]; [rewrite Vb, Rmult_0_r, Rabs_R0; lra|]. rewrite Vb, Rmult_0_r, rnd64_0 in Vp.
    destruct (@fdiv_spec _ (fz 1) Fp) as [Fq Vq]; [rewrite V1; lra|rewrite Vp; unfold Rdiv; rewrite Rmult_0_l, Rabs_R0; lra|]. rewrite Vq, Vp. unfold Rdiv. now rewrite Rmult_0_l, rnd64_0. }
  revert v H. induction k as [|[|k] IH]; intros v H; [lia|auto|]. destruct (nth_error (rev (fget_weights order size)) (S k)) as [x|] eqn:E.
  - specialize (IH ltac:(lia) x eq_refl). destruct (P (S k) x E) as (_ & _ & _ & _ & Q). specialize (Q v H). rewrite IH, Rabs_R0 in Q. pose proof (Rabs_pos (fv v)). destruct (Req_dec (fv v) 0) as [Z|Z]; auto. apply Rabs_no_R0 in Z. lra.
  - apply nth_error_None in E. assert (S (S k) < length (rev (fget_weights order size)))%nat by (apply nth_error_Some; congruence). lia.
Qed.
Print Assumptions c136_small_orders.
Example c136_nonvacuous_small : fin (ff 1 (-60)) /\ 0 < fv (ff 1 (-60)) < bpow radix2 (-54).
Proof.
  destruct (@ff_spec 1 (-60)) as [F V]; [rewrite Rmult_1_l, Rabs_pos_eq by apply bpow_ge_0; apply bpow_le; lia|]. split; [exact F|]. rewrite V, Rmult_1_l, rnd64_id by (apply format64_bpow; lia). split; [apply bpow_gt_0|apply bpow_lt; lia].
Qed.
Example c136_nonvacuous : fin (fdiv (fz 1) (fz 2)) /\ 0 <= fv (fdiv (fz 1) (fz 2)) <= 1 /\ (forall j, (j <= 3)%nat -> (choose 3 j * Z.of_nat 3 <= 2 ^ 53)%Z).
Proof.
  destruct (@fz_spec 1 ltac:(lia)) as [F1 V1]. destruct (@fz_spec 2 ltac:(lia)) as [F2 V2]. destruct (@fz_spec 0 ltac:(lia)) as [F0 V0]. assert (F : fin (fdiv (fz 1) (fz 2))) by reflexivity.
  split; [exact F|]. split; [split|].
  - rewrite <- V0. apply (fle_spec F0 F). reflexivity.
  - rewrite <- V1. apply (fle_spec F F1). reflexivity.
  - intros [|[|[|[|j]]]] Hj; cbn [choose Z.of_nat]; lia.
Qed.
