(** C172-C175: time decay, rare labels, bootstrap probabilities and return weights in binary64. *)
From Coq Require Import ZArith QArith Qcanon Reals Lra Lia List Bool Permutation Sorting.
From Flocq Require Import Core Relative BinarySingleNaN Plus_error Mult_error.
From Verif Require Import Py Num RNum Float64 FloatBarsModel FloatBarsProofs FloatBarsProps FloatPosModel FloatPosProofs FloatCusumProps FloatEwmaProps BarrierModel WeightModel WeightSpec WeightProofs FloatStatModel FloatStatProps FloatWeightModel.
Import ListNotations.
Set Implicit Arguments.
Unset Strict Implicit.
Open Scope R_scope.

(** ** C172 *)
(** what is taken from one and put back: exactly one again *)
Lemma one_pm : rnd64 (1 - bpow radix2 (-54)) = 1 /\ rnd64 (1 + bpow radix2 (-54)) = 1.
Proof.
  destruct (@fz_spec 1) as [F1 V1]; [lia|]. destruct (@ff_exact 1 (-54)) as [F2 V2]; [lia|lia|lia|]. rewrite Rmult_1_l in V2.
  assert (B : bpow radix2 (-54) <= 1) by (change 1 with (bpow radix2 0); apply bpow_le; lia). pose proof (bpow_gt_0 radix2 (-54)) as P. assert (BB : 2 <= big) by (change 2 with (bpow radix2 1) at 1; apply bpow_le; lia).
  split.
  - destruct (@fsub_spec (fz 1) (ff 1 (-54)) F1 F2) as [F V]; rewrite ?V1, ?V2 in *; [rewrite Rabs_pos_eq; lra|]. rewrite <- V. rewrite <- V1. apply feq_spec; auto; vm_compute; reflexivity.
  - destruct (@fadd_spec (fz 1) (ff 1 (-54)) F1 F2) as [F V]; rewrite ?V1, ?V2 in *; [rewrite Rabs_pos_eq; lra|]. rewrite <- V. rewrite <- V1. apply feq_spec; auto; vm_compute; reflexivity.
Qed.
Lemma one_back y : format64 y -> 0 <= y < bpow radix2 53 -> rnd64 (rnd64 (1 - y) + y) = 1.
Proof.
  intros Fy [P B]. destruct (Rle_lt_dec y 1) as [L|L].
  - destruct one_pm as [A1 A2]. assert (E : Rabs (rnd64 (1 - y) - (1 - y)) <= bpow radix2 (-54)).
    { destruct (Req_dec y 0) as [->|N]; [rewrite Rminus_0_r, rnd64_1; replace (1 - 1) with 0 by ring; rewrite Rabs_R0; apply bpow_ge_0|].
      pose proof (error_le_half_ulp radix2 (FLT_exp (3 - 1024 - 53) 53) (fun x => negb (Z.even x)) (1 - y)) as H. eapply Rle_trans; [exact H|]. replace (bpow radix2 (-54)) with (/ 2 * bpow radix2 (-53)) by (change (/ 2) with (bpow radix2 (-1)); rewrite <- bpow_plus; reflexivity). apply Rmult_le_compat_l; [lra|].
      destruct (Req_dec (1 - y) 0) as [Z|Z]; [rewrite Z, ulp_FLT_0 by apply prec64_pos; apply bpow_le; lia|]. rewrite ulp_neq_0 by auto. apply bpow_le. unfold cexp, FLT_exp. assert (mag radix2 (1 - y) <= 0)%Z; [|lia]. apply mag_le_bpow; auto. change (bpow radix2 0) with 1. rewrite Rabs_pos_eq; lra. }
    apply Rabs_le_inv in E. apply Rle_antisym.
    + rewrite <- A2 at 2. apply rnd64_mono. lra.
    + rewrite <- A1 at 1. apply rnd64_mono. lra.
  - assert (F : format64 (1 - y)).
    { unfold generic_format in Fy. set (e := cexp radix2 (FLT_exp (3 - 1024 - 53) 53) y) in *. set (m := Ztrunc (scaled_mantissa radix2 (FLT_exp (3 - 1024 - 53) 53) y)) in *. unfold F2R in Fy. cbn [Fnum Fexp] in Fy.
      assert (M : (mag radix2 y <= 53)%Z) by (apply mag_le_bpow; [lra|rewrite Rabs_pos_eq; lra]). assert (M1 : (1 <= mag radix2 y)%Z) by (apply mag_ge_bpow; change (bpow radix2 (1 - 1)) with 1; rewrite Rabs_pos_eq; lra).
      assert (E : (e = mag radix2 y - 53)%Z) by (unfold e, cexp, FLT_exp; lia).
      assert (O : 1 = IZR (2 ^ (- e)) * bpow radix2 e) by (rewrite (IZR_Zpower radix2) by lia; rewrite <- bpow_plus; replace (- e + e)%Z with 0%Z by lia; reflexivity).
      pose proof (bpow_gt_0 radix2 e) as PE. assert (EQ : 1 - y = IZR (2 ^ (- e) - m) * bpow radix2 e) by (rewrite minus_IZR, Rmult_minus_distr_r, <- O, <- Fy; reflexivity). rewrite EQ.
      apply format64_float; [|lia].
      assert (K1 : (2 ^ (- e) < m)%Z) by (apply lt_IZR; apply Rmult_lt_reg_r with (bpow radix2 e); auto; rewrite <- O, <- Fy; exact L).
      assert (K2 : (m < 2 ^ 53)%Z).
      { apply lt_IZR. apply Rmult_lt_reg_r with (bpow radix2 e); auto. rewrite <- Fy. change (IZR (2 ^ 53)) with (bpow radix2 53). rewrite <- bpow_plus. apply Rlt_le_trans with (bpow radix2 (mag radix2 y)); [|apply bpow_le; lia]. pose proof (bpow_mag_gt radix2 y) as G. rewrite Rabs_pos_eq in G; lra. }
      assert (0 < 2 ^ (- e))%Z by (apply Z.pow_pos_nonneg; lia). lia. }
    rewrite (rnd64_id F). replace (1 - y + y) with 1 by ring. apply rnd64_1.
Qed.
Lemma rel_rnd x : bpow radix2 (-1022) <= x -> exists e, Rabs e <= u64 /\ rnd64 x = x * (1 + e).
Proof. intro H. apply rnd_error. pose proof (bpow_gt_0 radix2 (-1022)). rewrite Rabs_pos_eq; lra. Qed.
Lemma inv_le x k k' : bpow radix2 k' <= x -> k' = (- k)%Z -> / x <= bpow radix2 k.
Proof. intros H ->. rewrite bpow_opp in H. pose proof (bpow_gt_0 radix2 k) as P. rewrite <- (Rinv_inv (bpow radix2 k)). apply Rinv_le_contravar; auto. now apply Rinv_0_lt_compat. Qed.
Lemma inv_ge x k k' : 0 < x -> x <= bpow radix2 k -> k' = (- k)%Z -> bpow radix2 k' <= / x.
Proof. intros H0 H ->. rewrite bpow_opp. now apply Rinv_le_contravar. Qed.
Lemma mul1 u k l a b : 0 <= u -> 0 <= k -> 0 <= l -> k * l * u <= 1 -> Rabs a <= k * u -> Rabs b <= l * u -> Rabs ((1 + a) * (1 + b) - 1) <= (k + l + 1) * u.
Proof.
  intros U K L H A B. replace ((1 + a) * (1 + b) - 1) with (a + b + a * b) by ring. apply Rle_trans with (1 := Rabs_triang _ _). apply Rle_trans with (Rabs a + Rabs b + Rabs (a * b)); [apply Rplus_le_compat_r, Rabs_triang|].
  assert (Rabs (a * b) <= u); [|lra]. rewrite Rabs_mult. apply Rle_trans with ((k * u) * (l * u)); [apply Rmult_le_compat; auto using Rabs_pos|]. replace (k * u * (l * u)) with (k * l * u * u) by ring. rewrite <- (Rmult_1_l u) at 3. apply Rmult_le_compat_r; auto.
Qed.
Lemma inv1 u k a : 0 <= u -> 0 <= k -> k * (k + 1) * u <= 1 -> k * u <= / 2 -> Rabs a <= k * u -> Rabs (/ (1 + a) - 1) <= (k + 1) * u.
Proof.
  intros U K H H2 A. apply Rabs_le_inv in A. assert (I : / (1 + a) * (1 + a) = 1) by (apply Rinv_l; lra). assert (P : 0 < / (1 + a)) by (apply Rinv_0_lt_compat; lra). replace (/ (1 + a) - 1) with (/ (1 + a) * (- a)) by (replace (/ (1 + a) * - a) with (/ (1 + a) - / (1 + a) * (1 + a)) by ring; rewrite I; reflexivity).
  rewrite Rabs_mult, Rabs_Ropp, (Rabs_pos_eq (/ (1 + a))) by lra. apply Rmult_le_reg_l with (1 + a); [lra|]. replace ((1 + a) * (/ (1 + a) * Rabs a)) with (/ (1 + a) * (1 + a) * Rabs a) by ring. rewrite I, Rmult_1_l.
  apply Rle_trans with (k * u); [apply Rabs_le; lra|]. apply Rle_trans with ((1 - k * u) * ((k + 1) * u)); [|apply Rmult_le_compat_r; [apply Rmult_le_pos; lra|lra]]. clear - U K H. assert (u * (k * (k + 1) * u) <= u * 1) by (apply Rmult_le_compat_l; auto). lra.
Qed.
(** the slope the code uses, times the total, is 1 - c or 1/(1+c) up to six roundings *)
Definition decay_rate (c : R) : R := if Rle_bool 0 c then 1 - c else / (c + 1).
Definition slope (c L : f64) : f64 := if fle (fz 0) c then fdiv (fsub (fz 1) c) L else fdiv (fz 1) (fmul (fadd c (fz 1)) L).
Lemma u53 : u64 = bpow radix2 (-53). Proof. reflexivity. Qed.
Lemma slope_spec c L : fin c -> fin L -> bpow radix2 (-401) <= fv L <= bpow radix2 401 -> -1 + bpow radix2 (-50) <= fv c <= 1 ->
  fin (slope c L) /\ 0 <= fv (slope c L) <= bpow radix2 500 /\ 0 <= decay_rate (fv c) <= bpow radix2 50 /\ (fv c = 1 -> fv (slope c L) = 0) /\
  exists e, Rabs e <= 6 * u64 /\ fv (slope c L) * fv L = decay_rate (fv c) * (1 + e).
Proof.
  intros Fc FL [L1 L2] [C1 C2]. pose proof u64_small as U. pose proof u64_pos as U0. destruct (@fz_spec 1) as [F1 V1]; [lia|]. destruct fz0 as [F0 V0].
  pose proof (bpow_gt_0 radix2 (-401)) as P401. assert (PL : 0 < fv L) by lra. assert (IL : / fv L * fv L = 1) by (apply Rinv_l; lra). assert (IP : 0 < / fv L) by (now apply Rinv_0_lt_compat).
  assert (IU : / fv L <= bpow radix2 401) by (apply inv_le with (-401)%Z; auto).
  assert (IG : bpow radix2 (-401) <= / fv L) by (apply inv_ge with 401%Z; auto).
  assert (G50 : 1 <= bpow radix2 50) by (change 1 with (bpow radix2 0); apply bpow_le; lia). assert (BB : 2 <= big) by (change 2 with (bpow radix2 1) at 1; apply bpow_le; lia).
  assert (P50 : 0 < bpow radix2 (-50)) by apply bpow_gt_0. assert (S50 : bpow radix2 (-50) <= 1) by (change 1 with (bpow radix2 0); apply bpow_le; lia).
  unfold slope, decay_rate. destruct (fle (fz 0) c) eqn:E.
  - apply fle_spec in E; auto. rewrite V0 in E. rewrite Rle_bool_true by auto. destruct (@fsub_spec (fz 1) c F1 Fc) as [Fd Vd]; [rewrite V1, Rabs_pos_eq; lra|]. rewrite V1 in Vd.
    destruct (@add_error 1 (- fv c)) as (e1 & He1 & E1); [apply (format64_int (z := 1)); lia|apply generic_format_opp, fv_format|]. unfold Rminus in Vd. rewrite E1 in Vd. apply Rabs_le_inv in He1. set (d := fsub (fz 1) c) in *.
    assert (Hd : 0 <= fv d <= 2) by (rewrite Vd; nra).
    assert (BQ : 0 <= fv d / fv L <= bpow radix2 500).
    { unfold Rdiv. split; [nra|]. apply Rle_trans with (2 * bpow radix2 401); [nra|]. change 2 with (bpow radix2 1) at 1. rewrite <- bpow_plus. apply bpow_le. lia. }
    destruct (@fdiv_spec d L Fd) as [Fq Vq]; [lra|rewrite Rabs_pos_eq by lra; apply Rle_trans with (1 := proj2 BQ), bpow_le; lia|].
    assert (R0 : 0 <= rnd64 (fv d / fv L) <= bpow radix2 500).
    { split; [rewrite <- rnd64_0; apply rnd64_mono; lra|]. rewrite <- (rnd64_id (x := bpow radix2 500)) by (apply format64_bpow; lia). apply rnd64_mono; lra. }
    split; auto. split; [rewrite Vq; auto|]. split; [lra|]. split; [intro C; rewrite Vq, Vd, C; replace (1 + - (1)) with 0 by ring; unfold Rdiv; rewrite !Rmult_0_l; apply rnd64_0|].
    destruct (Req_dec (fv c) 1) as [C|C].
    + exists 0. split; [rewrite Rabs_R0; lra|]. rewrite Vq, Vd, C. replace (1 + - (1)) with 0 by ring. unfold Rdiv. rewrite !Rmult_0_l, rnd64_0. ring.
    + assert (GC : bpow radix2 (-53) <= 1 - fv c).
      { assert (G : fv c <= pred radix2 (FLT_exp (3 - 1024 - 53) 53) 1) by (apply pred_ge_gt; [apply valid64|apply fv_format|apply (format64_int (z := 1)); lia|lra]). change 1 with (bpow radix2 0) in G at 1. rewrite pred_bpow in G by apply valid64. change (FLT_exp (3 - 1024 - 53) 53 0) with (-53)%Z in G. change (bpow radix2 0) with 1 in G. lra. }
      destruct (@rel_rnd (fv d / fv L)) as (e2 & He2 & E2).
      { apply Rle_trans with (bpow radix2 (-54) * bpow radix2 (-401)); [rewrite <- bpow_plus; apply bpow_le; lia|]. unfold Rdiv. apply Rmult_le_compat; auto; try apply bpow_ge_0. rewrite Vd. replace (bpow radix2 (-54)) with (bpow radix2 (-53) * / 2) by (change (/ 2) with (bpow radix2 (-1)); rewrite <- bpow_plus; reflexivity). pose proof (bpow_gt_0 radix2 (-53)). apply Rmult_le_compat; lra. }
      exists ((1 + e1) * (1 + e2) - 1). split; [apply Rle_trans with ((1 + 1 + 1) * u64); [apply mul1; try lra; rewrite Rmult_1_l; auto; apply Rabs_le; lra|lra]|]. rewrite Vq, E2, Vd. unfold Rdiv. replace ((1 + - fv c) * (1 + e1) * / fv L * (1 + e2) * fv L) with ((1 + - fv c) * (1 + e1) * (1 + e2) * (/ fv L * fv L)) by ring. rewrite IL. ring.
  - assert (CN : fv c < 0) by (apply Rnot_le_lt; intro C; assert (fle (fz 0) c = true) by (apply fle_spec; auto; rewrite V0; auto); congruence). rewrite Rle_bool_false by auto.
    destruct (@fadd_spec c (fz 1) Fc F1) as [Fa Va]; [rewrite V1, Rabs_pos_eq; lra|]. rewrite V1 in Va. destruct (@add_error (fv c) 1) as (e1 & He1 & E1); [apply fv_format|apply (format64_int (z := 1)); lia|]. rewrite E1 in Va. apply Rabs_le_inv in He1. set (a := fadd c (fz 1)) in *.
    assert (Ha : (fv c + 1) * / 2 <= fv a <= 2) by (rewrite Va; nra). assert (Ha2 : bpow radix2 (-51) <= fv a) by (replace (bpow radix2 (-51)) with (bpow radix2 (-50) * / 2) by (change (/ 2) with (bpow radix2 (-1)); rewrite <- bpow_plus; reflexivity); lra).
    assert (P51 : 0 < bpow radix2 (-51)) by apply bpow_gt_0.
    assert (BP : bpow radix2 (-452) <= fv a * fv L <= bpow radix2 402).
    { split; [change (-452)%Z with (-51 + -401)%Z; rewrite bpow_plus; apply Rmult_le_compat; auto; apply bpow_ge_0|]. change 402%Z with (1 + 401)%Z. rewrite bpow_plus. change (bpow radix2 1) with 2. apply Rmult_le_compat; lra. }
    assert (P452 : 0 < bpow radix2 (-452)) by apply bpow_gt_0.
    destruct (@fmul_spec a L Fa FL) as [FD VD]; [rewrite Rabs_pos_eq by lra; apply Rle_trans with (1 := proj2 BP), bpow_le; lia|]. destruct (@rel_rnd (fv a * fv L)) as (e2 & He2 & E2); [apply Rle_trans with (2 := proj1 BP), bpow_le; lia|]. rewrite E2 in VD. apply Rabs_le_inv in He2. set (D := fmul a L) in *.
    assert (HD : bpow radix2 (-453) <= fv D <= bpow radix2 403).
    { rewrite VD. split.
      - replace (bpow radix2 (-453)) with (bpow radix2 (-452) * / 2) by (change (/ 2) with (bpow radix2 (-1)); rewrite <- bpow_plus; reflexivity). apply Rmult_le_compat; lra.
      - replace (bpow radix2 403) with (bpow radix2 402 * 2) by (change 403%Z with (402 + 1)%Z; rewrite bpow_plus; reflexivity). apply Rmult_le_compat; lra. }
    assert (P453 : 0 < bpow radix2 (-453)) by apply bpow_gt_0.
    assert (BI : bpow radix2 (-403) <= 1 / fv D <= bpow radix2 453).
    { unfold Rdiv. rewrite Rmult_1_l. split; [apply inv_ge with 403%Z; auto; lra|apply inv_le with (-453)%Z; auto; lra]. }
    assert (P403 : 0 < bpow radix2 (-403)) by apply bpow_gt_0.
    destruct (@fdiv_spec (fz 1) D F1) as [Fq Vq]; rewrite ?V1; [lra|rewrite Rabs_pos_eq by lra; apply Rle_trans with (1 := proj2 BI), bpow_le; lia|]. rewrite V1 in Vq.
    destruct (@rel_rnd (1 / fv D)) as (e3 & He3 & E3); [apply Rle_trans with (2 := proj1 BI), bpow_le; lia|]. rewrite E3 in Vq. apply Rabs_le_inv in He3.
    assert (I1 : / (fv c + 1) <= bpow radix2 50) by (apply inv_le with (-50)%Z; auto; lra). assert (I0 : 0 < / (fv c + 1)) by (apply Rinv_0_lt_compat; lra).
    split; auto. split.
    { rewrite Vq. split; [apply Rmult_le_pos; lra|]. apply Rle_trans with (bpow radix2 453 * 2); [apply Rmult_le_compat; lra|]. change (bpow radix2 453 * bpow radix2 1 <= bpow radix2 500). rewrite <- bpow_plus. apply bpow_le. lia. }
    split; [lra|]. split; [intro; lra|].
    set (z := (1 + e1) * (1 + e2)). assert (Z1 : Rabs (z - 1) <= 3 * u64) by (unfold z; replace 3 with (1 + 1 + 1) by ring; apply mul1; try lra; rewrite Rmult_1_l; apply Rabs_le; lra).
    assert (Z2 : Rabs (/ z - 1) <= 4 * u64) by (replace z with (1 + (z - 1)) by ring; replace 4 with (3 + 1) by ring; apply inv1; lra). pose proof (Rabs_le_inv _ _ Z1) as Z1'.
    exists ((1 + e3) * (1 + (/ z - 1)) - 1). split.
    + replace 6 with (1 + 4 + 1) by ring. apply mul1; try lra. rewrite Rmult_1_l. apply Rabs_le. lra.
    + replace (1 + ((1 + e3) * (1 + (/ z - 1)) - 1)) with ((1 + e3) * / z) by ring. rewrite Vq, VD, Va. unfold z in *. field. assert (1 + e1 <> 0) by lra. assert (1 + e2 <> 0) by lra. repeat split; auto; lra.
Qed.
Lemma growth n : (Z.of_nat n <= 2 ^ 50)%Z -> INR n * u64 <= / 8 /\ 1 - INR n * u64 <= (1 - u64) ^ n /\ (1 + u64) ^ n <= 1 + 2 * (INR n * u64).
Proof.
  intro H. assert (B : INR n * u64 <= / 8).
  { rewrite u53. replace (/ 8) with (bpow radix2 50 * bpow radix2 (-53)) by (rewrite <- bpow_plus; reflexivity). apply Rmult_le_compat_r; [apply bpow_ge_0|]. rewrite INR_IZR_INZ. change (bpow radix2 50) with (IZR (2 ^ 50)). now apply IZR_le. }
  split; auto. pose proof (bernoulli n) as Bn. split; auto. pose proof (pos_INR n). pose proof u64_pos. set (x := INR n * u64) in *. assert (0 <= x) by (unfold x; nra).
  apply Rle_trans with (1 := hi_le_inv_lo n). apply Rle_trans with (/ (1 - x)); [apply Rinv_le_contravar; lra|]. assert (I : / (1 - x) * (1 - x) = 1) by (apply Rinv_l; lra). assert (0 < / (1 - x)) by (apply Rinv_0_lt_compat; lra). nra.
Qed.
Lemma split_combine_fst A B (a : list A) (b : list B) : length a = length b -> map fst (combine a b) = a /\ map snd (combine a b) = b.
Proof. revert b. induction a as [|x a IH]; intros [|y b] H; try discriminate; auto. injection H as H. destruct (IH b H) as [E1 E2]. cbn. now rewrite E1, E2. Qed.
Lemma py_last_nth A (l : list A) x : nth_error l (length l - 1) = Some x -> py_last l = Ok x.
Proof.
  intro H. unfold py_last. destruct l as [|y l] using rev_ind; [discriminate|]. rewrite rev_app_distr. cbn. rewrite app_length in H. cbn in H. rewrite nth_error_app2 in H by lia. replace (length l + 1 - 1 - length l)%nat with 0%nat in H by lia. cbn in H. congruence.
Qed.
(** everything about one row, for a cumulated uniqueness [x] of at most the last one, [L] *)
Lemma decay_row c L x : fin c -> fin L -> fin x -> bpow radix2 (-401) <= fv L <= bpow radix2 401 -> 0 <= fv x <= fv L -> -1 + bpow radix2 (-50) <= fv c <= 1 ->
  let w := fadd (fsub (fz 1) (fmul (slope c L) L)) (fmul (slope c L) x) in
  fin w /\ fv w = rnd64 (rnd64 (1 - rnd64 (fv (slope c L) * fv L)) + rnd64 (fv (slope c L) * fv x)) /\ fv w <= 1 /\ (fv x = fv L -> fv w = 1) /\
  Rabs (fv w - (1 - decay_rate (fv c) * (1 - fv x / fv L))) <= 24 * u64 * (1 + decay_rate (fv c)).
Proof.
  intros Fc FL Fx BL Bx Bc w. destruct (slope_spec Fc FL BL Bc) as (Fs & Bs & BR & _ & e & He & Es). set (s := slope c L) in *. set (g := decay_rate (fv c)) in *.
  pose proof u64_small as U. pose proof u64_pos as U0. pose proof tiny_le as TL. pose proof (bpow_gt_0 radix2 (-1075)) as TP. destruct (@fz_spec 1) as [F1 V1]; [lia|]. pose proof (bpow_gt_0 radix2 (-401)) as P401. apply Rabs_le_inv in He.
  assert (IL : / fv L * fv L = 1) by (apply Rinv_l; lra). assert (IP : 0 < / fv L) by (apply Rinv_0_lt_compat; lra).
  assert (G51 : bpow radix2 51 = 2 * bpow radix2 50) by (change 51%Z with (1 + 50)%Z; rewrite bpow_plus; reflexivity). assert (G50 : 1 <= bpow radix2 50) by (change 1 with (bpow radix2 0); apply bpow_le; lia).
  assert (B51 : 0 <= fv s * fv L <= bpow radix2 51) by (rewrite G51; split; [apply Rmult_le_pos; lra|rewrite Es; nra]). assert (BX : 0 <= fv s * fv x <= fv s * fv L) by (split; [apply Rmult_le_pos; lra|apply Rmult_le_compat_l; lra]).
  assert (G52 : bpow radix2 53 = 4 * bpow radix2 51) by (change 53%Z with (2 + 51)%Z; rewrite bpow_plus; reflexivity). assert (GB : bpow radix2 53 <= big) by (apply bpow_le; lia).
  assert (F51 : format64 (bpow radix2 51)) by (apply format64_bpow; lia).
  assert (RM : forall t, 0 <= t <= bpow radix2 51 -> 0 <= rnd64 t <= bpow radix2 51) by (intros t Ht; split; [rewrite <- rnd64_0|rewrite <- (rnd64_id F51)]; apply rnd64_mono; lra).
  destruct (@fmul_spec s L Fs FL) as [Fy Vy]; [rewrite Rabs_pos_eq; lra|]. destruct (@fmul_spec s x Fs Fx) as [Fp Vp]; [rewrite Rabs_pos_eq; lra|]. set (y := fmul s L) in *. set (p := fmul s x) in *.
  assert (By : 0 <= fv y <= bpow radix2 51) by (rewrite Vy; apply RM; lra). assert (Bp : 0 <= fv p <= bpow radix2 51) by (rewrite Vp; apply RM; lra). assert (PY : fv p <= fv y) by (rewrite Vp, Vy; apply rnd64_mono; lra).
  destruct (@fsub_spec (fz 1) y F1 Fy) as [Fk Vk]; [rewrite V1; apply Rabs_le; lra|]. rewrite V1 in Vk. set (k := fsub (fz 1) y) in *.
  destruct (@add_error 1 (- fv y)) as (e1 & He1 & E1); [apply (format64_int (z := 1)); lia|apply generic_format_opp, fv_format|]. fold (1 - fv y) in E1. pose proof Vk as Vk'. rewrite E1 in Vk'. apply Rabs_le_inv in He1.
  assert (Bk : Rabs (fv k) <= 2 * bpow radix2 51) by (rewrite Vk', Rabs_mult; rewrite (Rmult_comm 2); apply Rmult_le_compat; try apply Rabs_pos; apply Rabs_le; lra). apply Rabs_le_inv in Bk.
  destruct (@fadd_spec k p Fk Fp) as [Fw Vw]; [apply Rabs_le; lra|]. fold w in Fw, Vw. destruct (add_error (fv_format k) (fv_format p)) as (e2 & He2 & E2). apply Rabs_le_inv in He2.
  assert (OB : rnd64 (fv k + fv y) = 1) by (rewrite Vk; apply one_back; [apply fv_format|lra]).
  split; auto. split; [rewrite Vw, Vk, Vp, Vy; reflexivity|]. split; [rewrite Vw, <- OB; apply rnd64_mono; lra|]. split.
  { intro E. rewrite Vw, Vp, E, <- Vy. exact OB. }
  destruct (rnd_error_any (fv s * fv L)) as (a1 & h1 & Ha1 & Hh1 & Y1). destruct (rnd_error_any (fv s * fv x)) as (a2 & h2 & Ha2 & Hh2 & Y2). rewrite <- Vy in Y1. rewrite <- Vp in Y2. apply Rabs_le_inv in Ha1, Ha2, Hh1, Hh2.
  set (r := fv x / fv L). assert (Hr : 0 <= r <= 1) by (unfold r, Rdiv; split; [apply Rmult_le_pos; lra|rewrite <- IL, Rmult_comm; apply Rmult_le_compat_l; lra]).
  assert (EX : fv s * fv x = g * r * (1 + e)) by (unfold r, Rdiv; replace (fv s * fv x) with (fv s * (fv x * (/ fv L * fv L))) by (rewrite IL; ring); replace (fv s * (fv x * (/ fv L * fv L))) with (fv s * fv L * (fv x * / fv L)) by ring; rewrite Es; ring).
  rewrite Es in Y1. rewrite EX in Y2.
  set (E3 := (1 + e) * (1 + a1) - 1). set (E4 := (1 + e) * (1 + a2) - 1).
  assert (B3 : Rabs E3 <= 8 * u64) by (unfold E3; replace 8 with (6 + 1 + 1) by ring; apply mul1; try lra; [apply Rabs_le; lra|rewrite Rmult_1_l; apply Rabs_le; lra]). assert (B4 : Rabs E4 <= 8 * u64) by (unfold E4; replace 8 with (6 + 1 + 1) by ring; apply mul1; try lra; [apply Rabs_le; lra|rewrite Rmult_1_l; apply Rabs_le; lra]).
  assert (Y3 : fv y - g = g * E3 + h1) by (rewrite Y1; unfold E3; ring). assert (Y4 : fv p - g * r = g * r * E4 + h2) by (rewrite Y2; unfold E4; ring).
  assert (GR : 0 <= g * r <= g) by (clear - Hr BR; split; nra).
  assert (D3 : Rabs (fv y - g) <= 8 * u64 * g + u64) by (rewrite Y3; apply Rle_trans with (1 := Rabs_triang _ _), Rplus_le_compat; [rewrite Rabs_mult, (Rabs_pos_eq g), (Rmult_comm _ g) by lra; apply Rmult_le_compat_l; lra|apply Rabs_le; lra]).
  assert (D4 : Rabs (fv p - g * r) <= 8 * u64 * g + u64) by (rewrite Y4; apply Rle_trans with (1 := Rabs_triang _ _), Rplus_le_compat; [rewrite Rabs_mult, (Rabs_pos_eq (g * r)), (Rmult_comm _ g) by lra; apply Rmult_le_compat; try lra; apply Rabs_pos|apply Rabs_le; lra]). apply Rabs_le_inv in D3, D4.
  assert (UG : u64 * g <= / 8) by (rewrite u53; apply Rle_trans with (bpow radix2 (-53) * bpow radix2 50); [apply Rmult_le_compat_l; [apply bpow_ge_0|lra]|rewrite <- bpow_plus; change (bpow radix2 (-53 + 50)) with (/ 8); lra]). assert (UG0 : 0 <= u64 * g) by (apply Rmult_le_pos; lra).
  assert (D5 : Rabs (fv k - (1 - g)) <= 10 * u64 * g + 4 * u64).
  { rewrite Vk'. replace ((1 - fv y) * (1 + e1) - (1 - g)) with ((g - fv y) + (1 - fv y) * e1) by ring. apply Rle_trans with (1 := Rabs_triang _ _). apply Rle_trans with ((8 * u64 * g + u64) + (3 + 2 * g) * u64); [|lra]. apply Rplus_le_compat; [apply Rabs_le; lra|]. rewrite Rabs_mult. apply Rmult_le_compat; try apply Rabs_pos; apply Rabs_le; lra. }
  apply Rabs_le_inv in D5.
  assert (KP : -(5 + 3 * g) <= fv k + fv p <= 5 + 3 * g) by (split; lra).
  assert (DW : fv w - (1 - g * (1 - r)) = (fv k - (1 - g)) + (fv p - g * r) + (fv k + fv p) * e2) by (rewrite Vw, E2; ring).
  fold r. rewrite DW. assert (KE : Rabs ((fv k + fv p) * e2) <= (5 + 3 * g) * u64) by (rewrite Rabs_mult; apply Rmult_le_compat; try apply Rabs_pos; apply Rabs_le; lra). apply Rabs_le_inv in KE.
  apply Rabs_le. split; lra.
Qed.
Lemma ratio_near C T x L t : 0 <= C <= T -> 0 < T -> 0 <= t <= / 8 -> C * (1 - t) <= x <= C * (1 + 2 * t) -> T * (1 - t) <= L <= T * (1 + 2 * t) -> Rabs (x / L - C / T) <= 4 * t.
Proof.
  intros HC HT Ht Hx HL. assert (LP : 0 < L) by (apply Rlt_le_trans with (2 := proj1 HL); apply Rmult_lt_0_compat; lra). set (r := C / T). set (v := x / L). assert (EC : C = r * T) by (unfold r; field; lra). assert (EX : x = v * L) by (unfold v; field; lra).
  assert (Hr : 0 <= r <= 1) by (clear - HC HT EC; split; apply Rmult_le_reg_r with T; lra). clearbody r v. subst C x. assert (PV : 0 <= v) by (apply Rmult_le_reg_r with L; auto; apply Rle_trans with (2 := proj1 Hx); rewrite Rmult_0_l; apply Rmult_le_pos; lra).
  assert (A1 : v * (1 - t) <= r * (1 + 2 * t)).
  { apply Rmult_le_reg_r with T; auto. apply Rle_trans with (v * L); [rewrite Rmult_assoc; apply Rmult_le_compat_l; auto; lra|lra]. }
  assert (A2 : r * (1 - t) <= v * (1 + 2 * t)).
  { apply Rmult_le_reg_r with T; auto. apply Rle_trans with (v * L); [lra|]. rewrite Rmult_assoc. apply Rmult_le_compat_l; auto. lra. }
  clear - A1 A2 Hr Ht PV. apply Rabs_le. split; nra.
Qed.
Lemma total_prefix l i : amounts l -> 0 <= total (firstn i l) <= total l.
Proof.
  intro A. assert (E : total l = total (firstn i l) + total (skipn i l)) by (rewrite <- total_app, firstn_skipn; reflexivity). assert (A1 : amounts (firstn i l)) by (intros x Hx; apply A; rewrite <- (firstn_skipn i l); apply in_app_iff; auto). assert (A2 : amounts (skipn i l)) by (intros x Hx; apply A; rewrite <- (firstn_skipn i l); apply in_app_iff; auto).
  pose proof (total_nonneg A1). pose proof (total_nonneg A2). lra.
Qed.
(** time decay: sorted by time, in [0,1], rising with time, exactly 1 for the latest row and for no decay, and close to the exact piecewise linear weight *)
Theorem c172_decay uniq c : uniq <> [] -> (Z.of_nat (length uniq) <= 2 ^ 50)%Z -> amounts (map snd uniq) -> bpow radix2 (-400) <= total (map snd uniq) <= bpow radix2 400 ->
  fin c -> -1 + bpow radix2 (-50) <= fv c <= 1 ->
  exists rows ws, Permutation rows uniq /\ zsorted (map fst rows) /\ ftime_decay uniq c = Ok ws /\ map fst ws = map fst rows /\
    forall i w, nth_error (map snd ws) i = Some w ->
      fin w /\ 0 <= fv w <= 1 /\ (forall j v, nth_error (map snd ws) j = Some v -> (i <= j)%nat -> fv w <= fv v) /\ (S i = length ws -> fv w = 1) /\ (fv c = 1 -> fv w = 1) /\
      let share := total (firstn (S i) (map snd rows)) / total (map snd rows) in
      Rabs (fv w - Rmax 0 (1 - decay_rate (fv c) * (1 - share))) <= (4 * INR (length uniq) + 24) * u64 * (1 + decay_rate (fv c)).
Proof.
  intros NE LN A BT Fc Bc. set (rows := sort_index uniq). assert (PR : Permutation rows uniq) by apply sort_index_perm. set (us := map snd rows). set (n := length uniq) in *.
  assert (Lu : length us = n) by (unfold us; rewrite map_length; now apply Permutation_length). assert (PU : Permutation us (map snd uniq)) by (now apply Permutation_map). assert (ET : total us = total (map snd uniq)) by (apply rsum_perm, Permutation_map, PU).
  assert (Au : amounts us) by (intros x Hx; apply A; now apply (Permutation_in _ PU)). assert (N1 : (1 <= n)%nat) by (unfold n; destruct uniq; [congruence|cbn; lia]).
  destruct (growth LN) as (G1 & G2 & G3). pose proof u64_pos as U0. pose proof (pos_INR n) as PN. pose proof (bpow_gt_0 radix2 (-400)) as P400. set (t := INR n * u64) in *. assert (T0 : 0 <= t) by (unfold t; apply Rmult_le_pos; lra). rewrite <- ET in BT.
  assert (BB : bpow radix2 400 * 2 <= big) by (change (bpow radix2 400 * bpow radix2 1 <= big); rewrite <- bpow_plus; apply bpow_le; lia).
  destruct (@fcumsum_spec us Au) as [Lc Hc]; [rewrite Lu; apply Rle_trans with (2 := BB); apply Rmult_le_compat; try lra; pose proof (pow_hi_ge_1 n); lra|]. set (cum := fcumsum us) in *. rewrite Lu in Lc.
  destruct (nth_error cum (n - 1)) as [L|] eqn:EL; [|apply nth_error_None in EL; lia]. destruct (Hc _ _ EL) as (FL & PL & BL & _).
  assert (FN : firstn (n - 1 + 1) us = us) by (apply firstn_all2; lia). rewrite FN in BL.
  assert (PW : forall i, (i < n)%nat -> 1 - t <= (1 - u64) ^ i /\ (1 + u64) ^ i <= 1 + 2 * t) by (intros i Hi; split; [apply Rle_trans with (1 := G2), pow_lo_mono; lia|apply Rle_trans with (2 := G3), pow_hi_mono; lia]).
  assert (BL' : total us * (1 - t) <= fv L <= total us * (1 + 2 * t)).
  { destruct (PW (n - 1)%nat) as [W1 W2]; [lia|]. split; [apply Rle_trans with (2 := proj1 BL)|apply Rle_trans with (1 := proj2 BL)]; apply Rmult_le_compat_l; lra. }
  assert (RL : bpow radix2 (-401) <= fv L <= bpow radix2 401).
  { change (-401)%Z with (-400 + -1)%Z. change 401%Z with (400 + 1)%Z. rewrite !bpow_plus. change (bpow radix2 (-1)) with (/ 2). change (bpow radix2 1) with 2. split; [apply Rle_trans with (2 := proj1 BL')|apply Rle_trans with (1 := proj2 BL')]; apply Rmult_le_compat; lra. }
  destruct (slope_spec Fc FL RL Bc) as (Fs & Bs & BR & S1 & _). set (s := slope c L) in *. destruct fz0 as [F0 V0].
  set (pre := fun x => fadd (fsub (fz 1) (fmul s L)) (fmul s x)). set (clip := fun x => if flt (pre x) (fz 0) then fz 0 else pre x).
  assert (ED : ftime_decay uniq c = Ok (combine (map fst rows) (map clip cum))) by (unfold ftime_decay; fold rows us cum; rewrite (py_last_nth (x := L)) by (now rewrite Lc); reflexivity).
  destruct (@split_combine_fst _ _ (map fst rows) (map clip cum)) as [C1 C2]; [rewrite !map_length; rewrite Lc; unfold us in Lu; rewrite map_length in Lu; exact Lu|].
  exists rows, (combine (map fst rows) (map clip cum)). split; auto. split; [apply sort_index_sorted|]. split; auto. split; auto. rewrite C2.
  assert (ROW : forall i x, nth_error cum i = Some x -> fin x /\ 0 <= fv x <= fv L /\ fin (clip x) /\ fv (clip x) = Rmax 0 (fv (pre x))).
  { intros i x Ex. assert (Hi : (i < n)%nat) by (rewrite <- Lc; apply nth_error_Some; congruence). destruct (Hc _ _ Ex) as (Fx & Px & _ & Mx). assert (XL : fv x <= fv L) by (apply (Mx (n - 1)%nat); auto; lia).
    destruct (@decay_row c L x Fc FL Fx RL) as (Fw & _); auto. fold s in Fw. fold (pre x) in Fw. split; auto. split; auto. unfold clip. rewrite flt_bool, V0 by auto. destruct (Rlt_bool_spec (fv (pre x)) 0) as [N|N]; split; auto; [rewrite V0, Rmax_left; lra|rewrite Rmax_right; lra]. }
  intros i w Ew. rewrite nth_error_map in Ew. destruct (nth_error cum i) as [x|] eqn:Ex; [|discriminate]. cbn in Ew. injection Ew as <-.
  assert (Hi : (i < n)%nat) by (rewrite <- Lc; apply nth_error_Some; congruence). destruct (ROW _ _ Ex) as (Fx & Bx & Fw & Vw). destruct (@decay_row c L x Fc FL Fx RL) as (_ & Vp & P1 & PE & PD); auto. fold s in Vp, P1, PE, PD. fold (pre x) in Vp, P1, PE, PD.
  split; auto. rewrite Vw. split; [split; [apply Rmax_l|apply Rmax_lub; lra]|]. split; [|split; [|split]].
  - intros j v Ev Hj. rewrite nth_error_map in Ev. destruct (nth_error cum j) as [z|] eqn:Ez; [|discriminate]. cbn in Ev. injection Ev as <-. destruct (ROW _ _ Ez) as (Fz' & Bz & Fv' & Vv). rewrite Vv. apply Rle_max_compat_l. destruct (@decay_row c L z Fc FL Fz' RL) as (_ & Vq & _); auto. fold s in Vq. fold (pre z) in Vq. rewrite Vp, Vq.
    apply rnd64_mono, Rplus_le_compat_l, rnd64_mono, Rmult_le_compat_l; [lra|]. apply (Hc _ _ Ex) with j; auto.
  - intro E. rewrite combine_length, !map_length in E. assert (i = n - 1)%nat as -> by (unfold us in Lu; rewrite map_length in Lu; lia). rewrite EL in Ex. injection Ex as <-. rewrite PE by auto. apply Rmax_right. lra.
  - intro E. rewrite Vp, (S1 E), !Rmult_0_l, rnd64_0, Rminus_0_r, rnd64_1, Rplus_0_r, rnd64_1. apply Rmax_right. lra.
  - cbv zeta. assert (HR : Rabs (fv x / fv L - total (firstn (S i) us) / total us) <= 4 * t).
    { replace (S i) with (i + 1)%nat by lia. destruct (Hc _ _ Ex) as (_ & _ & Cx & _). destruct (PW i Hi) as [W1 W2]. destruct (@total_prefix us (i + 1)%nat Au) as [Q1 Q2]. apply ratio_near; auto; try lra. split; [apply Rle_trans with (2 := proj1 Cx)|apply Rle_trans with (1 := proj2 Cx)]; apply Rmult_le_compat_l; lra. }
    fold us. set (g := decay_rate (fv c)) in *. set (sh := total (firstn (S i) us) / total us) in *. apply Rabs_le_inv in HR. apply Rabs_le_inv in PD.
    assert (GD : - (g * (4 * t)) <= g * (fv x / fv L - sh) <= g * (4 * t)) by (split; [rewrite Ropp_mult_distr_r|]; apply Rmult_le_compat_l; lra). assert (GT : 0 <= g * t) by (apply Rmult_le_pos; lra).
    assert (EB : (4 * INR n + 24) * u64 * (1 + g) = 4 * t + 4 * (g * t) + 24 * u64 * (1 + g)) by (unfold t; ring). rewrite EB.
    apply Rabs_le. unfold Rmax. destruct (Rle_dec 0 (fv (pre x))), (Rle_dec 0 (1 - g * (1 - sh))); split; lra.
Qed.
Print Assumptions c172_decay.
Theorem c172_raises c : ftime_decay [] c = Err IndexError.
Proof. reflexivity. Qed.
Print Assumptions c172_raises.
(** half of the weight decays away: two events of uniqueness 1/2, the older at time 1 *)
Example c172_example : exists ws, ftime_decay [(2%Z, ff 1 (-1)); (1%Z, ff 1 (-1))] (fz 0) = Ok ws /\ map fst ws = [1%Z; 2%Z] /\ forallb (fun x => feq (fst x) (snd x)) (combine (map snd ws) [ff 1 (-1); fz 1]) = true.
Proof. eexists. split; [reflexivity|]. split; vm_compute; reflexivity. Qed.
Example c172_hypotheses : amounts (map snd [(2%Z, ff 1 (-1)); (1%Z, ff 1 (-1))]) /\ total (map snd [(2%Z, ff 1 (-1)); (1%Z, ff 1 (-1))]) = 1 /\ -1 + bpow radix2 (-50) <= fv (fz 0) <= 1.
Proof.
  destruct (@ff_exact 1 (-1)) as [F V]; [lia|lia|lia|]. change (bpow radix2 (-1)) with (/ 2) in V. destruct fz0 as [F0 V0]. split; [|split].
  - intros x [<-|[<-|[]]]; cbn [snd]; split; auto; rewrite V; lra.
  - unfold total. cbn [map rsum snd]. rewrite V. lra.
  - rewrite V0. assert (bpow radix2 (-50) <= 1) by (change 1 with (bpow radix2 0); apply bpow_le; lia). lra.
Qed.

(** ** C173 *)
Lemma rnd_abs x : 0 <= x <= 1 -> Rabs (rnd64 x - x) <= 2 * u64.
Proof.
  intro H. destruct (rnd_error_any x) as (e & h & He & Hh & ->). pose proof tiny_le. pose proof u64_pos. replace (x * (1 + e) + h - x) with (x * e + h) by ring. apply Rle_trans with (1 := Rabs_triang _ _). rewrite Rabs_mult, (Rabs_pos_eq x) by lra.
  assert (x * Rabs e <= 1 * u64) by (apply Rmult_le_compat; try lra; apply Rabs_pos). lra.
Qed.
Lemma fraction_order k n p d : (0 <= k <= n)%Z -> (0 < n <= 2 ^ 30)%Z -> (0 <= p <= d)%Z -> (0 < d <= 2 ^ 20)%Z -> (rnd64 (IZR p / IZR d) < rnd64 (IZR k / IZR n) <-> IZR p / IZR d < IZR k / IZR n).
Proof.
  intros K N P D. split; [intro H; apply Rnot_le_lt; intro C; apply rnd64_mono in C; lra|]. intro H.
  assert (N0 : 0 < IZR n) by (apply IZR_lt; lia). assert (D0 : 0 < IZR d) by (apply IZR_lt; lia).
  assert (R01 : forall a b, (0 <= a <= b)%Z -> (0 < b)%Z -> 0 <= IZR a / IZR b <= 1).
  { intros a b Ha Hb. assert (0 < IZR b) by (apply IZR_lt; lia). assert (E : IZR a / IZR b * IZR b = IZR a) by (field; lra). assert (0 <= IZR a <= IZR b) by (split; apply IZR_le; lia). split; apply Rmult_le_reg_r with (IZR b); lra. }
  assert (G : bpow radix2 (-50) <= IZR k / IZR n - IZR p / IZR d).
  { assert (E : IZR k / IZR n - IZR p / IZR d = IZR (k * d - p * n) * / (IZR n * IZR d)) by (rewrite minus_IZR, !mult_IZR; field; lra). assert (PP : 0 < IZR n * IZR d) by (now apply Rmult_lt_0_compat). assert (IP : 0 < / (IZR n * IZR d)) by (now apply Rinv_0_lt_compat).
    assert (Z : (1 <= k * d - p * n)%Z) by (assert (0 < k * d - p * n)%Z; [|lia]; apply lt_IZR; apply Rmult_lt_reg_r with (/ (IZR n * IZR d)); auto; rewrite <- E; lra). apply IZR_le in Z.
    rewrite E. apply Rle_trans with (1 * / (IZR n * IZR d)); [|apply Rmult_le_compat_r; lra]. rewrite Rmult_1_l. apply inv_ge with 50%Z; auto. replace (bpow radix2 50) with (IZR (2 ^ 30) * IZR (2 ^ 20)) by (rewrite <- mult_IZR; reflexivity). apply Rmult_le_compat; try lra; apply IZR_le; lia. }
  pose proof (rnd_abs (R01 k n K ltac:(lia))) as A. pose proof (rnd_abs (R01 p d P ltac:(lia))) as B. apply Rabs_le_inv in A, B. assert (U : bpow radix2 (-50) = 8 * u64) by (rewrite u53; change 8 with (bpow radix2 3); rewrite <- bpow_plus; reflexivity). pose proof u64_pos. lra.
Qed.
Lemma forallb_same X (f g : X -> bool) l : (forall x, In x l -> f x = g x) -> forallb f l = forallb g l.
Proof. induction l as [|x l IH]; intro H; auto. cbn. rewrite (H x), IH; auto; [intros; apply H; now right|now left]. Qed.
Section Rare.
  Variable A : Type.
  Variable tie : list Z -> Z.
  Lemma count_le z (rows : list (option Z * A)) : (count_label z rows <= n_labelled rows)%nat.
  Proof.
    unfold count_label, n_labelled, somes, label_is. induction rows as [|[[y|] a] rows IH]; cbn; auto. destruct (y =? z)%Z; cbn [length]; lia.
  Qed.
  Lemma labelled_le (rows : list (option Z * A)) : (n_labelled rows <= length rows)%nat.
  Proof. unfold n_labelled, somes in *. induction rows as [|[[y|] a] rows IH]; cbn in *; lia. Qed.
  Lemma share_order pct p d (rows : list (option Z * A)) z : (Z.of_nat (length rows) <= 2 ^ 30)%Z -> fin pct -> (0 <= p <= d)%Z -> (0 < d <= 2 ^ 20)%Z -> fv pct = rnd64 (IZR p / IZR d) -> In z (labels_of rows) ->
    flt pct (fshare rows z) = qlt (qz p / qz d)%Qc (share rows z).
  Proof.
    intros LN Fp P D V I. pose proof (count_le z rows) as C. pose proof (labelled_le rows) as L. assert (N0 : (0 < n_labelled rows)%nat).
    { apply labels_of_in in I. destruct I as (a & I). unfold n_labelled. clear - I. induction rows as [|[[y|] b] rows IH]; [destruct I|cbn; lia|]. destruct I as [I|I]; [discriminate|]. cbn. now apply IH. }
    destruct (@fz_spec (Z.of_nat (count_label z rows))) as [F1 V1]; [lia|]. destruct (@fz_spec (Z.of_nat (n_labelled rows))) as [F2 V2]; [lia|].
    assert (NP : 1 <= IZR (Z.of_nat (n_labelled rows))) by (apply IZR_le; lia). assert (CN : 0 <= IZR (Z.of_nat (count_label z rows)) <= IZR (Z.of_nat (n_labelled rows))) by (split; apply IZR_le; lia).
    assert (Q : 0 <= IZR (Z.of_nat (count_label z rows)) / IZR (Z.of_nat (n_labelled rows)) <= 1).
    { assert (E : IZR (Z.of_nat (count_label z rows)) / IZR (Z.of_nat (n_labelled rows)) * IZR (Z.of_nat (n_labelled rows)) = IZR (Z.of_nat (count_label z rows))) by (field; lra). split; apply Rmult_le_reg_r with (IZR (Z.of_nat (n_labelled rows))); lra. }
    destruct (@fdiv_spec (fz (Z.of_nat (count_label z rows))) (fz (Z.of_nat (n_labelled rows))) F1) as [F3 V3]; rewrite ?V1, ?V2; [lra|rewrite Rabs_pos_eq by lra; apply Rle_trans with 1; [lra|change 1 with (bpow radix2 0); apply bpow_le; lia]|]. rewrite V1, V2 in V3. fold (fshare rows z) in F3, V3.
    assert (QS : qr (share rows z) = IZR (Z.of_nat (count_label z rows)) / IZR (Z.of_nat (n_labelled rows))) by (unfold share, qn; rewrite qr_div, !qr_z; auto; intro E; apply (f_equal qr) in E; rewrite qr_z, qr_0 in E; lra).
    assert (QP : qr (qz p / qz d)%Qc = IZR p / IZR d) by (rewrite qr_div, !qr_z; auto; intro E; apply (f_equal qr) in E; rewrite qr_z, qr_0 in E; apply eq_IZR in E; lia).
    assert (O : rnd64 (IZR p / IZR d) < rnd64 (IZR (Z.of_nat (count_label z rows)) / IZR (Z.of_nat (n_labelled rows))) <-> IZR p / IZR d < IZR (Z.of_nat (count_label z rows)) / IZR (Z.of_nat (n_labelled rows))) by (apply fraction_order; lia).
    rewrite <- V, <- V3, <- QS, <- QP, <- qr_lt in O. destruct (qlt (qz p / qz d) (share rows z)) eqn:E.
    - apply qlt_iff in E. apply flt_spec; auto. now apply O.
    - apply qlt_false in E. destruct (flt pct (fshare rows z)) eqn:E'; auto. apply flt_spec in E'; auto. apply O in E'. exfalso. exact (Qcle_not_lt _ _ E E').
  Qed.
  (** with a threshold written as a fraction (as a decimal is), rounding changes no decision *)
  Theorem c173_rare pct p d min_classes (rows : list (option Z * A)) : (Z.of_nat (length rows) <= 2 ^ 30)%Z -> fin pct -> (0 <= p <= d)%Z -> (0 < d <= 2 ^ 20)%Z -> fv pct = rnd64 (IZR p / IZR d) ->
    fdrop_rare_labels tie pct min_classes rows = drop_rare_labels tie (qz p / qz d)%Qc min_classes rows.
  Proof.
    intros LN Fp P D V. unfold fdrop_rare_labels, drop_rare_labels. assert (G : forall fuel (rows0 : list (option Z * A)), (Z.of_nat (length rows0) <= 2 ^ 30)%Z -> fdrop_rare tie fuel pct min_classes rows0 = drop_rare tie fuel (qz p / qz d)%Qc min_classes rows0); [clear rows LN|now apply G]. intro fuel. induction fuel as [|fuel IH]; intros rows LN; cbn [fdrop_rare drop_rare].
    all: assert (E : forallb (fun z => flt pct (fshare rows z)) (labels_of rows) = forallb (fun z => qlt (qz p / qz d) (share rows z)) (labels_of rows)) by (apply forallb_same; intros z Hz; now apply (@share_order pct p d)).
    all: cbv zeta; rewrite E; destruct (negb (length (labels_of rows) =? 0)%nat && forallb (fun z => qlt (qz p / qz d) (share rows z)) (labels_of rows) || (length (labels_of rows) <=? min_classes)%nat); auto.
    apply IH. assert (length (filter (fun r => negb (label_is (rarest tie rows) r)) rows) <= length rows)%nat; [|lia]. generalize (fun r : option Z * A => negb (label_is (rarest tie rows) r)). intro f. clear. induction rows as [|r rows IH]; cbn; auto. destruct (f r); cbn; lia.
  Qed.
End Rare.
Print Assumptions c173_rare.
(** a twentieth, as the default 0.05: the hypotheses hold *)
Example c173_example : fin (ff 3602879701896397 (-56)) /\ fv (ff 3602879701896397 (-56)) = rnd64 (IZR 1 / IZR 20).
Proof.
  destruct (@ff_exact 3602879701896397 (-56)) as [F V]; [lia|lia|lia|]. split; auto. destruct (@fz_spec 1) as [F1 V1]; [lia|]. destruct (@fz_spec 20) as [F2 V2]; [lia|].
  destruct (@fdiv_spec (fz 1) (fz 20) F1) as [F3 V3]; rewrite ?V1, ?V2; [lra|rewrite Rabs_pos_eq by lra; apply Rle_trans with 1; [lra|change 1 with (bpow radix2 0); apply bpow_le; lia]|]. rewrite V1, V2 in V3. rewrite <- V3. apply feq_spec; auto; vm_compute; reflexivity.
Qed.

(** ** C174, C175 *)
Lemma sum_share (f : f64 -> f64) l T e h : 0 < T -> 0 <= e -> total l = T -> amounts l -> (forall x, In x l -> Rabs (fv (f x) - fv x / T) <= e * (fv x / T) + h) -> Rabs (rsum (map fv (map f l)) - 1) <= e + INR (length l) * h.
Proof.
  intros HT He ET A H. assert (G : Rabs (rsum (map fv (map f l)) - total l / T) <= e * (total l / T) + INR (length l) * h).
  { clear ET. induction l as [|x l IH]; [cbn; unfold total; cbn; unfold Rdiv; rewrite !Rmult_0_l, Rminus_0_r, Rabs_R0; lra|]. rewrite map_cons, map_cons. unfold total in *. cbn [map rsum length]. rewrite S_INR. assert (A' : amounts l) by (intros y Hy; apply A; now right).
    specialize (IH A' (fun y Hy => H y (or_intror Hy))). pose proof (H x (or_introl eq_refl)) as Hx. apply Rabs_le_inv in IH, Hx. unfold Rdiv in *. rewrite Rmult_plus_distr_r. apply Rabs_le. split; lra. }
  rewrite ET in G. replace (T / T) with 1 in G by (field; lra). lra.
Qed.
Lemma sum_scaled (f : f64 -> f64) l T n e h : 0 < T -> total l = T -> amounts l -> (forall x, In x l -> Rabs (fv (f x) - n * (fv x / T)) <= e * (n * (fv x / T)) + h) -> Rabs (rsum (map fv (map f l)) - n) <= e * n + INR (length l) * h.
Proof.
  intros HT ET A H. assert (G : Rabs (rsum (map fv (map f l)) - n * (total l / T)) <= e * (n * (total l / T)) + INR (length l) * h).
  { clear ET. induction l as [|x l IH]; [cbn; unfold total; cbn; unfold Rdiv; rewrite !Rmult_0_l, !Rmult_0_r, Rminus_0_r, Rabs_R0; lra|]. rewrite map_cons, map_cons. unfold total in *. cbn [map rsum length]. rewrite S_INR. assert (A' : amounts l) by (intros y Hy; apply A; now right).
    specialize (IH A' (fun y Hy => H y (or_intror Hy))). pose proof (H x (or_introl eq_refl)) as Hx. apply Rabs_le_inv in IH, Hx. unfold Rdiv in *. rewrite Rmult_plus_distr_r, !Rmult_plus_distr_l. apply Rabs_le. split; lra. }
  rewrite ET in G. replace (T / T) with 1 in G by (field; lra). rewrite !Rmult_1_r in G. lra.
Qed.
Lemma elem_le_total l x : amounts l -> In x l -> fv x <= total l.
Proof.
  intros A I. apply in_split in I. destruct I as (a & b & ->). rewrite total_app. assert (A1 : amounts a) by (intros y Hy; apply A, in_app_iff; auto). assert (A2 : amounts b) by (intros y Hy; apply A, in_app_iff; right; now right).
  pose proof (total_nonneg A1). pose proof (total_nonneg A2). unfold total in *. cbn [map rsum]. lra.
Qed.
Lemma sum_total sum l : is_sum sum -> (Z.of_nat (length l) <= 2 ^ 50)%Z -> amounts l -> bpow radix2 (-400) <= total l <= bpow radix2 400 ->
  let t := INR (length l) * u64 in fin (sum l) /\ total l * (1 - t) <= fv (sum l) <= total l * (1 + 2 * t).
Proof.
  intros SU LN A BT t. destruct (SU l) as (tr & -> & P & Dp). destruct (growth LN) as (G1 & G2 & G3). fold t in G1, G2, G3. assert (E : total (leaves tr) = total l) by (apply rsum_perm, Permutation_map, P). pose proof (bpow_gt_0 radix2 (-400)) as P4.
  assert (W : 1 - t <= (1 - u64) ^ depth tr /\ (1 + u64) ^ depth tr <= 1 + 2 * t) by (split; [apply Rle_trans with (1 := G2), pow_lo_mono; auto|apply Rle_trans with (2 := G3), pow_hi_mono; auto]).
  assert (BB : bpow radix2 400 * 2 <= big) by (change (bpow radix2 400 * bpow radix2 1 <= big); rewrite <- bpow_plus; apply bpow_le; lia). pose proof (pow_hi_ge_1 (depth tr)) as H1.
  destruct (@seval_bounds tr) as [F B]; [intros x Hx; apply A; now apply (Permutation_in _ P)|rewrite E; apply Rle_trans with (2 := BB); apply Rmult_le_compat; lra|]. rewrite E in B. split; auto.
  split; [apply Rle_trans with (2 := proj1 B)|apply Rle_trans with (1 := proj2 B)]; apply Rmult_le_compat_l; lra.
Qed.
Lemma share_near T s t x : 0 < T -> 0 <= t <= / 8 -> T * (1 - t) <= s <= T * (1 + 2 * t) -> 0 <= x -> Rabs (x / s - x / T) <= 2 * t * (x / T).
Proof.
  intros HT Ht Hs Hx. assert (SP : 0 < s) by (apply Rlt_le_trans with (2 := proj1 Hs); apply Rmult_lt_0_compat; lra). assert (E : x / s - x / T = x / T * ((T - s) / s)) by (field; lra). assert (XT : 0 <= x / T) by (apply Rmult_le_pos; auto; now apply Rlt_le, Rinv_0_lt_compat).
  rewrite E, Rabs_mult, (Rabs_pos_eq (x / T)), Rmult_comm by auto. apply Rmult_le_compat_r; auto. set (r := (T - s) / s). assert (Er : r * s = T - s) by (unfold r; field; lra). clearbody r. clear - Er HT Ht Hs SP. apply Rabs_le. split; apply Rmult_le_reg_r with s; auto; rewrite Er; nra.
Qed.
(** the probabilities of the sequential bootstrap: proportional to the uniqueness, and their exact sum is 1 up to 4n roundings - far within the tolerance 2^-26 of np.random.choice *)
Theorem c174_probs sum l : is_sum sum -> l <> [] -> (Z.of_nat (length l) <= 2 ^ 50)%Z -> amounts l -> bpow radix2 (-400) <= total l <= bpow radix2 400 ->
  let n := INR (length l) in
  length (fprobs sum l) = length l /\ Rabs (total (fprobs sum l) - 1) <= 4 * n * u64 /\
  forall i x, nth_error l i = Some x -> exists p, nth_error (fprobs sum l) i = Some p /\ fin p /\ 0 <= fv p /\ Rabs (fv p - fv x / total l) <= 7 / 2 * n * u64 * (fv x / total l) + bpow radix2 (-1075).
Proof.
  intros SU NE LN A BT n. pose proof (fun x => @elem_le_total l x A) as XT. destruct (sum_total SU LN A BT) as [Fs Bs]. destruct (growth LN) as (G1 & _ & _). fold n in G1, Bs. set (t := n * u64) in *. pose proof u64_pos as U0. pose proof u64_small as U1. pose proof (bpow_gt_0 radix2 (-400)) as P4. set (T := total l) in *.
  assert (N1 : 1 <= n) by (unfold n; change 1 with (INR 1); apply le_INR; destruct l; [congruence|cbn; lia]). assert (UT : u64 <= t) by (unfold t; rewrite <- (Rmult_1_l u64) at 1; apply Rmult_le_compat_r; lra).
  assert (SP : bpow radix2 (-401) <= fv (sum l)) by (apply Rle_trans with (2 := proj1 Bs); change (-401)%Z with (-400 + -1)%Z; rewrite bpow_plus; change (bpow radix2 (-1)) with (/ 2); apply Rmult_le_compat; lra). pose proof (bpow_gt_0 radix2 (-401)) as P5.
  assert (ONE : forall x, In x l -> fin (fdiv x (sum l)) /\ 0 <= fv (fdiv x (sum l)) /\ Rabs (fv (fdiv x (sum l)) - fv x / T) <= 7 / 2 * t * (fv x / T) + bpow radix2 (-1075)).
  { intros x Hx. destruct (A x Hx) as [Fx Px]. assert (Q0 : 0 <= fv x / fv (sum l)) by (apply Rmult_le_pos; auto; apply Rlt_le, Rinv_0_lt_compat; lra). assert (XT0 : 0 <= fv x / T <= 1) by (split; [apply Rmult_le_pos; auto; apply Rlt_le, Rinv_0_lt_compat; lra|apply Rmult_le_reg_r with T; [lra|]; replace (fv x / T * T) with (fv x) by (field; lra); rewrite Rmult_1_l; apply XT; auto]).
    assert (SN : Rabs (fv x / fv (sum l) - fv x / T) <= 2 * t * (fv x / T)) by (apply share_near; auto; lra). pose proof (Rabs_le_inv _ _ SN) as SN'. assert (TX : 0 <= t * (fv x / T) <= / 8) by (split; [apply Rmult_le_pos; lra|replace (/ 8) with (/ 8 * 1) by ring; apply Rmult_le_compat; lra]).
    destruct (@fdiv_spec x (sum l) Fx) as [F V]; [lra|rewrite Rabs_pos_eq by auto; apply Rle_trans with 2; [lra|change 2 with (bpow radix2 1) at 1; apply bpow_le; lia]|]. split; auto. rewrite V. split; [rewrite <- rnd64_0; now apply rnd64_mono|].
    destruct (rnd_error_any (fv x / fv (sum l))) as (e & h & He & Hh & ->). replace (fv x / fv (sum l) * (1 + e) + h - fv x / T) with ((fv x / fv (sum l) - fv x / T) + fv x / fv (sum l) * e + h) by ring.
    assert (K : Rabs (fv x / fv (sum l) * e) <= 5 / 4 * (t * (fv x / T))).
    { rewrite Rabs_mult, (Rabs_pos_eq (fv x / fv (sum l))) by auto. apply Rle_trans with ((5 / 4 * (fv x / T)) * t); [|lra]. apply Rmult_le_compat; auto using Rabs_pos; [|lra]. assert (t * (fv x / T) <= / 8 * (fv x / T)) by (apply Rmult_le_compat_r; lra). lra. }
    apply Rabs_le_inv in K, Hh. apply Rabs_le. split; lra. }
  unfold fprobs. cbv zeta. split; [apply map_length|]. split.
  - unfold total. apply Rle_trans with (7 / 2 * t + INR (length l) * bpow radix2 (-1075)).
    + apply sum_share with T; auto; try lra. intros x Hx. apply ONE; auto.
    + fold n. assert (n * bpow radix2 (-1075) <= n * (/ 1024 * u64)) by (apply Rmult_le_compat_l; [lra|apply tiny_le]). unfold t in *. lra.
  - intros i x Ex. exists (fdiv x (sum l)). rewrite nth_error_map, Ex. split; auto. destruct (ONE x) as (O1 & O2 & O3); [now apply nth_error_In in Ex|]. split; auto. split; auto. rewrite (Rmult_assoc (7 / 2) n u64). exact O3.
Qed.
Print Assumptions c174_probs.
Corollary c174_accepted sum l : is_sum sum -> l <> [] -> (Z.of_nat (length l) <= 2 ^ 24)%Z -> amounts l -> bpow radix2 (-400) <= total l <= bpow radix2 400 -> Rabs (total (fprobs sum l) - 1) <= bpow radix2 (-27).
Proof.
  intros SU NE LN A BT. destruct (@c174_probs sum l SU NE ltac:(lia) A BT) as (_ & H & _). eapply Rle_trans; [exact H|]. rewrite u53. assert (INR (length l) <= bpow radix2 24) by (rewrite INR_IZR_INZ; change (bpow radix2 24) with (IZR (2 ^ 24)); now apply IZR_le).
  replace (bpow radix2 (-27)) with (4 * bpow radix2 24 * bpow radix2 (-53)) by (change 4 with (bpow radix2 2); rewrite <- !bpow_plus; reflexivity). apply Rmult_le_compat_r; [apply bpow_ge_0|lra].
Qed.
Print Assumptions c174_accepted.
(** weights by return attribution: not negative, proportional to the attributed returns, and adding up to the number of events *)
Theorem c175_normalized sum l : is_sum sum -> l <> [] -> (Z.of_nat (length l) <= 2 ^ 50)%Z -> amounts l -> bpow radix2 (-400) <= total l <= bpow radix2 400 ->
  let n := INR (length l) in
  length (fnormalize sum l) = length l /\ Rabs (total (fnormalize sum l) / n - 1) <= 7 * n * u64 /\
  forall i x, nth_error l i = Some x -> exists w, nth_error (fnormalize sum l) i = Some w /\ fin w /\ 0 <= fv w /\ Rabs (fv w - n * (fv x / total l)) <= 6 * n * u64 * (n * (fv x / total l)) + bpow radix2 (-1075).
Proof.
  intros SU NE LN A BT n. pose proof (fun x => @elem_le_total l x A) as XT. destruct (sum_total SU LN A BT) as [Fs Bs]. destruct (growth LN) as (G1 & _ & _). fold n in G1, Bs. set (t := n * u64) in *. pose proof u64_pos as U0. pose proof u64_small as U1. pose proof (bpow_gt_0 radix2 (-400)) as P4. set (T := total l) in *.
  assert (N1 : 1 <= n) by (unfold n; change 1 with (INR 1); apply le_INR; destruct l; [congruence|cbn; lia]). assert (UT : u64 <= t) by (unfold t; rewrite <- (Rmult_1_l u64) at 1; apply Rmult_le_compat_r; lra).
  assert (N50 : n <= bpow radix2 50) by (unfold n; rewrite INR_IZR_INZ; change (bpow radix2 50) with (IZR (2 ^ 50)); now apply IZR_le).
  assert (SP : bpow radix2 (-401) <= fv (sum l)) by (apply Rle_trans with (2 := proj1 Bs); change (-401)%Z with (-400 + -1)%Z; rewrite bpow_plus; change (bpow radix2 (-1)) with (/ 2); apply Rmult_le_compat; lra). pose proof (bpow_gt_0 radix2 (-401)) as P5.
  assert (SU' : fv (sum l) <= bpow radix2 401) by (apply Rle_trans with (1 := proj2 Bs); change 401%Z with (400 + 1)%Z; rewrite bpow_plus; change (bpow radix2 1) with 2; apply Rmult_le_compat; lra).
  assert (I1 : / fv (sum l) <= bpow radix2 401) by (apply inv_le with (-401)%Z; auto). assert (I2 : bpow radix2 (-401) <= / fv (sum l)) by (apply inv_ge with 401%Z; auto; lra).
  destruct (@fz_spec (Z.of_nat (length l))) as [Fn Vn]; [lia|]. rewrite <- INR_IZR_INZ in Vn. fold n in Vn. set (s := sum l) in *.
  assert (BQ : bpow radix2 (-401) <= n / fv s <= bpow radix2 451).
  { unfold Rdiv. split; [rewrite <- (Rmult_1_l (bpow radix2 (-401))); apply Rmult_le_compat; lra|]. change 451%Z with (50 + 401)%Z. rewrite bpow_plus. apply Rmult_le_compat; lra. }
  destruct (@fdiv_spec (fz (Z.of_nat (length l))) s Fn) as [Fk Vk]; rewrite ?Vn; [lra|rewrite Rabs_pos_eq by lra; apply Rle_trans with (1 := proj2 BQ), bpow_le; lia|]. rewrite Vn in Vk. destruct (@rel_rnd (n / fv s)) as (e1 & He1 & E1); [apply Rle_trans with (2 := proj1 BQ), bpow_le; lia|]. rewrite E1 in Vk. set (k := fdiv (fz (Z.of_nat (length l))) s) in *. pose proof (Rabs_le_inv _ _ He1) as He1'.
  assert (ONE : forall x, In x l -> fin (fmul x k) /\ 0 <= fv (fmul x k) /\ Rabs (fv (fmul x k) - n * (fv x / T)) <= 6 * t * (n * (fv x / T)) + bpow radix2 (-1075)).
  { intros x Hx. destruct (A x Hx) as [Fx Px]. assert (XT0 : 0 <= fv x / T <= 1) by (split; [apply Rmult_le_pos; auto; apply Rlt_le, Rinv_0_lt_compat; lra|apply Rmult_le_reg_r with T; [lra|]; replace (fv x / T * T) with (fv x) by (field; lra); rewrite Rmult_1_l; apply XT; auto]).
    assert (SN : Rabs (fv x / fv s - fv x / T) <= 2 * t * (fv x / T)) by (apply share_near; auto; lra). set (r := fv x / T) in *.
    assert (EP : fv x * fv k = n * (fv x / fv s) * (1 + e1)) by (rewrite Vk; unfold Rdiv; ring). assert (TR : 0 <= t * r <= / 8 * r) by (split; [apply Rmult_le_pos; lra|apply Rmult_le_compat_r; lra]).
    apply Rabs_le_inv in SN. set (v := fv x / fv s) in *. assert (V0 : 0 <= v <= 5 / 4 * r) by lra.
    assert (B1 : 0 <= fv x * fv k <= 2 * (n * r)).
    { rewrite EP. split; [repeat apply Rmult_le_pos; lra|]. replace (2 * (n * r)) with (n * (5 / 4 * r) * (8 / 5)) by field. apply Rmult_le_compat; try lra; [apply Rmult_le_pos; lra|apply Rmult_le_compat_l; lra]. }
    assert (NR : 0 <= n * r <= bpow radix2 50) by (split; [apply Rmult_le_pos; lra|replace (bpow radix2 50) with (bpow radix2 50 * 1) by ring; apply Rmult_le_compat; lra]). assert (BG : 2 * bpow radix2 50 <= big) by (change (bpow radix2 1 * bpow radix2 50 <= big); rewrite <- bpow_plus; apply bpow_le; lia).
    destruct (@fmul_spec x k Fx Fk) as [F V]; [rewrite Rabs_pos_eq; lra|]. split; auto. rewrite V. split; [rewrite <- rnd64_0; apply rnd64_mono; lra|].
    destruct (rnd_error_any (fv x * fv k)) as (e2 & h & He2 & Hh & ->). rewrite EP. set (z := (1 + e1) * (1 + e2) - 1). assert (HZ : Rabs z <= 3 * u64) by (unfold z; replace 3 with (1 + 1 + 1) by ring; apply mul1; try lra; rewrite Rmult_1_l; auto).
    replace (n * v * (1 + e1) * (1 + e2) + h - n * r) with (n * (v - r + v * z) + h) by (unfold z; ring). apply Rle_trans with (1 := Rabs_triang _ _), Rplus_le_compat; [|exact Hh]. rewrite Rabs_mult, (Rabs_pos_eq n) by lra. replace (6 * t * (n * r)) with (n * (6 * (t * r))) by ring. apply Rmult_le_compat_l; [lra|].
    assert (VZ : Rabs (v * z) <= 15 / 4 * (t * r)) by (rewrite Rabs_mult, (Rabs_pos_eq v) by lra; replace (15 / 4 * (t * r)) with (5 / 4 * r * (3 * t)) by field; apply Rmult_le_compat; try lra; apply Rabs_pos).
    apply Rabs_le_inv in VZ. apply Rabs_le. lra. }
  unfold fnormalize. cbv zeta. fold s k. split; [apply map_length|]. split.
  - pose proof (bpow_gt_0 radix2 (-1075)) as TP. pose proof (@sum_scaled (fun x => fmul x k) l T n (6 * t) (bpow radix2 (-1075)) ltac:(lra) eq_refl A (fun x Hx => proj2 (proj2 (ONE x Hx)))) as SS. fold n in SS. unfold total. set (W := rsum _) in *.
    replace (W / n - 1) with ((W - n) * / n) by (field; lra). rewrite Rabs_mult, (Rabs_pos_eq (/ n)) by (apply Rlt_le, Rinv_0_lt_compat; lra). apply Rmult_le_reg_r with n; [lra|]. rewrite Rmult_assoc, Rinv_l, Rmult_1_r by lra. apply Rle_trans with (1 := SS). pose proof tiny_le as TL.
    assert (n * bpow radix2 (-1075) <= t * n) by (rewrite (Rmult_comm t); apply Rmult_le_compat_l; lra). replace (7 * n * u64 * n) with (7 * (t * n)) by (unfold t; ring). lra.
  - intros i x Ex. exists (fmul x k). rewrite nth_error_map, Ex. split; auto. destruct (ONE x) as (O1 & O2 & O3); [now apply nth_error_In in Ex|]. split; auto. split; auto. rewrite (Rmult_assoc 6 n u64). exact O3.
Qed.
Print Assumptions c175_normalized.

Example c174_example : let l := map fz [1; 2; 5]%Z in total l = 8 /\ amounts l /\ map (fun p => feq p (ff 1 (-3))) (fprobs fsum_left l) = [true; false; false] /\ forallb (fun p => match p with (a, b) => feq a b end) (combine (fprobs fsum_left l) [ff 1 (-3); ff 1 (-2); ff 5 (-3)]) = true.
Proof.
  cbv zeta. split; [|split; [|split; vm_compute; reflexivity]].
  - unfold total. cbn [map rsum]. rewrite !(fun m H => proj2 (@fz_spec m H)) by (cbn; lia). lra.
  - intros x Hx. cbn [map] in Hx. destruct Hx as [<-|[<-|[<-|[]]]]; (split; [apply fz_spec; cbn; lia|rewrite (fun m H => proj2 (@fz_spec m H)) by (cbn; lia); lra]).
Qed.
(** three events whose attributed returns are 1, 2 and 5: the factor 3/8 is exact, the weights are 3/8, 6/8 and 15/8 *)
Example c175_example : forallb (fun p => match p with (a, b) => feq a b end) (combine (fnormalize fsum_left (map fz [1; 2; 5]%Z)) [ff 3 (-3); ff 3 (-2); ff 15 (-3)]) = true /\ length (fnormalize fsum_left (map fz [1; 2; 5]%Z)) = 3%nat.
Proof. split; vm_compute; reflexivity. Qed.
