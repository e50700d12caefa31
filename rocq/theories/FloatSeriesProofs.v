(** Rounding errors of powers, exponentially weighted averages, differencing weights and the CUSUM accumulators. *)
From Coq Require Import ZArith Reals Lra Lia List.
From Flocq Require Import Core BinarySingleNaN.
From Verif Require Import RNum Float64 FloatBarsModel FloatBarsProofs FloatHRPProofs FloatRetModel FloatRetProps FloatSeriesModel.
Import ListNotations.
Set Implicit Arguments.
Unset Strict Implicit.
Open Scope R_scope.

Lemma eta_pos : 0 < eta64. Proof. apply bpow_gt_0. Qed.
Lemma eta_u : eta64 <= u64 * bpow radix2 (-1000).
Proof. unfold eta64, ulp64. rewrite <- bpow_plus. apply bpow_le. lia. Qed.
Lemma eta_le_u : eta64 <= u64.
Proof. unfold eta64, ulp64. apply bpow_le. lia. Qed.
Lemma rnd_abs_err x : Rabs (rnd64 x - x) <= u64 * Rabs x + eta64.
Proof.
  destruct (rnd_error_any x) as (e & h & He & Hh & ->). replace (x * (1 + e) + h - x) with (x * e + h) by ring. apply Rle_trans with (1 := Rabs_triang _ _).
  rewrite Rabs_mult. pose proof (Rabs_pos x). nra.
Qed.
Lemma add_abs_err x y : format64 x -> format64 y -> Rabs (rnd64 (x + y) - (x + y)) <= u64 * Rabs (x + y).
Proof.
  intros Fx Fy. destruct (add_error Fx Fy) as (e & He & ->). replace ((x + y) * (1 + e) - (x + y)) with ((x + y) * e) by ring. rewrite Rabs_mult. pose proof (Rabs_pos (x + y)). nra.
Qed.
Lemma sub_abs_err x y : format64 x -> format64 y -> Rabs (rnd64 (x - y) - (x - y)) <= u64 * Rabs (x - y).
Proof. intros Fx Fy. apply (@add_abs_err x (- y) Fx). now apply generic_format_opp. Qed.
Lemma big_1 : 1 <= big. Proof. change 1 with (bpow radix2 0). apply bpow_le. lia. Qed.
Lemma unit_mul x y : fin x -> fin y -> 0 <= fv x <= 1 -> 0 <= fv y <= 1 -> fin (fmul x y) /\ 0 <= fv (fmul x y) <= 1 /\ Rabs (fv (fmul x y) - fv x * fv y) <= u64 + eta64.
Proof.
  intros Fx Fy Hx Hy. assert (B : 0 <= fv x * fv y <= 1) by nra. pose proof big_1. destruct (@fmul_spec x y Fx Fy) as [F V]; [rewrite Rabs_pos_eq; lra|]. split; auto. rewrite V. split.
  - apply rnd64_01. lra.
  - apply Rle_trans with (1 := rnd_abs_err _). rewrite Rabs_pos_eq by lra. pose proof u64_pos. nra.
Qed.

(** ** Square and multiply *)
Definition pe : R := u64 + eta64.
Lemma pe_pos : 0 < pe. Proof. unfold pe. pose proof u64_pos. pose proof eta_pos. lra. Qed.
Lemma fpow_pos_spec p : forall a r A R0 k m, fin a -> fin r -> 0 <= fv a <= 1 -> 0 <= fv r <= 1 -> 0 <= A <= 1 -> 0 <= R0 <= 1 -> 1 <= k -> 0 <= m ->
  Rabs (fv a - A) <= (k - 1) * pe -> Rabs (fv r - R0) <= m * pe ->
  fin (fpow_pos a r p) /\ 0 <= fv (fpow_pos a r p) <= 1 /\ Rabs (fv (fpow_pos a r p) - R0 * A ^ Pos.to_nat p) <= (m + k * INR (Pos.to_nat p)) * pe.
Proof.
  pose proof pe_pos as PP.
  assert (MUL : forall x y X Y i j, fin x -> fin y -> 0 <= fv x <= 1 -> 0 <= fv y <= 1 -> 0 <= X <= 1 -> 0 <= Y <= 1 -> Rabs (fv x - X) <= i * pe -> Rabs (fv y - Y) <= j * pe ->
    fin (fmul x y) /\ 0 <= fv (fmul x y) <= 1 /\ Rabs (fv (fmul x y) - X * Y) <= (i + j + 1) * pe).
  { intros x y X Y i j Fx Fy Hx Hy HX HY Ex Ey. destruct (unit_mul Fx Fy Hx Hy) as (F & B & E). split; auto. split; auto. fold pe in E.
    replace (fv (fmul x y) - X * Y) with ((fv (fmul x y) - fv x * fv y) + fv y * (fv x - X) + X * (fv y - Y)) by ring.
    apply Rle_trans with (1 := Rabs_triang _ _). apply Rle_trans with (pe + i * pe + j * pe); [|lra]. apply Rplus_le_compat.
    - apply Rle_trans with (1 := Rabs_triang _ _). apply Rplus_le_compat; auto. rewrite Rabs_mult, (Rabs_pos_eq (fv y)) by lra. pose proof (Rabs_pos (fv x - X)). nra.
    - rewrite Rabs_mult, (Rabs_pos_eq X) by lra. pose proof (Rabs_pos (fv y - Y)). nra. }
  induction p as [p IH|p IH|]; intros a r A R0 k m Fa Fr Ba Br BA BR Hk Hm Ea Er; cbn [fpow_pos].
  - destruct (MUL a a A A _ _ Fa Fa Ba Ba BA BA Ea Ea) as (F2 & B2 & E2). destruct (MUL r a R0 A _ _ Fr Fa Br Ba BR BA Er Ea) as (F3 & B3 & E3).
    destruct (IH (fmul a a) (fmul r a) (A * A) (R0 * A) (2 * k) (m + k)) as (F & B & E); auto; try nra.
    split; auto. split; auto. rewrite Pos2Nat.inj_xI. replace (A ^ S (2 * Pos.to_nat p)) with (A * (A * A) ^ Pos.to_nat p) by (cbn [pow]; rewrite pow_mult; cbn [pow]; now rewrite Rmult_1_r).
    rewrite S_INR, mult_INR. change (INR 2) with 2. rewrite <- Rmult_assoc. replace (m + k * (2 * INR (Pos.to_nat p) + 1)) with (m + k + 2 * k * INR (Pos.to_nat p)) by ring. exact E.
  - destruct (MUL a a A A _ _ Fa Fa Ba Ba BA BA Ea Ea) as (F2 & B2 & E2).
    destruct (IH (fmul a a) r (A * A) R0 (2 * k) m) as (F & B & E); auto; try nra.
    split; auto. split; auto. rewrite Pos2Nat.inj_xO. rewrite pow_mult. replace (A ^ 2) with (A * A) by ring.
    rewrite mult_INR. change (INR 2) with 2. replace (m + k * (2 * INR (Pos.to_nat p))) with (m + 2 * k * INR (Pos.to_nat p)) by ring. exact E.
  - destruct (MUL r a R0 A _ _ Fr Fa Br Ba BR BA Er Ea) as (F3 & B3 & E3). change (Pos.to_nat 1) with 1%nat. cbn [pow INR]. rewrite Rmult_1_r. split; auto. split; auto.
    replace (m + k * 1) with (m + (k - 1) + 1) by ring. exact E3.
Qed.
Lemma fpow_spec a i : fin a -> 0 <= fv a <= 1 -> fin (fpow a i) /\ 0 <= fv (fpow a i) <= 1 /\ Rabs (fv (fpow a i) - fv a ^ i) <= INR i * pe.
Proof.
  intros Fa Ba. unfold fpow. destruct (@fz_spec 1 ltac:(lia)) as [F1 V1]. destruct (N.of_nat i) as [|p] eqn:E.
  - assert (i = 0)%nat by lia. subst i. cbn [pow INR]. rewrite V1. split; auto. split; [lra|]. replace (1 - 1) with 0 by ring. rewrite Rabs_R0. lra.
  - assert (EI : Pos.to_nat p = i) by lia. destruct (@fpow_pos_spec p a (fz 1) (fv a) 1 1 0) as (F & B & H); auto; try lra.
    + replace (fv a - fv a) with 0 by ring. rewrite Rabs_R0. lra.
    + rewrite V1. replace (1 - 1) with 0 by ring. rewrite Rabs_R0. lra.
    + split; auto. split; auto. rewrite EI in H. replace (0 + 1 * INR i) with (INR i) in H by ring. rewrite Rmult_1_l in H. exact H.
Qed.

(** ** The exponentially weighted average *)
(** weighted sum of the values up to index i, and sum of the weights *)
Definition ew_sum (d : R) (xs : list R) (i : nat) : R := rsum (map (fun j => d ^ (i - j) * nth j xs 0) (seq 0 (S i))).
Definition ew_weight (d : R) (i : nat) : R := rsum (map (fun j => d ^ j) (seq 0 (S i))).
Lemma ew_sum_0 d xs : ew_sum d xs 0 = nth 0 xs 0.
Proof. unfold ew_sum. cbn. ring. Qed.
Lemma ew_sum_S d xs i : ew_sum d xs (S i) = d * ew_sum d xs i + nth (S i) xs 0.
Proof.
  unfold ew_sum. rewrite (seq_S (S i)), map_app, rsum_app. cbn [map rsum Nat.add]. rewrite Nat.sub_diag. cbn [pow]. rewrite <- rsum_map_scale.
  replace (rsum (map (fun j => d ^ (S i - j) * nth j xs 0) (seq 0 (S i)))) with (rsum (map (fun j => d * (d ^ (i - j) * nth j xs 0)) (seq 0 (S i)))); [ring|].
  apply rsum_map_ext. intros j Hj. apply in_seq in Hj. replace (S i - j)%nat with (S (i - j)) by lia. cbn [pow]. ring.
Qed.
Lemma ew_weight_S d i : ew_weight d (S i) = ew_weight d i + d ^ S i.
Proof. unfold ew_weight. rewrite (seq_S (S i)), map_app, rsum_app. cbn [map rsum Nat.add]. ring. Qed.
Lemma ew_weight_S' d i : ew_weight d (S i) = 1 + d * ew_weight d i.
Proof. induction i as [|i IH]; [unfold ew_weight; cbn; ring|]. rewrite (ew_weight_S d (S i)), IH at 1. rewrite (ew_weight_S d i). cbn [pow]. ring. Qed.
Lemma ew_weight_ge1 d i : 0 <= d -> 1 <= ew_weight d i.
Proof. intro H. induction i as [|i IH]; [unfold ew_weight; cbn; lra|]. rewrite ew_weight_S. pose proof (pow_le d (S i) H). lra. Qed.
Lemma ew_weight_le d i : 0 <= d <= 1 -> ew_weight d i <= INR i + 1.
Proof.
  intro H. induction i as [|i IH]; [unfold ew_weight; cbn; lra|]. rewrite ew_weight_S, S_INR. assert (d ^ S i <= 1); [|lra].
  apply Rle_trans with (1 ^ S i); [apply pow_incr; lra|rewrite pow1; lra].
Qed.
Lemma ew_sum_bound d M xs i : 0 <= d -> 0 <= M -> (forall j, (j <= i)%nat -> Rabs (nth j xs 0) <= M) -> Rabs (ew_sum d xs i) <= M * ew_weight d i.
Proof.
  intros Hd HM. induction i as [|i IH]; intro H.
  - rewrite ew_sum_0. unfold ew_weight. cbn. specialize (H 0%nat (le_n 0)). lra.
  - rewrite ew_sum_S, ew_weight_S'. apply Rle_trans with (1 := Rabs_triang _ _). rewrite Rabs_mult, (Rabs_pos_eq d) by lra.
    assert (A : Rabs (ew_sum d xs i) <= M * ew_weight d i) by (apply IH; intros; apply H; lia). specialize (H (S i) (le_n _)). nra.
Qed.

Lemma ew_real_sum c M W W' d old S t x S' s : 0 <= d -> 0 <= c <= / 4 -> 0 <= M -> bpow radix2 (-1000) <= M -> 1 <= W' -> 0 <= W -> d * W <= W' ->
  Rabs (old - S) <= c * (M * W) -> Rabs S <= M * W -> S' = d * S + x -> Rabs S' <= M * W' ->
  Rabs (t - old * d) <= u64 * Rabs (old * d) + eta64 -> Rabs (s - (t + x)) <= u64 * Rabs (t + x) ->
  Rabs (old * d) <= 2 * (M * W') /\ Rabs (t + x) <= 2 * (M * W') /\ Rabs (s - S') <= (c + 4 * u64) * (M * W').
Proof.
  intros Hd Hc HM HM2 HW' HW HdW E1 E2 ES E3 E4 E5. pose proof u64_pos as U. pose proof u64_small as U2. pose proof eta_u as HE. set (K := M * W') in *.
  assert (KM : M <= K) by (unfold K; nra). assert (DK : d * (M * W) <= K) by (unfold K; rewrite (Rmult_comm d), Rmult_assoc, (Rmult_comm W); apply Rmult_le_compat_l; lra).
  assert (HK : eta64 <= u64 * K) by (apply Rle_trans with (1 := HE); apply Rmult_le_compat_l; lra).
  assert (A1 : Rabs ((old - S) * d) <= c * K). { rewrite Rabs_mult, (Rabs_pos_eq d) by lra. pose proof (Rabs_pos (old - S)). assert (c * (M * W) * d <= c * K) by (rewrite Rmult_assoc; apply Rmult_le_compat_l; lra). nra. }
  assert (A2 : Rabs (S * d) <= K). { rewrite Rabs_mult, (Rabs_pos_eq d) by lra. nra. }
  assert (A3 : Rabs (old * d) <= (1 + c) * K). { replace (old * d) with ((old - S) * d + S * d) by ring. apply Rle_trans with (1 := Rabs_triang _ _). lra. }
  assert (K0 : 0 <= K) by lra.
  assert (A4 : Rabs (t - old * d) <= u64 * ((1 + c) * K) + u64 * K). { apply Rle_trans with (1 := E4). apply Rplus_le_compat; auto. apply Rmult_le_compat_l; lra. }
  assert (A5 : Rabs (t + x - S') <= c * K + (u64 * ((1 + c) * K) + u64 * K)). { rewrite ES. replace (t + x - (d * S + x)) with ((old - S) * d + (t - old * d)) by ring. apply Rle_trans with (1 := Rabs_triang _ _). lra. }
  assert (CK : 0 <= c * K <= / 4 * K) by (split; [apply Rmult_le_pos; lra|apply Rmult_le_compat_r; lra]).
  assert (UK : 0 <= u64 * K <= / 1024 * K) by (split; [apply Rmult_le_pos; lra|apply Rmult_le_compat_r; lra]).
  assert (UCK : 0 <= u64 * (c * K) <= / 4 * (u64 * K)) by (split; [apply Rmult_le_pos; lra|nra]).
  assert (UUK : 0 <= u64 * (u64 * K) <= / 1024 * (u64 * K)) by (split; [apply Rmult_le_pos; lra|apply Rmult_le_compat_r; lra]).
  assert (A6 : Rabs (t + x - S') <= c * K + (2 * (u64 * K) + u64 * (c * K))) by (apply Rle_trans with (1 := A5); lra).
  assert (A7 : Rabs (t + x) <= K + (c * K + (2 * (u64 * K) + u64 * (c * K)))). { replace (t + x) with (S' + (t + x - S')) by ring. apply Rle_trans with (1 := Rabs_triang _ _). unfold K in *; lra. }
  split; [lra|]. split; [lra|].
  replace (s - S') with ((s - (t + x)) + (t + x - S')) by ring. apply Rle_trans with (1 := Rabs_triang _ _).
  assert (A8 : u64 * Rabs (t + x) <= u64 * (K + (c * K + (2 * (u64 * K) + u64 * (c * K))))) by (apply Rmult_le_compat_l; lra).
  assert (u64 * (u64 * (c * K)) <= / 1024 * (u64 * (c * K))) by (apply Rmult_le_compat_r; lra). lra.
Qed.
Lemma ew_real_weight g ep W W' q p w s : 0 <= g <= / 4 -> 0 <= ep <= / 4 -> 1 <= W -> W' = W + q -> 0 <= q -> Rabs (w - W) <= g * W -> Rabs (p - q) <= ep ->
  Rabs (s - (w + p)) <= u64 * Rabs (w + p) -> Rabs (w + p) <= 2 * W' /\ Rabs (s - W') <= (g + 2 * (u64 + ep)) * W'.
Proof.
  intros Hg He HW EW Hq E1 E2 E3. pose proof u64_pos as U. pose proof u64_small as U2. assert (W1 : 1 <= W') by lra.
  assert (A1 : Rabs (w + p - W') <= (g + ep) * W'). { rewrite EW. replace (w + p - (W + q)) with ((w - W) + (p - q)) by ring. apply Rle_trans with (1 := Rabs_triang _ _). assert (g * W <= g * (W + q)) by (apply Rmult_le_compat_l; lra). nra. }
  assert (GW : 0 <= (g + ep) * W' <= / 2 * W') by (split; [apply Rmult_le_pos; lra|apply Rmult_le_compat_r; lra]).
  assert (A2 : Rabs (w + p) <= W' + (g + ep) * W'). { replace (w + p) with (W' + (w + p - W')) by ring. apply Rle_trans with (1 := Rabs_triang _ _). rewrite (Rabs_pos_eq W') by lra. lra. }
  split; [lra|]. replace (s - W') with ((s - (w + p)) + (w + p - W')) by ring. apply Rle_trans with (1 := Rabs_triang _ _).
  assert (u64 * Rabs (w + p) <= u64 * (3 / 2 * W')) by (apply Rmult_le_compat_l; lra). assert (0 <= u64 * W') by (apply Rmult_le_pos; lra). assert (0 <= ep * W') by (apply Rmult_le_pos; lra). lra.
Qed.
Lemma ew_real_div c g M W S s w y : 0 <= c <= / 4 -> 0 <= g <= / 4 -> bpow radix2 (-1000) <= M -> 1 <= W -> Rabs S <= M * W -> Rabs (s - S) <= c * (M * W) -> Rabs (w - W) <= g * W ->
  (Rabs (s / w) <= 2 * M) /\ (Rabs (y - s / w) <= u64 * Rabs (s / w) + eta64 -> Rabs (y - S / W) <= M * (3 / 2 * (c + g) + 2 * u64)).
Proof.
  intros Hc Hg HM HW E0 E1 E2. pose proof u64_pos as U. pose proof u64_small as U2. pose proof eta_u as HE. pose proof (bpow_gt_0 radix2 (-1000)) as B0. assert (M0 : 0 < M) by lra.
  apply Rabs_le_inv in E2. assert (W3 : 3 / 4 * W <= w) by nra. assert (W0 : 0 < w) by lra.
  assert (A1 : Rabs (s / w - S / W) <= 4 / 3 * (M * (c + g))).
  { replace (s / w - S / W) with (((s - S) + S * (W - w) / W) / w) by (field; lra). unfold Rdiv at 1. rewrite Rabs_mult, (Rabs_pos_eq (/ w)) by (left; now apply Rinv_0_lt_compat).
    apply Rmult_le_reg_r with w; auto. rewrite Rmult_assoc, Rinv_l, Rmult_1_r by lra. apply Rle_trans with (1 := Rabs_triang _ _).
    assert (X : Rabs (S * (W - w) / W) <= M * (g * W)).
    { unfold Rdiv. rewrite !Rabs_mult, (Rabs_pos_eq (/ W)) by (left; apply Rinv_0_lt_compat; lra). apply Rmult_le_reg_r with W; [lra|]. rewrite (Rmult_assoc _ (/ W) W), Rinv_l, Rmult_1_r by lra.
      assert (Y : Rabs (W - w) <= g * W) by (apply Rabs_le; lra). replace (M * (g * W) * W) with (M * W * (g * W)) by ring. apply Rmult_le_compat; auto; apply Rabs_pos. }
    assert (0 <= M * (c + g)) by (apply Rmult_le_pos; lra). assert (M * (c + g) * (3 / 4 * W) <= M * (c + g) * w) by (apply Rmult_le_compat_l; lra).
    replace (4 / 3 * (M * (c + g)) * w) with (4 / 3 * (M * (c + g) * w)) by ring. lra. }
  assert (A2 : Rabs (S / W) <= M). { unfold Rdiv. rewrite Rabs_mult, (Rabs_pos_eq (/ W)) by (left; apply Rinv_0_lt_compat; lra). apply Rmult_le_reg_r with W; [lra|]. rewrite Rmult_assoc, Rinv_l, Rmult_1_r by lra. exact E0. }
  assert (A3 : Rabs (s / w) <= M + 4 / 3 * (M * (c + g))). { replace (s / w) with (S / W + (s / w - S / W)) by ring. apply Rle_trans with (1 := Rabs_triang _ _). lra. }
  assert (CG : 0 <= M * (c + g) <= M * / 2) by (split; [apply Rmult_le_pos; lra|apply Rmult_le_compat_l; lra]).
  split; [lra|]. intro E3. replace (y - S / W) with ((y - s / w) + (s / w - S / W)) by ring. apply Rle_trans with (1 := Rabs_triang _ _).
  assert (u64 * Rabs (s / w) <= u64 * (M + 4 / 3 * (M * (c + g)))) by (apply Rmult_le_compat_l; lra). assert (eta64 <= u64 * M) by (apply Rle_trans with (1 := HE); apply Rmult_le_compat_l; lra).
  assert (u64 * (M * (c + g)) <= / 1024 * (M * (c + g))) by (apply Rmult_le_compat_r; lra). lra.
Qed.

Section EWMA.
  Variables (pw : f64 -> nat -> f64) (d : f64) (ep M : R) (series : list f64).
  Hypothesis Fd : fin d.
  Hypothesis Hd : 0 <= fv d <= 1.
  Hypothesis Hep : 0 <= ep.
  Hypothesis HM : bpow radix2 (-1000) <= M <= bpow radix2 900.
  Hypothesis Hxs : forall x, In x series -> fin x /\ Rabs (fv x) <= M.
  Hypothesis Hn : INR (length series) * (u64 + ep) <= / 16.
  Hypothesis Hpw : forall i, (1 <= i < length series)%nat -> fin (pw d i) /\ Rabs (fv (pw d i) - fv d ^ i) <= ep.
  Notation D := (fv d).
  Notation vals := (map fv series).
  Lemma len_small : INR (length series) <= bpow radix2 49.
  Proof.
    apply Rmult_le_reg_r with u64; [apply u64_pos|]. replace (bpow radix2 49 * u64) with (/ 16) by (unfold ulp64; rewrite <- bpow_plus; cbn; lra).
    apply Rle_trans with (2 := Hn). apply Rmult_le_compat_l; [apply pos_INR|lra].
  Qed.
  Lemma ew_big x : x <= 2 * (M * (INR (length series) + 1)) -> x <= big.
  Proof.
    intro H. apply Rle_trans with (1 := H). pose proof len_small as L. assert (X : 2 * (M * (INR (length series) + 1)) <= bpow radix2 2 * (bpow radix2 900 * bpow radix2 49)).
    { pose proof (bpow_gt_0 radix2 900). assert (1 <= bpow radix2 49) by (change 1 with (bpow radix2 0); apply bpow_le; lia). pose proof (pos_INR (length series)). pose proof (bpow_gt_0 radix2 (-1000)).
      change (bpow radix2 2) with 4. assert (M * (INR (length series) + 1) <= bpow radix2 900 * (2 * bpow radix2 49)) by (apply Rmult_le_compat; lra). lra. }
    apply Rle_trans with (1 := X). rewrite <- !bpow_plus. apply bpow_le. lia.
  Qed.
  Lemma fewma_loop_spec xs : forall i w old, (1 <= i)%nat -> (length series = i + length xs)%nat -> (forall k, nth_error xs k = nth_error series (i + k)) -> fin w -> fin old ->
    Rabs (fv old - ew_sum D vals (i - 1)) <= 4 * INR (i - 1) * u64 * (M * ew_weight D (i - 1)) ->
    Rabs (fv w - ew_weight D (i - 1)) <= 2 * INR (i - 1) * (u64 + ep) * ew_weight D (i - 1) ->
    length (fewma_loop pw d i w old xs) = length xs /\
    forall j y, nth_error (fewma_loop pw d i w old xs) j = Some y ->
      fin y /\ Rabs (fv y - ew_sum D vals (i + j) / ew_weight D (i + j)) <= M * (9 * INR (i + j) * u64 + 3 * INR (i + j) * ep + 2 * u64).
  Proof.
    pose proof u64_pos as U. pose proof u64_small as U2. pose proof (bpow_gt_0 radix2 (-1000)) as B0. assert (M0 : 0 < M) by lra.
    induction xs as [|x xs IH]; intros i w old Hi HL Hnth Fw Fo Eo Ew; cbn [fewma_loop length]; [split; auto; intros [|j] y E; discriminate|].
    cbn [length] in HL. assert (Ex : nth_error series i = Some x) by (specialize (Hnth 0%nat); rewrite Nat.add_0_r in Hnth; now symmetry).
    assert (Ev : nth i vals 0 = fv x). { apply nth_error_nth. now apply map_nth_error. }
    destruct (Hxs (nth_error_In _ _ Ex)) as [Fx Bx]. destruct (@Hpw i) as [Fp Ep]; [lia|].
    set (k := (i - 1)%nat) in *. assert (EI : i = S k) by lia. set (W := ew_weight D k) in *. set (W' := ew_weight D i).
    assert (EW : W' = W + D ^ i) by (unfold W', W; rewrite EI; apply ew_weight_S). assert (EW2 : W' = 1 + D * W) by (unfold W', W; rewrite EI; apply ew_weight_S').
    assert (W1 : 1 <= W) by (apply ew_weight_ge1; lra). assert (W1' : 1 <= W') by (apply ew_weight_ge1; lra).
    assert (Bv : forall j, (j < length series)%nat -> Rabs (nth j vals 0) <= M).
    { intros j Hj. rewrite (nth_indep _ 0 (fv (fz 0))) by (now rewrite map_length). rewrite map_nth. apply Hxs. now apply nth_In. }
    assert (BS : Rabs (ew_sum D vals k) <= M * W) by (apply ew_sum_bound; try lra; intros; apply Bv; lia).
    assert (BS' : Rabs (ew_sum D vals i) <= M * W') by (apply ew_sum_bound; try lra; intros; apply Bv; lia).
    assert (ES : ew_sum D vals i = D * ew_sum D vals k + fv x) by (rewrite EI, ew_sum_S, <- EI, Ev; reflexivity).
    assert (WL : W' <= INR (length series) + 1). { apply Rle_trans with (INR i + 1); [now apply ew_weight_le|]. apply Rplus_le_compat_r. apply le_INR. lia. }
    assert (IK : INR i <= INR (length series)) by (apply le_INR; lia). assert (EK : INR i = INR k + 1) by (rewrite EI; apply S_INR). pose proof (pos_INR k) as K0.
    assert (NU : INR i * u64 + INR i * ep <= / 16). { rewrite <- Rmult_plus_distr_l. apply Rle_trans with (2 := Hn). apply Rmult_le_compat_r; lra. }
    assert (N1 : 0 <= INR i * u64) by (apply Rmult_le_pos; lra). assert (N2 : 0 <= INR i * ep) by (apply Rmult_le_pos; lra).
    assert (KU : 0 <= INR k * u64 <= INR i * u64) by (split; [apply Rmult_le_pos; lra|apply Rmult_le_compat_r; lra]). assert (KE : 0 <= INR k * ep <= INR i * ep) by (split; [apply Rmult_le_pos; lra|apply Rmult_le_compat_r; lra]).
    assert (E1 : ep <= INR i * ep) by (rewrite EK; assert (0 <= INR k * ep) by lra; lra).
    assert (MWB : forall z, z <= 2 * (M * W') -> z <= big). { intros z Hz. apply ew_big. apply Rle_trans with (1 := Hz). apply Rmult_le_compat_l; [lra|]. apply Rmult_le_compat_l; lra. }
    assert (SUM := @ew_real_sum (4 * INR k * u64) M W W' D (fv old) (ew_sum D vals k)). assert (WEI := @ew_real_weight (2 * INR k * (u64 + ep)) ep W W' (D ^ i) (fv (pw d i)) (fv w)).
    pose (t := rnd64 (fv old * D)). pose (s := rnd64 (t + fv x)).
    destruct (SUM t (fv x) (ew_sum D vals i) s) as (S1 & S2 & S3); auto; try lra.
    { apply rnd_abs_err. } { apply add_abs_err; [apply generic_format_round; [apply valid64|apply valid_rnd_N]|apply fv_format]. }
    destruct (WEI (rnd64 (fv w + fv (pw d i)))) as (V1 & V2); auto; try lra; try (apply pow_le; lra).
    { apply add_abs_err; apply fv_format. }
    destruct (@fmul_spec old d Fo Fd) as [Ft Vt]; [now apply MWB|]. destruct (@fadd_spec (fmul old d) x Ft Fx) as [Fs Vs]; [rewrite Vt; now apply MWB|].
    assert (WB : 2 * W' <= big).
    { pose proof len_small as L. assert (1 <= bpow radix2 49) by (change 1 with (bpow radix2 0); apply bpow_le; lia). apply Rle_trans with (bpow radix2 2 * bpow radix2 49); [change (bpow radix2 2) with 4; lra|]. rewrite <- bpow_plus. apply bpow_le. lia. }
    destruct (@fadd_spec w (pw d i) Fw Fp) as [Fw' Vw']; [lra|].
    assert (Vs' : fv (fadd (fmul old d) x) = s) by (rewrite Vs, Vt; reflexivity). set (old' := fadd (fmul old d) x) in *. set (w' := fadd w (pw d i)) in *.
    assert (C' : 4 * INR k * u64 + 4 * u64 = 4 * INR i * u64) by (rewrite EK; ring). assert (G' : 2 * INR k * (u64 + ep) + 2 * (u64 + ep) = 2 * INR i * (u64 + ep)) by (rewrite EK; ring).
    rewrite C' in S3. rewrite G' in V2. rewrite <- Vs' in S3. rewrite <- Vw' in V2.
    destruct (@ew_real_div (4 * INR i * u64) (2 * INR i * (u64 + ep)) M W' (ew_sum D vals i) (fv old') (fv w') (fv (fdiv old' w'))) as (Q1 & Q2); auto; try lra.
    assert (NW : fv w' <> 0). { intro Z. rewrite Z in V2. apply Rabs_le_inv in V2. assert (2 * INR i * (u64 + ep) * W' <= / 4 * W') by (apply Rmult_le_compat_r; lra). lra. }
    destruct (@fdiv_spec old' w' Fs NW) as [Fy Vy]. { apply Rle_trans with (1 := Q1). apply MWB. assert (M * 1 <= M * W') by (apply Rmult_le_compat_l; lra). lra. }
    destruct (IH (S i) w' old') as [L P]; auto; try lia; try (replace (S i - 1)%nat with i by lia; assumption).
    { intro j. specialize (Hnth (S j)). cbn [nth_error] in Hnth. rewrite Hnth. f_equal. lia. }
    split; [now rewrite L|]. intros [|j] y E; cbn [nth_error] in E.
    - injection E as <-. rewrite Nat.add_0_r. split; auto. fold W'. apply Rle_trans with (M * (3 / 2 * (4 * INR i * u64 + 2 * INR i * (u64 + ep)) + 2 * u64)).
      + apply Q2. rewrite Vy. apply rnd_abs_err.
      + apply Rmult_le_compat_l; [lra|]. right. field.
    - replace (i + S j)%nat with (S i + j)%nat by lia. now apply P.
  Qed.
  Lemma fewma_from_spec : forall x0 xs, series = x0 :: xs ->
    forall j y, nth_error (x0 :: fewma_loop pw d 1 (fz 1) x0 xs) j = Some y ->
      fin y /\ Rabs (fv y - ew_sum D vals j / ew_weight D j) <= M * (9 * INR j * u64 + 3 * INR j * ep + 2 * u64).
  Proof.
    intros x0 xs E j y Hj. pose proof u64_pos as U. pose proof (bpow_gt_0 radix2 (-1000)) as B0. destruct (@Hxs x0) as [F0 _]; [rewrite E; now left|].
    assert (W0 : ew_weight D 0 = 1) by (unfold ew_weight; cbn; ring). assert (S0 : ew_sum D vals 0 = fv x0) by (rewrite ew_sum_0, E; reflexivity).
    destruct j as [|j]; cbn [nth_error] in Hj.
    - injection Hj as <-. split; auto. rewrite W0, S0. replace (fv x0 - fv x0 / 1) with 0 by field. rewrite Rabs_R0. cbn [INR]. apply Rmult_le_pos; lra.
    - destruct (@fz_spec 1 ltac:(lia)) as [F1 V1]. destruct (@fewma_loop_spec xs 1 (fz 1) x0) as [_ P]; auto.
      + rewrite E. reflexivity.
      + intro k. now rewrite E.
      + cbn [Nat.sub INR]. rewrite S0. replace (fv x0 - fv x0) with 0 by ring. rewrite Rabs_R0. lra.
      + cbn [Nat.sub INR]. rewrite W0, V1. replace (1 - 1) with 0 by ring. rewrite Rabs_R0. lra.
  Qed.
End EWMA.
Lemma fewma_loop_prefix pw d m : forall xs i w old, fewma_loop pw d i w old (firstn m xs) = firstn m (fewma_loop pw d i w old xs).
Proof. induction m as [|m IH]; intros [|x xs] i w old; cbn [firstn fewma_loop]; auto. now rewrite IH. Qed.
Lemma fewma_prefix pw span m series : fewma pw (firstn m series) span = firstn m (fewma pw series span).
Proof. destruct m as [|m], series as [|x xs]; auto. cbn [firstn fewma]. now rewrite fewma_loop_prefix. Qed.
Lemma fewma_length pw span series : length (fewma pw series span) = length series.
Proof. destruct series as [|x xs]; auto. cbn [fewma length]. f_equal. generalize (fz 1) x 1%nat. induction xs as [|y ys IH]; intros w o i; cbn [fewma_loop length]; auto. Qed.
(** the decay factor *)
Lemma fdecay_spec span : (1 <= span < 2 ^ 53)%Z -> fin (fdecay span) /\ 0 <= fv (fdecay span) <= 1 /\ Rabs (fv (fdecay span) - (1 - 2 / IZR (span + 1))) <= 2 * u64.
Proof.
  intro H. pose proof u64_pos as U. destruct (@fz_spec 1 ltac:(lia)) as [F1 V1]. destruct (@fz_spec 2 ltac:(lia)) as [F2 V2]. destruct (@fz_spec (span + 1) ltac:(lia)) as [Fs Vs].
  assert (S2 : 2 <= IZR (span + 1)) by (apply IZR_le; lia). assert (Q : 0 <= 2 / IZR (span + 1) <= 1).
  { split; [apply Rmult_le_pos; [lra|left; apply Rinv_0_lt_compat; lra]|]. apply Rmult_le_reg_r with (IZR (span + 1)); [lra|]. unfold Rdiv. rewrite Rmult_assoc, Rinv_l by lra. lra. }
  pose proof big_1. destruct (@fdiv_spec (fz 2) (fz (span + 1)) F2) as [Fa Va]; [rewrite Vs; lra|rewrite V2, Vs, Rabs_pos_eq; lra|]. rewrite V2, Vs in Va.
  fold (falpha span) in Fa, Va. pose proof (rnd64_01 Q) as QA. rewrite <- Va in QA.
  destruct (@fsub_spec (fz 1) (falpha span) F1 Fa) as [Fd Vd]; [rewrite V1, Rabs_pos_eq; lra|]. rewrite V1 in Vd. fold (fdecay span) in Fd, Vd. split; auto.
  split; [rewrite Vd; apply rnd64_01; lra|].
  assert (SP : bpow radix2 (-1022) <= Rabs (2 / IZR (span + 1))).
  { rewrite Rabs_pos_eq by lra. apply Rle_trans with (bpow radix2 (-53)); [apply bpow_le; lia|]. apply Rmult_le_reg_r with (IZR (span + 1)); [lra|]. unfold Rdiv. rewrite Rmult_assoc, Rinv_l, Rmult_1_r by lra.
    apply Rle_trans with (bpow radix2 (-53) * bpow radix2 53); [|rewrite <- bpow_plus; cbn; lra]. apply Rmult_le_compat_l; [apply bpow_ge_0|]. rewrite <- IZR_Zpower by lia. apply IZR_le. change (Zpower radix2 53) with (2 ^ 53)%Z. lia. }
  assert (EA : Rabs (fv (falpha span) - 2 / IZR (span + 1)) <= u64).
  { rewrite Va. destruct (rnd_error SP) as (e & He & ->). replace (2 / IZR (span + 1) * (1 + e) - 2 / IZR (span + 1)) with (2 / IZR (span + 1) * e) by ring. rewrite Rabs_mult, (Rabs_pos_eq (2 / IZR (span + 1))) by lra. pose proof (Rabs_pos e). nra. }
  assert (EB : Rabs (fv (fdecay span) - (1 - fv (falpha span))) <= u64).
  { rewrite Vd. rewrite <- V1. apply Rle_trans with (1 := sub_abs_err (fv_format (fz 1)) (fv_format (falpha span))). rewrite V1, Rabs_pos_eq by lra. nra. }
  replace (fv (fdecay span) - (1 - 2 / IZR (span + 1))) with ((fv (fdecay span) - (1 - fv (falpha span))) - (fv (falpha span) - 2 / IZR (span + 1))) by ring.
  apply Rle_trans with (1 := Rabs_triang _ _). rewrite Rabs_Ropp. lra.
Qed.

(** ** Weights of fractional differencing *)
Fixpoint rprod (l : list R) : R := match l with [] => 1 | x :: r => x * rprod r end.
Lemma rprod_app a b : rprod (a ++ b) = rprod a * rprod b.
Proof. induction a as [|x a IH]; cbn [rprod app]; [ring|]. rewrite IH. ring. Qed.
(** (-1)^k d(d-1)...(d-k+1)/k!, the coefficient of B^k in (1-B)^d *)
Definition rcoeff (d : R) (k : nat) : R := (-1) ^ k * rprod (map (fun j => d - INR j) (seq 0 k)) / INR (fact k).
Lemma rcoeff_S d k : rcoeff d (S k) = - rcoeff d k * (d - INR (S k) + 1) / INR (S k).
Proof.
  unfold rcoeff. rewrite seq_S, map_app, rprod_app. cbn [map rprod Nat.add pow]. rewrite fact_simpl, mult_INR. pose proof (INR_fact_neq_0 k). assert (INR (S k) <> 0) by (apply not_0_INR; lia).
  replace (d - INR (S k) + 1) with (d - INR k) by (rewrite S_INR; ring). field. auto.
Qed.
(** multiplying a float by an integer has a relative error even in the subnormal range *)
Lemma int_mul_error w z : format64 w -> exists e, Rabs e <= u64 /\ rnd64 (w * IZR z) = w * IZR z * (1 + e).
Proof.
  intro F. destruct (Rle_lt_dec (bpow radix2 (-1022)) (Rabs (w * IZR z))) as [L|L]; [now apply rnd_error|]. exists 0. rewrite Rabs_R0. split; [left; apply u64_pos|]. rewrite Rplus_0_r, Rmult_1_r.
  apply rnd64_id. apply FLT_format_generic in F; [|reflexivity]. destruct F as [f Ef Hm He]. rewrite Ef in L |- *. unfold F2R in *. destruct f as [m e]. cbn [Fnum Fexp] in *.
  replace (IZR m * bpow radix2 e * IZR z) with (IZR (m * z * 2 ^ (e + 1074)) * bpow radix2 (-1074)) in *.
  - apply format64_float; [|lia]. apply lt_IZR. rewrite abs_IZR. rewrite Rabs_mult, (Rabs_pos_eq (bpow radix2 (-1074))) in L by apply bpow_ge_0.
    apply Rmult_lt_reg_r with (bpow radix2 (-1074)); [apply bpow_gt_0|]. apply Rlt_le_trans with (1 := L). change (IZR (2 ^ 53)) with (IZR (Zpower radix2 53)). rewrite IZR_Zpower by lia. rewrite <- bpow_plus. apply bpow_le. lia.
  - rewrite !mult_IZR. change (2 ^ (e + 1074))%Z with (Zpower radix2 (e + 1074)). rewrite IZR_Zpower by lia. replace (IZR m * bpow radix2 e * IZR z) with (IZR m * IZR z * bpow radix2 e) by ring.
    rewrite (Rmult_assoc _ (bpow radix2 (e + 1074))), <- bpow_plus. do 2 f_equal. lia.
Qed.
Lemma rnd64_between_int a b x : (Z.abs a <= 2 ^ 53)%Z -> (Z.abs b <= 2 ^ 53)%Z -> IZR a <= x <= IZR b -> IZR a <= rnd64 x <= IZR b.
Proof. intros Ha Hb [H1 H2]. apply rnd64_mono in H1, H2. rewrite rnd64_int in H1, H2 by auto. lra. Qed.
Lemma fnext_weight_spec order w W k : fin order -> fin w -> 0 <= fv order <= 1 -> (1 <= k)%nat -> (Z.of_nat k <= 2 ^ 50)%Z -> -1 <= fv w <= 1 -> (k = 1%nat -> fv w = 1) -> (k <> 1%nat -> fv w <= 0) ->
  forall c, Rabs (fv w - W) <= c ->
  fin (fnext_weight order w k) /\ -1 <= fv (fnext_weight order w k) <= 0 /\ Rabs (fv (fnext_weight order w k)) <= Rabs (fv w) /\
  Rabs (fv (fnext_weight order w k) - - W * (fv order - INR k + 1) / INR k) <= c + 5 * u64.
Proof.
  intros Fo Fw Ho Hk1 Hk2 Bw W1 W2 c Hc. pose proof u64_pos as U. pose proof u64_small as U2. pose proof eta_pos as E0. pose proof eta_le_u as E1.
  assert (E2 : 4 * eta64 <= u64). { apply Rle_trans with (bpow radix2 2 * eta64); [change (bpow radix2 2) with 4; lra|]. unfold eta64, ulp64. rewrite <- bpow_plus. apply bpow_le. lia. }
  unfold fnext_weight. set (o := fv order) in *. set (zk := Z.of_nat k) in *. destruct (@fz_spec 1 ltac:(lia)) as [F1 V1]. destruct (@fz_spec zk ltac:(lia)) as [Fk Vk].
  assert (EK : IZR zk = INR k) by (unfold zk; symmetry; apply INR_IZR_INZ). rewrite EK in Vk. assert (K1 : 1 <= INR k) by (apply (le_INR 1); lia).
  assert (KB : INR k + 1 <= big). { rewrite <- EK, <- plus_IZR. rewrite <- (Rabs_pos_eq (IZR (zk + 1))) by (apply IZR_le; lia). apply big_ge. lia. }
  assert (KU : INR k * u64 <= / 8). { replace (/ 8) with (bpow radix2 50 * u64) by (unfold ulp64; rewrite <- bpow_plus; cbn; lra). apply Rmult_le_compat_r; [lra|]. rewrite <- EK. change (bpow radix2 50) with (IZR (2 ^ 50)). now apply IZR_le. }
  (* order - k *)
  destruct (@fsub_spec order (fz zk) Fo Fk) as [Fa Va]; [rewrite Vk; fold o; apply Rabs_le; lra|]. rewrite Vk in Va. fold o in Va. set (a1 := fsub order (fz zk)) in *.
  assert (Ba : - INR k <= fv a1 <= 1 - INR k).
  { rewrite Va. rewrite <- EK. replace (1 - IZR zk) with (IZR (1 - zk)) by apply minus_IZR. rewrite <- opp_IZR. apply rnd64_between_int; try lia. rewrite opp_IZR, minus_IZR. lra. }
  assert (Ea : Rabs (fv a1 - (o - INR k)) <= u64 * INR k).
  { rewrite Va. unfold o. rewrite <- Vk. apply Rle_trans with (1 := sub_abs_err (fv_format order) (fv_format (fz zk))). apply Rmult_le_compat_l; [lra|]. rewrite Vk. fold o. apply Rabs_le. lra. }
  (* + 1 *)
  destruct (@fadd_spec a1 (fz 1) Fa F1) as [Fb Vb]; [rewrite V1; apply Rabs_le; lra|]. rewrite V1 in Vb. set (a2 := fadd a1 (fz 1)) in *.
  assert (Bb : 1 - INR k <= fv a2 <= 2 - INR k).
  { rewrite Vb. rewrite <- EK in *. replace (1 - IZR zk) with (IZR (1 - zk)) by apply minus_IZR. replace (2 - IZR zk) with (IZR (2 - zk)) by apply minus_IZR. apply rnd64_between_int; try lia. rewrite !minus_IZR. lra. }
  assert (Eb : Rabs (fv a2 - (o - INR k + 1)) <= 2 * (u64 * INR k)).
  { replace (fv a2 - (o - INR k + 1)) with ((fv a2 - (fv a1 + 1)) + (fv a1 - (o - INR k))) by ring. apply Rle_trans with (1 := Rabs_triang _ _).
    assert (Rabs (fv a2 - (fv a1 + 1)) <= u64 * INR k); [|lra]. rewrite Vb. rewrite <- V1. apply Rle_trans with (1 := add_abs_err (fv_format a1) (fv_format (fz 1))). apply Rmult_le_compat_l; [lra|]. rewrite V1. apply Rabs_le. lra. }
  assert (Ab : Rabs (fv a2) <= INR k) by (apply Rabs_le; lra).
  (* the product *)
  destruct (fopp_spec Fw) as [Fn Vn]. assert (Aw : Rabs (fv w) <= 1) by (apply Rabs_le; lra).
  assert (PB : Rabs (- fv w * fv a2) <= INR k). { rewrite Rabs_mult, Rabs_Ropp. pose proof (Rabs_pos (fv w)). pose proof (Rabs_pos (fv a2)). nra. }
  destruct (@fmul_spec (fopp w) a2 Fn Fb) as [Fm Vm]; [rewrite Vn; lra|]. rewrite Vn in Vm. set (m := fmul (fopp w) a2) in *.
  assert (SP : - fv w * fv a2 <= 0). { destruct (Nat.eq_dec k 1) as [->|N]. - rewrite (W1 eq_refl). cbn [INR] in Bb. lra. - specialize (W2 N). assert (2 <= INR k) by (apply (le_INR 2); lia). nra. }
  assert (Sm : fv m <= 0) by (rewrite Vm; rewrite <- rnd64_0; now apply rnd64_mono).
  assert (Bm : - INR k <= fv m). { apply Rabs_le_inv in PB. rewrite Vm. destruct (@rnd64_between_int (- zk) 0 (- fv w * fv a2)); try lia; rewrite ?opp_IZR, ?EK in *; lra. }
  assert (Em : Rabs (fv m - - fv w * fv a2) <= u64 * INR k + eta64). { rewrite Vm. apply Rle_trans with (1 := rnd_abs_err _). apply Rplus_le_compat_r. apply Rmult_le_compat_l; lra. }
  (* the quotient *)
  assert (DIV : forall x, Rabs (x / INR k) = Rabs x / INR k) by (intro x; unfold Rdiv; rewrite Rabs_mult, (Rabs_pos_eq (/ INR k)); auto; left; apply Rinv_0_lt_compat; lra).
  assert (DLE : forall x y, Rabs x <= y * INR k -> Rabs (x / INR k) <= y). { intros x y H. rewrite DIV. apply Rmult_le_reg_r with (INR k); [lra|]. unfold Rdiv. rewrite Rmult_assoc, Rinv_l, Rmult_1_r by lra. exact H. }
  assert (QB : Rabs (fv m / INR k) <= 1) by (apply DLE; apply Rabs_le; lra).
  pose proof big_1 as B1. destruct (@fdiv_spec m (fz zk) Fm) as [Fv Vv]; [rewrite Vk; lra|rewrite Vk; lra|]. rewrite Vk in Vv. set (v := fdiv m (fz zk)) in *. split; auto.
  assert (Sq : fv m / INR k <= 0). { apply Rmult_le_reg_r with (INR k); [lra|]. unfold Rdiv. rewrite Rmult_assoc, Rinv_l by lra. lra. }
  split; [rewrite Vv; apply Rabs_le_inv in QB; apply (@rnd64_between_int (-1) 0); try lia; lra|]. split.
  - (* magnitude *)
    assert (Q : Rabs (fv m / INR k) <= Rabs (fv w)).
    { apply DLE. destruct (Nat.eq_dec k 1) as [K|N].
      - assert (INR k = 1) by (rewrite K; reflexivity). rewrite (W1 K) in *. rewrite Rabs_R1. apply Rabs_le. lra.
      - assert (K2 : 2 <= INR k) by (apply (le_INR 2); lia). specialize (W2 N).
        destruct (@int_mul_error (fv w) (zk - 1) (fv_format w)) as (e & He & Er). apply Rabs_le_inv in He. rewrite minus_IZR, EK in Er.
        assert (LO : fv w * (INR k - 1) <= - fv w * fv a2) by nra. apply rnd64_mono in LO. rewrite <- Vm, Er in LO.
        rewrite (Rabs_left1 (fv m)), (Rabs_left1 (fv w)) by lra. assert ((INR k - 1) * (1 + e) <= INR k) by nra. nra. }
    rewrite Vv. apply rnd64_abs_le; auto. destruct (Rle_dec 0 (fv w)) as [P|P]; [rewrite Rabs_pos_eq by auto; apply fv_format|rewrite Rabs_left by lra; apply generic_format_opp, fv_format].
  - (* error *)
    assert (Ev : Rabs (fv v - fv m / INR k) <= u64 + eta64). { rewrite Vv. apply Rle_trans with (1 := rnd_abs_err _). nra. }
    assert (X1 : Rabs ((fv m - - fv w * fv a2) / INR k) <= u64 + eta64) by (apply DLE; nra).
    assert (X2 : Rabs (fv w * (fv a2 - (o - INR k + 1)) / INR k) <= 2 * u64). { apply DLE. rewrite Rabs_mult. pose proof (Rabs_pos (fv w)). pose proof (Rabs_pos (fv a2 - (o - INR k + 1))). nra. }
    assert (X3 : Rabs ((fv w - W) * (o - INR k + 1) / INR k) <= c). { apply DLE. rewrite Rabs_mult. assert (Rabs (o - INR k + 1) <= INR k) by (apply Rabs_le; lra). pose proof (Rabs_pos (fv w - W)). pose proof (Rabs_pos (o - INR k + 1)). nra. }
    replace (fv v - - W * (o - INR k + 1) / INR k) with ((fv v - fv m / INR k) + (fv m - - fv w * fv a2) / INR k - fv w * (fv a2 - (o - INR k + 1)) / INR k - (fv w - W) * (o - INR k + 1) / INR k) by (field; lra).
    apply Rabs_le_inv in Ev, X1, X2, X3. apply Rabs_le. lra.
Qed.
Lemma fweights_from_spec order m : fin order -> 0 <= fv order <= 1 -> forall k w, (1 <= k)%nat -> (Z.of_nat (k + m) <= 2 ^ 50)%Z -> fin w -> -1 <= fv w <= 1 -> (k = 1%nat -> fv w = 1) -> (k <> 1%nat -> fv w <= 0) ->
  Rabs (fv w - rcoeff (fv order) (k - 1)) <= 5 * INR (k - 1) * u64 ->
  length (fweights_from order w k m) = m /\
  forall j v, nth_error (fweights_from order w k m) j = Some v ->
    fin v /\ -1 <= fv v <= 0 /\ Rabs (fv v - rcoeff (fv order) (k + j)) <= 5 * INR (k + j) * u64 /\
    (forall v', nth_error (w :: fweights_from order w k m) j = Some v' -> Rabs (fv v) <= Rabs (fv v')).
Proof.
  intros Fo Ho. induction m as [|m IH]; intros k w Hk HZ Fw Bw W1 W2 E; cbn [fweights_from length]; [split; auto; intros [|j] v H; discriminate|].
  destruct (@fnext_weight_spec order w (rcoeff (fv order) (k - 1)) k Fo Fw Ho Hk) with (c := 5 * INR (k - 1) * u64) as (F & B & Mg & Er); auto; [lia|].
  set (v := fnext_weight order w k) in *. assert (EC : - rcoeff (fv order) (k - 1) * (fv order - INR k + 1) / INR k = rcoeff (fv order) k) by (destruct k as [|k]; [lia|]; rewrite rcoeff_S; cbn [Nat.sub]; now rewrite Nat.sub_0_r).
  rewrite EC in Er. assert (EI : 5 * INR (k - 1) * u64 + 5 * u64 = 5 * INR k * u64) by (destruct k as [|k]; [lia|]; rewrite S_INR; cbn [Nat.sub]; rewrite Nat.sub_0_r; ring). rewrite EI in Er.
  destruct (IH (S k) v) as [L P]; auto; try lia; try lra; [cbn [Nat.sub]; now rewrite Nat.sub_0_r|].
  split; [now rewrite L|]. intros [|j] x H; cbn [nth_error] in H.
  - injection H as <-. rewrite Nat.add_0_r. repeat split; auto; try lra. intros v' Hv'. cbn [nth_error] in Hv'. now injection Hv' as <-.
  - destruct (P j x H) as (P1 & P2 & P3 & P4). replace (k + S j)%nat with (S k + j)%nat by lia. repeat split; auto; try lra.
Qed.
(** integer orders *)
Fixpoint choose (n k : nat) : Z := match k, n with O, _ => 1 | S _, O => 0 | S j, S m => choose m j + choose m (S j) end%Z.
Lemma choose_0 n k : (n < k)%nat -> choose n k = 0%Z.
Proof. revert k. induction n as [|n IH]; intros [|k] H; cbn [choose]; try lia. rewrite !IH by lia. lia. Qed.
Lemma choose_pos n k : (0 <= choose n k)%Z.
Proof. revert k. induction n as [|n IH]; intros [|k]; cbn [choose]; try lia. pose proof (IH k). pose proof (IH (S k)). lia. Qed.
Lemma choose_step n : forall k, (Z.of_nat (S k) * choose n (S k) = (Z.of_nat n - Z.of_nat k) * choose n k)%Z.
Proof.
  induction n as [|n IH]; intro k; [destruct k; cbn [choose]; lia|]. cbn [choose]. destruct k as [|k].
  - specialize (IH 0%nat). replace (choose n 0) with 1%Z in * by (now destruct n). lia.
  - pose proof (IH (S k)) as I1. pose proof (IH k) as I2. cbn [choose]. nia.
Qed.
Definition signed_choose (m k : nat) : Z := (if Nat.even k then choose m k else - choose m k)%Z.
Lemma fnext_weight_int m k w : (1 <= k)%nat -> (Z.of_nat k <= 2 ^ 52)%Z -> (Z.of_nat m <= 2 ^ 52)%Z -> (forall j, (j <= m)%nat -> (choose m j * Z.of_nat m <= 2 ^ 53)%Z) ->
  fin w -> fv w = IZR (signed_choose m (k - 1)) -> fin (fnext_weight (fz (Z.of_nat m)) w k) /\ fv (fnext_weight (fz (Z.of_nat m)) w k) = IZR (signed_choose m k).
Proof.
  intros Hk ZK ZM HC Fw Vw. unfold fnext_weight. destruct (@fz_spec 1 ltac:(lia)) as [F1 V1]. destruct (@fz_spec (Z.of_nat k) ltac:(lia)) as [Fk Vk]. destruct (@fz_spec (Z.of_nat m) ltac:(lia)) as [Fm Vm].
  assert (INT : forall z, (Z.abs z <= 2 ^ 53)%Z -> Rabs (IZR z) <= big) by (intros; apply big_ge; lia).
  destruct (@fsub_spec (fz (Z.of_nat m)) (fz (Z.of_nat k)) Fm Fk) as [Fa Va]; [rewrite Vm, Vk, <- minus_IZR; apply INT; lia|]. rewrite Vm, Vk, <- minus_IZR, rnd64_int in Va by lia.
  destruct (@fadd_spec _ (fz 1) Fa F1) as [Fb Vb]; [rewrite Va, V1, <- plus_IZR; apply INT; lia|]. rewrite Va, V1, <- plus_IZR, rnd64_int in Vb by lia.
  destruct (fopp_spec Fw) as [Fn Vn]. rewrite Vw, <- opp_IZR in Vn.
  pose proof (choose_step m (k - 1)) as CS. replace (S (k - 1)) with k in CS by lia. pose proof (@choose_pos m k) as CP. pose proof (@choose_pos m (k - 1)) as CP'.
  assert (CB : (Z.of_nat k * choose m k <= 2 ^ 53)%Z). { destruct (Nat.le_gt_cases k m) as [L|L]; [specialize (HC k L); nia|rewrite choose_0 by auto; lia]. }
  assert (EP : (- signed_choose m (k - 1) * (Z.of_nat m - Z.of_nat k + 1) = signed_choose m k * Z.of_nat k)%Z).
  { unfold signed_choose. destruct k as [|k]; [lia|]. cbn [Nat.sub] in *. rewrite Nat.sub_0_r in *. rewrite Nat.even_succ, <- Nat.negb_even. destruct (Nat.even k); cbn [negb]; nia. }
  assert (AB : (Z.abs (signed_choose m k * Z.of_nat k) <= 2 ^ 53)%Z) by (unfold signed_choose; destruct (Nat.even k); nia).
  destruct (@fmul_spec _ _ Fn Fb) as [Fp Vp]; [rewrite Vn, Vb, <- mult_IZR, EP; now apply INT|]. rewrite Vn, Vb, <- mult_IZR, EP, rnd64_int in Vp by auto.
  assert (NK : IZR (Z.of_nat k) <> 0) by (apply IZR_neq; lia).
  assert (EQ : IZR (signed_choose m k * Z.of_nat k) / IZR (Z.of_nat k) = IZR (signed_choose m k)) by (rewrite mult_IZR; field; exact NK).
  assert (AB' : (Z.abs (signed_choose m k) <= 2 ^ 53)%Z) by nia.
  destruct (@fdiv_spec _ (fz (Z.of_nat k)) Fp) as [Fq Vq]; [now rewrite Vk|rewrite Vp, Vk, EQ; now apply INT|]. rewrite Vp, Vk, EQ, rnd64_int in Vq by auto. split; auto.
Qed.
Lemma fweights_from_int m n : (Z.of_nat m <= 2 ^ 52)%Z -> (forall j, (j <= m)%nat -> (choose m j * Z.of_nat m <= 2 ^ 53)%Z) -> forall k w, (1 <= k)%nat -> (Z.of_nat (k + n) <= 2 ^ 52)%Z -> fin w -> fv w = IZR (signed_choose m (k - 1)) ->
  forall j v, nth_error (fweights_from (fz (Z.of_nat m)) w k n) j = Some v -> fin v /\ fv v = IZR (signed_choose m (k + j)).
Proof.
  intros ZM HC. induction n as [|n IH]; intros k w Hk ZK Fw Vw [|j] v H; cbn [fweights_from nth_error] in H; try discriminate.
  - injection H as <-. rewrite Nat.add_0_r. apply fnext_weight_int; auto. lia.
  - destruct (@fnext_weight_int m k w) as [F V]; auto; [lia|]. replace (k + S j)%nat with (S k + j)%nat by lia. refine (IH (S k) _ _ _ F _ j v H); [lia|lia|]. cbn [Nat.sub]. now rewrite Nat.sub_0_r.
Qed.
(** the fixed window keeps a prefix *)
Lemma fweights_fixed_prefix order t n : forall k w, exists m, (m <= n)%nat /\ fweights_fixed_from order t w k n = firstn m (fweights_from order w k n) /\
  (forall v, In v (firstn m (fweights_from order w k n)) -> flt (fabs v) t = false) /\
  ((m < n)%nat -> exists v, nth_error (fweights_from order w k n) m = Some v /\ flt (fabs v) t = true).
Proof.
  induction n as [|n IH]; intros k w; cbn [fweights_fixed_from fweights_from].
  - exists 0%nat. repeat split; auto; [intros v []|lia].
  - destruct (flt (fabs (fnext_weight order w k)) t) eqn:E.
    + exists 0%nat. repeat split; auto; [lia|intros v []|]. intros _. eexists. split; [reflexivity|exact E].
    + destruct (IH (S k) (fnext_weight order w k)) as (m & A & B & C & D). exists (S m). split; [lia|]. cbn [firstn nth_error]. split; [now rewrite B|]. split.
      * intros v [<-|H]; auto.
      * intro H. apply D. lia.
Qed.
