(** C166: sizes from a divergence in binary64. *)
From Coq Require Import ZArith Reals Lra Lia List.
From Flocq Require Import Core Relative BinarySingleNaN.
From Verif Require Import Py RNum Float64 FloatBarsModel FloatBarsProofs FloatPosModel FloatPosProofs PositionModel PositionProps.
Import ListNotations.
Set Implicit Arguments.
Unset Strict Implicit.
Open Scope R_scope.

(** what is used of the C library's pow: results in the normal range are within 0.6 units in the last place of the exact power *)
Definition accurate (f : f64 -> f64) (g : R -> R) : Prop := forall v, fin v -> bpow radix2 (-1022) <= Rabs (g (fv v)) <= bpow radix2 1022 ->
  fin (f v) /\ Rabs (fv (f v) - g (fv v)) <= 3 / 5 * ulp radix2 fexp64 (g (fv v)).
Definition square_fn (x : R) : R := x * x.
Definition inv_square_fn (x : R) : R := / (x * x).
Definition inv_sqrt_fn (x : R) : R := / sqrt x.
Lemma accurate_rel f g v : accurate f g -> fin v -> bpow radix2 (-1022) <= Rabs (g (fv v)) <= bpow radix2 1022 ->
  fin (f v) /\ exists e, Rabs e <= 2 * u64 /\ fv (f v) = g (fv v) * (1 + e).
Proof.
  intros A F B. destruct (A v F B) as [F' E]. split; auto. set (y := g (fv v)) in *. pose proof (bpow_gt_0 radix2 (-1022)) as P. assert (N : y <> 0) by (intro Z; rewrite Z, Rabs_R0 in B; lra).
  assert (U : ulp radix2 fexp64 y <= Rabs y * bpow radix2 (1 - 53)) by (apply ulp_FLT_le; apply B).
  exists ((fv (f v) - y) / y). split; [|field; auto]. unfold Rdiv. rewrite Rabs_mult, Rabs_inv. apply Rmult_le_reg_r with (Rabs y); [lra|]. rewrite Rmult_assoc, Rinv_l, Rmult_1_r by lra.
  apply Rle_trans with (1 := E). replace (2 * u64) with (bpow radix2 (1 - 53)) by (unfold ulp64; change 2 with (bpow radix2 1); rewrite <- bpow_plus; reflexivity).
  pose proof (bpow_gt_0 radix2 (1 - 53)). nra.
Qed.
(** ** the sigmoid *)
Lemma inv_sqrt_near y t : 0 < y -> Rabs t <= 4 * u64 -> exists s, Rabs s <= 3 * u64 /\ / sqrt (y * (1 + t)) = / sqrt y * (1 + s).
Proof.
  intros Y T. pose proof u64_small as U. pose proof u64_pos as U0. apply Rabs_le_inv in T. assert (S : 0 < sqrt y) by now apply sqrt_lt_R0.
  rewrite sqrt_mult by lra. assert (S1 : 0 < sqrt (1 + t)) by (apply sqrt_lt_R0; lra). exists (/ sqrt (1 + t) - 1). split; [|field; split; lra].
  assert (L : (1 - 3 * u64) * sqrt (1 + t) <= 1).
  { assert (sqrt (1 + t) <= 1 + 2 * u64) by (apply Rle_trans with (sqrt ((1 + 2 * u64) * (1 + 2 * u64))); [apply sqrt_le_1_alt; nra|rewrite sqrt_square; lra]). nra. }
  assert (H : 1 <= (1 + 3 * u64) * sqrt (1 + t)).
  { assert (1 - 2 * u64 - 4 * u64 * u64 <= sqrt (1 + t)).
    { apply Rle_trans with (sqrt ((1 - 2 * u64 - 4 * u64 * u64) * (1 - 2 * u64 - 4 * u64 * u64))); [rewrite sqrt_square; nra|apply sqrt_le_1_alt]. 
      assert (0 <= u64 * u64 * (1 - 4 * u64)) by (apply Rmult_le_pos; nra). nra. }
    nra. }
  assert (E : sqrt (1 + t) * / sqrt (1 + t) = 1) by (apply Rinv_r; lra). assert (I : 0 < / sqrt (1 + t)) by now apply Rinv_0_lt_compat.
  apply Rabs_le. split; nra.
Qed.
Section Sigmoid.
Variables square inv_sqrt : f64 -> f64.
Hypothesis Hsq : accurate square square_fn.
Hypothesis His : accurate inv_sqrt inv_sqrt_fn.
Lemma sigmoid_rel w x : fin w -> 0 <= fv w <= bpow radix2 800 -> fin x -> bpow radix2 (-400) <= Rabs (fv x) <= bpow radix2 400 ->
  fin (fscaled_sigmoid square inv_sqrt w x) /\ exists e, Rabs e <= 7 * u64 /\ fv (fscaled_sigmoid square inv_sqrt w x) = scaled_sigmoid (fv w) (fv x) * (1 + e).
Proof.
  intros Fw W Fx X. pose proof u64_small as U. pose proof u64_pos as U0. pose proof (bpow_gt_0 radix2 (-400)) as B4. set (a := fv x) in *. set (b := fv w) in *.
  assert (A2 : bpow radix2 (-800) <= a * a <= bpow radix2 800).
  { rewrite <- (Rabs_pos_eq (a * a)) by nra. rewrite Rabs_mult. change (-800)%Z with (-400 + -400)%Z. change 800%Z with (400 + 400)%Z. rewrite !bpow_plus. split; apply Rmult_le_compat; lra. }
  pose proof (bpow_gt_0 radix2 (-800)) as B8.
  destruct (@accurate_rel square square_fn x Hsq Fx) as [F1 (e1 & He1 & E1)].
  { fold a. unfold square_fn. rewrite Rabs_pos_eq by lra. split; [apply Rle_trans with (2 := proj1 A2); apply bpow_le; lia|apply Rle_trans with (1 := proj2 A2); apply bpow_le; lia]. }
  unfold square_fn in E1. fold a in E1. apply Rabs_le_inv in He1.
  assert (D : 2 * bpow radix2 801 <= bpow radix2 1000) by (change 2 with (bpow radix2 1); rewrite <- bpow_plus; apply bpow_le; lia). assert (D8 : bpow radix2 801 = 2 * bpow radix2 800) by (change 2 with (bpow radix2 1); rewrite <- bpow_plus; reflexivity).
  assert (S1 : 0 < fv (square x) <= 2 * bpow radix2 800) by (rewrite E1; split; nra).
  destruct (@fadd_spec w (square x) Fw F1) as [F2 V2].
  { fold b. rewrite Rabs_pos_eq by lra. apply Rle_trans with (bpow radix2 1000); [lra|apply bpow_le; lia]. }
  fold b in V2. destruct (@add_error b (fv (square x)) (fv_format _) (fv_format _)) as (e2 & He2 & E2). rewrite E2 in V2. apply Rabs_le_inv in He2.
  set (y := b + a * a). assert (Y : 0 < y) by (unfold y; lra).
  set (t := (fv (fadd w (square x)) - y) / y). assert (ET : fv (fadd w (square x)) = y * (1 + t)) by (unfold t; field; lra).
  assert (HT : Rabs t <= 4 * u64).
  { unfold t, Rdiv. rewrite Rabs_mult, Rabs_inv, (Rabs_pos_eq y) by lra. apply Rmult_le_reg_r with y; [lra|]. rewrite Rmult_assoc, Rinv_l, Rmult_1_r by lra. rewrite V2, E1. apply Rabs_le. unfold y.
    assert (T1 : -(2 * u64) * (a * a) <= a * a * e1 <= 2 * u64 * (a * a)) by (split; nra). assert (T2 : 0 <= b + a * a * (1 + e1) <= 2 * (b + a * a)) by (split; nra).
    replace ((b + a * a * (1 + e1)) * (1 + e2) - (b + a * a)) with (a * a * e1 + (b + a * a * (1 + e1)) * e2) by ring.
    assert (T3 : - (2 * (b + a * a)) * u64 <= (b + a * a * (1 + e1)) * e2 <= (2 * (b + a * a)) * u64) by (split; nra). split; nra. }
  destruct (inv_sqrt_near Y HT) as (s & Hs & ES).
  assert (YB : bpow radix2 (-802) <= y * (1 + t) <= bpow radix2 802).
  { apply Rabs_le_inv in HT. assert (y <= 2 * bpow radix2 800) by (unfold y; lra). assert (bpow radix2 (-800) <= y) by (unfold y; lra).
    assert (L : bpow radix2 (-802) = / 4 * bpow radix2 (-800)) by (change (/ 4) with (bpow radix2 (-2)); rewrite <- bpow_plus; reflexivity).
    assert (L2 : bpow radix2 802 = 4 * bpow radix2 800) by (change 4 with (bpow radix2 2); rewrite <- bpow_plus; reflexivity). rewrite L, L2. split; nra. }
  assert (IB : bpow radix2 (-401) <= / sqrt (y * (1 + t)) <= bpow radix2 401).
  { assert (Q : bpow radix2 (-401) <= sqrt (y * (1 + t)) <= bpow radix2 401).
    { split; [replace (bpow radix2 (-401)) with (sqrt (bpow radix2 (-802)))|replace (bpow radix2 401) with (sqrt (bpow radix2 802))]; try (apply sqrt_le_1_alt; lra); (apply sqrt_lem_1; [apply bpow_ge_0|apply bpow_ge_0|rewrite <- bpow_plus; reflexivity]). }
    pose proof (bpow_gt_0 radix2 (-401)). pose proof (bpow_gt_0 radix2 401). split; [change (-401)%Z with (- (401))%Z|change 401%Z with (- (-401))%Z]; rewrite bpow_opp; apply Rinv_le_contravar; lra. }
  pose proof (bpow_gt_0 radix2 (-401)) as B401.
  destruct (@accurate_rel inv_sqrt inv_sqrt_fn (fadd w (square x)) His F2) as [F3 (e3 & He3 & E3)].
  { unfold inv_sqrt_fn. rewrite ET, Rabs_pos_eq by lra. split; [apply Rle_trans with (2 := proj1 IB); apply bpow_le; lia|apply Rle_trans with (1 := proj2 IB); apply bpow_le; lia]. }
  unfold inv_sqrt_fn in E3. rewrite ET, ES in E3. rewrite ES in IB. set (r := / sqrt y) in *. apply Rabs_le_inv in Hs, He3.
  assert (R0 : 0 < r) by (apply Rinv_0_lt_compat, sqrt_lt_R0; auto).
  assert (ev : Rabs (r * (1 + s) * (1 + e3)) = r * (1 + s) * (1 + e3)) by (apply Rabs_pos_eq; apply Rmult_le_pos; [apply Rmult_le_pos|]; lra).
  assert (PB : bpow radix2 (-1000) <= Rabs (a * (r * (1 + s) * (1 + e3))) <= bpow radix2 1000).
  { rewrite Rabs_mult, ev. assert (/ 2 * bpow radix2 (-401) <= r * (1 + s) * (1 + e3) <= 2 * bpow radix2 401) by (split; nra).
    split.
    - apply Rle_trans with (bpow radix2 (-400) * (/ 2 * bpow radix2 (-401))); [change (/ 2) with (bpow radix2 (-1)); rewrite <- !bpow_plus; apply bpow_le; lia|apply Rmult_le_compat; lra].
    - apply Rle_trans with (bpow radix2 400 * (2 * bpow radix2 401)); [apply Rmult_le_compat; try apply Rabs_pos; lra|change 2 with (bpow radix2 1); rewrite <- !bpow_plus; apply bpow_le; lia]. }
  destruct (@fmul_spec x (inv_sqrt (fadd w (square x))) Fx F3) as [F4 V4]; [rewrite E3; apply Rle_trans with (1 := proj2 PB); apply bpow_le; lia|]. fold a in V4. rewrite E3 in V4.
  destruct (@rnd_error (a * (r * (1 + s) * (1 + e3)))) as (e4 & He4 & E4); [apply Rle_trans with (2 := proj1 PB); apply bpow_le; lia|]. rewrite E4 in V4. apply Rabs_le_inv in He4.
  split; [exact F4|]. exists ((1 + s) * (1 + e3) * (1 + e4) - 1). split.
  - assert (X1 : Rabs ((1 + s) * (1 + e3) - 1) <= (5 + / 8) * u64) by (apply Rabs_le; replace ((1 + s) * (1 + e3) - 1) with (s + e3 + s * e3) by ring; assert (- (3 * u64 * (2 * u64)) <= s * e3 <= 3 * u64 * (2 * u64)) by (split; nra); split; nra).
    apply Rabs_le_inv in X1. set (z := (1 + s) * (1 + e3) - 1) in *. replace ((1 + s) * (1 + e3) * (1 + e4) - 1) with (z + e4 + z * e4) by (unfold z; ring).
    assert (- ((5 + / 8) * u64 * u64) <= z * e4 <= (5 + / 8) * u64 * u64) by (split; nra). apply Rabs_le. split; nra.
  - unfold fscaled_sigmoid. rewrite V4. unfold scaled_sigmoid. fold a b y r. ring.
Qed.
(** the sigmoid has at most seven roundings of relative error *)
Theorem c166_sigmoid w x : fin w -> 0 <= fv w <= bpow radix2 800 -> fin x -> bpow radix2 (-400) <= Rabs (fv x) <= bpow radix2 400 ->
  let s := fscaled_sigmoid square inv_sqrt w x in fin s /\ Rabs (fv s - scaled_sigmoid (fv w) (fv x)) <= 7 * bpow radix2 (-53) * Rabs (scaled_sigmoid (fv w) (fv x)).
Proof.
  intros Fw W Fx X s. destruct (sigmoid_rel Fw W Fx X) as [F (e & He & E)]. split; auto. unfold s. rewrite E.
  replace (scaled_sigmoid (fv w) (fv x) * (1 + e) - scaled_sigmoid (fv w) (fv x)) with (e * scaled_sigmoid (fv w) (fv x)) by ring. rewrite Rabs_mult. fold u64. apply Rmult_le_compat_r; auto using Rabs_pos.
Qed.
(** ** the size *)
Lemma sigmoid_scale w x c : 0 <= w -> x <> 0 -> 0 < c -> exists e, Rabs e <= Rabs (c - 1) /\ scaled_sigmoid w (x * c) = scaled_sigmoid w x * (1 + e).
Proof.
  intros W X C. assert (X2 : 0 < x * x) by nra. set (y := w + x * x). set (y' := w + x * c * (x * c)). assert (Y : 0 < y) by (unfold y; lra). assert (C2 : 0 < c * c) by nra. assert (Y' : 0 < y').
  { unfold y'. replace (x * c * (x * c)) with (c * c * (x * x)) by ring. assert (0 < c * c * (x * x)) by (apply Rmult_lt_0_compat; lra). lra. }
  pose proof (sqrt_lt_R0 _ Y) as S. pose proof (sqrt_lt_R0 _ Y') as S'. exists (c * sqrt y * / sqrt y' - 1). split; [|unfold scaled_sigmoid; fold y y'; field; split; lra].
  assert (Ec : sqrt (c * c * y) = c * sqrt y) by (rewrite sqrt_mult by lra; rewrite sqrt_square by lra; reflexivity).
  assert (I : sqrt y' * / sqrt y' = 1) by (apply Rinv_r; lra). assert (I0 : 0 < / sqrt y') by now apply Rinv_0_lt_compat.
  assert (EY : c * c * y - y' = w * (c * c - 1)) by (unfold y, y'; ring). assert (EY' : y' - y = x * x * (c * c - 1)) by (unfold y, y'; ring).
  destruct (Rle_lt_dec 1 c) as [L|L].
  - assert (CC : 0 <= c * c - 1) by nra. pose proof (Rmult_le_pos _ _ W CC) as W1. pose proof (Rmult_le_pos _ _ (Rlt_le _ _ X2) CC) as W2.
    assert (sqrt y <= sqrt y') by (apply sqrt_le_1_alt; lra). assert (sqrt y' <= c * sqrt y) by (rewrite <- Ec; apply sqrt_le_1_alt; lra).
    rewrite (Rabs_pos_eq (c - 1)) by lra. apply Rabs_le. assert (c * sqrt y * / sqrt y' <= c) by (rewrite Rmult_assoc; nra). assert (1 <= c * sqrt y * / sqrt y') by nra. lra.
  - assert (CC : 0 <= 1 - c * c) by nra. pose proof (Rmult_le_pos _ _ W CC) as W1. pose proof (Rmult_le_pos _ _ (Rlt_le _ _ X2) CC) as W2.
    assert (sqrt y' <= sqrt y) by (apply sqrt_le_1_alt; lra). assert (c * sqrt y <= sqrt y') by (rewrite <- Ec; apply sqrt_le_1_alt; lra).
    rewrite (Rabs_left (c - 1)) by lra. apply Rabs_le. assert (c <= c * sqrt y * / sqrt y') by (rewrite Rmult_assoc; nra). assert (c * sqrt y * / sqrt y' <= 1) by nra. lra.
Qed.
Lemma trunc_pos x : 0 <= x -> IZR (Ztrunc x) <= x < IZR (Ztrunc x) + 1.
Proof. intro H. rewrite Ztrunc_floor by auto. split; [apply Zfloor_lb|apply Zfloor_ub]. Qed.
Lemma trunc_neg x : x <= 0 -> IZR (Ztrunc x) - 1 < x <= IZR (Ztrunc x).
Proof. intro H. pose proof (@trunc_pos (- x) ltac:(lra)) as P. rewrite Ztrunc_opp, opp_IZR in P. lra. Qed.
Lemma trunc_near a b : Rabs (a - b) < 1 -> (Z.abs (Ztrunc a - Ztrunc b) <= 1)%Z.
Proof.
  intro H. apply Rabs_def2 in H. assert (G : forall x y, x - 1 < y -> y < x + 1 -> (Ztrunc x - Ztrunc y <= 1)%Z).
  { clear. intros x y H1 H2. apply Z.lt_succ_r. replace (Z.succ 1) with 2%Z by lia. apply lt_IZR. rewrite minus_IZR.
    destruct (Rle_lt_dec 0 x) as [X|X], (Rle_lt_dec 0 y) as [Y|Y].
    - pose proof (trunc_pos X). pose proof (trunc_pos Y). lra.
    - pose proof (trunc_pos X). pose proof (@trunc_neg y ltac:(lra)). assert (Ztrunc x <= 0)%Z by (apply Z.lt_succ_r; replace (Z.succ 0) with 1%Z by lia; apply lt_IZR; lra). assert (-1 < IZR (Ztrunc y)) by lra. apply IZR_le in H3. change (IZR 0) with 0 in H3.
      assert (-1 < Ztrunc y)%Z by (apply lt_IZR; lra). assert (0 <= Ztrunc y)%Z by lia. apply IZR_le in H6. lra.
    - pose proof (trunc_pos Y). pose proof (@trunc_neg x ltac:(lra)). assert (Ztrunc x < 1)%Z by (apply lt_IZR; lra). assert (Ztrunc x <= 0)%Z by lia. apply IZR_le in H4. assert (-1 < Ztrunc y)%Z by (apply lt_IZR; lra). assert (0 <= Ztrunc y)%Z by lia. apply IZR_le in H6. lra.
    - pose proof (@trunc_neg x ltac:(lra)). pose proof (@trunc_neg y ltac:(lra)). lra. }
  pose proof (G a b ltac:(lra) ltac:(lra)). pose proof (G b a ltac:(lra) ltac:(lra)). lia.
Qed.
Lemma trunc_same a b d : Rabs (a - b) <= d -> (forall k, k <> 0%Z -> d < Rabs (b - IZR k)) -> Ztrunc a = Ztrunc b.
Proof.
  intros H K. apply Rabs_le_inv in H.
  (* a non-zero whole number would lie between *)
  assert (G : forall x y, x <= y -> (Ztrunc x < Ztrunc y)%Z -> exists k, k <> 0%Z /\ x <= IZR k <= y).
  { clear. intros x y L T. destruct (Z_lt_le_dec 0 (Ztrunc y)) as [P|P].
    - assert (0 <= y) by (apply Rnot_lt_le; intro N; pose proof (@trunc_neg y ltac:(lra)) as Q; assert (Ztrunc y < 1)%Z by (apply lt_IZR; lra); lia).
      exists (Ztrunc y). split; [lia|]. pose proof (trunc_pos H). split; [|lra]. apply Rnot_lt_le. intro N. assert (Ztrunc (IZR (Ztrunc y)) <= Ztrunc x)%Z by (apply Ztrunc_le; lra). rewrite Ztrunc_IZR in H1. lia.
    - assert (x < 0) by (apply Rnot_le_lt; intro N; pose proof (trunc_pos N) as Q; assert (Z1 : (Ztrunc x <= -1)%Z) by lia; apply IZR_le in Z1; lra).
      exists (Ztrunc x). split; [lia|]. pose proof (@trunc_neg x ltac:(lra)). split; [lra|]. apply Rnot_lt_le. intro N. assert (Ztrunc y <= Ztrunc (IZR (Ztrunc x)))%Z by (apply Ztrunc_le; lra). rewrite Ztrunc_IZR in H1. lia. }
  destruct (Z.lt_trichotomy (Ztrunc a) (Ztrunc b)) as [L|[L|L]]; auto; exfalso.
  - destruct (Rle_lt_dec a b) as [O|O]; [|pose proof (@Ztrunc_le b a ltac:(lra)); lia]. destruct (G a b O L) as (k & N & B). specialize (K k N). rewrite Rabs_pos_eq in K; lra.
  - destruct (Rle_lt_dec b a) as [O|O]; [|pose proof (@Ztrunc_le a b ltac:(lra)); lia]. destruct (G b a O L) as (k & N & B). specialize (K k N). rewrite Rabs_left1 in K; lra.
Qed.
Lemma Btrunc_spec (x : f64) : Btrunc x = Ztrunc (fv x).
Proof. apply eq_IZR. rewrite (Btrunc_correct 53 1024 prec64_emax). unfold round, F2R, scaled_mantissa, cexp, FIX_exp. cbn. now rewrite !Rmult_1_r. Qed.
(** the size is never above the maximum, at most one unit from the exact one, equal to it unless the exact product is within M * 10 * 2^-53 of a
    whole number other than 0, and of the right sign *)
Theorem c166_size f p w M : fin f -> fin p -> fin w -> 0 <= fv w <= bpow radix2 800 -> bpow radix2 (-399) <= Rabs (fv f - fv p) <= bpow radix2 399 -> (1 <= M <= 2 ^ 48)%Z ->
  let n := fsize_from_divergence square inv_sqrt f p (fz M) w in let y := scaled_sigmoid (fv w) (fv f - fv p) * IZR M in
  (Z.abs n <= M)%Z /\ (Z.abs (n - size_from_divergence (fv f) (fv p) (IZR M) (fv w)) <= 1)%Z /\
  ((forall k, k <> 0%Z -> IZR M * (10 * bpow radix2 (-53)) < Rabs (y - IZR k)) -> n = size_from_divergence (fv f) (fv p) (IZR M) (fv w)) /\
  (fv p < fv f -> (0 <= n)%Z) /\ (fv f < fv p -> (n <= 0)%Z).
Proof.
  intros Ff Fp Fw W D HM n y. pose proof u64_small as U. pose proof u64_pos as U0. set (x := fv f - fv p) in *. pose proof (bpow_gt_0 radix2 (-399)) as B0.
  assert (X0 : x <> 0) by (intro Z; rewrite Z, Rabs_R0 in D; lra).
  destruct (@fsub_spec f p Ff Fp) as [Fx Vx]; [fold x; apply Rle_trans with (1 := proj2 D); apply bpow_le; lia|].
  destruct (@add_error (fv f) (- fv p) (fv_format _) ltac:(apply generic_format_opp, fv_format)) as (e0 & He0 & E0). unfold Rminus in Vx. rewrite E0 in Vx. fold (fv f - fv p) in Vx. fold x in Vx. pose proof He0 as He0'. apply Rabs_le_inv in He0'.
  assert (XB : bpow radix2 (-400) <= Rabs (fv (fsub f p)) <= bpow radix2 400).
  { rewrite Vx, Rabs_mult, (Rabs_pos_eq (1 + e0)) by lra. replace (bpow radix2 (-400)) with (bpow radix2 (-399) * / 2) by (change (/ 2) with (bpow radix2 (-1)); rewrite <- bpow_plus; reflexivity).
    replace (bpow radix2 400) with (bpow radix2 399 * 2) by (change 2 with (bpow radix2 1); rewrite <- bpow_plus; reflexivity). split; apply Rmult_le_compat; try apply Rabs_pos; lra. }
  destruct (sigmoid_rel Fw W Fx XB) as [Fs (e1 & He1 & E1)]. set (s := fscaled_sigmoid square inv_sqrt w (fsub f p)) in *. rewrite Vx in E1.
  destruct (@sigmoid_scale (fv w) x (1 + e0) (proj1 W) X0 ltac:(lra)) as (e2 & He2 & E2). replace (1 + e0 - 1) with e0 in He2 by ring. rewrite E2 in E1. set (z := scaled_sigmoid (fv w) x) in *.
  assert (ZB : -1 <= z <= 1).
  { unfold z, scaled_sigmoid. assert (0 < x * x) by nra. set (q := fv w + x * x). assert (Q : 0 < sqrt q) by (apply sqrt_lt_R0; unfold q; lra). assert (AQ : Rabs x <= sqrt q) by (rewrite <- sqrt_Rsqr_abs; apply sqrt_le_1_alt; unfold Rsqr, q; lra).
    apply Rabs_le_inv. rewrite Rabs_mult, Rabs_inv, (Rabs_pos_eq (sqrt q)) by lra. apply Rmult_le_reg_r with (sqrt q); auto. rewrite Rmult_assoc, Rinv_l by lra. lra. }
  assert (NZ : z <> 0).
  { unfold z, scaled_sigmoid. apply Rmult_integral_contrapositive_currified; auto. apply Rinv_neq_0_compat. apply Rgt_not_eq, sqrt_lt_R0. assert (0 < x * x) by nra. lra. }
  assert (M1 : 1 <= IZR M) by (apply IZR_le; lia). assert (M2 : IZR M <= bpow radix2 48) by (change (bpow radix2 48) with (IZR (2 ^ 48)); apply IZR_le; lia).
  destruct (@fz_spec M) as [FM VM]; [lia|]. apply Rabs_le_inv in He1. assert (He2' : - u64 <= e2 <= u64) by (apply Rabs_le_inv; lra).
  set (g := (1 + e2) * (1 + e1) - 1). assert (Gb : - ((8 + / 8) * u64) <= g <= (8 + / 8) * u64) by (unfold g; assert (- (u64 * (7 * u64)) <= e2 * e1 <= u64 * (7 * u64)) by (split; nra); split; nra).
  assert (Es : fv s = z * (1 + g)) by (rewrite E1; unfold g; ring).
  assert (M48 : bpow radix2 48 <= bpow radix2 1000) by (apply bpow_le; lia). assert (P0 : 0 < bpow radix2 48) by apply bpow_gt_0.
  destruct (@fmul_spec s (fz M) Fs FM) as [Fy Vy].
  { rewrite VM, Es. rewrite !Rabs_mult, (Rabs_pos_eq (1 + g)), (Rabs_pos_eq (IZR M)) by lra. assert (Rabs z <= 1) by (apply Rabs_le; lra). pose proof (Rabs_pos z). apply Rle_trans with (2 * bpow radix2 48).
    - apply Rmult_le_compat; try lra; [apply Rmult_le_pos; lra|nra].
    - change 2 with (bpow radix2 1). rewrite <- bpow_plus. apply bpow_le. lia. }
  rewrite VM in Vy. destruct (rnd_error_any (fv s * IZR M)) as (e3 & h & He3 & Hh & E3). rewrite E3 in Vy. apply Rabs_le_inv in He3, Hh. pose proof tiny_le as TL.
  assert (YE : Rabs (fv (fmul s (fz M)) - y) <= IZR M * (10 * u64)).
  { rewrite Vy, Es. unfold y. replace (z * (1 + g) * IZR M * (1 + e3) + h - z * IZR M) with (z * IZR M * (g + e3 + g * e3) + h) by ring.
    set (k := g + e3 + g * e3). assert (Kb : Rabs k <= (9 + / 4) * u64) by (apply Rabs_le; unfold k; assert (- ((8 + / 8) * u64 * u64) <= g * e3 <= (8 + / 8) * u64 * u64) by (split; nra); split; nra).
    apply Rle_trans with (1 := Rabs_triang _ _). assert (Rabs (z * IZR M * k) <= IZR M * ((9 + / 4) * u64)).
    { rewrite !Rabs_mult, (Rabs_pos_eq (IZR M)) by lra. assert (Rabs z <= 1) by (apply Rabs_le; lra). apply Rmult_le_compat; auto using Rabs_pos; [apply Rmult_le_pos; [apply Rabs_pos|lra]|]. pose proof (Rabs_pos z). nra. }
    assert (Rabs h <= / 1024 * u64) by (apply Rabs_le; lra). nra. }
  assert (SM : IZR M * (10 * u64) < 1).
  { apply Rle_lt_trans with (bpow radix2 48 * (10 * u64)); [apply Rmult_le_compat_r; lra|]. unfold ulp64. replace (bpow radix2 48 * (10 * bpow radix2 (-53))) with (10 * (bpow radix2 48 * bpow radix2 (-53))) by ring. rewrite <- bpow_plus. cbn. lra. }
  assert (YB : - IZR M <= y <= IZR M) by (unfold y; split; nra).
  assert (En : n = Ztrunc (fv (fmul s (fz M)))) by apply Btrunc_spec.
  assert (Ex : size_from_divergence (fv f) (fv p) (IZR M) (fv w) = Ztrunc y) by reflexivity. rewrite Ex, En. set (fy := fv (fmul s (fz M))) in *. pose proof (Rabs_le_inv _ _ YE) as YE'.
  assert (Sg : (0 < z -> 0 <= fy) /\ (z < 0 -> fy <= 0)).
  { assert (Efy : fy = rnd64 (fv s * IZR M)) by (rewrite Vy, E3; reflexivity). rewrite Efy, Es. split; intro Hz; rewrite <- rnd64_0; apply rnd64_mono.
    - apply Rmult_le_pos; [apply Rmult_le_pos|]; lra.
    - assert (0 <= - z * (1 + g) * IZR M) by (apply Rmult_le_pos; [apply Rmult_le_pos|]; lra). lra. }
  assert (Sx : forall v : R, 0 < v -> 0 < / sqrt (fv w + v)) by (intros v Hv; apply Rinv_0_lt_compat, sqrt_lt_R0; lra). specialize (Sx (x * x) ltac:(nra)).
  split; [|split; [|split; [|split]]].
  - apply Z.abs_le. split.
    + assert (- M - 1 < Ztrunc fy)%Z; [|lia]. apply lt_IZR. rewrite minus_IZR, opp_IZR. destruct (Rle_lt_dec 0 fy) as [P|P]; [pose proof (trunc_pos P)|pose proof (@trunc_neg fy ltac:(lra))]; lra.
    + assert (Ztrunc fy < M + 1)%Z; [|lia]. apply lt_IZR. rewrite plus_IZR. destruct (Rle_lt_dec 0 fy) as [P|P]; [pose proof (trunc_pos P)|pose proof (@trunc_neg fy ltac:(lra))]; lra.
  - apply trunc_near. lra.
  - intro K. apply (@trunc_same fy y (IZR M * (10 * u64)) YE). exact K.
  - intro L. assert (0 <= fy) by (apply Sg; unfold z, scaled_sigmoid; apply Rmult_lt_0_compat; auto; unfold x; lra). rewrite <- (Ztrunc_IZR 0). apply Ztrunc_le. lra.
  - intro L. assert (fy <= 0) by (apply Sg; unfold z, scaled_sigmoid; assert (0 < - x * / sqrt (fv w + x * x)) by (apply Rmult_lt_0_compat; auto; unfold x; lra); lra). rewrite <- (Ztrunc_IZR 0). apply Ztrunc_le. lra.
Qed.
End Sigmoid.
Print Assumptions c166_sigmoid.
Print Assumptions c166_size.

(** ** the calibration point *)
Lemma adjacent M e r : (2 ^ 52 < M < 2 ^ 53)%Z -> (-1074 <= e)%Z -> format64 r -> Rabs (r - IZR M * bpow radix2 e) < bpow radix2 e -> r = IZR M * bpow radix2 e.
Proof.
  intros HM He G H. pose proof (bpow_gt_0 radix2 e) as B. apply Rabs_def2 in H.
  assert (M1 : bpow radix2 52 + 1 <= IZR M) by (change (bpow radix2 52) with (IZR (2 ^ 52)); rewrite <- plus_IZR; apply IZR_le; lia).
  assert (R1 : bpow radix2 (52 + e) <= r) by (rewrite bpow_plus; nra). assert (R0 : 0 < r) by (pose proof (bpow_gt_0 radix2 (52 + e)); lra).
  assert (C : (e <= cexp radix2 fexp64 r)%Z).
  { unfold cexp, FLT_exp. assert (53 + e <= mag radix2 r)%Z; [|lia]. apply mag_ge_bpow. rewrite Rabs_pos_eq by lra. replace (53 + e - 1)%Z with (52 + e)%Z by lia. exact R1. }
  unfold generic_format, F2R in G. cbn [Fnum Fexp] in G. set (k := Ztrunc (scaled_mantissa radix2 fexp64 r)) in *. set (c := cexp radix2 fexp64 r) in *.
  assert (E : r = IZR (k * 2 ^ (c - e)) * bpow radix2 e).
  { rewrite G at 1. rewrite mult_IZR, Rmult_assoc. f_equal. replace c with ((c - e) + e)%Z at 1 by lia. rewrite bpow_plus. f_equal. change 2%Z with (radix_val radix2). now rewrite IZR_Zpower by lia. }
  rewrite E in *. f_equal. f_equal. set (n := (k * 2 ^ (c - e))%Z) in *. assert (-1 < n - M < 1)%Z; [|lia].
  split; apply lt_IZR; rewrite minus_IZR; nra.
Qed.
Lemma accurate_at f g v M e : accurate f g -> fin v -> (2 ^ 52 < M < 2 ^ 53)%Z -> (-1000 <= e <= 900)%Z -> Rabs (g (fv v) - IZR M * bpow radix2 e) < 2 / 5 * bpow radix2 e -> f v = ff M e.
Proof.
  intros A F HM He H. pose proof (bpow_gt_0 radix2 e) as B. set (y := g (fv v)) in *. apply Rabs_def2 in H.
  assert (M1 : bpow radix2 52 + 1 <= IZR M) by (change (bpow radix2 52) with (IZR (2 ^ 52)); rewrite <- plus_IZR; apply IZR_le; lia).
  assert (M2 : IZR M + 1 <= bpow radix2 53) by (change (bpow radix2 53) with (IZR (2 ^ 53)); rewrite <- plus_IZR; apply IZR_le; lia).
  assert (Y1 : bpow radix2 (52 + e) <= y) by (rewrite bpow_plus; nra). assert (Y2 : y < bpow radix2 (53 + e)) by (rewrite bpow_plus; nra). assert (Y0 : 0 < y) by (pose proof (bpow_gt_0 radix2 (52 + e)); lra).
  destruct (A v F) as [F1 E1].
  { fold y. rewrite Rabs_pos_eq by lra. split; [apply Rle_trans with (2 := Y1); apply bpow_le; lia|left; apply Rlt_le_trans with (1 := Y2); apply bpow_le; lia]. }
  fold y in E1. assert (U : ulp radix2 fexp64 y = bpow radix2 e).
  { rewrite ulp_neq_0 by lra. unfold cexp. rewrite (mag_unique radix2 y (53 + e)); [f_equal; unfold FLT_exp; lia|]. rewrite Rabs_pos_eq by lra. replace (53 + e - 1)%Z with (52 + e)%Z by lia. split; auto. }
  rewrite U in E1. apply Rabs_le_inv in E1. assert (E : fv (f v) = IZR M * bpow radix2 e) by (apply adjacent; auto; [lia|apply fv_format|apply Rabs_def1; lra]).
  assert (P : 0 < bpow radix2 52) by apply bpow_gt_0.
  destruct (@ff_spec M e) as [F2 E2].
  { rewrite Rabs_pos_eq by nra. apply Rle_trans with (bpow radix2 53 * bpow radix2 e); [apply Rmult_le_compat_r; lra|]. rewrite <- bpow_plus. apply bpow_le. lia. }
  rewrite rnd64_id in E2 by (apply format64_float; lia).
  assert (SF : forall a : f64, fin a -> fv a <> 0 -> is_finite_strict a = true) by (intros a Fa Na; destruct a; auto; exfalso; apply Na; reflexivity).
  assert (N : IZR M * bpow radix2 e <> 0) by nra.
  apply B2R_inj; [apply SF; auto; congruence|apply SF; auto; congruence|]. fold (fv (f v)) (fv (ff M e)). congruence.
Qed.
(** REFUTED in binary64: a coefficient calibrated so that a divergence of 11 means 15/16 of the maximum gives, for a maximum of 16 units and a
    divergence of 11, 14 units; every input is an exact float and the exact size is 15 *)
Theorem c166_calibration_refuted square inv_square inv_sqrt : accurate square square_fn -> accurate inv_square inv_square_fn -> accurate inv_sqrt inv_sqrt_fn ->
  let m := ff 15 (-4) in let w := fsigmoid_coeff square inv_square (fz 11) m in
  fv m = 15 / 16 /\ fsize_from_divergence square inv_sqrt (fz 111) (fz 100) (fz 16) w = 14%Z /\
  size_from_divergence 111 100 16 (sigmoid_coeff 11 (15 / 16)) = 15%Z.
Proof.
  intros A1 A2 A3 m w. assert (Fm : fin m) by (vm_compute; reflexivity). assert (Vm : fv m = 15 / 16).
  { unfold m. destruct (@ff_spec 15 (-4)) as [_ E]; [apply Rle_trans with (bpow radix2 0); [cbn; apply Rabs_le; lra|apply bpow_le; lia]|]. rewrite E, rnd64_id by (apply format64_float; lia). cbn. lra. }
  destruct (@fz_spec 11) as [F11 V11]; [lia|]. split; auto. split.
  - assert (S11 : square (fz 11) = ff (121 * 2 ^ 46) (-46)).
    { apply (@accurate_at square square_fn (fz 11)); auto; try lia. rewrite V11. unfold square_fn. rewrite mult_IZR. change (2 ^ 46)%Z with (Zpower radix2 46). rewrite IZR_Zpower, Rmult_assoc, <- bpow_plus by lia. change (bpow radix2 (46 + -46)) with 1.
      replace (11 * 11 - 121 * 1) with 0 by ring. rewrite Rabs_R0. pose proof (bpow_gt_0 radix2 (-46)). lra. }
    assert (I : inv_square m = ff 5124095576030431 (-52)).
    { apply (@accurate_at inv_square inv_square_fn m); auto; try lia. rewrite Vm. unfold inv_square_fn. replace (/ (15 / 16 * (15 / 16))) with (256 / 225) by lra. cbn. apply Rabs_def1; lra. }
    set (v := fadd (fmul (ff (121 * 2 ^ 46) (-46)) (fsub (ff 5124095576030431 (-52)) (fz 1))) (ff (121 * 2 ^ 46) (-46))).
    assert (Fv : fin v) by (vm_compute; reflexivity). assert (Ev : feq v (ff 4843871599216267 (-45)) = true) by (vm_compute; reflexivity).
    destruct (@ff_spec 4843871599216267 (-45)) as [Fc Vc]; [apply Rle_trans with (bpow radix2 10); [cbn; apply Rabs_le; lra|apply bpow_le; lia]|]. rewrite rnd64_id in Vc by (apply format64_float; lia).
    apply feq_spec in Ev; auto. rewrite Vc in Ev.
    assert (Q : inv_sqrt v = ff 6141272219141585 (-56)).
    { apply (@accurate_at inv_sqrt inv_sqrt_fn v); auto; try lia. rewrite Ev. unfold inv_sqrt_fn. set (V := IZR 4843871599216267 * bpow radix2 (-45)). assert (HV : V = 4843871599216267 / 35184372088832) by (unfold V; cbn; lra).
      assert (S : 0 < sqrt V) by (apply sqrt_lt_R0; rewrite HV; lra). set (c := IZR 6141272219141585 * bpow radix2 (-56)). set (h := 2 / 5 * bpow radix2 (-56)).
      assert (Hc : c = 6141272219141585 / 72057594037927936) by (unfold c; cbn; lra). assert (Hh : h = 2 / 5 * / 72057594037927936) by (unfold h; cbn; lra).
      assert (L : (c - h) * sqrt V < 1).
      { assert (E : (c - h) * sqrt V = sqrt ((c - h) * (c - h) * V)) by (rewrite sqrt_mult by (rewrite ?Hc, ?Hh, ?HV; lra); rewrite sqrt_square by (rewrite Hc, Hh; lra); reflexivity).
        rewrite E, <- sqrt_1. apply sqrt_lt_1_alt. rewrite Hc, Hh, HV. lra. }
      assert (U : 1 < (c + h) * sqrt V).
      { assert (E : (c + h) * sqrt V = sqrt ((c + h) * (c + h) * V)) by (rewrite sqrt_mult by (rewrite ?Hc, ?Hh, ?HV; lra); rewrite sqrt_square by (rewrite Hc, Hh; lra); reflexivity).
        rewrite E, <- sqrt_1. apply sqrt_lt_1_alt. rewrite Hc, Hh, HV. lra. }
      assert (E : sqrt V * / sqrt V = 1) by (apply Rinv_r; lra). assert (I0 : 0 < / sqrt V) by now apply Rinv_0_lt_compat. apply Rabs_def1; nra. }
    assert (D : fsub (fz 111) (fz 100) = fz 11).
    { destruct (@fz_spec 111) as [Fa Va]; [lia|]. destruct (@fz_spec 100) as [Fb Vb]; [lia|]. destruct (@fsub_spec (fz 111) (fz 100) Fa Fb) as [Fd Vd]; rewrite ?Va, ?Vb; [rewrite Rabs_pos_eq by lra; apply Rle_trans with (bpow radix2 4); [cbn; lra|apply bpow_le; lia]|].
      rewrite Va, Vb in Vd. replace (111 - 100) with (IZR 11) in Vd by lra. rewrite rnd64_int in Vd by lia. apply B2R_inj; [vm_compute; reflexivity|vm_compute; reflexivity|]. fold (fv (fsub (fz 111) (fz 100))) (fv (fz 11)). congruence. }
    unfold fsize_from_divergence, fscaled_sigmoid. rewrite D. unfold w, fsigmoid_coeff. rewrite S11, I. fold v. rewrite Q. vm_compute. reflexivity.
  - unfold size_from_divergence. replace (111 - 100) with 11 by lra. rewrite c70_calibration by lra. replace (15 / 16 * 16) with (IZR 15) by lra. apply Ztrunc_IZR.
Qed.
Print Assumptions c166_calibration_refuted.
(** non-vacuity: correctly rounded powers are accurate *)
Definition nearest64 (y : R) : f64 := ff (ZnearestE (scaled_mantissa radix2 fexp64 y)) (cexp radix2 fexp64 y).
Theorem c166_correct_rounding g : accurate (fun v => nearest64 (g (fv v))) g.
Proof.
  intros v F [_ B]. set (y := g (fv v)) in *. assert (E : IZR (ZnearestE (scaled_mantissa radix2 fexp64 y)) * bpow radix2 (cexp radix2 fexp64 y) = rnd64 y) by reflexivity.
  destruct (@ff_spec (ZnearestE (scaled_mantissa radix2 fexp64 y)) (cexp radix2 fexp64 y)) as [F1 V1].
  { rewrite E. apply rnd64_abs_le; [apply format64_bpow; lia|]. apply Rle_trans with (1 := B). apply bpow_le. lia. }
  rewrite E in V1. rewrite (rnd64_id (x := rnd64 y)) in V1 by (apply generic_format_round; [apply valid64|apply valid_rnd_N]). split; [exact F1|]. unfold nearest64. rewrite V1.
  apply Rle_trans with (1 := error_le_half_ulp radix2 fexp64 (fun x => negb (Z.even x)) y). pose proof (ulp_ge_0 radix2 fexp64 y). lra.
Qed.
Print Assumptions c166_correct_rounding.
(** a divergence of 3 with coefficient 16 is exactly 3/5: of 7 units, 4 *)
Example c166_example : let sq := fun v => nearest64 (square_fn (fv v)) in let rs := fun v => nearest64 (inv_sqrt_fn (fv v)) in
  fsize_from_divergence sq rs (fz 13) (fz 10) (fz 7) (fz 16) = 4%Z /\ fsize_from_divergence sq rs (fz 10) (fz 13) (fz 7) (fz 16) = (-4)%Z.
Proof.
  intros sq rs. destruct (@fz_spec 13) as [F1 V1]; [lia|]. destruct (@fz_spec 10) as [F2 V2]; [lia|]. destruct (@fz_spec 16) as [F3 V3]; [lia|].
  assert (S5 : sqrt 25 = 5) by (replace 25 with (5 * 5) by ring; apply sqrt_square; lra).
  assert (K : forall k y, (y = 21 / 5 \/ y = - (21 / 5)) -> IZR 7 * (10 * bpow radix2 (-53)) < Rabs (y - IZR k)).
  { intros k y Hy. assert (U : bpow radix2 (-53) <= / 1024) by apply u64_small. apply Rlt_le_trans with (1 / 10 + / 10 * 9 / 10); [lra|]. assert (E : exists z : Z, y - IZR k = / 5 * IZR z /\ (z <> 0)%Z).
    { destruct Hy as [-> | ->]; [exists (21 - 5 * k)%Z|exists (- 21 - 5 * k)%Z]; rewrite minus_IZR, mult_IZR; split; try lra; lia. }
    destruct E as (z & -> & Hz). rewrite Rabs_mult, (Rabs_pos_eq (/ 5)) by lra. rewrite <- abs_IZR. assert (1 <= IZR (Z.abs z)) by (apply IZR_le; lia). lra. }
  assert (B : bpow radix2 (-399) <= 3 <= bpow radix2 399) by (split; [apply Rle_trans with (bpow radix2 0); [apply bpow_le; lia|cbn; lra]|apply Rle_trans with (bpow radix2 2); [cbn; lra|apply bpow_le; lia]]).
  assert (W : 0 <= 16 <= bpow radix2 800) by (split; [lra|apply Rle_trans with (bpow radix2 4); [cbn; lra|apply bpow_le; lia]]). split.
  - destruct (@c166_size sq rs (@c166_correct_rounding square_fn) (@c166_correct_rounding inv_sqrt_fn) (fz 13) (fz 10) (fz 16) 7 F1 F2 F3) as (_ & _ & E & _); rewrite ?V1, ?V2, ?V3 in *; auto; [replace (13 - 10) with 3 by lra; rewrite Rabs_pos_eq; lra|lia|].
    rewrite E; unfold size_from_divergence, scaled_sigmoid; replace (13 - 10) with 3 by lra; replace (16 + 3 * 3) with 25 by lra; rewrite S5.
    + replace (3 * / 5 * 7) with (21 / 5) by lra. rewrite Ztrunc_floor by lra. apply Zfloor_imp. cbn. lra.
    + intros k _. apply K. lra.
  - destruct (@c166_size sq rs (@c166_correct_rounding square_fn) (@c166_correct_rounding inv_sqrt_fn) (fz 10) (fz 13) (fz 16) 7 F2 F1 F3) as (_ & _ & E & _); rewrite ?V1, ?V2, ?V3 in *; auto; [replace (10 - 13) with (- (3)) by lra; rewrite Rabs_Ropp, Rabs_pos_eq; lra|lia|].
    rewrite E; unfold size_from_divergence, scaled_sigmoid; replace (10 - 13) with (- (3)) by lra; replace (16 + - (3) * - (3)) with 25 by lra; rewrite S5.
    + replace (- (3) * / 5 * 7) with (- (21 / 5)) by lra. rewrite Ztrunc_opp, Ztrunc_floor by lra. replace (Zfloor (21 / 5)) with 4%Z; [reflexivity|]. symmetry. apply Zfloor_imp. cbn. lra.
    + intros k _. apply K. right. lra.
Qed.
Print Assumptions c166_example.
