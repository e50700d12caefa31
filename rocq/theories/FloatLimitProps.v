(** C167: the limit price in binary64. *)
From Coq Require Import ZArith Reals Lra Lia List.
From Flocq Require Import Core Relative BinarySingleNaN.
From Verif Require Import Py RNum Float64 FloatBarsModel FloatBarsProofs FloatBarsProps FloatPosProofs FloatDivProps PositionModel PositionProps FloatLimitModel.
Import ListNotations.
Set Implicit Arguments.
Unset Strict Implicit.
Open Scope R_scope.

Definition root_fn (x : R) : R := sqrt x.
Lemma sqrt_near k : 0 < k -> Rabs (sqrt k - 1) <= Rabs (k - 1).
Proof.
  intro K. assert (S : 0 < sqrt k) by now apply sqrt_lt_R0. assert (E : sqrt k * sqrt k = k) by (apply sqrt_sqrt; lra).
  rewrite <- E at 2. replace (sqrt k * sqrt k - 1) with ((sqrt k - 1) * (sqrt k + 1)) by ring. rewrite Rabs_mult, (Rabs_pos_eq (sqrt k + 1)) by lra. pose proof (Rabs_pos (sqrt k - 1)). nra.
Qed.
(** ** one unit *)
(** [D * M >= 1]: the distance to a full position is at least one unit *)
Lemma premium_algebra M r w D u e1 e2 e3 e4 : 2 <= M -> 0 < u -> M * u <= / 1000 -> 0 < r < 1 -> D = 1 - r * r -> 1 <= D * M -> 0 < w ->
  Rabs e1 <= u -> Rabs e2 <= 2 * u -> Rabs e3 <= u -> Rabs e4 <= u ->
  let d := (1 - r * (1 + e1) * (r * (1 + e1)) * (1 + e2)) * (1 + e3) in
  0 < d /\ / 2 * D <= d <= 2 * D /\ exists k, Rabs (k - 1) <= 6 * (M * u) /\ w / d * (1 + e4) = w / D * k.
Proof.
  intros HM U MU R HD DM W H1 H2 H3 H4 d. apply Rabs_le_inv in H1, H2, H3, H4. assert (U1 : u <= / 2000) by nra. assert (U2 : u <= / 2 * (M * u)) by nra.
  assert (D0 : 0 < D) by nra. assert (D1 : D <= 1) by nra.
  set (t := (1 + e1) * (1 + e1) * (1 + e2) - 1). assert (A0 : Rabs ((1 + e1) * (1 + e1) - 1) <= (2 + / 1000) * u).
  { replace ((1 + e1) * (1 + e1) - 1) with (2 * e1 + e1 * e1) by ring. apply Rabs_le. assert (0 <= e1 * e1 <= u * u) by (split; nra). split; nra. }
  assert (T : Rabs t <= (4 + / 100) * u).
  { apply Rabs_le_inv in A0. unfold t. set (a := (1 + e1) * (1 + e1) - 1) in *. replace ((1 + e1) * (1 + e1) * (1 + e2) - 1) with (a + e2 + a * e2) by (unfold a; ring).
    assert (- ((2 + / 1000) * u * (2 * u)) <= a * e2 <= (2 + / 1000) * u * (2 * u)) by (split; nra). apply Rabs_le. split; nra. }
  apply Rabs_le_inv in T. assert (R2 : 0 < r * r < 1) by (split; nra).
  assert (Ed : d = (D - r * r * t) * (1 + e3)) by (unfold d, t; rewrite HD; ring).
  assert (RT : - ((4 + / 100) * u) <= r * r * t <= (4 + / 100) * u) by (split; nra).
  assert (UD : u <= D * (M * u)) by nra.
  set (mu := M * u) in *. assert (MU0 : 0 < mu) by (unfold mu; nra).
  assert (RTD : - ((4 + / 100) * (D * mu)) <= r * r * t <= (4 + / 100) * (D * mu)) by (split; nra).
  set (g := r * r * t) in *. 
  assert (DE : Rabs (d - D) <= (4 + 3 / 5) * (D * mu)).
  { rewrite Ed. replace ((D - g) * (1 + e3) - D) with (- g + D * e3 - g * e3) by ring.
    assert (X1 : - (D * (/ 2 * mu)) <= D * e3 <= D * (/ 2 * mu)) by (split; nra).
    assert (DM0 : 0 < D * mu) by nra.
    assert (X2 : - ((4 + / 100) * (D * mu) * / 2000) <= g * e3 <= (4 + / 100) * (D * mu) * / 2000) by (split; nra).
    apply Rabs_le. split; lra. }
  apply Rabs_le_inv in DE. assert (DM0 : 0 < D * mu) by nra. assert (DMS : D * mu <= D * / 1000) by nra.
  assert (B : / 2 * D <= d <= 2 * D) by (split; lra). split; [lra|]. split; auto. exists (D / d * (1 + e4)). split; [|field; lra].
  assert (ID : / d * d = 1) by (apply Rinv_l; lra). assert (I0 : 0 < / d) by (apply Rinv_0_lt_compat; lra).
  set (q := D / d). assert (Q : Rabs (q - 1) <= (4 + 7 / 10) * mu).
  { assert (Eq : (q - 1) * d = D - d) by (unfold q; field; lra). assert (L : (1 - 5 / 1000) * D <= d) by lra.
    apply Rmult_le_reg_r with d; [lra|]. rewrite <- (Rabs_pos_eq d) at 1 by lra. rewrite <- Rabs_mult, Eq. apply Rle_trans with ((4 + 3 / 5) * (D * mu)); [apply Rabs_le; lra|]. nra. }
  apply Rabs_le_inv in Q. replace (q * (1 + e4) - 1) with ((q - 1) + e4 + (q - 1) * e4) by ring.
  assert (- ((4 + 7 / 10) * mu * / 2000) <= (q - 1) * e4 <= (4 + 7 / 10) * mu * / 2000) by (split; nra). apply Rabs_le. split; lra.
Qed.
Section Limit.
Variables square root : f64 -> f64.
Hypothesis Hsq : accurate square square_fn.
Hypothesis Hrt : accurate root root_fn.
Definition premium (w : R) (mx j : Z) : R := IZR j / IZR mx * sqrt (w / (1 - (IZR j / IZR mx) * (IZR j / IZR mx))).
Lemma mu_small mx : (2 <= mx <= 2 ^ 40)%Z -> 2 <= IZR mx <= bpow radix2 40 /\ IZR mx * u64 <= / 1000.
Proof.
  intros [H1 H2]. apply IZR_le in H1, H2. change (2 ^ 40)%Z with (Zpower radix2 40) in H2. rewrite IZR_Zpower in H2 by lia. split; [lra|].
  apply Rle_trans with (bpow radix2 40 * bpow radix2 (-53)); [apply Rmult_le_compat_r; [apply bpow_ge_0|lra]|]. rewrite <- bpow_plus. cbn. lra.
Qed.
Lemma gap mx j : (2 <= mx)%Z -> (0 < j < mx)%Z -> let r := IZR j / IZR mx in 0 < r < 1 /\ / IZR mx <= r /\ 1 <= (1 - r * r) * IZR mx.
Proof.
  intros H1 H2 r. assert (M : 2 <= IZR mx) by now apply IZR_le. assert (J : 1 <= IZR j) by (apply IZR_le; lia). assert (JM : IZR j <= IZR mx - 1) by (rewrite <- minus_IZR; apply IZR_le; lia).
  assert (I : / IZR mx * IZR mx = 1) by (apply Rinv_l; lra). assert (I0 : 0 < / IZR mx) by (apply Rinv_0_lt_compat; lra).
  assert (E : r * IZR mx = IZR j) by (unfold r, Rdiv; rewrite Rmult_assoc, I; ring). assert (R0 : / IZR mx <= r) by (unfold r, Rdiv; nra). assert (R1 : r < 1) by nra. repeat split; try lra.
  assert (X : (1 - r) * IZR mx >= 1) by lra. replace ((1 - r * r) * IZR mx) with ((1 + r) * ((1 - r) * IZR mx)) by ring. nra.
Qed.
Lemma premium_bound w mx j : 0 < w -> (2 <= mx)%Z -> (0 < j < mx)%Z -> 0 < premium w mx j <= sqrt (w * IZR mx).
Proof.
  intros W H1 H2. destruct (gap H1 H2) as (R & _ & G). unfold premium. set (r := IZR j / IZR mx) in *. assert (M : 2 <= IZR mx) by now apply IZR_le. assert (D : 0 < 1 - r * r) by nra.
  assert (Q : 0 < w / (1 - r * r)) by (apply Rdiv_lt_0_compat; lra). pose proof (sqrt_lt_R0 _ Q) as S. split; [nra|].
  apply Rle_trans with (sqrt (w / (1 - r * r))); [nra|]. apply sqrt_le_1_alt. apply Rmult_le_compat_l; [lra|]. apply Rmult_le_reg_r with (1 - r * r); [lra|]. rewrite Rinv_l by lra. lra.
Qed.
Lemma unit_rel f w mx j : fin f -> Rabs (fv f) <= bpow radix2 900 -> fin w -> bpow radix2 (-800) <= fv w <= bpow radix2 800 -> (2 <= mx <= 2 ^ 40)%Z -> (0 < j < mx)%Z ->
  exists p s e, funit_price square root f w mx j = Ok p /\ fin p /\ fv p <= fv f /\ Rabs s <= 9 * (IZR mx * u64) /\ Rabs e <= u64 /\ fv p = (fv f - premium (fv w) mx j * (1 + s)) * (1 + e).
Proof.
  intros Ff BF Fw BW HM HJ. pose proof u64_pos as U0. destruct (mu_small HM) as [M MU]. destruct (@gap mx j) as (R & RL & G); [lia|auto|]. set (r := IZR j / IZR mx) in *.
  pose proof (bpow_gt_0 radix2 (-800)) as W0.
  assert (X53 : (Z.abs j <= 2 ^ 53)%Z /\ (Z.abs mx <= 2 ^ 53)%Z) by (split; lia). destruct (fz_spec (proj1 X53)) as [Fj Vj]. destruct (fz_spec (proj2 X53)) as [Fm Vm]. destruct one_spec as [F1 V1].
  assert (IM : bpow radix2 (-40) <= / IZR mx) by (change (-40)%Z with (- (40))%Z; rewrite bpow_opp; apply Rinv_le_contravar; lra). pose proof (bpow_gt_0 radix2 (-40)) as B40.
  assert (B40n : bpow radix2 (-1022) <= bpow radix2 (-40)) by (apply bpow_le; lia). assert (BIG1 : 4 <= big) by (change 4 with (bpow radix2 2); apply bpow_le; lia).
  (* m = j / max *)
  destruct (@fdiv_spec (fz j) (fz mx) Fj) as [Fq Vq]; rewrite ?Vj, ?Vm; try lra; [fold r; rewrite Rabs_pos_eq; lra|]. rewrite Vj, Vm in Vq. fold r in Vq.
  destruct (@rnd_error r) as (e1 & H1 & E1); [rewrite Rabs_pos_eq; lra|]. rewrite E1 in Vq. set (m := fdiv (fz j) (fz mx)) in *.
  assert (U1 : u64 <= / 1024) by apply u64_small. assert (MB : / 2 * r <= fv m <= 2 * r) by (rewrite Vq; apply Rabs_le_inv in H1; split; nra).
  (* m ** 2 *)
  assert (B80 : bpow radix2 (-1022) <= fv m * fv m).
  { apply Rle_trans with (bpow radix2 (-41) * bpow radix2 (-41)); [rewrite <- bpow_plus; apply bpow_le; lia|]. assert (bpow radix2 (-41) <= fv m) by (replace (bpow radix2 (-41)) with (/ 2 * bpow radix2 (-40)) by (change (/ 2) with (bpow radix2 (-1)); rewrite <- bpow_plus; reflexivity); lra).
    pose proof (bpow_gt_0 radix2 (-41)). apply Rmult_le_compat; lra. }
  assert (B22 : 4 <= bpow radix2 1022) by (change 4 with (bpow radix2 2); apply bpow_le; lia).
  destruct (@accurate_rel square square_fn m Hsq Fq) as [Fs (e2 & H2 & E2)]; [unfold square_fn; rewrite Rabs_pos_eq by nra; split; [auto|nra]|]. unfold square_fn in E2.
  (* 1 - m ** 2 *)
  assert (SB : 0 <= fv (square m) <= 8) by (rewrite E2; apply Rabs_le_inv in H2; split; nra).
  destruct (@fsub_spec (fz 1) (square m) F1 Fs) as [Fd Vd]; [rewrite V1; apply Rle_trans with 8; [apply Rabs_le; lra|change 8 with (bpow radix2 3); apply bpow_le; lia]|].
  destruct (@add_error (fv (fz 1)) (- fv (square m)) (fv_format _)) as (e3 & H3 & E3); [apply generic_format_opp, fv_format|]. unfold Rminus in Vd. rewrite E3 in Vd. set (d := fsub (fz 1) (square m)) in *.
  (* w / d *)
  set (D := 1 - r * r). fold D in G. assert (DP : 0 < D <= 1) by (unfold D; nra).
  assert (VD : forall e4, Rabs e4 <= u64 -> fv d = (1 - r * (1 + e1) * (r * (1 + e1)) * (1 + e2)) * (1 + e3) /\ 0 < fv d /\ / 2 * D <= fv d <= 2 * D /\ exists k, Rabs (k - 1) <= 6 * (IZR mx * u64) /\ fv w / fv d * (1 + e4) = fv w / D * k).
  { intros e4 H4. assert (Ed : fv d = (1 - r * (1 + e1) * (r * (1 + e1)) * (1 + e2)) * (1 + e3)) by (rewrite Vd, V1, E2, Vq; ring). split; auto. rewrite Ed.
    apply (@premium_algebra (IZR mx) r (fv w) D u64 e1 e2 e3 e4); auto; try lra. }
  destruct (VD 0) as (_ & Dpos & DB & _); [rewrite Rabs_R0; lra|]. assert (IMX : bpow radix2 (-40) <= D).
  { apply Rle_trans with (1 := IM). apply Rmult_le_reg_r with (IZR mx); [lra|]. rewrite Rinv_l; lra. }
  assert (QB : bpow radix2 (-802) <= fv w / fv d <= bpow radix2 842).
  { split.
    - apply Rmult_le_reg_r with (fv d); [lra|]. unfold Rdiv. rewrite Rmult_assoc, Rinv_l, Rmult_1_r by lra. replace (bpow radix2 (-800)) with (4 * bpow radix2 (-802)) in BW by (change 4 with (bpow radix2 2); rewrite <- bpow_plus; reflexivity).
      pose proof (bpow_gt_0 radix2 (-802)). nra.
    - apply Rmult_le_reg_r with (fv d); [lra|]. unfold Rdiv. rewrite Rmult_assoc, Rinv_l, Rmult_1_r by lra. apply Rle_trans with (1 := proj2 BW). apply Rle_trans with (bpow radix2 842 * bpow radix2 (-42)); [rewrite <- bpow_plus; apply bpow_le; lia|].
      apply Rmult_le_compat_l; [apply bpow_ge_0|]. replace (bpow radix2 (-42)) with (/ 4 * bpow radix2 (-40)) by (change (/ 4) with (bpow radix2 (-2)); rewrite <- bpow_plus; reflexivity). lra. }
  pose proof (bpow_gt_0 radix2 (-802)) as P802.
  destruct (@fdiv_spec w d Fw) as [Fq' Vq']; [lra|rewrite Rabs_pos_eq by lra; apply Rle_trans with (1 := proj2 QB); apply bpow_le; lia|].
  destruct (@rnd_error (fv w / fv d)) as (e4 & H4 & E4); [rewrite Rabs_pos_eq by lra; apply Rle_trans with (2 := proj1 QB); apply bpow_le; lia|]. rewrite E4 in Vq'.
  destruct (VD e4 H4) as (_ & _ & _ & k & Hk & Ek). rewrite Ek in Vq'. set (q := fdiv w d) in *.
  assert (K0 : 0 < k) by (apply Rabs_le_inv in Hk; lra). assert (QP : 0 < fv w / D) by (apply Rdiv_lt_0_compat; lra).
  (* the root *)
  assert (QB2 : bpow radix2 (-804) <= fv q <= bpow radix2 844).
  { rewrite Vq', <- Ek. apply Rabs_le_inv in H4. replace (bpow radix2 (-804)) with (/ 4 * bpow radix2 (-802)) by (change (/ 4) with (bpow radix2 (-2)); rewrite <- bpow_plus; reflexivity). replace (bpow radix2 844) with (4 * bpow radix2 842) by (change 4 with (bpow radix2 2); rewrite <- bpow_plus; reflexivity). split; nra. }
  assert (RB : bpow radix2 (-402) <= sqrt (fv q) <= bpow radix2 422).
  { split; [replace (bpow radix2 (-402)) with (sqrt (bpow radix2 (-804)))|replace (bpow radix2 422) with (sqrt (bpow radix2 844))]; try (apply sqrt_le_1_alt; lra); (apply sqrt_lem_1; [apply bpow_ge_0|apply bpow_ge_0|rewrite <- bpow_plus; reflexivity]). }
  pose proof (bpow_gt_0 radix2 (-402)) as P402.
  destruct (@accurate_rel root root_fn q Hrt Fq') as [Fr (e5 & H5 & E5)]; [unfold root_fn; rewrite Rabs_pos_eq by lra; split; [apply Rle_trans with (2 := proj1 RB); apply bpow_le; lia|apply Rle_trans with (1 := proj2 RB); apply bpow_le; lia]|].
  unfold root_fn in E5. assert (SQ : sqrt (fv q) = sqrt (fv w / D) * sqrt k) by (rewrite Vq', sqrt_mult by lra; reflexivity).
  (* the product *)
  assert (RT : / 2 * bpow radix2 (-402) <= fv (root q) <= 2 * bpow radix2 422) by (rewrite E5; apply Rabs_le_inv in H5; split; nra).
  assert (P403 : / 2 * bpow radix2 (-402) = bpow radix2 (-403)) by (change (/ 2) with (bpow radix2 (-1)); rewrite <- bpow_plus; reflexivity). assert (P423 : 2 * bpow radix2 422 = bpow radix2 423) by (change 2 with (bpow radix2 1) at 1; rewrite <- bpow_plus; reflexivity).
  rewrite P403, P423 in RT. pose proof (bpow_gt_0 radix2 (-403)) as P4.
  assert (PB : bpow radix2 (-445) <= fv m * fv (root q) <= bpow radix2 424).
  { split.
    - apply Rle_trans with (bpow radix2 (-41) * bpow radix2 (-403)); [rewrite <- bpow_plus; apply bpow_le; lia|]. assert (bpow radix2 (-41) <= fv m) by (replace (bpow radix2 (-41)) with (/ 2 * bpow radix2 (-40)) by (change (/ 2) with (bpow radix2 (-1)); rewrite <- bpow_plus; reflexivity); lra).
      pose proof (bpow_gt_0 radix2 (-41)). apply Rmult_le_compat; lra.
    - replace (bpow radix2 424) with (2 * bpow radix2 423) by (change 2 with (bpow radix2 1) at 1; rewrite <- bpow_plus; reflexivity). apply Rmult_le_compat; lra. }
  pose proof (bpow_gt_0 radix2 (-445)) as P445.
  destruct (@fmul_spec m (root q) Fq Fr) as [Fp Vp]; [rewrite Rabs_pos_eq by lra; apply Rle_trans with (1 := proj2 PB); apply bpow_le; lia|].
  destruct (@rnd_error (fv m * fv (root q))) as (e6 & H6 & E6); [rewrite Rabs_pos_eq by lra; apply Rle_trans with (2 := proj1 PB); apply bpow_le; lia|]. rewrite E6 in Vp.
  set (pr := fmul m (root q)) in *. assert (PR : 0 <= fv pr <= bpow radix2 425).
  { rewrite Vp. replace (bpow radix2 425) with (2 * bpow radix2 424) by (change 2 with (bpow radix2 1) at 1; rewrite <- bpow_plus; reflexivity). apply Rabs_le_inv in H6. split; nra. }
  (* the difference *)
  assert (B90 : bpow radix2 900 + bpow radix2 425 <= big).
  { apply Rle_trans with (2 * bpow radix2 900); [assert (bpow radix2 425 <= bpow radix2 900) by (apply bpow_le; lia); lra|]. change 2 with (bpow radix2 1) at 1. rewrite <- bpow_plus. apply bpow_le. lia. }
  assert (SBIG : Rabs (fv f - fv pr) <= big) by (apply Rle_trans with (bpow radix2 900 + bpow radix2 425); auto; apply Rabs_le_inv in BF; apply Rabs_le; lra).
  destruct (@fsub_spec f pr Ff Fp SBIG) as [Fo Vo]. destruct (@add_error (fv f) (- fv pr) (fv_format _)) as (e7 & H7 & E7); [apply generic_format_opp, fv_format|].
  assert (Vo' : fv (fsub f pr) = (fv f - fv pr) * (1 + e7)) by (rewrite Vo; unfold Rminus; exact E7).
  exists (fsub f pr), ((1 + e1) * sqrt k * (1 + e5) * (1 + e6) - 1), e7. repeat split; auto.
  - unfold funit_price. destruct (Z.eqb_spec mx 0); [lia|]. cbv zeta. fold m d. destruct (feq d (fz 0)) eqn:Z0; [|reflexivity]. exfalso. destruct fz0 as [F0 V0]. apply feq_spec in Z0; auto. lra.
  - rewrite Vo. apply Rle_trans with (rnd64 (fv f)); [apply rnd64_mono; lra|rewrite rnd64_fv; lra].
  - pose proof (sqrt_near K0) as SN. set (sg := sqrt k - 1) in *. assert (SG : Rabs sg <= 6 * (IZR mx * u64)) by lra. replace (sqrt k) with (1 + sg) by (unfold sg; ring).
    apply Rabs_le_inv in SG, H1, H5, H6. set (mu := IZR mx * u64) in *. assert (UM : u64 <= / 2 * mu) by (unfold mu; nra). assert (MU0 : 0 < mu) by lra.
    assert (A1 : Rabs ((1 + e1) * (1 + sg) - 1) <= (6 + 51 / 100) * mu).
    { replace ((1 + e1) * (1 + sg) - 1) with (e1 + sg + e1 * sg) by ring. assert (- (/ 1024 * (6 * mu)) <= e1 * sg <= / 1024 * (6 * mu)) by (split; nra). apply Rabs_le. split; lra. }
    apply Rabs_le_inv in A1. set (a := (1 + e1) * (1 + sg) - 1) in *.
    assert (A2 : Rabs ((1 + e5) * (1 + e6) - 1) <= (3 + / 100) * u64).
    { replace ((1 + e5) * (1 + e6) - 1) with (e5 + e6 + e5 * e6) by ring. assert (- (2 * u64 * / 1024) <= e5 * e6 <= 2 * u64 * / 1024) by (split; nra). apply Rabs_le. split; lra. }
    apply Rabs_le_inv in A2. set (b := (1 + e5) * (1 + e6) - 1) in *. 
    replace ((1 + e1) * (1 + sg) * (1 + e5) * (1 + e6) - 1) with (a + b + a * b) by (unfold a, b; ring).
    assert (- (7 / 1000 * ((3 + / 100) * u64)) <= a * b <= 7 / 1000 * ((3 + / 100) * u64)) by (split; nra). apply Rabs_le. split; lra.
  - rewrite Vo'. f_equal. f_equal. rewrite Vp, E5, SQ, Vq. unfold premium. fold r D. ring.
Qed.
(** every marginal price is at most the forecast, in binary64 as well, and has a small error *)
Theorem c167_unit f w mx j : fin f -> Rabs (fv f) <= bpow radix2 900 -> fin w -> bpow radix2 (-800) <= fv w <= bpow radix2 800 -> (2 <= mx <= 2 ^ 40)%Z -> (0 < j < mx)%Z ->
  exists p, funit_price square root f w mx j = Ok p /\ fin p /\ fv p <= fv f /\
    Rabs (fv p - inverse_price (fv f) (fv w) (IZR j / IZR mx)) <= 10 * IZR mx * bpow radix2 (-53) * (Rabs (fv f) + sqrt (fv w * IZR mx)).
Proof.
  intros Ff BF Fw BW HM HJ. destruct (unit_rel Ff BF Fw BW HM HJ) as (p & s & e & E & F & L & Hs & He & V). exists p. repeat split; auto.
  destruct (mu_small HM) as [M MU]. pose proof u64_pos as U0. pose proof u64_small as U1. assert (W : 0 < fv w) by (pose proof (bpow_gt_0 radix2 (-800)); lra). destruct (@premium_bound (fv w) mx j) as [P0 P1]; auto; [lia|].
  fold u64. change (inverse_price (fv f) (fv w) (IZR j / IZR mx)) with (fv f - premium (fv w) mx j). set (P := premium (fv w) mx j) in *. set (S := sqrt (fv w * IZR mx)) in *. rewrite V.
  replace ((fv f - P * (1 + s)) * (1 + e) - (fv f - P)) with (- (P * (s * (1 + e))) + (fv f - P) * e) by ring. replace (10 * IZR mx * u64) with (10 * (IZR mx * u64)) by ring. set (mu := IZR mx * u64) in *.
  assert (UM : u64 <= / 2 * mu) by (unfold mu; nra). apply Rle_trans with (1 := Rabs_triang _ _). rewrite Rabs_Ropp, !Rabs_mult, (Rabs_pos_eq P) by lra. pose proof (Rabs_pos s). pose proof (Rabs_pos e). pose proof (Rabs_pos (fv f)).
  assert (A1 : Rabs s * Rabs (1 + e) <= (9 + / 10) * mu).
  { assert (Rabs (1 + e) <= 1 + / 1024) by (apply Rabs_le_inv in He; apply Rabs_le; lra). apply Rle_trans with (9 * mu * (1 + / 1024)); [apply Rmult_le_compat; auto; apply Rabs_pos|nra]. }
  assert (A2 : Rabs (fv f - P) <= Rabs (fv f) + P) by (apply Rle_trans with (1 := Rabs_triang _ _); rewrite Rabs_Ropp, (Rabs_pos_eq P); lra).
  assert (A3 : P * (Rabs s * Rabs (1 + e)) <= P * ((9 + / 10) * mu)) by (apply Rmult_le_compat_l; lra).
  assert (A4 : Rabs (fv f - P) * Rabs e <= (Rabs (fv f) + P) * (/ 2 * mu)) by (apply Rmult_le_compat; try apply Rabs_pos; lra).
  assert (A5 : P * mu <= S * mu) by (apply Rmult_le_compat_r; lra). assert (A6 : 0 <= Rabs (fv f) * mu) by (apply Rmult_le_pos; lra). assert (A7 : 0 < P * mu) by (apply Rmult_lt_0_compat; lra).
  replace (P * ((9 + / 10) * mu)) with ((9 + / 10) * (P * mu)) in A3 by ring. replace ((Rabs (fv f) + P) * (/ 2 * mu)) with (/ 2 * (Rabs (fv f) * mu) + / 2 * (P * mu)) in A4 by field.
  replace (10 * mu * (Rabs (fv f) + S)) with (10 * (Rabs (fv f) * mu) + 10 * (S * mu)) by ring. lra.
Qed.
(** ** adding the units *)
Lemma rsum_abs B l : (forall x, In x l -> fin x /\ Rabs (fv x) <= B) -> Rabs (rsum (map fv l)) <= INR (length l) * B.
Proof.
  induction l as [|x l IH]; intro H; [cbn; rewrite Rabs_R0; lra|]. cbn [map rsum length]. rewrite S_INR. apply Rle_trans with (1 := Rabs_triang _ _).
  destruct (H x) as [_ Hx]; [now left|]. assert (Rabs (rsum (map fv l)) <= INR (length l) * B) by (apply IH; intros; apply H; now right). lra.
Qed.
Lemma sum_err B l : 0 <= B -> (forall x, In x l -> fin x /\ Rabs (fv x) <= B) -> INR (length l) * u64 <= / 1000 -> INR (length l) * B <= bpow radix2 1000 ->
  fin (fsum_left l) /\ Rabs (fv (fsum_left l) - rsum (map fv l)) <= INR (length l) * INR (length l) * u64 * B.
Proof.
  intro HB. pose proof u64_pos as U0. induction l as [|x l IH] using rev_ind; intros H N NB.
  - destruct fz0 as [F0 V0]. split; auto. unfold fsum_left. cbn [fold_left map rsum length INR]. rewrite V0, Rminus_0_r, Rabs_R0. lra.
  - assert (Ll : INR (length (l ++ [x])) = INR (length l) + 1) by (rewrite app_length, plus_INR; reflexivity). rewrite Ll in *. pose proof (pos_INR (length l)) as P0. set (n := INR (length l)) in *.
    destruct IH as [Fl El]; [intros y Hy; apply H, in_app_iff; now left|nra|nra|]. destruct (H x) as [Fx Bx]; [apply in_app_iff; right; now left|].
    assert (BS : Rabs (rsum (map fv l)) <= n * B) by (apply rsum_abs; intros y Hy; apply H, in_app_iff; now left).
    unfold fsum_left in *. rewrite fold_left_app. cbn [fold_left]. set (s := fold_left fadd l (fz 0)) in *. rewrite map_app, rsum_app. cbn [map rsum]. set (S := rsum (map fv l)) in *.
    assert (NU : n * u64 <= / 1000) by nra. assert (ER : n * n * u64 * B <= / 1000 * (n * B)) by (replace (n * n * u64 * B) with (n * u64 * (n * B)) by ring; apply Rmult_le_compat_r; [apply Rmult_le_pos; lra|lra]).
    assert (NB0 : 0 <= n * B) by (apply Rmult_le_pos; lra).
    apply Rabs_le_inv in El, BS. assert (Bx' := Bx). apply Rabs_le_inv in Bx'. assert (SX : Rabs (fv s + fv x) <= (1 + / 1000) * (n * B) + B) by (apply Rabs_le; split; lra).
    destruct (@fadd_spec s x Fl Fx) as [Fa Va].
    { apply Rle_trans with (1 := SX). apply Rle_trans with (2 * bpow radix2 1000); [nra|]. change 2 with (bpow radix2 1) at 1. rewrite <- bpow_plus. apply bpow_le. lia. }
    split; auto. destruct (@add_error (fv s) (fv x) (fv_format _) (fv_format _)) as (e & He & E). rewrite Va, E.
    replace ((fv s + fv x) * (1 + e) - (S + (fv x + 0))) with ((fv s - S) + (fv s + fv x) * e) by ring. apply Rle_trans with (1 := Rabs_triang _ _). rewrite Rabs_mult.
    assert (A : Rabs (fv s + fv x) * Rabs e <= ((1 + / 1000) * (n * B) + B) * u64) by (apply Rmult_le_compat; auto; apply Rabs_pos).
    assert (A2 : Rabs (fv s - S) <= n * n * u64 * B) by (apply Rabs_le; lra). assert (0 <= u64 * (n * B)) by (apply Rmult_le_pos; lra). nra.
Qed.
Lemma mapM_exists A B (f : A -> res B) (P : A -> B -> Prop) l : (forall a, In a l -> exists b, f a = Ok b /\ P a b) -> exists bs, mapM f l = Ok bs /\ Forall2 P l bs.
Proof.
  induction l as [|a l IH]; intro H; [exists []; split; [reflexivity|constructor]|]. destruct (H a) as (b & E & Pb); [now left|]. destruct IH as (bs & E' & F); [intros; apply H; now right|].
  exists (b :: bs). cbn [mapM]. rewrite E. cbn [bind]. rewrite E'. split; [reflexivity|now constructor].
Qed.
(** buying from a long position: the price is within 12 * max * 2^-53 of the exact one, relative to the forecast and the largest possible premium *)
Theorem c167_buy f w cur target mx : fin f -> Rabs (fv f) <= bpow radix2 900 -> fin w -> bpow radix2 (-800) <= fv w <= bpow radix2 800 -> (0 <= cur < target)%Z -> (target < mx <= 2 ^ 40)%Z ->
  exists q p, fcompute_limit_price square root cur target mx f w = Ok q /\ compute_limit_price cur target mx (fv f) (fv w) = Ok p /\ fin q /\
    Rabs (fv q - p) <= 12 * IZR mx * bpow radix2 (-53) * (Rabs (fv f) + sqrt (fv w * IZR mx)).
Proof.
  intros Ff BF Fw BW HC HT. assert (HM : (2 <= mx <= 2 ^ 40)%Z) by lia. destruct (mu_small HM) as [M MU]. pose proof u64_pos as U0. pose proof u64_small as U1. fold u64.
  assert (W : 0 < fv w) by (pose proof (bpow_gt_0 radix2 (-800)); lra). set (D := Rabs (fv f) + sqrt (fv w * IZR mx)). set (mu := IZR mx * u64) in *.
  set (js := zrange (cur + 1) (target + 1)). assert (JS : forall j, In j js -> (0 < j < mx)%Z) by (intros j Hj; unfold js, zrange in Hj; apply in_map_iff in Hj as (k & <- & Hk); apply in_seq in Hk; lia).
  assert (LJ : length js = Z.to_nat (target - cur)) by (unfold js, zrange; rewrite map_length, seq_length; f_equal; lia).
  pose (exact := fun j => inverse_price (fv f) (fv w) (IZR j / IZR mx)).
  destruct (@mapM_exists _ _ (funit_price square root f w mx) (fun j p => fin p /\ Rabs (fv p - exact j) <= 10 * mu * D) js) as (ps & Eps & FP).
  { intros j Hj. destruct (@c167_unit f w mx j) as (p & E & F & _ & V); auto. exists p. repeat split; auto. unfold mu, D, exact. fold u64 in V. replace (10 * (IZR mx * u64)) with (10 * IZR mx * u64) by ring. exact V. }
  assert (DP : bpow radix2 (-400) <= D).
  { unfold D. pose proof (Rabs_pos (fv f)). apply Rle_trans with (sqrt (fv w * IZR mx)); [|lra]. replace (bpow radix2 (-400)) with (sqrt (bpow radix2 (-800))) by (apply sqrt_lem_1; [apply bpow_ge_0|apply bpow_ge_0|rewrite <- bpow_plus; reflexivity]). apply sqrt_le_1_alt. nra. }
  assert (DB : D <= bpow radix2 901).
  { unfold D. replace (bpow radix2 901) with (2 * bpow radix2 900) by (change 2 with (bpow radix2 1) at 1; rewrite <- bpow_plus; reflexivity). assert (sqrt (fv w * IZR mx) <= bpow radix2 900); [|lra].
    apply Rle_trans with (sqrt (bpow radix2 1800)); [apply sqrt_le_1_alt|right; apply sqrt_lem_1; [apply bpow_ge_0|apply bpow_ge_0|rewrite <- bpow_plus; reflexivity]]. apply Rle_trans with (bpow radix2 800 * bpow radix2 40); [apply Rmult_le_compat; lra|rewrite <- bpow_plus; apply bpow_le; lia]. }
  pose proof (bpow_gt_0 radix2 (-400)) as P400. assert (D0 : 0 < D) by lra. assert (MU0 : 0 < mu) by (unfold mu; nra). assert (MD : 0 < mu * D) by (apply Rmult_lt_0_compat; lra). assert (MDS : mu * D <= / 1000 * D) by (apply Rmult_le_compat_r; lra).
  assert (EB : forall j, In j js -> Rabs (exact j) <= D).
  { intros j Hj. destruct (@premium_bound (fv w) mx j) as [P0 P1]; auto; [lia|]. unfold exact. change (inverse_price (fv f) (fv w) (IZR j / IZR mx)) with (fv f - premium (fv w) mx j). unfold D. apply Rle_trans with (1 := Rabs_triang _ _). rewrite Rabs_Ropp, (Rabs_pos_eq (premium _ _ _)); lra. }
  set (B := (1 + / 100) * D). assert (Lps : length ps = length js) by (symmetry; eapply Forall2_length; eauto).
  assert (PB : forall x, In x ps -> fin x /\ Rabs (fv x) <= B).
  { clear - FP EB MDS MD D0. intros x Hx. induction FP as [|j p js ps [Fp Vp] FP IH]; [easy|]. destruct Hx as [<-|Hx]; [|apply IH; auto; intros; apply EB; now right]. split; auto.
    assert (Hj : Rabs (exact j) <= D) by (apply EB; now left). replace (fv p) with ((fv p - exact j) + exact j) by ring. apply Rle_trans with (1 := Rabs_triang _ _). unfold B. lra. }
  set (n := INR (length ps)). assert (En : n = IZR (target - cur)) by (unfold n; rewrite Lps, LJ, INR_IZR_INZ; f_equal; lia).
  assert (N1 : 1 <= n <= IZR mx - 1) by (rewrite En, <- minus_IZR; split; apply IZR_le; lia).
  assert (NU : n * u64 <= mu) by (unfold mu; apply Rmult_le_compat_r; lra).
  destruct (@sum_err B ps) as [Fs Es]; auto; [unfold B; lra|fold n; lra| |].
  { fold n. apply Rle_trans with (bpow radix2 40 * (2 * bpow radix2 901)); [apply Rmult_le_compat; unfold B; lra|]. change 2 with (bpow radix2 1) at 1. rewrite <- !bpow_plus. apply bpow_le. lia. }
  fold n in Es. set (s := fsum_left ps) in *.
  (* the sum of the unit errors *)
  assert (SE : Rabs (rsum (map fv ps) - rsum (map exact js)) <= n * (10 * mu * D)).
  { unfold n. rewrite Lps. clear - FP. induction FP as [|j p js ps [Fp Vp] FP IH]; [cbn; rewrite Rminus_0_r, Rabs_R0; lra|]. cbn [map rsum length]. rewrite S_INR.
    replace (fv p + rsum (map fv ps) - (exact j + rsum (map exact js))) with ((fv p - exact j) + (rsum (map fv ps) - rsum (map exact js))) by ring. apply Rle_trans with (1 := Rabs_triang _ _). lra. }
  set (X := rsum (map exact js)) in *. 
  assert (E1 : Rabs (fv s - X) <= n * ((11 + / 50) * (mu * D))).
  { replace (fv s - X) with ((fv s - rsum (map fv ps)) + (rsum (map fv ps) - X)) by ring. apply Rle_trans with (1 := Rabs_triang _ _).
    assert (n * n * u64 * B <= n * (mu * B)) by (replace (n * n * u64 * B) with (n * (n * u64 * B)) by ring; apply Rmult_le_compat_l; [lra|]; apply Rmult_le_compat_r; [unfold B; lra|auto]).
    replace (n * (mu * B)) with (n * ((1 + / 100) * (mu * D))) in H by (unfold B; ring). assert (0 <= n * (mu * D)) by (apply Rmult_le_pos; lra). lra. }
  assert (XB : Rabs X <= n * D).
  { unfold X, n. rewrite Lps. clear - EB. induction js as [|j js IH]; [cbn; rewrite Rabs_R0; lra|]. cbn [map rsum length]. rewrite S_INR. apply Rle_trans with (1 := Rabs_triang _ _).
    assert (Rabs (exact j) <= D) by (apply EB; now left). assert (Rabs (rsum (map exact js)) <= INR (length js) * D) by (apply IH; intros; apply EB; now right). lra. }
  (* the division *)
  assert (X53 : (Z.abs (target - cur) <= 2 ^ 53)%Z) by lia. destruct (fz_spec X53) as [Fn Vn]. rewrite <- En in Vn. assert (IN : / n * n = 1) by (apply Rinv_l; lra). assert (IN0 : 0 < / n) by (apply Rinv_0_lt_compat; lra).
  assert (Y1 : Rabs (fv s / n - X / n) <= (11 + / 50) * (mu * D)).
  { replace (fv s / n - X / n) with ((fv s - X) * / n) by (unfold Rdiv; ring). rewrite Rabs_mult, (Rabs_pos_eq (/ n)) by lra. apply Rmult_le_reg_r with n; [lra|]. rewrite Rmult_assoc, IN. lra. }
  assert (Y2 : Rabs (X / n) <= D) by (unfold Rdiv; rewrite Rabs_mult, (Rabs_pos_eq (/ n)) by lra; apply Rmult_le_reg_r with n; [lra|]; rewrite Rmult_assoc, IN; lra).
  assert (Y3 : Rabs (fv s / n) <= (1 + / 50) * D) by (replace (fv s / n) with ((fv s / n - X / n) + X / n) by ring; apply Rle_trans with (1 := Rabs_triang _ _); lra).
  destruct (@fdiv_spec s (fz (target - cur)) Fs) as [Fq Vq]; [rewrite Vn; lra|rewrite Vn; apply Rle_trans with (1 := Y3); apply Rle_trans with (2 * bpow radix2 901); [lra|]; change 2 with (bpow radix2 1) at 1; rewrite <- bpow_plus; apply bpow_le; lia|].
  rewrite Vn in Vq. destruct (rnd_error_any (fv s / n)) as (e & h & He & Hh & Eq). rewrite Eq in Vq.
  exists (fdiv s (fz (target - cur))), (X / n). repeat split; auto.
  - unfold fcompute_limit_price. rewrite (proj2 (Z.ltb_lt cur target)) by lia. rewrite !Z.abs_eq by lia. fold js. rewrite Eps. cbn [bind]. destruct (Z.eqb_spec (target - cur) 0); [lia|]. reflexivity.
  - rewrite c71_buy_limit_price by (auto; lra || lia). f_equal. fold js. fold exact. unfold rmean. fold X. rewrite map_length, <- Lps. reflexivity.
  - rewrite Vq. replace (fv s / n * (1 + e) + h - X / n) with ((fv s / n - X / n) + (fv s / n * e + h)) by ring. apply Rle_trans with (1 := Rabs_triang _ _).
    assert (Z1 : Rabs (fv s / n * e + h) <= (1 + / 50) * D * u64 + tiny) by (apply Rle_trans with (1 := Rabs_triang _ _); rewrite Rabs_mult; apply Rplus_le_compat; auto; apply Rmult_le_compat; auto; apply Rabs_pos).
    assert (Z2 : tiny <= / 100 * (u64 * D)).
    { apply Rle_trans with (bpow radix2 (-7) * (bpow radix2 (-53) * bpow radix2 (-400))); [rewrite <- !bpow_plus; apply bpow_le; lia|]. change (bpow radix2 (-53)) with u64. assert (bpow radix2 (-7) <= / 100) by (cbn; lra). pose proof (bpow_gt_0 radix2 (-7)). apply Rmult_le_compat; try lra; [apply Rmult_le_pos; lra|apply Rmult_le_compat_l; lra]. }
    assert (Z3 : u64 * D <= / 2 * (mu * D)) by (replace (/ 2 * (mu * D)) with (/ 2 * mu * D) by ring; apply Rmult_le_compat_r; [lra|unfold mu; nra]).
    replace (12 * IZR mx * u64 * D) with (12 * (mu * D)) by (unfold mu; ring). lra.
Qed.
(** nothing to trade, and a target at the maximum, raise as in exact arithmetic (C's pow gives 1 for 1 ** 2) *)
Theorem c167_raises f w cur target mx : fin f -> Rabs (fv f) <= bpow radix2 900 -> fin w -> bpow radix2 (-800) <= fv w <= bpow radix2 800 -> (0 <= cur < mx)%Z -> (2 <= mx <= 2 ^ 40)%Z ->
  fv (square (fz 1)) = 1 -> fin (square (fz 1)) -> target = cur /\ (0 < cur)%Z \/ target = mx -> fcompute_limit_price square root cur target mx f w = Err ZeroDivisionError.
Proof.
  intros Ff BF Fw BW HC HM S1 FS HT.
  assert (U : forall a b, (0 < a)%Z -> (b <= mx)%Z -> exists ps, mapM (funit_price square root f w mx) (zrange a b) = Ok ps).
  { intros a b Ha Hb. destruct (@mapM_exists _ _ (funit_price square root f w mx) (fun _ _ => True) (zrange a b)) as (ps & E & _); [|eauto]. intros j Hj. unfold zrange in Hj. apply in_map_iff in Hj as (k & <- & Hk). apply in_seq in Hk.
    destruct (@c167_unit f w mx (a + Z.of_nat k)) as (p & E & _); auto; [lia|eauto]. }
  unfold fcompute_limit_price. destruct HT as [[-> C0]| ->].
  - rewrite Z.ltb_irrefl. rewrite !Z.abs_eq by lia. destruct (Z.eq_dec cur 1) as [->|N].
    + replace (zrange (1 + -1) (1 + 1)) with (0 :: zrange 1 2)%Z by reflexivity. destruct (U 1%Z 2%Z) as (ps & E); [lia|lia|]. cbn [mapM]. rewrite E. destruct (funit_price square root f w mx 0) as [p|x] eqn:E0; [cbn [bind]; now rewrite Z.sub_diag|].
      unfold funit_price in E0. destruct (mx =? 0)%Z; [injection E0 as <-; reflexivity|]. cbv zeta in E0. destruct (feq _ _); [injection E0 as <-; reflexivity|discriminate].
    + destruct (U (cur + -1)%Z (cur + 1)%Z) as (ps & E); [lia|lia|]. rewrite E. cbn [bind]. now rewrite Z.sub_diag.
  - rewrite (proj2 (Z.ltb_lt cur mx)) by lia. rewrite !Z.abs_eq by lia.
    assert (E : zrange (cur + 1) (mx + 1) = zrange (cur + 1) mx ++ [mx]).
    { unfold zrange. replace (Z.to_nat (mx + 1 - (cur + 1))) with (Z.to_nat (mx - (cur + 1)) + 1)%nat by lia. rewrite seq_app, map_app. f_equal. cbn. f_equal. lia. }
    rewrite E, mapM_app. destruct (U (cur + 1)%Z mx) as (ps & Ep); [lia|lia|]. rewrite Ep. cbn [bind mapM].
    assert (X : funit_price square root f w mx mx = Err ZeroDivisionError); [|rewrite X; reflexivity].
    unfold funit_price. destruct (Z.eqb_spec mx 0); [lia|]. cbv zeta. assert (X53 : (Z.abs mx <= 2 ^ 53)%Z) by lia. destruct (fz_spec X53) as [Fm Vm]. destruct one_spec as [F1 V1]. assert (M : 2 <= IZR mx) by (apply IZR_le; lia).
    assert (BIG1 : 1 <= big) by (change 1 with (bpow radix2 0); apply bpow_le; lia).
    destruct (@fdiv_spec (fz mx) (fz mx) Fm) as [Fq Vq]; rewrite ?Vm; try lra; [unfold Rdiv; rewrite Rinv_r by lra; rewrite Rabs_R1; auto|]. rewrite Vm in Vq. unfold Rdiv in Vq. rewrite Rinv_r, rnd64_int in Vq by (lra || lia).
    assert (Q1 : fdiv (fz mx) (fz mx) = fz 1).
    { assert (SF : forall a : f64, fin a -> fv a <> 0 -> is_finite_strict a = true) by (intros a Fa Na; destruct a; auto; exfalso; apply Na; reflexivity). apply B2R_inj; [apply SF; auto; lra|apply SF; auto; lra|]. fold (fv (fdiv (fz mx) (fz mx))) (fv (fz 1)). lra. }
    rewrite Q1. destruct (@fsub_spec (fz 1) (square (fz 1)) F1 FS) as [Fd Vd]; [rewrite V1, S1; rewrite Rminus_eq_0, Rabs_R0; lra|]. rewrite V1, S1, Rminus_eq_0, rnd64_0 in Vd. destruct fz0 as [F0 V0].
    replace (feq (fsub (fz 1) (square (fz 1))) (fz 0)) with true; [reflexivity|]. symmetry. apply feq_spec; auto; congruence.
Qed.
(** REFUTED in binary64: the limit price of a buy is not always at most the forecast.  Buying 3 of 4 units at a forecast of 0.1 with a coefficient
    of 2^-140: every marginal price rounds to 0.1, and (0.1 + 0.1 + 0.1) / 3 is above 0.1; the exact limit price is below the forecast *)
Theorem c167_above_forecast_refuted : let w := ff 1 (-140) in
  exists q p, fcompute_limit_price square root 0 3 4 tenth w = Ok q /\ fin q /\ fv tenth < fv q /\
    compute_limit_price 0 3 4 (fv tenth) (fv w) = Ok p /\ p < fv tenth.
Proof.
  intro w. assert (Fw : fin w) by (vm_compute; reflexivity). assert (Ft : fin tenth) by (vm_compute; reflexivity).
  assert (Vw : fv w = bpow radix2 (-140)).
  { unfold w. destruct (@ff_spec 1 (-140)) as [_ E]; [rewrite Rmult_1_l, Rabs_pos_eq by apply bpow_ge_0; apply bpow_le; lia|]. rewrite E, Rmult_1_l. apply rnd64_id, format64_bpow. lia. }
  assert (Vt : fv tenth = IZR 3602879701896397 * bpow radix2 (-55)).
  { unfold tenth. destruct (@ff_spec 3602879701896397 (-55)) as [_ E]; [apply Rle_trans with (bpow radix2 0); [cbn; apply Rabs_le; lra|apply bpow_le; lia]|]. rewrite E. apply rnd64_id, format64_float; lia. }
  assert (TB : 9 / 100 <= fv tenth <= 11 / 100) by (rewrite Vt; cbn; lra).
  assert (BT : Rabs (fv tenth) <= bpow radix2 900) by (rewrite Rabs_pos_eq by lra; apply Rle_trans with (bpow radix2 0); [change (bpow radix2 0) with 1; lra|apply bpow_le; lia]).
  assert (BW : bpow radix2 (-800) <= fv w <= bpow radix2 800) by (rewrite Vw; split; apply bpow_le; lia).
  (* each unit rounds to the forecast *)
  assert (U : forall j, (0 < j < 4)%Z -> funit_price square root tenth w 4 j = Ok tenth).
  { intros j Hj. destruct (@unit_rel tenth w 4 j) as (p & s & e & E & F & L & Hs & He & V); auto; [lia|]. rewrite E. f_equal.
    destruct (@premium_bound (fv w) 4 j) as [P0 P1]; [rewrite Vw; apply bpow_gt_0|lia|auto|]. set (P := premium (fv w) 4 j) in *.
    assert (PS : P <= bpow radix2 (-69)). { apply Rle_trans with (1 := P1). rewrite Vw. replace 4 with (bpow radix2 2) by (cbn; lra). rewrite <- bpow_plus. right. apply sqrt_lem_1; [apply bpow_ge_0|apply bpow_ge_0|rewrite <- bpow_plus; reflexivity]. }
    assert (PS2 : bpow radix2 (-69) <= / 100 * bpow radix2 (-56)) by (replace (bpow radix2 (-69)) with (bpow radix2 (-13) * bpow radix2 (-56)) by (rewrite <- bpow_plus; reflexivity); apply Rmult_le_compat_r; [apply bpow_ge_0|cbn; lra]).
    pose proof (bpow_gt_0 radix2 (-56)) as P56. assert (UE : u64 = 8 * bpow radix2 (-56)) by (change 8 with (bpow radix2 3); rewrite <- bpow_plus; reflexivity). pose proof u64_small as US.
    assert (MS : IZR 4 * u64 <= / 1000) by (rewrite UE; cbn; lra).
    assert (T2 : fv tenth = IZR 7205759403792794 * bpow radix2 (-56)) by (rewrite Vt; cbn; lra).
    assert (EP : fv p = fv tenth).
    { rewrite T2. apply adjacent; [lia|lia|apply fv_format|]. rewrite <- T2, V. replace ((fv tenth - P * (1 + s)) * (1 + e) - fv tenth) with (fv tenth * e - P * ((1 + s) * (1 + e))) by ring.
      apply Rle_lt_trans with (1 := Rabs_triang _ _). rewrite Rabs_Ropp, !Rabs_mult, (Rabs_pos_eq (fv tenth)), (Rabs_pos_eq P) by lra.
      assert (A1 : fv tenth * Rabs e <= 11 / 100 * (8 * bpow radix2 (-56))) by (apply Rmult_le_compat; try apply Rabs_pos; lra).
      assert (A2 : Rabs (1 + s) <= 2) by (apply Rabs_le_inv in Hs; apply Rabs_le; lra). assert (A3 : Rabs (1 + e) <= 2) by (apply Rabs_le_inv in He; apply Rabs_le; lra).
      assert (A4 : Rabs (1 + s) * Rabs (1 + e) <= 2 * 2) by (apply Rmult_le_compat; auto; apply Rabs_pos).
      assert (A5 : P * (Rabs (1 + s) * Rabs (1 + e)) <= / 100 * bpow radix2 (-56) * (2 * 2)) by (apply Rmult_le_compat; try lra; apply Rmult_le_pos; apply Rabs_pos). lra. }
    assert (SF : forall a : f64, fin a -> fv a <> 0 -> is_finite_strict a = true) by (intros a Fa Na; destruct a; auto; exfalso; apply Na; reflexivity).
    apply B2R_inj; [apply SF; auto; lra|apply SF; auto; lra|exact EP]. }
  exists (fdiv (fsum_left [tenth; tenth; tenth]) (fz 3)). assert (Fq : fin (fdiv (fsum_left [tenth; tenth; tenth]) (fz 3))) by (vm_compute; reflexivity).
  assert (W0 : 0 < fv w) by (rewrite Vw; apply bpow_gt_0).
  destruct (@c71_buy_between_marginals 0 3 4 (fv tenth) (fv w)) as (p & E & _ & L); [lia|lia|auto|]. exists p. split; [|split; [exact Fq|split; [|split; [exact E|]]]].
  - unfold fcompute_limit_price. change (zrange (Z.abs (0 + (if (0 <? 3)%Z then 1%Z else (-1)%Z))) (Z.abs (3 + 1))) with [1; 2; 3]%Z. cbn [mapM]. rewrite !U by lia. reflexivity.
  - apply flt_spec; auto; vm_compute; reflexivity.
  - apply Rle_lt_trans with (1 := L). unfold inverse_price. destruct (@premium_bound (fv w) 4 1) as [P0 _]; [auto|lia|lia|]. unfold premium in P0. change (0 + 1)%Z with 1%Z. lra.
Qed.
End Limit.
Print Assumptions c167_unit.
Print Assumptions c167_buy.
Print Assumptions c167_raises.
Print Assumptions c167_above_forecast_refuted.
(** the setting of the repository's test: forecast 115, 100 units; the powers correctly rounded.  The limit price is within 2^-30 of the exact one *)
Example c167_example : let sq := fun v => nearest64 (square_fn (fv v)) in let rt := fun v => nearest64 (root_fn (fv v)) in
  exists q p, fcompute_limit_price sq rt 0 97 100 (fz 115) (fz 11) = Ok q /\ compute_limit_price 0 97 100 115 11 = Ok p /\ fin q /\ Rabs (fv q - p) <= bpow radix2 (-30) /\
    fcompute_limit_price sq rt 0 100 100 (fz 115) (fz 11) = Err ZeroDivisionError.
Proof.
  intros sq rt. destruct (@fz_spec 115) as [F1 V1]; [lia|]. destruct (@fz_spec 11) as [F2 V2]; [lia|]. destruct one_spec as [F3 V3].
  assert (B1 : Rabs (fv (fz 115)) <= bpow radix2 900) by (rewrite V1, Rabs_pos_eq by lra; apply Rle_trans with (bpow radix2 7); [cbn; lra|apply bpow_le; lia]).
  assert (B2 : bpow radix2 (-800) <= fv (fz 11) <= bpow radix2 800) by (rewrite V2; split; [apply Rle_trans with (bpow radix2 0); [apply bpow_le; lia|cbn; lra]|apply Rle_trans with (bpow radix2 4); [cbn; lra|apply bpow_le; lia]]).
  destruct (@c167_buy sq rt (@c166_correct_rounding square_fn) (@c166_correct_rounding root_fn) (fz 115) (fz 11) 0 97 100) as (q & p & E1 & E2 & Fq & L); auto; [lia|lia|]. rewrite V1, V2 in *. exists q, p. repeat split; auto.
  - apply Rle_trans with (1 := L). rewrite Rabs_pos_eq by lra. assert (S : sqrt (11 * 100) <= 34) by (apply Rle_trans with (sqrt (34 * 34)); [apply sqrt_le_1_alt; lra|rewrite sqrt_square; lra]).
    replace (bpow radix2 (-30)) with (8388608 * bpow radix2 (-53)) by (change 8388608 with (bpow radix2 23); rewrite <- bpow_plus; reflexivity). pose proof (bpow_gt_0 radix2 (-53)). nra.
  - assert (ES : fv (sq (fz 1)) = 1 /\ fin (sq (fz 1))).
    { destruct (@c166_correct_rounding square_fn (fz 1) F3) as [FS _]; [rewrite V3; unfold square_fn; rewrite Rmult_1_r, Rabs_R1; change 1 with (bpow radix2 0); split; apply bpow_le; lia|]. split; auto. unfold sq, nearest64. rewrite V3. unfold square_fn. rewrite Rmult_1_r.
      assert (E : IZR (ZnearestE (scaled_mantissa radix2 fexp64 1)) * bpow radix2 (cexp radix2 fexp64 1) = rnd64 1) by reflexivity. rewrite (proj2 (@ff_spec _ _ ltac:(rewrite E; rewrite (@rnd64_int 1) by lia; rewrite Rabs_R1; change 1 with (bpow radix2 0); apply bpow_le; lia))). rewrite E, !(@rnd64_int 1) by lia. reflexivity. }
    apply (@c167_raises sq rt (@c166_correct_rounding square_fn) (@c166_correct_rounding root_fn)); rewrite ?V1, ?V2; auto; try lia; try apply ES.
Qed.
