(** C178: the correlation distance of HRP in binary64. *)
From Coq Require Import ZArith List Bool Reals Lra Lia.
From Flocq Require Import Core BinarySingleNaN.
From Verif Require Import Py Float64 FloatBarsModel FloatBarsProofs FloatPosModel FloatPosProofs FloatPosProps FloatStatProps FloatWeightProps FloatDistModel.
Import ListNotations.
Set Implicit Arguments.
Unset Strict Implicit.
Open Scope R_scope.

Lemma below_one c : format64 c -> c < 1 -> c <= 1 - bpow radix2 (-53).
Proof.
  intros F H. assert (P : c <= pred radix2 fexp64 (bpow radix2 0)) by (apply pred_ge_gt; auto; [apply valid64|apply (format64_bpow (e := 0)); lia]). rewrite pred_bpow in P. exact P.
Qed.
Lemma gap_one c : fin c -> fv c <= 1 -> fv c = 1 \/ bpow radix2 (-53) <= rnd64 (1 - fv c) /\ bpow radix2 (-53) <= 1 - fv c.
Proof.
  intros F B. destruct (Req_dec (fv c) 1) as [E|N]; [now left|right]. assert (G : fv c <= 1 - bpow radix2 (-53)) by (apply below_one; [apply fv_format|lra]). split; [|lra].
  rewrite <- (@rnd64_id (bpow radix2 (-53))) by (apply format64_bpow; lia). apply rnd64_mono. lra.
Qed.
Lemma half_dist c : fin c -> -1 <= fv c <= 1 -> let h := fdiv (fsub (fz 1) c) (fz 2) in fin h /\ fv h = rnd64 (1 - fv c) / 2 /\ 0 <= fv h <= 1.
Proof.
  intros F B h. destruct (@fz_spec 1) as [F1 V1]; [lia|]. destruct (@fz_spec 2) as [F2 V2]; [lia|].
  assert (BB : forall x, Rabs x <= 2 -> Rabs x <= big) by (intros x H; apply Rle_trans with (1 := H); change 2 with (bpow radix2 1); apply bpow_le; lia).
  destruct (@fsub_spec (fz 1) c F1 F) as [F3 V3]; [rewrite V1; apply BB, Rabs_le; lra|]. rewrite V1 in V3.
  assert (R0 : 0 <= rnd64 (1 - fv c) <= 2) by (split; [rewrite <- rnd64_0; apply rnd64_mono; lra|rewrite <- (@rnd64_int 2) by lia; apply rnd64_mono; lra]).
  destruct (@fdiv_spec (fsub (fz 1) c) (fz 2) F3) as [F4 V4]; rewrite ?V2, ?V3; [lra|apply BB, Rabs_le; lra|]. unfold h. split; auto. rewrite V4, V2, V3.
  assert (E : rnd64 (rnd64 (1 - fv c) / 2) = rnd64 (1 - fv c) / 2); [|rewrite E; split; auto; lra].
  unfold Rdiv. destruct (@gap_one c F (proj2 B)) as [->|[G _]]; [rewrite Rminus_diag_eq, rnd64_0, Rmult_0_l by auto; apply rnd64_0|]. apply rnd64_id, half_format; [rewrite <- V3; apply fv_format|]. rewrite Rabs_pos_eq by lra. apply Rle_trans with (2 := G), bpow_le. lia.
Qed.
Lemma sqrt_one e : Rabs e <= 1 -> Rabs (sqrt (1 + e) - 1) <= Rabs e.
Proof.
  intro H. apply Rabs_le_inv in H. pose proof (sqrt_pos (1 + e)) as P. pose proof (sqrt_sqrt (1 + e) ltac:(lra)) as S2. set (s := sqrt (1 + e)) in *. assert (E : e = (s - 1) * (s + 1)) by lra. rewrite E, Rabs_mult, (Rabs_pos_eq (s + 1)) by lra. rewrite <- (Rmult_1_r (Rabs (s - 1))) at 1. apply Rmult_le_compat_l; [apply Rabs_pos|lra].
Qed.
(** the distance of a correlation: between 0 and 1, zero for a correlation of one only, not larger for a larger correlation, and the exact one but for three roundings *)
Theorem c178_distance c : fin c -> -1 <= fv c <= 1 ->
  let d := fcorr_to_dist c in
  fin d /\ 0 <= fv d <= 1 /\ (fv d = 0 <-> fv c = 1) /\ (fv c = -1 -> fv d = 1) /\ (forall c', fin c' -> fv c <= fv c' <= 1 -> fv (fcorr_to_dist c') <= fv d) /\
  Rabs (fv d - sqrt ((1 - fv c) / 2)) <= 3 * u64 * sqrt ((1 - fv c) / 2).
Proof.
  intros F B d. destruct (half_dist F B) as (Fh & Vh & Bh). destruct (@fsqrt_spec _ Fh (proj1 Bh)) as [Fd Vd]. fold d in Fd. change (fsqrt (fdiv (fsub (fz 1) c) (fz 2))) with d in Vd. set (h := fdiv (fsub (fz 1) c) (fz 2)) in *. split; auto. split; [|split; [|split; [|split]]].
  - rewrite Vd. split; [rewrite <- rnd64_0; apply rnd64_mono, sqrt_pos|]. rewrite <- rnd64_1, <- sqrt_1 at 1. apply rnd64_mono, sqrt_le_1_alt. lra.
  - split; intro E.
    + destruct (@gap_one c F (proj2 B)) as [G|[G _]]; auto. exfalso. assert (bpow radix2 (-27) <= fv d); [|pose proof (bpow_gt_0 radix2 (-27)); lra]. rewrite Vd, <- (@rnd64_id (bpow radix2 (-27))) by (apply format64_bpow; lia). apply rnd64_mono.
      replace (bpow radix2 (-27)) with (sqrt (bpow radix2 (-54))) by (change (-54)%Z with (2 * -27)%Z; apply sqrt_bpow). apply sqrt_le_1_alt. rewrite Vh. change (-54)%Z with (-53 + -1)%Z. rewrite bpow_plus. change (bpow radix2 (-1)) with (/ 2). unfold Rdiv. apply Rmult_le_compat_r; lra.
    + rewrite Vd, Vh, E, Rminus_diag_eq, rnd64_0 by auto. unfold Rdiv. rewrite Rmult_0_l, sqrt_0. apply rnd64_0.
  - intro E. rewrite Vd, Vh, E. replace (1 - -1) with (IZR 2) by lra. rewrite rnd64_int by lia. replace (2 / 2) with 1 by lra. rewrite sqrt_1. apply rnd64_1.
  - intros c' F' B'. destruct (@half_dist c' F' ltac:(lra)) as (Fh' & Vh' & Bh'). destruct (@fsqrt_spec _ Fh' (proj1 Bh')) as [Fd' Vd']. unfold fcorr_to_dist. rewrite Vd', Vd. apply rnd64_mono, sqrt_le_1_alt. rewrite Vh, Vh'. unfold Rdiv. apply Rmult_le_compat_r; [lra|]. apply rnd64_mono. lra.
  - destruct (@gap_one c F (proj2 B)) as [E|[G1 G2]].
    + rewrite Vd, Vh, E. replace (1 - 1) with 0 by ring. rewrite rnd64_0. unfold Rdiv. rewrite !Rmult_0_l, sqrt_0, rnd64_0, Rmult_0_r, Rminus_0_r, Rabs_R0. lra.
    + pose proof u64_pos as U0. pose proof u64_small as U1. pose proof (bpow_gt_0 radix2 (-53)) as P53. set (x := 1 - fv c) in *. destruct (@rel_rnd x) as (e1 & H1 & E1); [apply Rle_trans with (2 := G2), bpow_le; lia|]. pose proof (Rabs_le_inv _ _ H1) as H1'.
      assert (ES : sqrt (fv h) = sqrt (x / 2) * sqrt (1 + e1)) by (rewrite <- sqrt_mult by lra; f_equal; rewrite Vh, E1; field).
      assert (SG : bpow radix2 (-27) <= sqrt (fv h)). { replace (bpow radix2 (-27)) with (sqrt (bpow radix2 (-54))) by (change (-54)%Z with (2 * -27)%Z; apply sqrt_bpow). apply sqrt_le_1_alt. rewrite Vh. change (-54)%Z with (-53 + -1)%Z. rewrite bpow_plus. change (bpow radix2 (-1)) with (/ 2). unfold Rdiv. apply Rmult_le_compat_r; lra. }
      destruct (@rel_rnd (sqrt (fv h))) as (e2 & H2 & E2); [apply Rle_trans with (2 := SG), bpow_le; lia|]. rewrite Vd, E2, ES. replace (sqrt (x / 2) * sqrt (1 + e1) * (1 + e2) - sqrt (x / 2)) with (sqrt (x / 2) * ((1 + (sqrt (1 + e1) - 1)) * (1 + e2) - 1)) by ring.
      rewrite Rabs_mult, (Rabs_pos_eq (sqrt (x / 2))) by apply sqrt_pos. rewrite Rmult_comm. apply Rmult_le_compat_r; [apply sqrt_pos|]. replace 3 with (1 + 1 + 1) by ring. apply mul1; try lra; rewrite Rmult_1_l; auto. apply Rle_trans with (2 := H1), sqrt_one. lra.
Qed.
Print Assumptions c178_distance.
Lemma clip_spec x : fin x -> let y := fclip1 x in fin y /\ fv y = Rmax (-1) (Rmin (fv x) 1).
Proof.
  intros F y. destruct (@fz_spec 1) as [F1 V1]; [lia|]. destruct (@fz_spec (-1)) as [F2 V2]; [lia|]. unfold y, fclip1. destruct (flt (fz 1) x) eqn:E1.
  - apply flt_spec in E1; auto. rewrite V1 in *. split; auto. rewrite Rmin_right, Rmax_right; lra.
  - assert (L1 : fv x <= 1) by (apply Rnot_lt_le; intro C; rewrite <- V1 in C; apply flt_spec in C; auto; congruence). rewrite Rmin_left by auto. destruct (flt x (fz (-1))) eqn:E2.
    + apply flt_spec in E2; auto. rewrite V2 in *. split; auto. rewrite Rmax_left; lra.
    + split; auto. rewrite Rmax_right; auto. apply Rnot_lt_le. intro C. assert (C' : fv x < fv (fz (-1))) by (rewrite V2; exact C). apply flt_spec in C'; auto. congruence.
Qed.
(** whatever the covariances, every entry of the matrix is between 0 and 1 if the quotients are numbers *)
Theorem c178_entries cij vi vj : fin (fdiv (fdiv cij (fsqrt vi)) (fsqrt vj)) -> fin (fdist cij vi vj) /\ 0 <= fv (fdist cij vi vj) <= 1.
Proof.
  intro F. destruct (clip_spec F) as [Fc Vc]. unfold fdist, fcorr. assert (B : -1 <= fv (fclip1 (fdiv (fdiv cij (fsqrt vi)) (fsqrt vj))) <= 1) by (rewrite Vc; split; [apply Rmax_l|apply Rmax_lub; [lra|apply Rmin_r]]). destruct (c178_distance Fc B) as (A1 & A2 & _). now split.
Qed.
Print Assumptions c178_entries.
(** the distance of an asset from itself, or from one with the same variance and covariance: at most 2^-25, and zero if the variance is the square of a float *)
Theorem c178_self v : fin v -> bpow radix2 (-500) <= fv v <= bpow radix2 500 -> fin (fdist v v v) /\ 0 <= fv (fdist v v v) <= bpow radix2 (-25) /\ (forall r, fin r -> fv v = fv r * fv r -> fv (fdist v v v) = 0).
Proof.
  intros F B. pose proof (bpow_gt_0 radix2 (-500)) as P0. destruct (@fsqrt_spec v F ltac:(lra)) as [Fs Vs]. pose proof u64_pos as U0. pose proof u64_small as U1.
  assert (SB : bpow radix2 (-250) <= sqrt (fv v) <= bpow radix2 250) by (split; [replace (bpow radix2 (-250)) with (sqrt (bpow radix2 (-500))) by (change (-500)%Z with (2 * -250)%Z; apply sqrt_bpow)|replace (bpow radix2 250) with (sqrt (bpow radix2 500)) by (change 500%Z with (2 * 250)%Z; apply sqrt_bpow)]; apply sqrt_le_1_alt; lra). pose proof (bpow_gt_0 radix2 (-250)) as P1.
  destruct (@rel_rnd (sqrt (fv v))) as (e1 & H1 & E1); [apply Rle_trans with (2 := proj1 SB), bpow_le; lia|]. pose proof (Rabs_le_inv _ _ H1) as H1'. set (s := fsqrt v) in *. rewrite E1 in Vs.
  assert (SV : bpow radix2 (-251) <= fv s <= bpow radix2 251).
  { rewrite Vs. split; [change (-251)%Z with (-250 + -1)%Z|change 251%Z with (250 + 1)%Z]; rewrite bpow_plus; [change (bpow radix2 (-1)) with (/ 2)|change (bpow radix2 1) with 2]; apply Rmult_le_compat; lra. }
  pose proof (bpow_gt_0 radix2 (-251)) as P2. set (t := sqrt (fv v)) in *. assert (TT : t * t = fv v) by (apply sqrt_sqrt; lra).
  assert (IB : bpow radix2 (-251) <= / fv s <= bpow radix2 251) by (split; [apply inv_ge with 251%Z; auto; lra|apply inv_le with (-251)%Z; auto; lra]).
  assert (QB : bpow radix2 (-751) <= fv v / fv s <= bpow radix2 751) by (unfold Rdiv; split; [change (-751)%Z with (-500 + -251)%Z|change 751%Z with (500 + 251)%Z]; rewrite bpow_plus; apply Rmult_le_compat; lra).
  destruct (@fdiv_spec v s F) as [Fq Vq]; [lra|rewrite Rabs_pos_eq by (pose proof (bpow_gt_0 radix2 (-751)); lra); apply Rle_trans with (1 := proj2 QB), bpow_le; lia|]. destruct (@rel_rnd (fv v / fv s)) as (e2 & H2 & E2); [apply Rle_trans with (2 := proj1 QB), bpow_le; lia|]. pose proof (Rabs_le_inv _ _ H2) as H2'. rewrite E2 in Vq. set (q := fdiv v s) in *.
  assert (EW : fv q / fv s = (1 + e2) / ((1 + e1) * (1 + e1))) by (rewrite Vq, Vs, <- TT; field; split; [lra|intro C; lra]).
  assert (HB : Rabs ((1 + e1) * (1 + e1) - 1) <= 3 * u64) by (replace 3 with (1 + 1 + 1) by ring; apply mul1; try lra; rewrite Rmult_1_l; auto). pose proof (Rabs_le_inv _ _ HB) as HB'. set (b := (1 + e1) * (1 + e1)) in *.
  assert (IBB : / 2 <= / b <= 2) by (split; [apply Rinv_le; lra|rewrite <- (Rinv_involutive 2) by lra; apply Rinv_le; lra]).
  assert (WB : / 4 <= fv q / fv s <= 4) by (rewrite EW; unfold Rdiv; split; [replace (/ 4) with (/ 2 * / 2) by field|replace 4 with (2 * 2) by ring]; apply Rmult_le_compat; lra).
  destruct (@fdiv_spec q s Fq) as [Fw Vw]; [lra|rewrite Rabs_pos_eq by lra; apply Rle_trans with (bpow radix2 2); [change (bpow radix2 2) with 4; lra|apply bpow_le; lia]|]. destruct (@rel_rnd (fv q / fv s)) as (e3 & H3 & E3); [apply Rle_trans with (2 := proj1 WB); change (/ 4) with (bpow radix2 (-2)); apply bpow_le; lia|]. rewrite E3, EW in Vw. set (w := fdiv q s) in *.
  assert (HA : Rabs ((1 + e2) * (1 + e3) - 1) <= 3 * u64) by (replace 3 with (1 + 1 + 1) by ring; apply mul1; try lra; rewrite Rmult_1_l; auto). pose proof (Rabs_le_inv _ _ HA) as HA'. set (a := (1 + e2) * (1 + e3)) in *. assert (EV : fv w = a * / b) by (rewrite Vw; unfold a, Rdiv; ring).
  assert (WL : 1 - 8 * u64 <= fv w). { rewrite EV. apply Rmult_le_reg_r with b; [lra|]. rewrite Rmult_assoc, Rinv_l, Rmult_1_r by lra. apply Rle_trans with ((1 - 8 * u64) * (1 + 3 * u64)); [apply Rmult_le_compat_l; lra|]. assert (0 <= 24 * (u64 * u64)) by (pose proof (Rmult_le_pos u64 u64); lra). lra. }
  destruct (clip_spec Fw) as [Fc Vc]. change (fclip1 w) with (fcorr v v v) in *. set (c := fcorr v v v) in *. assert (CB : 1 - 8 * u64 <= fv c <= 1) by (rewrite Vc; split; [apply Rle_trans with (2 := Rmax_r _ _), Rmin_glb; lra|apply Rmax_lub; [lra|apply Rmin_r]]).
  destruct (@c178_distance c Fc ltac:(lra)) as (D1 & D2 & D3 & _). change (fcorr_to_dist c) with (fdist v v v) in *. split; auto. split; [split; [lra|]|].
  - destruct (@half_dist c Fc ltac:(lra)) as (Fh & Vh & Bh). destruct (@fsqrt_spec _ Fh (proj1 Bh)) as [Fd Vd]. change (fsqrt (fdiv (fsub (fz 1) c) (fz 2))) with (fdist v v v) in Vd. rewrite Vd, <- (@rnd64_id (bpow radix2 (-25))) by (apply format64_bpow; lia). apply rnd64_mono.
    replace (bpow radix2 (-25)) with (sqrt (bpow radix2 (-50))) by (change (-50)%Z with (2 * -25)%Z; apply sqrt_bpow). apply sqrt_le_1_alt. rewrite Vh. assert (rnd64 (1 - fv c) <= bpow radix2 (-50)) by (rewrite <- (@rnd64_id (bpow radix2 (-50))) by (apply format64_bpow; lia); apply rnd64_mono; replace (bpow radix2 (-50)) with (8 * u64) by (rewrite u53; change 8 with (bpow radix2 3); rewrite <- bpow_plus; reflexivity); lra). pose proof (bpow_gt_0 radix2 (-50)). lra.
  - intros r Fr E. apply D3. assert (RT : Rabs (fv r) = t) by (unfold t; rewrite E; symmetry; apply sqrt_Rsqr_abs). assert (ST : fv s = t) by (rewrite Vs, <- E1, <- RT; apply rnd64_id, generic_format_abs, fv_format). assert (T0 : 0 < t) by lra.
    assert (QT : fv q = t) by (rewrite Vq, <- E2, ST, <- TT; replace (t * t / t) with t by (field; lra); rewrite <- ST; apply rnd64_fv). assert (WT : fv w = 1) by (rewrite Vw, <- EW, <- E3, QT, ST; replace (t / t) with 1 by (field; lra); apply rnd64_1).
    rewrite Vc, WT. rewrite Rmin_left, Rmax_right; lra.
Qed.
Print Assumptions c178_self.
(** variances of 2 and 5: an asset of variance 2 is 2^-27 away from itself, and with a covariance of 3 the matrix is not symmetric *)
Theorem c178_self_refuted : feq (fdist (fz 2) (fz 2) (fz 2)) (ff 1 (-27)) = true /\ fv (fdist (fz 2) (fz 2) (fz 2)) <> 0.
Proof.
  split; [vm_compute; reflexivity|]. destruct (@ff_exact 1 (-27)) as [F V]; [lia|lia|lia|]. rewrite Rmult_1_l in V. assert (E : fv (fdist (fz 2) (fz 2) (fz 2)) = fv (ff 1 (-27))) by (apply feq_spec; auto; vm_compute; reflexivity). rewrite E, V. pose proof (bpow_gt_0 radix2 (-27)). lra.
Qed.
Print Assumptions c178_self_refuted.
Theorem c178_symmetric_refuted : fin (fdist (fz 3) (fz 2) (fz 5)) /\ fin (fdist (fz 3) (fz 5) (fz 2)) /\ fv (fdist (fz 3) (fz 5) (fz 2)) < fv (fdist (fz 3) (fz 2) (fz 5)).
Proof. split; [vm_compute; reflexivity|]. split; [vm_compute; reflexivity|]. apply flt_spec; vm_compute; reflexivity. Qed.
Print Assumptions c178_symmetric_refuted.
(** a variance of 9/4: the standard deviation is exact, the distance zero *)
Example c178_example : feq (fdist (ff 9 (-2)) (ff 9 (-2)) (ff 9 (-2))) (fz 0) = true /\ feq (fcorr_to_dist (ff 1 (-1))) (ff 1 (-1)) = true.
Proof. split; vm_compute; reflexivity. Qed.
