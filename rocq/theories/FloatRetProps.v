(** C130-C134: returns, barrier touches, draw downs, average uniqueness and concentration in binary64. *)
From Coq Require Import ZArith Reals Lra Lia List Permutation.
From Flocq Require Import Core BinarySingleNaN.
From Verif Require Import RNum Float64 FloatBarsModel FloatBarsProofs FloatBarsProps FloatHRPProofs FloatRetModel.
Import ListNotations.
Set Implicit Arguments.
Unset Strict Implicit.
Open Scope R_scope.

Lemma fopp_spec x : fin x -> fin (fopp x) /\ fv (fopp x) = - fv x.
Proof. intro F. split; [unfold fin, fopp; now rewrite is_finite_Bopp|apply B2R_Bopp]. Qed.

(** neighbouring floats are a relative 2^-53 apart at least *)
Lemma ulp_rel y : format64 y -> 0 < y -> u64 * y < ulp radix2 fexp64 y.
Proof.
  intros Fy Py. rewrite ulp_neq_0 by lra. unfold cexp. destruct (mag radix2 y) as [e He]. cbn [mag_val]. specialize (He ltac:(lra)). rewrite Rabs_pos_eq in He by lra.
  apply Rlt_le_trans with (bpow radix2 (e - 53)).
  - replace (e - 53)%Z with (-53 + e)%Z by lia. rewrite bpow_plus. apply Rmult_lt_compat_l; [apply u64_pos|apply He].
  - apply bpow_le. unfold FLT_exp. lia.
Qed.
Lemma above_rel x y : format64 x -> format64 y -> 0 < y -> y < x -> y * (1 + u64) < x.
Proof.
  intros Fx Fy Py H. pose proof (ulp_rel Fy Py) as U. assert (S : succ radix2 fexp64 y <= x) by (apply succ_le_lt; auto; typeclasses eauto).
  rewrite succ_eq_pos in S by lra. lra.
Qed.
Lemma below_rel x y : format64 x -> format64 y -> 0 < y -> x < y -> x <= y * (1 - u64).
Proof.
  intros Fx Fy Py H. assert (S : x <= pred radix2 fexp64 y) by (apply pred_ge_gt; auto; typeclasses eauto). rewrite pred_eq_pos in S by lra. unfold pred_pos in S.
  destruct (Req_bool_spec y (bpow radix2 (mag radix2 y - 1))) as [E|E].
  - apply Rle_trans with (1 := S). assert (u64 * y <= bpow radix2 (fexp64 (mag radix2 y - 1))); [|lra]. rewrite E at 1. unfold ulp64. rewrite <- bpow_plus. apply bpow_le. unfold FLT_exp. lia.
  - pose proof (ulp_rel Fy Py). lra.
Qed.
Lemma ratio_cmp x y : format64 x -> format64 y -> 0 <= x -> 0 < y -> (x < y -> rnd64 (x / y) < 1) /\ (y < x -> 1 < rnd64 (x / y)).
Proof.
  intros Fx Fy Px Py. pose proof u64_pos as U. pose proof u64_half as U2. assert (Iy : 0 < / y) by now apply Rinv_0_lt_compat. split; intro H.
  - apply Rle_lt_trans with (1 - u64); [|lra]. replace (1 - u64) with (rnd64 (1 - u64)).
    + apply rnd64_mono. apply Rmult_le_reg_r with y; auto. unfold Rdiv. rewrite Rmult_assoc, Rinv_l, Rmult_1_r by lra. pose proof (below_rel Fx Fy Py H). lra.
    + apply rnd64_id. replace (1 - u64) with (IZR (2 ^ 53 - 1) * bpow radix2 (-53)); [apply format64_float; lia|]. unfold ulp64. rewrite minus_IZR, Rmult_minus_distr_r, Rmult_1_l. f_equal. change (IZR (2 ^ 53)) with (bpow radix2 53). rewrite <- bpow_plus. reflexivity.
  - assert (V : 1 + u64 < x / y) by (apply Rmult_lt_reg_r with y; auto; unfold Rdiv; rewrite Rmult_assoc, Rinv_l, Rmult_1_r by lra; pose proof (above_rel Fx Fy Py H); lra).
    destruct (Rlt_or_le (x / y) 2) as [L|L].
    + assert (E := error_le_half_ulp radix2 fexp64 (fun z => negb (Z.even z)) (x / y)). assert (EU : ulp radix2 fexp64 (x / y) = 2 * u64).
      { rewrite ulp_neq_0 by lra. unfold cexp. rewrite (mag_unique radix2 (x / y) 1); [cbn [FLT_exp]; replace (fexp64 1) with (-52)%Z by reflexivity; unfold ulp64; change (-52)%Z with (1 + -53)%Z; rewrite bpow_plus; reflexivity|].
        rewrite Rabs_pos_eq by lra. change (bpow radix2 (1 - 1)) with 1. change (bpow radix2 1) with 2. lra. }
      rewrite EU in E. apply Rabs_le_inv in E. lra.
    + apply Rlt_le_trans with 2; [lra|]. replace 2 with (rnd64 2) at 1 by (apply (@rnd64_int 2); lia). now apply rnd64_mono.
Qed.

(** ** C130 *)
(** the return of a price is exact in sign: zero only for the same price, however close the prices are; and a higher price never has a lower return *)
Theorem c130_return p p0 : fin p -> fin p0 -> 0 <= fv p -> 0 < fv p0 -> fv p / fv p0 <= big ->
  fin (fret p p0) /\ -1 <= fv (fret p p0) /\ (fv p0 < fv p <-> 0 < fv (fret p p0)) /\ (fv p < fv p0 <-> fv (fret p p0) < 0) /\ (fv p = fv p0 <-> fv (fret p p0) = 0) /\
  forall p', fin p' -> fv p' <= fv p -> 0 <= fv p' -> fv (fret p' p0) <= fv (fret p p0).
Proof.
  assert (G : forall p, fin p -> fin p0 -> 0 <= fv p -> 0 < fv p0 -> fv p / fv p0 <= big ->
    fin (fdiv p p0) /\ fv (fdiv p p0) = rnd64 (fv p / fv p0) /\ 0 <= fv (fdiv p p0) <= big /\ fin (fret p p0) /\ fv (fret p p0) = rnd64 (fv (fdiv p p0) - 1)).
  { clear p. intros p F F0 P P0 B. assert (I : 0 < / fv p0) by now apply Rinv_0_lt_compat. assert (Q : 0 <= fv p / fv p0) by (apply Rmult_le_pos; lra).
    destruct (@fdiv_spec p p0 F) as [Fd Vd]; [lra|rewrite Rabs_pos_eq; lra|]. assert (FB : format64 big) by (apply format64_bpow; lia).
    assert (D : 0 <= fv (fdiv p p0) <= big) by (rewrite Vd; split; [rewrite <- rnd64_0; apply rnd64_mono; lra|rewrite <- (rnd64_id FB); apply rnd64_mono; lra]).
    destruct (@fz_spec 1) as [F1 V1]; [lia|]. assert (B1 : 1 <= big) by (change 1 with (bpow radix2 0); apply bpow_le; lia).
    destruct (@fsub_spec (fdiv p p0) (fz 1) Fd F1) as [Fr Vr]; [rewrite V1; apply Rabs_le; lra|]. rewrite V1 in Vr. repeat split; auto; lra. }
  intros F F0 P P0 B. destruct (G p F F0 P P0 B) as (Fd & Vd & D & Fr & Vr). assert (O : format64 1) by (apply (@format64_int 1); lia).
  destruct (ratio_cmp (fv_format p) (fv_format p0) P P0) as [R1 R2]. destruct (rnd_diff_sign (fv_format (fdiv p p0)) O) as [S1 S2]. rewrite <- Vr in S1, S2. rewrite <- Vd in R1, R2.
  assert (Z : fv p = fv p0 -> fv (fret p p0) = 0). { intro E. assert (fv (fdiv p p0) = 1) by (rewrite Vd, E; unfold Rdiv; rewrite Rinv_r by lra; apply rnd64_1). rewrite Vr, H. replace (1 - 1) with 0 by lra. apply rnd64_0. }
  split; auto. split; [rewrite Vr; replace (-1) with (rnd64 (-1)) by (apply (@rnd64_int (-1)); lia); apply rnd64_mono; lra|].
  assert (M : forall p', fin p' -> fv p' <= fv p -> 0 <= fv p' -> fv (fret p' p0) <= fv (fret p p0)).
  { intros p' F' L P'. assert (I : 0 <= / fv p0) by (apply Rlt_le, Rinv_0_lt_compat; lra). assert (B' : fv p' / fv p0 <= big) by (apply Rle_trans with (2 := B); now apply Rmult_le_compat_r).
    destruct (G p' F' F0 P' P0 B') as (Fd' & Vd' & D' & Fr' & Vr'). rewrite Vr, Vr'. apply rnd64_mono. rewrite Vd, Vd'. apply Rplus_le_compat_r, rnd64_mono. now apply Rmult_le_compat_r. }
  destruct (Rtotal_order (fv p) (fv p0)) as [T|[T|T]]; [specialize (S2 (R1 T))|specialize (Z T)|specialize (S1 (R2 T))]; repeat split; intros; try lra; auto.
Qed.
Print Assumptions c130_return.
(** labels: [np.sign] of the return at the end of an event is the sign of the price change, of opposite sign for a short trade *)
Theorem c130_label (long : bool) p p0 : fin p -> fin p0 -> 0 <= fv p -> 0 < fv p0 -> fv p / fv p0 <= big ->
  fsign (fside_ret long p p0) = (if Rlt_dec (fv p0) (fv p) then if long then 1 else -1 else if Rlt_dec (fv p) (fv p0) then if long then -1 else 1 else 0)%Z.
Proof.
  intros F F0 P P0 B. destruct (c130_return F F0 P P0 B) as (Fr & _ & S1 & S2 & _). destruct fz0 as [Fz Vz]. destruct (fopp_spec Fr) as [Fo Vo].
  assert (Fs : fin (fside_ret long p p0)) by (destruct long; auto). unfold fsign.
  assert (E1 : flt (fz 0) (fside_ret long p p0) = true <-> 0 < fv (fside_ret long p p0)) by (rewrite flt_spec by auto; rewrite Vz; tauto).
  assert (E2 : flt (fside_ret long p p0) (fz 0) = true <-> fv (fside_ret long p p0) < 0) by (rewrite flt_spec by auto; rewrite Vz; tauto).
  assert (EV : fv (fside_ret long p p0) = if long then fv (fret p p0) else - fv (fret p p0)) by (destruct long; auto). rewrite EV in E1, E2.
  destruct (flt (fz 0) (fside_ret long p p0)), (flt (fside_ret long p p0) (fz 0)), long, (Rlt_dec (fv p0) (fv p)), (Rlt_dec (fv p) (fv p0)); try reflexivity; exfalso; intuition (try discriminate; try lra).
  all: try (assert (false = true) by (apply E1; apply S1 in r; lra); discriminate).
  all: try (assert (false = true) by (apply E2; apply S1 in r; lra); discriminate).
  all: try (assert (false = true) by (apply E1; apply S2 in r; lra); discriminate).
  all: try (assert (false = true) by (apply E2; apply S2 in r; lra); discriminate).
Qed.
Print Assumptions c130_label.
(** two neighbouring prices *)
Example c130_ex : let p0 := fz 100 in let p := fadd p0 (ff 1 (-46)) in fin p /\ fin p0 /\ flt (fz 0) p = true /\ flt p0 p = true /\ fsign (fret p p0) = 1%Z /\ fsign (fret p0 p) = (-1)%Z.
Proof. vm_compute. repeat split; reflexivity. Qed.

(** ** C131 *)
(** a return is off by at most (2p/p0 + |p/p0 - 1|)/2^53 *)
Lemma fret_error p p0 : fin p -> fin p0 -> 0 < fv p0 -> bpow radix2 (-1022) <= fv p / fv p0 <= big ->
  fin (fret p p0) /\ Rabs (fv (fret p p0) - (fv p / fv p0 - 1)) <= (2 * (fv p / fv p0) + Rabs (fv p / fv p0 - 1)) * u64.
Proof.
  intros F F0 P0 B. pose proof (bpow_gt_0 radix2 (-1022)) as BP. assert (P : 0 <= fv p). { assert (fv p = fv p / fv p0 * fv p0) by (field; lra). rewrite H. apply Rmult_le_pos; lra. }
  assert (X := c130_return F F0 P P0 (proj2 B)). destruct X as (Fr & _). split; auto. pose proof u64_pos as U. pose proof u64_half as U2.
  destruct (@fdiv_spec p p0 F) as [Fd Vd]; [lra|rewrite Rabs_pos_eq; lra|]. destruct (@fz_spec 1) as [F1 V1]; [lia|]. assert (FB : format64 big) by (apply format64_bpow; lia). assert (B1 : 1 <= big) by (change 1 with (bpow radix2 0); apply bpow_le; lia).
  assert (D : 0 <= fv (fdiv p p0) <= big) by (rewrite Vd; split; [rewrite <- rnd64_0; apply rnd64_mono; lra|rewrite <- (rnd64_id FB); apply rnd64_mono; lra]).
  destruct (@fsub_spec (fdiv p p0) (fz 1) Fd F1) as [_ Vr]; [rewrite V1; apply Rabs_le; lra|]. rewrite V1 in Vr. unfold fret. rewrite Vr.
  set (x := fv p / fv p0) in *. destruct (@rnd_error x) as (e1 & E1 & Q); [rewrite Rabs_pos_eq; lra|]. rewrite <- Vd in Q.
  assert (FO : format64 (- (1))) by (apply generic_format_opp, (@format64_int 1); lia).
  destruct (add_error (fv_format (fdiv p p0)) FO) as (e2 & E2 & R). replace (fv (fdiv p p0) - 1) with (fv (fdiv p p0) + - (1)) by ring. rewrite R, Q.
  replace ((x * (1 + e1) + - (1)) * (1 + e2) - (x - 1)) with (x * e1 + (x - 1 + x * e1) * e2) by ring.
  assert (A1 : Rabs (x * e1) <= x * u64) by (rewrite Rabs_mult, (Rabs_pos_eq x) by lra; apply Rmult_le_compat_l; lra).
  assert (A2 : Rabs (x - 1 + x * e1) <= Rabs (x - 1) + x * u64) by (apply Rle_trans with (1 := Rabs_triang _ _); lra).
  assert (A3 : Rabs ((x - 1 + x * e1) * e2) <= (Rabs (x - 1) + x * u64) * u64) by (rewrite Rabs_mult; apply Rmult_le_compat; auto; apply Rabs_pos).
  apply Rle_trans with (1 := Rabs_triang _ _). assert (x * u64 * u64 <= x * u64 * 1) by (apply Rmult_le_compat_l; [apply Rmult_le_pos|]; lra). lra.
Qed.
(** a barrier is touched exactly when the exact return is beyond the exact limit, unless it is within a band of a few units in the last place around the limit *)
Theorem c131_touch (long : bool) p p0 mult target : fin p -> fin p0 -> fin mult -> fin target -> 0 < fv p0 -> bpow radix2 (-1022) <= fv p / fv p0 <= big ->
  bpow radix2 (-1022) <= fv mult * fv target <= big ->
  let r := (if long then fv p / fv p0 - 1 else - (fv p / fv p0 - 1)) in let limit := fv mult * fv target in
  let band := (2 * (fv p / fv p0) + Rabs r + limit) * u64 in
  (limit + band < r -> fpt_touch long p p0 mult target = true) /\ (r < limit - band -> fpt_touch long p p0 mult target = false) /\
  (r < - limit - band -> fsl_touch long p p0 mult target = true) /\ (- limit + band < r -> fsl_touch long p p0 mult target = false).
Proof.
  intros F F0 Fm Ft P0 B BM r limit band. pose proof (bpow_gt_0 radix2 (-1022)) as BP. destruct (fret_error F F0 P0 B) as [Fr Er]. destruct (fopp_spec Fr) as [Fo Vo]. destruct (fopp_spec Fm) as [Fn Vn].
  assert (Fs : fin (fside_ret long p p0)) by (destruct long; auto).
  assert (Es : Rabs (fv (fside_ret long p p0) - r) <= (2 * (fv p / fv p0) + Rabs r) * u64).
  { destruct long; unfold r; cbn [fside_ret]; auto. unfold fside_ret. rewrite Vo, Rabs_Ropp. replace (- fv (fret p p0) - - (fv p / fv p0 - 1)) with (- (fv (fret p p0) - (fv p / fv p0 - 1))) by ring. now rewrite Rabs_Ropp. }
  destruct (@fmul_spec mult target Fm Ft) as [Fl Vl]; [rewrite Rabs_pos_eq; lra|]. fold limit in Vl.
  destruct (@fmul_spec (fopp mult) target Fn Ft) as [Fl2 Vl2]; [rewrite Vn, Rabs_left; lra|]. rewrite Vn in Vl2. replace (- fv mult * fv target) with (- limit) in Vl2 by (unfold limit; ring). rewrite rnd64_opp, <- Vl in Vl2.
  destruct (@rnd_error limit) as (e & E & EQ); [unfold limit; rewrite Rabs_pos_eq; lra|]. rewrite <- Vl in EQ.
  assert (El : Rabs (fv (fmul mult target) - limit) <= limit * u64). { rewrite EQ. replace (limit * (1 + e) - limit) with (limit * e) by ring. rewrite Rabs_mult, (Rabs_pos_eq limit) by (unfold limit; lra). apply Rmult_le_compat_l; auto. unfold limit; lra. }
  apply Rabs_le_inv in Es, El. assert (EB : band = (2 * (fv p / fv p0) + Rabs r) * u64 + limit * u64) by (unfold band; ring).
  unfold fpt_touch, fsl_touch. repeat split; intro H.
  - apply flt_spec; auto. lra.
  - destruct (flt (fmul mult target) (fside_ret long p p0)) eqn:C; auto. apply flt_spec in C; auto. lra.
  - apply flt_spec; auto. lra.
  - destruct (flt (fside_ret long p p0) (fmul (fopp mult) target)) eqn:C; auto. apply flt_spec in C; auto. lra.
Qed.
Print Assumptions c131_touch.
(** REFUTED without the band: from 1.1 to 1.364 is more than 0.24, but the barrier at 0.24 is not touched *)
Theorem c131_exact_refuted : exists p p0 mult target, fin p /\ fin p0 /\ fin mult /\ fin target /\ 0 < fv p0 /\ fv mult * fv target < fv p / fv p0 - 1 /\ fpt_touch true p p0 mult target = false.
Proof.
  exists (ff 6142909891733357 (-52)), (ff 4953959590107546 (-52)), (fz 1), (ff 8646911284551352 (-55)).
  assert (G : forall m e, (0 < m < 2 ^ 53)%Z -> (-1000 <= e <= 0)%Z -> fin (ff m e) /\ fv (ff m e) = IZR m * bpow radix2 e).
  { intros m e Hm He. destruct (@ff_spec m e) as [Fx Vx].
    - rewrite Rabs_pos_eq by (apply Rmult_le_pos; [apply IZR_le; lia|apply bpow_ge_0]). apply Rle_trans with (bpow radix2 53 * bpow radix2 e).
      + apply Rmult_le_compat_r; [apply bpow_ge_0|]. change (bpow radix2 53) with (IZR (2 ^ 53)). apply IZR_le. lia.
      + rewrite <- bpow_plus. apply bpow_le. lia.
    - split; auto. rewrite Vx, rnd64_id; auto. apply format64_float; lia. }
  destruct (G 6142909891733357%Z (-52)%Z) as [F1 V1]; [lia|lia|]. destruct (G 4953959590107546%Z (-52)%Z) as [F2 V2]; [lia|lia|]. destruct (G 8646911284551352%Z (-55)%Z) as [F3 V3]; [lia|lia|]. destruct (@fz_spec 1) as [F4 V4]; [lia|].
  rewrite V1, V2, V3, V4. assert (P : 0 < bpow radix2 (-52)) by apply bpow_gt_0. do 4 (split; [assumption|]). split; [lra|]. split; [|vm_compute; reflexivity].
  replace (6142909891733357 * bpow radix2 (-52) / (4953959590107546 * bpow radix2 (-52))) with (6142909891733357 / 4953959590107546) by (field; lra).
  replace (bpow radix2 (-55)) with (/ IZR (2 ^ 55)) by reflexivity. change (2 ^ 55)%Z with 36028797018963968%Z. lra.
Qed.
Print Assumptions c131_exact_refuted.

(** doubling the price touches the barrier at 0.5 *)
Example c131_ex : fpt_touch true (fz 2) (fz 1) (fz 1) (ff 1 (-1)) = true /\ bpow radix2 (-1022) <= fv (fz 2) / fv (fz 1) <= big /\ bpow radix2 (-1022) <= fv (fz 1) * fv (ff 1 (-1)) <= big /\
  fv (fz 1) * fv (ff 1 (-1)) + (2 * (fv (fz 2) / fv (fz 1)) + Rabs (fv (fz 2) / fv (fz 1) - 1) + fv (fz 1) * fv (ff 1 (-1))) * u64 < fv (fz 2) / fv (fz 1) - 1.
Proof.
  split; [vm_compute; reflexivity|]. destruct (@fz_spec 1) as [_ V1]; [lia|]. destruct (@fz_spec 2) as [_ V2]; [lia|]. assert (B2 : 2 <= big) by (change 2 with (bpow radix2 1); apply bpow_le; lia).
  assert (V3 : fv (ff 1 (-1)) = / 2). { destruct (@ff_spec 1 (-1)) as [_ ->]; change (IZR 1 * bpow radix2 (-1)) with (1 * / 2); rewrite Rmult_1_l; [rewrite Rabs_pos_eq; lra|]. apply rnd64_id. change (/ 2) with (bpow radix2 (-1)). apply format64_bpow. lia. }
  assert (BL : bpow radix2 (-1022) <= / 2) by (change (/ 2) with (bpow radix2 (-1)); apply bpow_le; lia). rewrite V1, V2, V3. pose proof u64_small. rewrite Rabs_pos_eq by lra. lra.
Qed.

(** ** C132 draw downs *)
Theorem c132_drawdown hwm low : fin hwm -> fin low -> 0 <= fv low -> fv low < fv hwm <= big ->
  (let dd := fdrawdown false hwm low in fin dd /\ 0 < fv dd <= 1) /\
  (let dd := fdrawdown true hwm low in fin dd /\ 0 < fv dd <= fv hwm) /\
  forall low', fin low' -> 0 <= fv low' <= fv low -> forall d, fv (fdrawdown d hwm low) <= fv (fdrawdown d hwm low').
Proof.
  intros Fh Fl Pl [H HB]. assert (I : 0 < / fv hwm) by (apply Rinv_0_lt_compat; lra). assert (B1 : 1 <= big) by (change 1 with (bpow radix2 0); apply bpow_le; lia). destruct (@fz_spec 1) as [F1 V1]; [lia|].
  assert (G : forall low, fin low -> 0 <= fv low < fv hwm -> fv (fdiv low hwm) = rnd64 (fv low / fv hwm) /\ 0 <= fv (fdiv low hwm) < 1 /\
    fin (fdrawdown false hwm low) /\ fv (fdrawdown false hwm low) = rnd64 (1 - fv (fdiv low hwm)) /\ fin (fdrawdown true hwm low) /\ fv (fdrawdown true hwm low) = rnd64 (fv hwm - fv low)).
  { clear low Fl Pl H. intros low Fl H. assert (Q : 0 <= fv low / fv hwm <= 1).
    { split; [apply Rmult_le_pos; lra|]. apply Rmult_le_reg_r with (fv hwm); [lra|]. unfold Rdiv. rewrite Rmult_assoc, Rinv_l; lra. }
    destruct (@fdiv_spec low hwm Fl) as [Fd Vd]; [lra|rewrite Rabs_pos_eq; lra|].
    assert (D : 0 <= fv (fdiv low hwm) < 1). { split; [rewrite Vd; apply rnd64_01; lra|]. rewrite Vd. apply (ratio_cmp (fv_format low) (fv_format hwm)); lra. }
    destruct (@fsub_spec (fz 1) (fdiv low hwm) F1 Fd) as [Fs Vs]; [rewrite V1; apply Rabs_le; lra|]. rewrite V1 in Vs.
    destruct (@fsub_spec hwm low Fh Fl) as [Ft Vt]; [rewrite Rabs_pos_eq; lra|]. repeat split; auto; lra. }
  destruct (G low Fl (conj Pl H)) as (Vd & D & F2 & V2 & F3 & V3). assert (O : format64 1) by (apply (@format64_int 1); lia).
  assert (S1 : 0 < rnd64 (1 - fv (fdiv low hwm))) by (apply (rnd_diff_sign O (fv_format (fdiv low hwm))); lra).
  assert (S2 : 0 < rnd64 (fv hwm - fv low)) by (apply (rnd_diff_sign (fv_format hwm) (fv_format low)); lra).
  cbv zeta. split; [split; auto; rewrite V2; split; auto; apply rnd64_01; lra|]. split; [split; auto; rewrite V3; split; auto; apply rnd64_0w; lra|].
  intros low' Fl' H' d. destruct (G low' Fl') as (Vd' & D' & F2' & V2' & F3' & V3'); [lra|]. destruct d; [rewrite V3, V3'; apply rnd64_mono; lra|]. rewrite V2, V2'. apply rnd64_mono.
  assert (fv (fdiv low' hwm) <= fv (fdiv low hwm)); [|lra]. rewrite Vd, Vd'. apply rnd64_mono, Rmult_le_compat_r; lra.
Qed.
Print Assumptions c132_drawdown.
Example c132_ex : let hwm := tenth in let low := fsub tenth (ff 1 (-56)) in fin hwm /\ fin low /\ fle (fz 0) low = true /\ flt low hwm = true /\ flt (fz 0) (fdrawdown false hwm low) = true.
Proof. vm_compute. repeat split; reflexivity. Qed.

(** ** C133 average uniqueness *)
Lemma seval_le_count t : (forall x, In x (FloatBarsProofs.leaves t) -> fin x /\ 0 <= fv x <= 1) -> (Z.of_nat (length (FloatBarsProofs.leaves t)) <= 2 ^ 53)%Z ->
  fin (seval t) /\ 0 <= fv (seval t) <= INR (length (FloatBarsProofs.leaves t)) /\ forall x, In x (FloatBarsProofs.leaves t) -> fv x <= fv (seval t).
Proof.
  induction t as [|x|l IHl r IHr]; cbn [FloatBarsProofs.leaves seval]; intros H N.
  - destruct fz0 as [F V]. rewrite V. cbn [length INR]. repeat split; auto; try lra. intros x [].
  - destruct (H x (or_introl eq_refl)) as [F B]. cbn [length INR]. repeat split; auto; try lra. intros y [<-|[]]. lra.
  - rewrite app_length in N. destruct IHl as (F1 & B1 & M1); [intros; apply H, in_app_iff; auto|lia|]. destruct IHr as (F2 & B2 & M2); [intros; apply H, in_app_iff; auto|lia|].
    set (n1 := length (FloatBarsProofs.leaves l)) in *. set (n2 := length (FloatBarsProofs.leaves r)) in *. rewrite app_length. fold n1 n2.
    assert (EI : INR (n1 + n2) = IZR (Z.of_nat (n1 + n2))) by apply INR_IZR_INZ. assert (SB : 0 <= fv (seval l) + fv (seval r) <= INR (n1 + n2)) by (rewrite plus_INR; lra).
    destruct (@fadd_spec (seval l) (seval r) F1 F2) as [F V].
    { rewrite Rabs_pos_eq by lra. apply Rle_trans with (1 := proj2 SB). rewrite EI. rewrite <- (Rabs_pos_eq (IZR _)) by (apply IZR_le; lia). apply big_ge. lia. }
    assert (L1 : fv (seval l) <= fv (fadd (seval l) (seval r))) by (rewrite V; rewrite <- (rnd64_fv (seval l)) at 1; apply rnd64_mono; lra).
    assert (L2 : fv (seval r) <= fv (fadd (seval l) (seval r))) by (rewrite V; rewrite <- (rnd64_fv (seval r)) at 1; apply rnd64_mono; lra).
    split; auto. split.
    + rewrite V. split; [rewrite <- rnd64_0; apply rnd64_mono; lra|]. apply Rle_trans with (rnd64 (INR (n1 + n2))); [apply rnd64_mono; lra|]. rewrite EI, rnd64_int by lia. lra.
    + intros x Hx. apply in_app_iff in Hx. destruct Hx as [Hx|Hx]; [specialize (M1 x Hx)|specialize (M2 x Hx)]; lra.
Qed.
(** the average uniqueness of an event is positive and at most one, in every order of additions; it is exactly one when no other event overlaps *)
Theorem c133_uniqueness sum counts : is_sum sum -> counts <> [] -> (Z.of_nat (length counts) <= 2 ^ 53)%Z ->
  (forall c, In c counts -> fin c /\ exists k, fv c = IZR k /\ (1 <= k <= 2 ^ 53)%Z) ->
  let m := fmean_uniqueness sum counts in fin m /\ 0 < fv m <= 1 /\ ((forall c, In c counts -> fv c = 1) -> fv m = 1).
Proof.
  intros HS Hne Hn Hc m. destruct (@fz_spec 1) as [F1 V1]; [lia|]. assert (B1 : 1 <= big) by (change 1 with (bpow radix2 0); apply bpow_le; lia).
  assert (R : forall c, In c counts -> fin (fdiv (fz 1) c) /\ bpow radix2 (-53) <= fv (fdiv (fz 1) c) <= 1 /\ (fv c = 1 -> fv (fdiv (fz 1) c) = 1)).
  { intros c Hin. destruct (Hc c Hin) as (Fc & k & Vc & Hk). assert (K1 : 1 <= IZR k) by (apply IZR_le; lia). assert (K2 : IZR k <= bpow radix2 53) by (change (bpow radix2 53) with (IZR (2 ^ 53)); apply IZR_le; lia).
    assert (Q : bpow radix2 (-53) <= 1 / IZR k <= 1). { unfold Rdiv. rewrite Rmult_1_l. split; [change (-53)%Z with (- (53))%Z; rewrite bpow_opp; apply Rinv_le_contravar; lra|rewrite <- Rinv_1; apply Rinv_le_contravar; lra]. }
    pose proof (bpow_gt_0 radix2 (-53)). destruct (@fdiv_spec (fz 1) c F1) as [Fd Vd]; [lra|rewrite V1, Vc; change (IZR 1) with 1; rewrite Rabs_pos_eq; lra|]. rewrite V1, Vc in Vd. change (IZR 1) with 1 in Vd.
    assert (FB : format64 (bpow radix2 (-53))) by (apply format64_bpow; lia). split; auto. split.
    - rewrite Vd. split; [rewrite <- (rnd64_id FB); apply rnd64_mono; lra|apply rnd64_01; lra].
    - intro E. rewrite Vd. rewrite <- Vc, E. unfold Rdiv. rewrite Rinv_1, Rmult_1_l. apply rnd64_1. }
  set (us := map (fdiv (fz 1)) counts) in *. set (n := length counts) in *. assert (EN : length us = n) by apply map_length. pose proof (bpow_gt_0 radix2 (-53)) as BP.
  assert (R' : forall x, In x us -> fin x /\ bpow radix2 (-53) <= fv x <= 1) by (intros x Hx; apply in_map_iff in Hx; destruct Hx as (c & <- & Hin); destruct (R c Hin) as (A & B & _); auto).
  assert (N0 : (1 <= n)%nat) by (unfold n; destruct counts; [congruence|cbn [length]; lia]). destruct (@fz_spec (Z.of_nat n)) as [Fn Vn]; [lia|].
  assert (N1 : 1 <= IZR (Z.of_nat n)) by (apply IZR_le; lia). assert (N2 : IZR (Z.of_nat n) <= bpow radix2 53) by (change (bpow radix2 53) with (IZR (2 ^ 53)); apply IZR_le; lia).
  destruct (HS us) as (t & Et & P & _). destruct (@seval_le_count t) as (Fs & Bs & Ms).
  { intros x Hx. destruct (R' x) as [A B]; [eapply Permutation_in; eauto|]. split; auto. lra. } { rewrite (Permutation_length P), EN. exact Hn. }
  rewrite (Permutation_length P), EN, INR_IZR_INZ in Bs. rewrite <- Et in Fs, Bs, Ms.
  assert (Lo : bpow radix2 (-53) <= fv (sum us)).
  { destruct us as [|x us']; [cbn [length] in EN; lia|]. destruct (R' x (or_introl eq_refl)) as [_ B]. apply Rle_trans with (fv x); [lra|]. apply Ms. eapply Permutation_in; [symmetry; exact P|now left]. }
  assert (In' : 0 < / IZR (Z.of_nat n)) by (apply Rinv_0_lt_compat; lra).
  assert (Q : bpow radix2 (-106) <= fv (sum us) / IZR (Z.of_nat n) <= 1).
  { split; [|apply Rmult_le_reg_r with (IZR (Z.of_nat n)); [lra|]; unfold Rdiv; rewrite Rmult_assoc, Rinv_l; lra]. change (-106)%Z with (-53 + - (53))%Z. rewrite bpow_plus, (bpow_opp radix2 53). apply Rmult_le_compat; try lra; [apply Rlt_le, Rinv_0_lt_compat, bpow_gt_0|apply Rinv_le_contravar; lra]. }
  pose proof (bpow_gt_0 radix2 (-106)) as BP2. destruct (@fdiv_spec (sum us) (fz (Z.of_nat n)) Fs) as [Fm Vm]; [lra|rewrite Vn, Rabs_pos_eq; lra|]. rewrite Vn in Vm. change (fdiv (sum us) (fz (Z.of_nat n))) with m in Fm, Vm.
  split; auto. split.
  - rewrite Vm. split; [|apply rnd64_01; lra]. assert (FB : format64 (bpow radix2 (-106))) by (apply format64_bpow; lia). apply Rlt_le_trans with (1 := BP2). rewrite <- (rnd64_id FB). apply rnd64_mono. lra.
  - intro A1. assert (E1 : fv (sum us) = IZR (Z.of_nat n)); [|rewrite Vm, E1; unfold Rdiv; rewrite Rinv_r by lra; apply rnd64_1]. rewrite Et.
    assert (FO : forall l, fold_right Z.add 0%Z (repeat 1%Z l) = Z.of_nat l) by (induction l as [|l IH]; [reflexivity|]; cbn [repeat fold_right]; rewrite IH; lia).
    rewrite <- (FO n). apply (@seval_whole t (repeat 1%Z n)).
    + intros x Hx. apply R'. eapply Permutation_in; eauto.
    + assert (MR : forall l, map IZR (repeat 1%Z l) = repeat 1 l) by (induction l as [|l IH]; [reflexivity|]; cbn [repeat map]; now rewrite IH). rewrite MR. rewrite <- EN, <- (Permutation_length P). assert (A2 : forall x, In x (FloatBarsProofs.leaves t) -> fv x = 1).
      { intros x Hx. assert (Hx' : In x us) by (eapply Permutation_in; eauto). apply in_map_iff in Hx'. destruct Hx' as (c & <- & Hin). now apply R, A1. }
      clear - A2. induction (FloatBarsProofs.leaves t) as [|x l IH]; [reflexivity|]. cbn [map length repeat]. rewrite (A2 x (or_introl eq_refl)), IH by (intros; apply A2; now right). reflexivity.
    + intros z Hz. apply repeat_spec in Hz. subst. lia.
    + rewrite FO. exact Hn.
Qed.
Print Assumptions c133_uniqueness.
Example c133_ex : (forall c, In c [fz 3; fz 1; fz 2] -> fin c /\ exists k, fv c = IZR k /\ (1 <= k <= 2 ^ 53)%Z) /\ flt (fz 0) (fmean_uniqueness fsum_left [fz 3; fz 1; fz 2]) = true /\ flt (fmean_uniqueness fsum_left [fz 3; fz 1; fz 2]) (fz 1) = true.
Proof.
  split; [|vm_compute; auto]. intros c [<-|[<-|[<-|[]]]]; (split; [vm_compute; reflexivity|]); [exists 3%Z|exists 1%Z|exists 2%Z]; (split; [apply fz_spec|]; lia).
Qed.

(** ** C134 concentration *)
(** REFUTED in binary64: five equal returns of 0.01 have a negative concentration *)
Theorem c134_hhi_refuted : exists rets, (forall r, In r rets -> fin r /\ 0 < fv r) /\ length rets = 5%nat /\ fin (fhhi fsum_left rets) /\ fv (fhhi fsum_left rets) < 0.
Proof.
  exists (repeat (ff 5764607523034235 (-59)) 5). destruct fz0 as [F0 V0]. assert (F : fin (ff 5764607523034235 (-59))) by (vm_compute; reflexivity).
  assert (Fh : fin (fhhi fsum_left (repeat (ff 5764607523034235 (-59)) 5))) by (vm_compute; reflexivity). repeat split; auto.
  - apply repeat_spec in H. now subst.
  - apply repeat_spec in H. subst r. rewrite <- V0. apply flt_spec; auto.
  - rewrite <- V0. apply flt_spec; auto.
Qed.
Print Assumptions c134_hhi_refuted.
