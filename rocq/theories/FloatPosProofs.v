(** Lemmas for position sizes in binary64. *)
From Coq Require Import ZArith Reals Lra Lia List Permutation Bool.
From Flocq Require Import Core Relative BinarySingleNaN.
From Verif Require Import Py RNum BarrierModel Float64 FloatBarsModel FloatBarsProofs FloatBarsProps FloatPosModel.
Import ListNotations.
Set Implicit Arguments.
Unset Strict Implicit.
Open Scope R_scope.

Lemma fround_spec x : fin x -> fin (fround x) /\ fv (fround x) = IZR (ZnearestE (fv x)).
Proof.
  intro F. destruct (Bnearbyint_correct 53 1024 _ mode_NE x) as (V & F' & _). split; [unfold fin, fround; now rewrite F'|].
  unfold fv, fround. rewrite V. unfold round, F2R, scaled_mantissa, cexp, FIX_exp. cbn. now rewrite !Rmult_1_r.
Qed.
Lemma one_spec : fin (fz 1) /\ fv (fz 1) = 1. Proof. apply (@fz_spec 1). lia. Qed.
Lemma minus_one_spec : fin (fz (-1)) /\ fv (fz (-1)) = -1. Proof. apply (@fz_spec (-1)). lia. Qed.
Lemma nearest_mono x y : x <= y -> (ZnearestE x <= ZnearestE y)%Z.
Proof. apply (@Zrnd_le _ (valid_rnd_N (fun x => negb (Z.even x)))). Qed.
Lemma nearest_opp x : ZnearestE (- x) = (- ZnearestE x)%Z.
Proof.
  pose proof (round_NE_opp radix2 (FIX_exp 0) x) as H. unfold round, F2R, scaled_mantissa, cexp, FIX_exp in H. cbn in H. rewrite !Rmult_1_r in H.
  rewrite <- opp_IZR in H. now apply eq_IZR.
Qed.
Lemma nearest_int z : ZnearestE (IZR z) = z.
Proof. apply (@Zrnd_IZR _ (valid_rnd_N (fun x => negb (Z.even x)))). Qed.
Lemma nearest_half x : Rabs (x - IZR (ZnearestE x)) <= / 2.
Proof. apply (Znearest_half (fun x => negb (Z.even x)) x). Qed.
(** rounding with gradual underflow *)
Notation tiny := (bpow radix2 (-1075)).
Lemma rnd_error_any x : exists e h, Rabs e <= u64 /\ Rabs h <= tiny /\ rnd64 x = x * (1 + e) + h.
Proof.
  destruct (error_N_FLT radix2 (3 - 1024 - 53) 53 eq_refl (fun x => negb (Z.even x)) x) as (e & h & He & Hh & _ & E).
  exists e, h. rewrite E. repeat split; auto.
  - replace u64 with (/ 2 * bpow radix2 (- (53) + 1)); auto. fold (u_ro radix2 53). apply u_ro64.
  - apply Rle_trans with (1 := Hh). replace (/ 2) with (bpow radix2 (-1)) by (cbn; lra). rewrite <- bpow_plus. apply bpow_le. lia.
Qed.

(** ** the clip *)
Definition clip (x : R) : R := Rmax (-1) (Rmin 1 x).
Lemma clip_bounds x : -1 <= clip x <= 1.
Proof. unfold clip, Rmax, Rmin. destruct (Rle_dec 1 x), (Rle_dec (-1) _); lra. Qed.
Lemma clip_mono x y : x <= y -> clip x <= clip y.
Proof. intro H. unfold clip, Rmax, Rmin. destruct (Rle_dec 1 x), (Rle_dec 1 y); repeat destruct (Rle_dec (-1) _); lra. Qed.
Lemma clip_opp x : clip (- x) = - clip x.
Proof. unfold clip, Rmax, Rmin. destruct (Rle_dec 1 x), (Rle_dec 1 (- x)); repeat destruct (Rle_dec (-1) _); lra. Qed.
Lemma clip_id x : -1 <= x <= 1 -> clip x = x.
Proof. intro H. unfold clip, Rmax, Rmin. destruct (Rle_dec 1 x); destruct (Rle_dec (-1) _); lra. Qed.
Lemma clip_near x y : -1 <= x <= 1 -> Rabs (clip y - x) <= Rabs (y - x).
Proof.
  intro H. unfold clip, Rmax, Rmin, Rabs. destruct (Rle_dec 1 y); destruct (Rle_dec (-1) _); repeat destruct (Rcase_abs _); lra.
Qed.

(** ** discretisation *)
Notation pieces step x := (ZnearestE (rnd64 (fv x / fv step))).
Lemma quotient_small step x : fin step -> bpow radix2 (-1000) <= fv step -> Rabs (fv x) <= 1 -> Rabs (fv x / fv step) <= bpow radix2 1000.
Proof.
  intros Fs S X. pose proof (bpow_gt_0 radix2 (-1000)) as B. unfold Rdiv. rewrite Rabs_mult, Rabs_inv, (Rabs_pos_eq (fv step)) by lra.
  rewrite <- (Rmult_1_l (bpow radix2 1000)). apply Rmult_le_compat; [apply Rabs_pos|left; apply Rinv_0_lt_compat; lra|exact X|].
  replace (bpow radix2 1000) with (/ bpow radix2 (-1000)) by (rewrite <- bpow_opp; reflexivity). apply Rinv_le_contravar; lra.
Qed.
(** bounds on the product of the count and the step *)
Lemma pieces_near step x : fin step -> bpow radix2 (-1000) <= fv step -> Rabs (fv x) <= 1 ->
  Rabs (IZR (pieces step x) * fv step - fv x) <= fv step * (/ 2 + tiny) + u64.
Proof.
  intros Fs S X. pose proof (bpow_gt_0 radix2 (-1000)) as B. set (s := fv step) in *. set (q := fv x / s).
  destruct (rnd_error_any q) as (e & h & He & Hh & E). pose proof (nearest_half (rnd64 q)) as N. set (n := ZnearestE (rnd64 q)) in *.
  replace (IZR n * s - fv x) with ((- (rnd64 q - IZR n) + h) * s + fv x * e) by (rewrite E; unfold q; field; lra).
  apply Rle_trans with (1 := Rabs_triang _ _). apply Rplus_le_compat.
  - rewrite Rabs_mult, (Rabs_pos_eq s), Rmult_comm by lra. apply Rmult_le_compat_l; [lra|]. apply Rle_trans with (1 := Rabs_triang _ _). rewrite Rabs_Ropp. lra.
  - rewrite Rabs_mult. rewrite <- (Rmult_1_l u64). apply Rmult_le_compat; auto using Rabs_pos.
Qed.
Lemma tiny_le : tiny <= / 1024 * u64.
Proof. unfold ulp64. replace (/ 1024) with (bpow radix2 (-10)) by (cbn; lra). rewrite <- bpow_plus. apply bpow_le. lia. Qed.
Theorem fdiscretize_value step x : fin step -> bpow radix2 (-1000) <= fv step <= bpow radix2 1000 -> fin x -> Rabs (fv x) <= 1 ->
  fin (fdiscretize step x) /\ fv (fdiscretize step x) = clip (rnd64 (IZR (pieces step x) * fv step)).
Proof.
  intros Fs [S1 S2] Fx X. pose proof (bpow_gt_0 radix2 (-1000)) as B. pose proof (quotient_small Fs S1 X) as Q.
  destruct (@fdiv_spec x step Fx) as [F1 V1]; [lra|apply Rle_trans with (1 := Q); apply bpow_le; lia|].
  destruct (fround_spec F1) as [F2 V2]. rewrite V1 in V2. pose proof (pieces_near Fs S1 X) as N. pose proof tiny_le as T. pose proof u64_small as U.
  destruct (@fmul_spec (fround (fdiv x step)) step F2 Fs) as [F3 V3].
  { rewrite V2. replace (IZR (pieces step x) * fv step) with ((IZR (pieces step x) * fv step - fv x) + fv x) by ring. apply Rle_trans with (1 := Rabs_triang _ _).
    apply Rle_trans with (bpow radix2 1000 + bpow radix2 1000 + (bpow radix2 1000 + bpow radix2 1000)).
    - assert (1 <= bpow radix2 1000) by (change 1 with (bpow radix2 0); apply bpow_le; lia).
      assert (fv step * (/ 2 + tiny) <= bpow radix2 1000 * 1) by (pose proof (bpow_gt_0 radix2 (-1075)); apply Rmult_le_compat; lra). lra.
    - replace (bpow radix2 1000 + bpow radix2 1000 + (bpow radix2 1000 + bpow radix2 1000)) with (bpow radix2 2 * bpow radix2 1000) by (change (bpow radix2 2) with 4; ring).
      rewrite <- bpow_plus. apply bpow_le. lia. }
  rewrite V2 in V3. unfold fdiscretize. set (d := fmul (fround (fdiv x step)) step) in *. rewrite <- V3.
  destruct one_spec as [O1 O2]. destruct minus_one_spec as [M1 M2].
  assert (fin (if flt (fz 1) d then fz 1 else d) /\ fv (if flt (fz 1) d then fz 1 else d) = Rmin 1 (fv d)) as [F4 V4].
  { destruct (flt (fz 1) d) eqn:E.
    - apply flt_spec in E; auto. rewrite Rmin_left by lra. split; auto.
    - split; auto. rewrite Rmin_right; auto. apply Rnot_lt_le. intro L. rewrite <- O2 in L. apply flt_spec in L; auto. congruence. }
  set (c := if flt (fz 1) d then fz 1 else d) in *. unfold clip. rewrite <- V4. destruct (flt c (fz (-1))) eqn:E.
  - apply flt_spec in E; auto. rewrite Rmax_left by lra. split; auto.
  - split; auto. rewrite Rmax_right; auto. apply Rnot_lt_le. intro L. rewrite <- M2 in L. apply flt_spec in L; auto. congruence.
Qed.

(** ** sums and means of values in [-1, 1] *)
Definition unit_values (l : list f64) : Prop := forall x, In x l -> fin x /\ Rabs (fv x) <= 1.
Definition nonzeros (l : list f64) : nat := length (filter (fun x => if Req_EM_T (fv x) 0 then false else true) l).
Lemma nonzeros_app l r : nonzeros (l ++ r) = (nonzeros l + nonzeros r)%nat.
Proof. unfold nonzeros. now rewrite filter_app, app_length. Qed.
Lemma nonzeros_perm l r : Permutation l r -> nonzeros l = nonzeros r.
Proof.
  intro P. unfold nonzeros. induction P; cbn [filter]; auto; try congruence.
  - destruct (Req_EM_T (fv x) 0); cbn [length]; congruence.
  - destruct (Req_EM_T (fv x) 0), (Req_EM_T (fv y) 0); reflexivity.
Qed.
Lemma nonzeros_le l : (nonzeros l <= length l)%nat.
Proof. unfold nonzeros. induction l as [|x l IH]; cbn; auto. destruct (Req_EM_T (fv x) 0); cbn; lia. Qed.
Lemma seval_unit t : unit_values (leaves t) -> (Z.of_nat (length (leaves t)) <= 2 ^ 53)%Z ->
  fin (seval t) /\ Rabs (fv (seval t)) <= INR (nonzeros (leaves t)) /\
  Rabs (fv (seval t) - total (leaves t)) <= u64 * INR (nonzeros (leaves t)) * INR (depth t).
Proof.
  pose proof u64_pos as U. induction t as [|x|l IHl r IHr]; cbn [seval leaves depth]; intros Hu Hn.
  - destruct fz0 as [F V]. split; auto. rewrite V. unfold total, nonzeros. cbn. rewrite Rabs_R0, Rminus_0_r, Rabs_R0. lra.
  - destruct (Hu x (or_introl eq_refl)) as [F V]. split; auto. unfold total, nonzeros. cbn [filter map rsum length INR]. split.
    + destruct (Req_EM_T (fv x) 0) as [E|E]; cbn; [rewrite E, Rabs_R0; lra|auto].
    + rewrite Rplus_0_r, Rminus_eq_0, Rabs_R0, Rmult_0_r. lra.
  - rewrite app_length in Hn. destruct IHl as (Fl & Bl & El); [intros x Hx; apply Hu, in_or_app; auto|lia|]. destruct IHr as (Fr & Br & Er); [intros x Hx; apply Hu, in_or_app; auto|lia|].
    set (a := seval l) in *. set (b := seval r) in *. rewrite nonzeros_app, total_app.
    pose proof (nonzeros_le (leaves l)) as N1. pose proof (nonzeros_le (leaves r)) as N2.
    assert (S : Rabs (fv a + fv b) <= INR (nonzeros (leaves l) + nonzeros (leaves r))) by (rewrite plus_INR; apply Rle_trans with (1 := Rabs_triang _ _); lra).
    assert (G : format64 (INR (nonzeros (leaves l) + nonzeros (leaves r)))) by (rewrite INR_IZR_INZ; apply format64_int; lia).
    destruct (@fadd_spec a b Fl Fr) as [F V].
    { apply Rle_trans with (1 := S). rewrite INR_IZR_INZ. apply Rle_trans with (1 := Rle_abs _). apply big_ge. lia. }
    split; auto. rewrite V. split; [now apply rnd64_abs_le|].
    destruct (@add_error (fv a) (fv b) (fv_format _) (fv_format _)) as (e & He & E). rewrite E.
    replace ((fv a + fv b) * (1 + e) - (total (leaves l) + total (leaves r))) with ((fv a - total (leaves l)) + (fv b - total (leaves r)) + (fv a + fv b) * e) by ring.
    apply Rle_trans with (1 := Rabs_triang _ _). assert (K : Rabs ((fv a + fv b) * e) <= INR (nonzeros (leaves l) + nonzeros (leaves r)) * u64).
    { rewrite Rabs_mult. apply Rmult_le_compat; auto using Rabs_pos. }
    pose proof (Rabs_triang (fv a - total (leaves l)) (fv b - total (leaves r))) as T.
    assert (D1 : INR (depth l) <= INR (Nat.max (depth l) (depth r))) by (apply le_INR; lia). assert (D2 : INR (depth r) <= INR (Nat.max (depth l) (depth r))) by (apply le_INR; lia).
    pose proof (pos_INR (nonzeros (leaves l))) as P1. pose proof (pos_INR (nonzeros (leaves r))) as P2.
    assert (Q1 : u64 * INR (nonzeros (leaves l)) * INR (depth l) <= u64 * INR (nonzeros (leaves l)) * INR (Nat.max (depth l) (depth r))) by (apply Rmult_le_compat_l; auto; apply Rmult_le_pos; lra).
    assert (Q2 : u64 * INR (nonzeros (leaves r)) * INR (depth r) <= u64 * INR (nonzeros (leaves r)) * INR (Nat.max (depth l) (depth r))) by (apply Rmult_le_compat_l; auto; apply Rmult_le_pos; lra).
    rewrite ?S_INR, plus_INR in *. lra.
Qed.
