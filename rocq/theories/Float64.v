(** binary64 arithmetic (round to nearest even, as CPython and numpy use it) through Flocq's formalisation, and its relation to rounded reals.
    Used where rounding itself is the subject; everywhere else the models use exact numbers. *)
From Coq Require Import ZArith Reals Lra Lia List.
From Flocq Require Import Core Relative BinarySingleNaN Plus_error Sterbenz.
Import ListNotations.
Set Implicit Arguments.
Unset Strict Implicit.
Open Scope R_scope.

Lemma prec64_pos : Prec_gt_0 53.  Proof. reflexivity. Qed.
Lemma prec64_emax : Prec_lt_emax 53 1024.  Proof. reflexivity. Qed.
#[export] Existing Instance prec64_pos.
#[export] Existing Instance prec64_emax.

Notation f64 := (binary_float 53 1024).
Notation fexp64 := (FLT_exp (3 - 1024 - 53) 53).
Notation rnd64 := (round radix2 fexp64 ZnearestE).
Notation format64 := (generic_format radix2 fexp64).

Definition fadd (x y : f64) : f64 := Bplus mode_NE x y.
Definition fsub (x y : f64) : f64 := Bminus mode_NE x y.
Definition fmul (x y : f64) : f64 := Bmult mode_NE x y.
Definition fdiv (x y : f64) : f64 := Bdiv mode_NE x y.
Definition fabs (x : f64) : f64 := Babs x.
Definition flt (x y : f64) : bool := Bltb x y.
Definition fle (x y : f64) : bool := Bleb x y.
Definition feq (x y : f64) : bool := Beqb x y.
(** the float m * 2^e, rounded if need be: an integer constant is [fz] *)
Definition ff (m e : Z) : f64 := binary_normalize 53 1024 _ _ mode_NE m e false.
Definition fz (m : Z) : f64 := ff m 0.
(** value of a finite float *)
Definition fv (x : f64) : R := B2R x.
Definition fin (x : f64) : Prop := is_finite x = true.

#[export] Instance valid64 : Valid_exp fexp64.
Proof. apply FLT_exp_valid. reflexivity. Qed.
Lemma fv_format x : format64 (fv x).
Proof. apply (generic_format_B2R 53 1024). Qed.
Lemma rnd64_mono x y : x <= y -> rnd64 x <= rnd64 y.
Proof. apply round_le; [apply valid64|apply valid_rnd_N]. Qed.
Lemma rnd64_id x : format64 x -> rnd64 x = x.
Proof. apply round_generic. apply valid_rnd_N. Qed.
Lemma rnd64_fv x : rnd64 (fv x) = fv x.
Proof. apply rnd64_id, fv_format. Qed.
Lemma rnd64_0 : rnd64 0 = 0.
Proof. apply round_0, valid_rnd_N. Qed.
Lemma rnd64_opp x : rnd64 (- x) = - rnd64 x.
Proof. apply round_NE_opp. Qed.
Lemma format64_int z : (Z.abs z <= 2 ^ 53)%Z -> format64 (IZR z).
Proof.
  intro H. destruct (Z.eq_dec (Z.abs z) (2 ^ 53)) as [E|E].
  - assert (G : format64 (IZR (2 ^ 53))).
    { change (IZR (2 ^ 53)) with (IZR (Zpower radix2 53)). rewrite IZR_Zpower by lia. apply generic_format_FLT_bpow; [reflexivity|lia]. }
    assert (z = 2 ^ 53 \/ z = - 2 ^ 53)%Z as [->| ->] by lia; auto.
    rewrite opp_IZR. now apply generic_format_opp.
  - apply generic_format_FLT. apply FLT_spec with (Float radix2 z 0).
    + unfold F2R. cbn. now rewrite Rmult_1_r.
    + cbn [Fnum]. change (Zpower radix2 53) with (2 ^ 53)%Z. lia.
    + cbn [Fexp]. lia.
Qed.
Lemma rnd64_int z : (Z.abs z <= 2 ^ 53)%Z -> rnd64 (IZR z) = IZR z.
Proof. intro H. now apply rnd64_id, format64_int. Qed.
Lemma rnd64_1 : rnd64 1 = 1. Proof. apply (@rnd64_int 1). lia. Qed.
Lemma format64_bpow e : (-1074 <= e)%Z -> format64 (bpow radix2 e).
Proof. intro H. apply generic_format_FLT_bpow; [reflexivity|exact H]. Qed.

(** no overflow below 2^1023 *)
Notation big := (bpow radix2 1023).
Lemma rnd64_abs_le x b : format64 b -> Rabs x <= b -> Rabs (rnd64 x) <= b.
Proof. intros F H. apply abs_round_le_generic; auto using valid64. apply valid_rnd_N. Qed.
Lemma no_overflow64 x : Rabs x <= big -> Rlt_bool (Rabs (rnd64 x)) (bpow radix2 1024) = true.
Proof.
  intro H. apply Rlt_bool_true. apply Rle_lt_trans with big; [|apply bpow_lt; lia].
  apply rnd64_abs_le; auto. apply format64_bpow. lia.
Qed.

Lemma fadd_spec x y : fin x -> fin y -> Rabs (fv x + fv y) <= big -> fin (fadd x y) /\ fv (fadd x y) = rnd64 (fv x + fv y).
Proof.
  intros Fx Fy H. pose proof (Bplus_correct 53 1024 _ _ mode_NE x y Fx Fy) as C. change (round_mode mode_NE) with ZnearestE in C.
  change (SpecFloat.fexp 53 1024) with fexp64 in C. fold (fv x) (fv y) in C. rewrite (no_overflow64 H) in C. destruct C as (C1 & C2 & _). split; auto.
Qed.
Lemma fsub_spec x y : fin x -> fin y -> Rabs (fv x - fv y) <= big -> fin (fsub x y) /\ fv (fsub x y) = rnd64 (fv x - fv y).
Proof.
  intros Fx Fy H. pose proof (Bminus_correct 53 1024 _ _ mode_NE x y Fx Fy) as C. change (round_mode mode_NE) with ZnearestE in C.
  change (SpecFloat.fexp 53 1024) with fexp64 in C. fold (fv x) (fv y) in C. rewrite (no_overflow64 H) in C. destruct C as (C1 & C2 & _). split; auto.
Qed.
Lemma fmul_spec x y : fin x -> fin y -> Rabs (fv x * fv y) <= big -> fin (fmul x y) /\ fv (fmul x y) = rnd64 (fv x * fv y).
Proof.
  intros Fx Fy H. pose proof (Bmult_correct 53 1024 _ _ mode_NE x y) as C. change (round_mode mode_NE) with ZnearestE in C.
  change (SpecFloat.fexp 53 1024) with fexp64 in C. fold (fv x) (fv y) in C. rewrite (no_overflow64 H) in C. destruct C as (C1 & C2 & _). split; auto.
  unfold fin, fmul in *. now rewrite C2, Fx, Fy.
Qed.
Lemma fdiv_spec x y : fin x -> fv y <> 0 -> Rabs (fv x / fv y) <= big -> fin (fdiv x y) /\ fv (fdiv x y) = rnd64 (fv x / fv y).
Proof.
  intros Fx Hy H. pose proof (Bdiv_correct 53 1024 _ _ mode_NE x y Hy) as C. change (round_mode mode_NE) with ZnearestE in C.
  change (SpecFloat.fexp 53 1024) with fexp64 in C. fold (fv x) (fv y) in C. rewrite (no_overflow64 H) in C. destruct C as (C1 & C2 & _). split; auto.
  unfold fin, fdiv in *. now rewrite C2, Fx.
Qed.
Lemma fabs_spec x : fin x -> fin (fabs x) /\ fv (fabs x) = Rabs (fv x).
Proof. intro F. split; [unfold fin, fabs; now rewrite is_finite_Babs|apply B2R_Babs]. Qed.
Lemma flt_spec x y : fin x -> fin y -> flt x y = true <-> fv x < fv y.
Proof. intros Fx Fy. unfold flt. rewrite Bltb_correct by auto. fold (fv x) (fv y). split; [case Rlt_bool_spec; auto; discriminate|intro; now apply Rlt_bool_true]. Qed.
Lemma fle_spec x y : fin x -> fin y -> fle x y = true <-> fv x <= fv y.
Proof. intros Fx Fy. unfold fle. rewrite Bleb_correct by auto. fold (fv x) (fv y). split; [case Rle_bool_spec; auto; discriminate|intro; now apply Rle_bool_true]. Qed.
Lemma feq_spec x y : fin x -> fin y -> feq x y = true <-> fv x = fv y.
Proof. intros Fx Fy. unfold feq. rewrite Beqb_correct by auto. fold (fv x) (fv y). split; [case Req_bool_spec; auto; discriminate|intro; now apply Req_bool_true]. Qed.
Lemma ff_spec m e : Rabs (IZR m * bpow radix2 e) <= big -> fin (ff m e) /\ fv (ff m e) = rnd64 (IZR m * bpow radix2 e).
Proof.
  intro H. pose proof (binary_normalize_correct 53 1024 _ _ mode_NE m e false) as C. cbv zeta in C. change (round_mode mode_NE) with ZnearestE in C.
  change (SpecFloat.fexp 53 1024) with fexp64 in C. unfold F2R in C. cbn [Fnum Fexp] in C. rewrite (no_overflow64 H) in C. destruct C as (C1 & C2 & _). split; auto.
Qed.
Lemma big_ge z : (Z.abs z <= 2 ^ 1000)%Z -> Rabs (IZR z) <= big.
Proof.
  intro H. rewrite <- abs_IZR. apply Rle_trans with (IZR (2 ^ 1000)); [now apply IZR_le|].
  change (IZR (2 ^ 1000)) with (IZR (Zpower radix2 1000)). rewrite IZR_Zpower by lia. apply bpow_le. lia.
Qed.
Lemma fz_spec m : (Z.abs m <= 2 ^ 53)%Z -> fin (fz m) /\ fv (fz m) = IZR m.
Proof.
  intro H. destruct (@ff_spec m 0) as [F V].
  - cbn [bpow]. rewrite Rmult_1_r. apply big_ge. lia.
  - split; auto. unfold fz. rewrite V. cbn [bpow]. rewrite Rmult_1_r. now apply rnd64_int.
Qed.

(** relative error: unit roundoff *)
Definition ulp64 : R := bpow radix2 (-53).
Notation u64 := ulp64.
Lemma u64_pos : 0 < u64. Proof. apply bpow_gt_0. Qed.
Lemma u64_small : u64 <= / 1024.
Proof. unfold ulp64. replace (/ 1024) with (bpow radix2 (-10)) by (cbn; lra). apply bpow_le. lia. Qed.
Lemma u_ro64 : u_ro radix2 53 = u64.
Proof. unfold u_ro, ulp64. replace (/ 2) with (bpow radix2 (-1)) by (cbn; lra). rewrite <- bpow_plus. f_equal. Qed.
Lemma add_error x y : format64 x -> format64 y -> exists e, Rabs e <= u64 /\ rnd64 (x + y) = (x + y) * (1 + e).
Proof.
  intros Fx Fy. destruct (FLT_plus_error_N_ex radix2 (3 - 1024 - 53) 53 (fun x => negb (Z.even x)) x y Fx Fy) as (e & He & E).
  exists e. split; auto. rewrite u_ro64 in He. pose proof u64_pos. apply Rle_trans with (1 := He). unfold Rdiv.
  assert (/ (1 + u64) <= 1) by (rewrite <- Rinv_1; apply Rinv_le_contravar; lra). nra.
Qed.
(** any operation with a result in the normal range *)
Lemma rnd_error x : bpow radix2 (-1022) <= Rabs x -> exists e, Rabs e <= u64 /\ rnd64 x = x * (1 + e).
Proof.
  intro H. destruct (relative_error_N_FLT_ex radix2 (3 - 1024 - 53) 53 eq_refl (fun x => negb (Z.even x)) x H) as (e & He & E).
  exists e. split; auto. replace u64 with (/ 2 * bpow radix2 (- (53) + 1)); auto. fold (u_ro radix2 53). apply u_ro64.
Qed.
