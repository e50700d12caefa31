(** The float64 group boundaries in terms of rounded reals (through Flocq's formalisation of binary64). *)
From Coq Require Import Reals Lra.
From Coq Require Floats.SpecFloat.
From Flocq Require Import Core Relative BinarySingleNaN.
From Verif Require Import Py CVModel CombModel CombSpec CombProofs.
Set Implicit Arguments.
Unset Strict Implicit.
Open Scope R_scope.

Local Notation prec := 53%Z.
Local Notation emax := 1024%Z.
Lemma prec_pos : Prec_gt_0 prec.  Proof. reflexivity. Qed.
Lemma prec_emax : Prec_lt_emax prec emax.  Proof. reflexivity. Qed.
Local Existing Instance prec_pos.
Local Existing Instance prec_emax.
Local Notation fexp := (FLT_exp (3 - emax - prec) prec).
Local Notation rnd := (round radix2 fexp ZnearestE).
Local Notation b64 := (binary_float prec emax).

Lemma round_aux_equiv sx mx ex lx :
  SpecFloat.binary_round_aux prec emax sx mx ex lx = binary_round_aux prec emax mode_NE sx mx ex lx.
Proof.
  unfold SpecFloat.binary_round_aux, binary_round_aux.
  set (mrse' := SpecFloat.shr_fexp _ _ _ _ _). destruct mrse' as [mrs' e']. cbn [fst snd].
  replace (SpecFloat.round_nearest_even (SpecFloat.shr_m mrs') (SpecFloat.loc_of_shr_record mrs'))
    with (choice_mode mode_NE sx (SpecFloat.shr_m mrs') (SpecFloat.loc_of_shr_record mrs')); auto.
  destruct (SpecFloat.loc_of_shr_record mrs') as [|[]]; auto. cbn. unfold Round.cond_incr. now destruct (Z.even _).
Qed.

Lemma SFmul_equiv (x y : b64) : SpecFloat.SFmul prec emax (B2SF x) (B2SF y) = B2SF (Bmult mode_NE x y).
Proof.
  destruct x as [sx|sx| |sx mx ex Bx], y as [sy|sy| |sy my ey By]; try reflexivity.
  cbn [B2SF SpecFloat.SFmul Bmult]. rewrite B2SF_SF2B. apply round_aux_equiv.
Qed.
Lemma SFdiv_equiv (x y : b64) : SpecFloat.SFdiv prec emax (B2SF x) (B2SF y) = B2SF (Bdiv mode_NE x y).
Proof.
  destruct x as [sx|sx| |sx mx ex Bx], y as [sy|sy| |sy my ey By]; try reflexivity.
  cbn [B2SF SpecFloat.SFdiv Bdiv]. rewrite B2SF_SF2B.
  set (melz := SpecFloat.SFdiv_core_binary _ _ _ _ _ _). destruct melz as [[mz ez] lz]. apply round_aux_equiv.
Qed.
Lemma normalize_equiv m e s : SpecFloat.binary_normalize prec emax m e s = B2SF (binary_normalize prec emax _ _ mode_NE m e s).
Proof.
  destruct m as [|p|p]; auto; cbn [SpecFloat.binary_normalize binary_normalize]; rewrite B2SF_SF2B;
    unfold SpecFloat.binary_round, binary_round, shl_align_fexp;
    set (mez := SpecFloat.shl_align _ _ _); destruct mez as [mz ez]; apply round_aux_equiv.
Qed.

Lemma int_format z : (Z.abs z <= 2 ^ 53)%Z -> generic_format radix2 fexp (IZR z).
Proof.
  intro H. destruct (Z.eq_dec (Z.abs z) (2 ^ 53)) as [E|E].
  - assert (G : generic_format radix2 fexp (IZR (2 ^ 53))).
    { change (IZR (2 ^ 53)) with (IZR (Zpower radix2 53)). rewrite IZR_Zpower by lia. apply generic_format_FLT_bpow; [reflexivity|lia]. }
    assert (z = 2 ^ 53 \/ z = - 2 ^ 53)%Z as [->| ->] by lia; auto.
    rewrite opp_IZR. now apply generic_format_opp.
  - apply generic_format_FLT. apply FLT_spec with (Float radix2 z 0).
    + unfold F2R. cbn. now rewrite Rmult_1_r.
    + cbn [Fnum]. change (Zpower radix2 53) with (2 ^ 53)%Z. lia.
    + cbn [Fexp]. lia.
Qed.
Lemma rnd_int z : (Z.abs z <= 2 ^ 53)%Z -> rnd (IZR z) = IZR z.
Proof. intro H. apply round_generic; [apply valid_rnd_N|]. now apply int_format. Qed.
Lemma rnd_mono x y : x <= y -> rnd x <= rnd y.
Proof. apply round_le; [apply FLT_exp_valid; reflexivity|apply valid_rnd_N]. Qed.

Lemma no_overflow x : Rabs x <= bpow radix2 200 -> Rlt_bool (Rabs (rnd x)) (bpow radix2 emax) = true.
Proof.
  intro H. apply Rlt_bool_true. apply Rle_lt_trans with (bpow radix2 200); [|apply bpow_lt; lia].
  apply abs_round_le_generic; auto; [apply FLT_exp_valid; reflexivity|apply valid_rnd_N|].
  apply generic_format_FLT_bpow; [reflexivity|lia].
Qed.

Lemma IZR_le_bpow z e : (0 <= e)%Z -> (0 <= z <= 2 ^ e)%Z -> Rabs (IZR z) <= bpow radix2 e.
Proof.
  intros He [H0 H]. rewrite Rabs_pos_eq by now apply IZR_le. rewrite <- IZR_Zpower by auto. now apply IZR_le.
Qed.

Lemma float_of_nat_spec n : (Z.of_nat n <= 2 ^ 53)%Z ->
  exists x : b64, float_of_nat n = B2SF x /\ B2R x = INR n /\ is_finite x = true.
Proof.
  intro H. exists (binary_normalize prec emax _ _ mode_NE (Z.of_nat n) 0 false). split; [apply normalize_equiv|].
  pose proof (binary_normalize_correct prec emax _ _ mode_NE (Z.of_nat n) 0 false) as C. cbv zeta in C.
  assert (E : F2R (Float radix2 (Z.of_nat n) 0) = IZR (Z.of_nat n)) by (unfold F2R; cbn; now rewrite Rmult_1_r).
  rewrite E in C. change (round_mode mode_NE) with ZnearestE in C.
  change (SpecFloat.fexp prec emax) with fexp in C. rewrite rnd_int in C by lia.
  rewrite Rlt_bool_true in C.
  - rewrite INR_IZR_INZ. tauto.
  - apply Rle_lt_trans with (bpow radix2 53); [apply IZR_le_bpow; lia|apply bpow_lt; lia].
Qed.

Lemma float_trunc_spec (x : b64) : is_finite x = true -> 0 <= B2R x -> float_trunc (B2SF x) = Zfloor (B2R x).
Proof.
  destruct x as [s|s| |s m e B]; intros F P; try discriminate.
  - cbn. symmetry. apply Zfloor_IZR.
  - assert (S : s = false).
    { destruct s; auto. exfalso. cbn [B2R] in P. assert (F2R (Float radix2 (cond_Zopp true (Z.pos m)) e) < 0); [|lra].
      apply F2R_lt_0. reflexivity. }
    subst s. cbn [B2SF float_trunc B2R cond_Zopp]. unfold F2R. cbn [Fnum Fexp].
    destruct (Z.leb_spec 0 e) as [L|L].
    + change 2%Z with (radix_val radix2). rewrite <- IZR_Zpower by auto. rewrite <- mult_IZR. now rewrite Zfloor_IZR.
    + assert (EB : bpow radix2 e = / IZR (2 ^ (- e))).
      { rewrite <- (Z.opp_involutive e) at 1. rewrite bpow_opp. f_equal. symmetry. change 2%Z with (radix_val radix2). apply IZR_Zpower. lia. }
      rewrite EB. assert (PP : (0 < 2 ^ (- e))%Z) by (apply Z.pow_pos_nonneg; lia).
      symmetry. apply Zfloor_imp.
      assert (PR : 0 < IZR (2 ^ (- e))) by now apply IZR_lt.
      pose proof (Z.mul_div_le (Z.pos m) (2 ^ (- e)) PP) as A. pose proof (Z.mul_succ_div_gt (Z.pos m) (2 ^ (- e)) PP) as B'.
      apply IZR_le in A. apply IZR_lt in B'. rewrite mult_IZR in A, B'. split.
      * apply Rmult_le_reg_r with (IZR (2 ^ (- e))); auto. rewrite Rmult_assoc, Rinv_l by lra. lra.
      * apply Rmult_lt_reg_r with (IZR (2 ^ (- e))); auto. rewrite Rmult_assoc, Rinv_l by lra. unfold Z.succ in B'. lra.
Qed.

(** The float64 boundary is the floor of the twice rounded quotient. *)
Lemma float_bnd_spec n N g : (1 <= N)%nat -> (Z.of_nat n <= 2 ^ 52)%Z -> (Z.of_nat N <= 2 ^ 52)%Z -> (g <= N)%nat ->
  float_bnd n N g = Z.to_nat (Zfloor (rnd (INR g * rnd (INR n / INR N)))).
Proof.
  intros H1 Hn HN Hg. unfold float_bnd.
  destruct (@float_of_nat_spec n ltac:(lia)) as [xn [-> [Vn Fn]]].
  destruct (@float_of_nat_spec N ltac:(lia)) as [xN [-> [VN FN]]].
  destruct (@float_of_nat_spec g ltac:(lia)) as [xg [-> [Vg Fg]]].
  rewrite SFdiv_equiv, SFmul_equiv.
  assert (PN : 1 <= INR N) by (change 1 with (INR 1); now apply le_INR).
  assert (Pn : 0 <= INR n) by apply pos_INR. assert (Pg : 0 <= INR g) by apply pos_INR.
  assert (Q0 : 0 <= INR n / INR N) by (apply Rmult_le_pos; auto; apply Rlt_le, Rinv_0_lt_compat; lra).
  assert (Q1 : INR n / INR N <= INR n).
  { apply Rmult_le_reg_r with (INR N); [lra|]. unfold Rdiv. rewrite Rmult_assoc, Rinv_l, Rmult_1_r by lra.
    rewrite <- (Rmult_1_r (INR n)) at 1. apply Rmult_le_compat_l; auto. }
  assert (Bn : INR n <= IZR (2 ^ 52)) by (rewrite INR_IZR_INZ; now apply IZR_le).
  assert (Bg : INR g <= IZR (2 ^ 52)) by (rewrite INR_IZR_INZ; apply IZR_le; lia).
  assert (B52 : IZR (2 ^ 52) = bpow radix2 52) by (symmetry; apply (IZR_Zpower radix2 52); lia).
  pose proof (Bdiv_correct prec emax _ _ mode_NE xn xN) as D. change (round_mode mode_NE) with ZnearestE in D.
  change (SpecFloat.fexp prec emax) with fexp in D.
  rewrite Vn, VN in D. specialize (D ltac:(lra)). rewrite no_overflow in D.
  2: { rewrite Rabs_pos_eq by auto. apply Rle_trans with (bpow radix2 52); [lra|apply bpow_le; lia]. }
  destruct D as [D1 [D2 _]]. rewrite Fn in D2.
  assert (R0 : 0 <= rnd (INR n / INR N)).
  { rewrite <- (round_0 radix2 fexp ZnearestE). now apply rnd_mono. }
  assert (R1 : rnd (INR n / INR N) <= IZR (2 ^ 52)).
  { rewrite <- (@rnd_int (2 ^ 52)) by lia. apply rnd_mono. lra. }
  pose proof (Bmult_correct prec emax _ _ mode_NE xg (Bdiv mode_NE xn xN)) as M. change (round_mode mode_NE) with ZnearestE in M.
  change (SpecFloat.fexp prec emax) with fexp in M. rewrite Vg, D1, Fg, D2 in M. rewrite no_overflow in M.
  2: { rewrite Rabs_pos_eq by now apply Rmult_le_pos. apply Rle_trans with (bpow radix2 52 * bpow radix2 52).
       - rewrite <- B52. apply Rmult_le_compat; auto.
       - rewrite <- bpow_plus. apply bpow_le. lia. }
  destruct M as [M1 [M2 _]]. rewrite float_trunc_spec; auto.
  - now rewrite M1.
  - rewrite M1. rewrite <- (round_0 radix2 fexp ZnearestE). apply rnd_mono. now apply Rmult_le_pos.
Qed.

Lemma float_bnd_0 n N : (1 <= N)%nat -> (Z.of_nat n <= 2 ^ 52)%Z -> (Z.of_nat N <= 2 ^ 52)%Z -> float_bnd n N 0 = 0%nat.
Proof.
  intros H1 Hn HN. rewrite float_bnd_spec by (auto; lia). cbn [INR]. rewrite Rmult_0_l, round_0, Zfloor_IZR by apply valid_rnd_N. reflexivity.
Qed.

Lemma rnd_quot_nonneg n N : (1 <= N)%nat -> 0 <= rnd (INR n / INR N).
Proof.
  intro H. rewrite <- (round_0 radix2 fexp ZnearestE). apply rnd_mono.
  apply Rmult_le_pos; [apply pos_INR|]. apply Rlt_le, Rinv_0_lt_compat. apply lt_0_INR. lia.
Qed.

Lemma float_bnd_mono n N g : (1 <= N)%nat -> (Z.of_nat n <= 2 ^ 52)%Z -> (Z.of_nat N <= 2 ^ 52)%Z -> (g < N)%nat ->
  (float_bnd n N g <= float_bnd n N (S g))%nat.
Proof.
  intros H1 Hn HN Hg. rewrite !float_bnd_spec by (auto; lia). apply Z2Nat.inj_le.
  - apply Zfloor_lub. rewrite <- (round_0 radix2 fexp ZnearestE). apply rnd_mono. apply Rmult_le_pos; [apply pos_INR|now apply rnd_quot_nonneg].
  - apply Zfloor_lub. rewrite <- (round_0 radix2 fexp ZnearestE). apply rnd_mono. apply Rmult_le_pos; [apply pos_INR|now apply rnd_quot_nonneg].
  - apply Zfloor_le, rnd_mono. apply Rmult_le_compat_r; [now apply rnd_quot_nonneg|]. apply le_INR. lia.
Qed.

Lemma float_bnd_divisible m N g : (1 <= N)%nat -> (Z.of_nat (N * m) <= 2 ^ 52)%Z -> (Z.of_nat N <= 2 ^ 52)%Z -> (g <= N)%nat ->
  float_bnd (N * m) N g = (g * m)%nat.
Proof.
  intros H1 Hn HN Hg. rewrite float_bnd_spec by auto.
  assert (PN : 0 < INR N) by (apply lt_0_INR; lia).
  replace (INR (N * m) / INR N) with (IZR (Z.of_nat m)) by (rewrite mult_INR, <- INR_IZR_INZ; field; lra).
  rewrite rnd_int by nia. rewrite <- INR_IZR_INZ, <- mult_INR, INR_IZR_INZ. rewrite rnd_int by nia.
  rewrite Zfloor_IZR. apply Nat2Z.id.
Qed.

Lemma half_format z : (0 <= z < 2 ^ 52)%Z -> generic_format radix2 fexp (IZR z + / 2).
Proof.
  intro H. apply generic_format_FLT. apply FLT_spec with (Float radix2 (2 * z + 1) (-1)).
  - unfold F2R. cbn [Fnum Fexp]. rewrite plus_IZR, mult_IZR. change (bpow radix2 (-1)) with (/ 2). lra.
  - cbn [Fnum]. change (Zpower radix2 53) with (2 * 2 ^ 52)%Z. lia.
  - cbn [Fexp]. lia.
Qed.

Lemma float_bnd_last n N : (1 <= n)%nat -> (1 <= N)%nat -> (Z.of_nat n < 2 ^ 52)%Z -> (Z.of_nat N <= 2 ^ 52)%Z ->
  (n - 1 <= float_bnd n N N <= n)%nat.
Proof.
  intros Hn0 H1 Hn HN. rewrite float_bnd_spec by (auto; lia).
  assert (PN : 1 <= INR N) by (change 1 with (INR 1); now apply le_INR).
  assert (Pn : 1 <= INR n) by (change 1 with (INR 1); now apply le_INR).
  assert (BN : INR N <= IZR (2 ^ 52)) by (rewrite INR_IZR_INZ; now apply IZR_le).
  assert (Bn : INR n <= IZR (2 ^ 52)) by (rewrite INR_IZR_INZ; apply IZR_le; lia).
  assert (QL : bpow radix2 (-52) <= INR n / INR N).
  { change (-52)%Z with (Z.opp 52); rewrite bpow_opp, <- (IZR_Zpower radix2 52) by lia. change (Zpower radix2 52) with (2 ^ 52)%Z.
    apply Rle_trans with (/ INR N); [apply Rinv_le_contravar; lra|].
    rewrite <- (Rmult_1_l (/ INR N)). apply Rmult_le_compat_r; auto. apply Rlt_le, Rinv_0_lt_compat. lra. }
  destruct (relative_error_N_FLT_ex radix2 (3 - emax - prec) prec prec_pos (fun x => negb (Z.even x)) (INR n / INR N)) as [eps [He Hr]].
  { rewrite Rabs_pos_eq by (apply Rle_trans with (2 := QL); apply bpow_ge_0).
    apply Rle_trans with (2 := QL). apply bpow_le. lia. }
  set (y := INR N * rnd (INR n / INR N)).
  assert (Y : y = INR n * (1 + eps)) by (unfold y; rewrite Hr; field; lra).
  assert (HE : Rabs eps <= / IZR (2 ^ 53)).
  { eapply Rle_trans; [exact He|]. change (-prec + 1)%Z with (Z.opp 52). rewrite bpow_opp, <- (IZR_Zpower radix2 52) by lia.
    change (Zpower radix2 52) with (2 ^ 52)%Z. replace (2 ^ 53)%Z with (2 * 2 ^ 52)%Z by reflexivity. rewrite mult_IZR.
    assert (0 < IZR (2 ^ 52)) by now apply IZR_lt. right. field. lra. }
  apply Rabs_le_inv in HE.
  assert (ME : - / 2 <= INR n * eps <= / 2).
  { assert (B : IZR (2 ^ 53) = 2 * IZR (2 ^ 52)) by (rewrite <- mult_IZR; reflexivity).
    assert (P52 : 0 < IZR (2 ^ 52)) by now apply IZR_lt.
    assert (K : INR n * / IZR (2 ^ 53) <= / 2).
    { rewrite B. apply Rmult_le_reg_r with (2 * IZR (2 ^ 52)); [lra|]. rewrite Rmult_assoc, Rinv_l by lra. lra. }
    split.
    - apply Rle_trans with (INR n * - / IZR (2 ^ 53)); [lra|]. apply Rmult_le_compat_l; lra.
    - apply Rle_trans with (INR n * / IZR (2 ^ 53)); [|lra]. apply Rmult_le_compat_l; lra. }
  assert (UP : rnd y <= INR n + / 2).
  { rewrite INR_IZR_INZ. rewrite <- (@round_generic radix2 fexp ZnearestE _ (IZR (Z.of_nat n) + / 2)) by (apply half_format; lia).
    apply rnd_mono. rewrite <- INR_IZR_INZ. lra. }
  assert (LO : INR n - 1 <= rnd y).
  { replace (INR n - 1) with (IZR (Z.of_nat n - 1)) by (rewrite minus_IZR, <- INR_IZR_INZ; reflexivity).
    rewrite <- (@rnd_int (Z.of_nat n - 1)) by lia. apply rnd_mono. rewrite minus_IZR, <- INR_IZR_INZ. lra. }
  assert (F1 : (Z.of_nat n - 1 <= Zfloor (rnd y))%Z).
  { apply Zfloor_lub. rewrite minus_IZR, <- INR_IZR_INZ. lra. }
  assert (F2 : (Zfloor (rnd y) <= Z.of_nat n)%Z).
  { rewrite <- (Zfloor_IZR (Z.of_nat n)). assert (Zfloor (rnd y) < Z.of_nat n + 1)%Z; [|rewrite Zfloor_IZR; lia].
    apply lt_IZR. rewrite plus_IZR, <- INR_IZR_INZ. pose proof (Zfloor_lb (rnd y)). lra. }
  fold y. lia.
Qed.
