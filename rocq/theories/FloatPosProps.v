(** C165: position sizes in binary64. *)
From Coq Require Import ZArith Reals Lra Lia List Permutation Bool.
From Flocq Require Import Core Relative BinarySingleNaN.
From Verif Require Import Py RNum BarrierModel BarrierProofs WeightProofs Float64 FloatBarsModel FloatBarsProofs FloatBarsProps FloatRetModel FloatRetProps FloatPosModel FloatPosProofs.
Import ListNotations.
Set Implicit Arguments.
Unset Strict Implicit.
Open Scope R_scope.

(** ** discretisation *)
(** whatever the size and the step, the result is NaN or between -1 and 1; it is no NaN for a finite size and a finite step other than 0 *)
Lemma clip_cases d : let c := if flt (fz 1) d then fz 1 else d in let r := if flt c (fz (-1)) then fz (-1) else c in
  (is_nan d = true /\ is_nan r = true) \/ (is_nan d = false /\ fin r /\ -1 <= fv r <= 1).
Proof.
  destruct one_spec as [O1 O2]. destruct minus_one_spec as [M1 M2]. cbv zeta.
  assert (G : forall x, is_nan x = false -> flt (fz 1) x = false -> flt x (fz (-1)) = false -> fin x /\ -1 <= fv x <= 1).
  { intros x N A B. assert (F : fin x) by (destruct x as [s|[]| |]; try reflexivity; exfalso; vm_compute in A, B, N; congruence).
    split; auto. split; apply Rnot_lt_le; intro L; [rewrite <- M2 in L|rewrite <- O2 in L]; apply flt_spec in L; auto; congruence. }
  destruct (flt (fz 1) d) eqn:A.
  - right. assert (N : is_nan d = false) by (destruct d; auto; vm_compute in A; discriminate). split; [exact N|].
    destruct (flt (fz 1) (fz (-1))) eqn:C; [apply flt_spec in C; auto; lra|]. rewrite O2. split; auto. lra.
  - destruct (is_nan d) eqn:N; [left; split; auto; destruct d; try discriminate; reflexivity|right; split; auto].
    destruct (flt d (fz (-1))) eqn:B; [rewrite M2; split; auto; lra|]. now apply G.
Qed.
Theorem c165_any_step_bounded step x : let r := fdiscretize step x in (is_nan r = true \/ (fin r /\ -1 <= fv r <= 1)) /\ (fin x -> fin step -> fv step <> 0 -> is_nan r = false).
Proof.
  cbv zeta. unfold fdiscretize. destruct (clip_cases (fmul (fround (fdiv x step)) step)) as [[N R]|(N & F & B)]; cbv zeta in *.
  - split; [now left|]. intros Fx Fs Hs. exfalso. revert N. clear R.
    assert (Q : is_nan (fdiv x step) = false).
    { pose proof (Bdiv_correct 53 1024 _ _ mode_NE x step Hs) as C. destruct (Rlt_bool _ _) in C.
      - destruct C as (_ & C & _). unfold fdiv. destruct (Bdiv mode_NE x step); auto. cbn in C. rewrite Fx in C. discriminate.
      - unfold fdiv. destruct (Bdiv mode_NE x step); auto. cbn in C. unfold binary_overflow in C. cbn in C. discriminate. }
    set (q := fdiv x step) in *. assert (Q2 : is_nan (fround q) = false).
    { unfold fround. destruct q as [s|s| |s m e b]; auto. destruct (Bnearbyint_correct 53 1024 _ mode_NE (B754_finite s m e b)) as (_ & F & _).
      destruct (Bnearbyint mode_NE (B754_finite s m e b)); auto; discriminate. }
    set (n := fround q) in *. destruct step as [s|s| |s m e b]; try discriminate; [exfalso; apply Hs; reflexivity|]. unfold fmul. destruct n as [t|t| |t m' e' b']; try discriminate.
    pose proof (Bmult_correct 53 1024 _ _ mode_NE (B754_finite t m' e' b') (B754_finite s m e b)) as C. destruct (Rlt_bool _ _) in C.
    + destruct C as (_ & C & _). destruct (Bmult _ _ _); cbn in C |- *; discriminate.
    + destruct (Bmult _ _ _); cbn in C |- *; try discriminate; unfold binary_overflow in C; cbn in C; discriminate.
  - split; [now right|]. intros. destruct (if flt _ _ then _ else _); auto; discriminate.
Qed.
Print Assumptions c165_any_step_bounded.
(** for sizes between -1 and 1 and a step up to 1: the result is a whole number of steps, rounded once, or -1 or 1, and at most half a step and
    three roundings from the size *)
Theorem c165_discretize step x : fin step -> bpow radix2 (-1000) <= fv step <= 1 -> fin x -> -1 <= fv x <= 1 ->
  let r := fdiscretize step x in fin r /\ -1 <= fv r <= 1 /\ Rabs (fv r - fv x) <= fv step / 2 + 3 * bpow radix2 (-53) /\
    (fv r = 1 \/ fv r = -1 \/ exists k, fv r = rnd64 (IZR k * fv step)).
Proof.
  intros Fs [S1 S2] Fx X r. assert (Xa : Rabs (fv x) <= 1) by (apply Rabs_le; lra). assert (B1 : 1 <= bpow radix2 1000) by (change 1 with (bpow radix2 0); apply bpow_le; lia).
  destruct (@fdiscretize_value step x Fs) as [F V]; auto; [lra|]. fold r in F, V. split; auto. split; [rewrite V; apply clip_bounds|].
  pose proof (pieces_near Fs S1 Xa) as N. set (n := pieces step x) in *. split.
  - rewrite V. apply Rle_trans with (1 := clip_near _ X). destruct (rnd_error_any (IZR n * fv step)) as (e & h & He & Hh & E). rewrite E. fold u64.
    replace (IZR n * fv step * (1 + e) + h - fv x) with ((IZR n * fv step - fv x) + (IZR n * fv step * e + h)) by ring. apply Rle_trans with (1 := Rabs_triang _ _).
    pose proof tiny_le as T. pose proof u64_small as U. pose proof u64_pos as P. pose proof (bpow_gt_0 radix2 (-1075)) as T0. pose proof (bpow_gt_0 radix2 (-1000)) as S0.
    assert (K1 : fv step * (/ 2 + tiny) <= fv step / 2 + / 1024 * u64) by nra. assert (K0 : fv step * (/ 2 + tiny) + u64 <= / 2 + 2 * u64) by lra.
    assert (K2 : Rabs (IZR n * fv step) <= 3 / 2 + 2 * u64).
    { replace (IZR n * fv step) with ((IZR n * fv step - fv x) + fv x) by ring. apply Rle_trans with (1 := Rabs_triang _ _). lra. }
    assert (K3 : Rabs (IZR n * fv step * e) <= (3 / 2 + 2 * u64) * u64) by (rewrite Rabs_mult; apply Rmult_le_compat; auto using Rabs_pos).
    pose proof (Rabs_triang (IZR n * fv step * e) h) as T3. fold n in N. unfold ulp64 in *. nra.
  - set (y := rnd64 (IZR n * fv step)) in *. unfold clip, Rmax, Rmin in V. destruct (Rle_dec 1 y); destruct (Rle_dec (-1) _) in V; auto. right; right. exists n. exact V.
Qed.
Print Assumptions c165_discretize.
Theorem c165_discretize_monotone step x y : fin step -> bpow radix2 (-1000) <= fv step <= bpow radix2 1000 -> fin x -> fin y -> -1 <= fv x -> fv x <= fv y -> fv y <= 1 ->
  fv (fdiscretize step x) <= fv (fdiscretize step y).
Proof.
  intros Fs S Fx Fy A B C. rewrite (proj2 (@fdiscretize_value step x Fs S Fx ltac:(apply Rabs_le; lra))), (proj2 (@fdiscretize_value step y Fs S Fy ltac:(apply Rabs_le; lra))).
  pose proof (bpow_gt_0 radix2 (-1000)). apply clip_mono, rnd64_mono. apply Rmult_le_compat_r; [lra|]. apply IZR_le, nearest_mono, rnd64_mono.
  apply Rmult_le_compat_r; auto. left. apply Rinv_0_lt_compat. lra.
Qed.
Print Assumptions c165_discretize_monotone.
(** long and short alike, and no position stays no position *)
Theorem c165_discretize_odd step x : fin step -> bpow radix2 (-1000) <= fv step <= bpow radix2 1000 -> fin x -> -1 <= fv x <= 1 ->
  fv (fdiscretize step (fopp x)) = - fv (fdiscretize step x) /\ (fv x = 0 -> fv (fdiscretize step x) = 0).
Proof.
  intros Fs S Fx X. destruct (fopp_spec Fx) as [Fo Vo]. pose proof (bpow_gt_0 radix2 (-1000)) as B.
  rewrite (proj2 (@fdiscretize_value step (fopp x) Fs S Fo ltac:(rewrite Vo; apply Rabs_le; lra))), (proj2 (@fdiscretize_value step x Fs S Fx ltac:(apply Rabs_le; lra))). rewrite Vo. split.
  - replace (- fv x / fv step) with (- (fv x / fv step)) by (field; lra). rewrite rnd64_opp, nearest_opp, opp_IZR.
    replace (- IZR (pieces step x) * fv step) with (- (IZR (pieces step x) * fv step)) by ring. rewrite rnd64_opp. apply clip_opp.
  - intros ->. replace (0 / fv step) with 0 by (field; lra). rewrite rnd64_0. rewrite (nearest_int 0), Rmult_0_l, rnd64_0. apply clip_id. lra.
Qed.
Print Assumptions c165_discretize_odd.
(** discretising twice changes nothing *)
Theorem c165_discretize_idempotent step x : fin step -> bpow radix2 (-48) <= fv step <= bpow radix2 1000 -> fin x -> -1 <= fv x <= 1 ->
  fv (fdiscretize step (fdiscretize step x)) = fv (fdiscretize step x).
Proof.
  intros Fs [S1 S2] Fx X. assert (SB : bpow radix2 (-1000) <= fv step) by (apply Rle_trans with (2 := S1); apply bpow_le; lia). assert (Xa : Rabs (fv x) <= 1) by (apply Rabs_le; lra).
  pose proof (bpow_gt_0 radix2 (-48)) as B. destruct (@fdiscretize_value step x Fs (conj SB S2) Fx Xa) as [F V]. set (d := fdiscretize step x) in *.
  pose proof (clip_bounds (rnd64 (IZR (pieces step x) * fv step))) as C. rewrite <- V in C. assert (Da : Rabs (fv d) <= 1) by (apply Rabs_le; lra).
  destruct (@fdiscretize_value step d Fs (conj SB S2) F Da) as [F2 V2].
  destruct one_spec as [O1 O2]. destruct minus_one_spec as [M1 M2].
  destruct (Req_EM_T (fv d) 1) as [E1|E1].
  { apply Rle_antisym; [rewrite V2, E1; apply clip_bounds|]. apply c165_discretize_monotone; auto; lra. }
  destruct (Req_EM_T (fv d) (-1)) as [E2|E2].
  { apply Rle_antisym; [apply c165_discretize_monotone; auto; lra|rewrite V2, E2; apply clip_bounds]. }
  set (n := pieces step x) in *. set (y := rnd64 (IZR n * fv step)) in *.
  assert (Ed : fv d = y). { revert V E1 E2. unfold clip, Rmax, Rmin. destruct (Rle_dec 1 y); destruct (Rle_dec (-1) _); congruence. }
  rewrite V2. rewrite Ed in *. cut (ZnearestE (rnd64 (y / fv step)) = n); [intros ->; symmetry; exact V|].
  destruct (Z.eq_dec n 0) as [Z0|Z0].
  { unfold y. rewrite Z0, Rmult_0_l, rnd64_0. replace (0 / fv step) with 0 by (field; lra). rewrite rnd64_0. apply (nearest_int 0). }
  (* the count of steps is recovered: two roundings move it by less than a half *)
  assert (N1 : 1 <= Rabs (IZR n)) by (rewrite <- abs_IZR; apply IZR_le; lia).
  assert (SM : bpow radix2 (-1022) <= fv step) by (apply Rle_trans with (2 := S1); apply bpow_le; lia).
  assert (PM : fv step <= Rabs (IZR n * fv step)) by (rewrite Rabs_mult, (Rabs_pos_eq (fv step)) by lra; nra).
  destruct (@rnd_error (IZR n * fv step)) as (e & He & E); [lra|]. fold y in E.
  pose proof u64_pos as U0. pose proof u64_small as U.
  assert (QE : y / fv step = IZR n * (1 + e)) by (rewrite E; field; lra).
  assert (e1 : / 2 <= Rabs (1 + e) <= 2) by (apply Rabs_le_inv in He; rewrite Rabs_pos_eq; lra).
  destruct (@rnd_error (y / fv step)) as (e' & He' & E').
  { rewrite QE, Rabs_mult. apply Rle_trans with (bpow radix2 (-1)); [apply bpow_le; lia|]. change (bpow radix2 (-1)) with (/ 2). nra. }
  assert (NB : Rabs (IZR n) <= bpow radix2 49).
  { assert (Y : Rabs y <= 1) by exact Da. rewrite E in Y. rewrite !Rabs_mult, (Rabs_pos_eq (fv step)) in Y by lra.
    assert (Rabs (IZR n) * fv step * / 2 <= 1) by (apply Rle_trans with (2 := Y); apply Rmult_le_compat_l; [apply Rmult_le_pos; [apply Rabs_pos|lra]|lra]).
    apply Rmult_le_reg_r with (bpow radix2 (-48)); auto. rewrite <- bpow_plus. change (bpow radix2 (49 + -48)) with 2. pose proof (Rabs_pos (IZR n)). nra. }
  apply (Znearest_imp (fun x => negb (Z.even x))). rewrite E', QE.
  replace (IZR n * (1 + e) * (1 + e') - IZR n) with (IZR n * (e + e' + e * e')) by ring. rewrite Rabs_mult.
  assert (Rabs (e + e' + e * e') <= 3 * u64).
  { apply Rle_trans with (1 := Rabs_triang _ _). apply Rle_trans with (Rabs e + Rabs e' + Rabs (e * e')); [apply Rplus_le_compat_r, Rabs_triang|]. rewrite Rabs_mult. pose proof (Rabs_pos e). pose proof (Rabs_pos e'). nra. }
  apply Rle_lt_trans with (bpow radix2 49 * (3 * u64)); [apply Rmult_le_compat; auto using Rabs_pos|]. unfold ulp64.
  replace (bpow radix2 49 * (3 * bpow radix2 (-53))) with (3 * (bpow radix2 49 * bpow radix2 (-53))) by ring. rewrite <- bpow_plus. cbn. lra.
Qed.
Print Assumptions c165_discretize_idempotent.
(** REFUTED: a size halfway between two multiples in decimal need not be rounded as the exact quotient says.  0.75 in steps of 0.1 becomes 0.8,
    although 0.75 (exact) is less than seven and a half times the step that 0.1 stands for *)
Theorem c165_tie_refuted : exists step x, fin step /\ fin x /\ 0 < fv step < 1 /\ 0 < fv x < 1 /\
  fv x / fv step < 15 / 2 /\ fv (fdiscretize step x) = rnd64 (8 * fv step).
Proof.
  exists tenth, (ff 3 (-2)). assert (Ft : fin tenth) by (vm_compute; reflexivity). assert (Fx : fin (ff 3 (-2))) by (vm_compute; reflexivity).
  assert (Vt : fv tenth = 3602879701896397 * / 36028797018963968).
  { unfold tenth. rewrite (proj2 (@ff_spec 3602879701896397 (-55) ltac:(apply Rle_trans with (bpow radix2 0); [cbn; apply Rabs_le; lra|apply bpow_le; lia]))).
    rewrite rnd64_id by (apply format64_float; lia). cbn. lra. }
  assert (Vx : fv (ff 3 (-2)) = 3 / 4).
  { rewrite (proj2 (@ff_spec 3 (-2) ltac:(apply Rle_trans with (bpow radix2 0); [cbn; apply Rabs_le; lra|apply bpow_le; lia]))).
    rewrite rnd64_id by (apply format64_float; lia). cbn. lra. }
  split; auto. split; auto. rewrite Vt, Vx. split; [lra|]. split; [lra|]. split.
  - apply Rmult_lt_reg_r with (3602879701896397 * / 36028797018963968); [lra|]. unfold Rdiv. rewrite Rmult_assoc, Rinv_l by lra. lra.
  - assert (E : feq (fdiscretize tenth (ff 3 (-2))) (fmul (fz 8) tenth) = true) by (vm_compute; reflexivity).
    destruct (@fz_spec 8) as [F8 V8]; [lia|]. destruct (@fmul_spec (fz 8) tenth F8 Ft) as [Fm Vm].
    { rewrite V8, Vt. apply Rle_trans with (bpow radix2 0); [cbn; apply Rabs_le; lra|apply bpow_le; lia]. }
    apply feq_spec in E; auto. rewrite E, Vm, V8, Vt. reflexivity.
Qed.
Print Assumptions c165_tie_refuted.
(** REFUTED: a size that is a multiple of the step in decimal is moved: 0.3 in steps of 0.1 becomes 0.30000000000000004; and three bets of 0.1 average to more than 0.1 *)
Definition three_tenths : f64 := ff 5404319552844595 (-54).
Theorem c165_multiple_refuted : fin three_tenths /\ feq (fdiv (fz 3) (fz 10)) three_tenths = true /\ flt three_tenths (fdiscretize tenth three_tenths) = true /\
  feq (fdiscretize tenth three_tenths) (fadd three_tenths (ff 1 (-54))) = true.
Proof. repeat split; vm_compute; reflexivity. Qed.
Print Assumptions c165_multiple_refuted.
Theorem c165_average_refuted : flt tenth (fmean_present fsum_left [tenth; tenth; tenth]) = true /\ feq (fdiscretize tenth (fmean_present fsum_left [tenth; tenth; tenth])) tenth = true.
Proof. split; vm_compute; reflexivity. Qed.
Print Assumptions c165_average_refuted.

(** ** averages *)
Definition nan_or_unit (x : f64) : Prop := is_nan x = true \/ (fin x /\ -1 <= fv x <= 1).
Notation present l := (filter (fun x => negb (is_nan x)) l).
Lemma no_nan_spec l : (forall x, In x l -> nan_or_unit x) -> unit_values (map no_nan l) /\ (nonzeros (map no_nan l) <= present_count l)%nat /\ total (map no_nan l) = rsum (map fv (present l)).
Proof.
  destruct fz0 as [F0 V0]. intro H. unfold present_count, total. induction l as [|x l IH]; [split; [intros y []|split; cbn; auto]|].
  destruct IH as (I1 & I2 & I3); [intros; apply H; now right|]. pose proof (H x (or_introl eq_refl)) as Hx. split; [|split].
  - intros y [<-|Hy]; [|now apply I1]. unfold no_nan. destruct (is_nan x) eqn:N; [split; auto; rewrite V0, Rabs_R0; lra|]. destruct Hx as [Hx|[A B]]; [congruence|]. split; auto. apply Rabs_le. lra.
  - unfold nonzeros in *. cbn [map filter]. assert (E : is_nan x = true -> fv (no_nan x) = 0) by (unfold no_nan; intros ->; exact V0).
    destruct (Req_EM_T (fv (no_nan x)) 0) as [E'|E']; destruct (is_nan x); cbn [negb length]; try lia. exfalso. apply E', E. reflexivity.
  - cbn [map rsum filter]. rewrite I3. unfold no_nan. destruct (is_nan x); cbn [negb map rsum]; [rewrite V0|]; ring.
Qed.
(** in every order of additions, the mean of sizes between -1 and 1 is between -1 and 1, and m + 2 roundings away from the exact mean for m sizes;
    NaN only when there is no other value *)
Theorem c165_average sum l : is_sum sum -> (Z.of_nat (length l) <= 2 ^ 50)%Z -> (forall x, In x l -> nan_or_unit x) ->
  let m := fmean_present sum l in
  (present l = [] /\ is_nan m = true) \/
  (present l <> [] /\ fin m /\ -1 <= fv m <= 1 /\ Rabs (fv m - rmean (map fv (present l))) <= INR (length l + 2) * bpow radix2 (-53)).
Proof.
  intros HS Hn H m. destruct (no_nan_spec H) as (U & Z & T). unfold m. unfold present_count in Z. set (p := present l) in *.
  assert (Lp : (length p <= length l)%nat) by (unfold p; clear; induction l as [|x l IH]; cbn; auto; destruct (negb (is_nan x)); cbn; lia).
  assert (Ek : present_count l = length p) by reflexivity.
  assert (Em : p <> [] -> fmean_present sum l = fdiv (sum (map no_nan l)) (fz (Z.of_nat (length p)))) by (intro Hp; unfold fmean_present; rewrite Ek; destruct p; [congruence|reflexivity]).
  destruct p as [|y p'] eqn:Ep; [left; split; auto; unfold fmean_present; rewrite Ek; reflexivity|right]. rewrite Em by discriminate. set (k := length (y :: p')) in *.
  assert (Hk : (1 <= k)%nat) by (unfold k; cbn; lia). rewrite <- Ep in *. clearbody k. split; [rewrite Ep; discriminate|].
  destruct (HS (map no_nan l)) as (t & -> & P & D). rewrite map_length in D.
  assert (Ut : unit_values (leaves t)) by (intros x Hx; apply U; eapply Permutation_in; eauto). assert (Lt : length (leaves t) = length l) by (rewrite (Permutation_length P), map_length; reflexivity).
  destruct (@seval_unit t Ut) as (F & B & E); [lia|]. rewrite (nonzeros_perm P) in B, E. replace (total (leaves t)) with (total (map no_nan l)) in E by (symmetry; apply rsum_perm, Permutation_map, P). rewrite T in E.
  destruct (@fz_spec (Z.of_nat k)) as [Fk Vk]; [lia|]. assert (K1 : 1 <= INR k) by (change 1 with (INR 1); apply le_INR; lia). rewrite <- INR_IZR_INZ in Vk.
  assert (NZ : INR (nonzeros (map no_nan l)) <= INR k) by (apply le_INR; exact Z). set (s := fv (seval t)) in *.
  assert (Q : Rabs (s / INR k) <= 1).
  { unfold Rdiv. rewrite Rabs_mult, Rabs_inv, (Rabs_pos_eq (INR k)) by lra. apply Rmult_le_reg_r with (INR k); [lra|]. rewrite Rmult_assoc, Rinv_l, Rmult_1_r by lra. lra. }
  destruct (@fdiv_spec (seval t) (fz (Z.of_nat k)) F) as [Fd Vd]; rewrite ?Vk.
  { lra. } { apply Rle_trans with (1 := Q). change 1 with (bpow radix2 0). apply bpow_le. lia. }
  split; auto. rewrite Vd, Vk. fold s. split; [apply Rabs_le_inv, rnd64_abs_le; auto; apply (format64_bpow (e := 0)); lia|].
  unfold rmean. rewrite map_length. replace (length p) with k by congruence. set (q := s / INR k) in *. destruct (rnd_error_any q) as (e & h & He & Hh & Er). rewrite Er.
  replace (q * (1 + e) + h - rsum (map fv p) / INR k) with (q * e + h + (s - rsum (map fv p)) / INR k) by (unfold q; field; lra).
  apply Rle_trans with (1 := Rabs_triang _ _). pose proof (Rabs_triang (q * e) h) as T1. pose proof u64_pos as U0. pose proof tiny_le as TL.
  assert (A1 : Rabs (q * e) <= 1 * u64) by (rewrite Rabs_mult; apply Rmult_le_compat; auto using Rabs_pos).
  assert (A2 : Rabs ((s - rsum (map fv p)) / INR k) <= INR (length l) * u64).
  { unfold Rdiv. rewrite Rabs_mult, Rabs_inv, (Rabs_pos_eq (INR k)) by lra. apply Rmult_le_reg_r with (INR k); [lra|]. rewrite Rmult_assoc, Rinv_l, Rmult_1_r by lra.
    apply Rle_trans with (1 := E). replace (INR (length l) * u64 * INR k) with (u64 * INR k * INR (length l)) by ring. pose proof (pos_INR (nonzeros (map no_nan l))).
    apply Rmult_le_compat; [apply Rmult_le_pos; lra|apply pos_INR|apply Rmult_le_compat_l; lra|apply le_INR; exact D]. }
  rewrite plus_INR. change (INR 2) with 2. fold u64. lra.
Qed.
Print Assumptions c165_average.

(** ** one bet *)
(** what is used of scipy's cdf: NaN for NaN, else a number between 0 and 1 *)
Definition float_cdf (cdf : f64 -> f64) : Prop := forall z, if is_nan z then is_nan (cdf z) = true else fin (cdf z) /\ 0 <= fv (cdf z) <= 1.
Definition unit_number (x : f64) : Prop := fin x /\ -1 <= fv x <= 1.
Lemma mul_unit x y : unit_number x -> unit_number y -> unit_number (fmul x y) /\ fv (fmul x y) = rnd64 (fv x * fv y).
Proof.
  intros [Fx X] [Fy Y]. assert (P : -1 <= fv x * fv y <= 1) by (split; nra). destruct (@fmul_spec x y Fx Fy) as [F V].
  { apply Rle_trans with 1; [apply Rabs_le; lra|]. change 1 with (bpow radix2 0). apply bpow_le. lia. }
  split; auto. split; auto. rewrite V. apply Rabs_le_inv, rnd64_abs_le; [apply (format64_bpow (e := 0)); lia|apply Rabs_le; lra].
Qed.
Lemma nan_mul x y : is_nan x = true \/ is_nan y = true -> is_nan (fmul x y) = true.
Proof. intros [H|H]; destruct x, y; try discriminate; reflexivity. Qed.
Definition side_of (s : fsignal) : R := match fs_side s with Some d => fv d | None => 1 end.
(** the size of a bet is NaN when the test statistic is, and else between -1 and 1; for predictions and sides -1, 0 or 1 it is their product times 2F(z)-1
    with one rounding *)
Theorem c165_bet cdf classes s : float_cdf cdf -> unit_number (fs_pred s) -> (forall d, fs_side s = Some d -> unit_number d) ->
  let b := fsignal_bet cdf classes s in let z := ftest_stat classes (fs_prob s) in
  fb_start b = fs_start s /\ fb_end b = fs_end s /\
  if is_nan z then is_nan (fb_size b) = true else
    unit_number (fb_size b) /\
    (In (fv (fs_pred s)) [-1; 0; 1] -> In (side_of s) [-1; 0; 1] -> fv (fb_size b) = fv (fs_pred s) * side_of s * rnd64 (2 * fv (cdf z) - 1)).
Proof.
  intros Hc Hp Hs b z. split; [reflexivity|]. split; [reflexivity|]. unfold b, fsignal_bet. cbn [fb_size]. fold z. pose proof (Hc z) as C. destruct (is_nan z).
  - assert (N : is_nan (fmul (fs_pred s) (fsub (fmul (fz 2) (cdf z)) (fz 1))) = true).
    { apply nan_mul. right. destruct (cdf z); try discriminate. reflexivity. }
    destruct (fs_side s); auto using nan_mul.
  - destruct C as [Fc C]. destruct (@fz_spec 2) as [F2 V2]; [lia|]. destruct one_spec as [F1 V1].
    assert (B2 : 2 <= big) by (change 2 with (bpow radix2 1); apply bpow_le; lia).
    destruct (@fmul_spec (fz 2) (cdf z) F2 Fc) as [Fm Vm]; [rewrite V2, Rabs_pos_eq; lra|]. rewrite V2 in Vm.
    assert (D : rnd64 (2 * fv (cdf z)) = 2 * fv (cdf z)).
    { apply rnd64_id. pose proof (fv_format (cdf z)) as G. replace (2 * fv (cdf z)) with (fv (cdf z) * bpow radix2 1) by (cbn; ring). apply FLT_format_generic in G; [|reflexivity].
      destruct G as [[m e] G1 G2 G3]. cbn in G2, G3. rewrite G1. unfold F2R. cbn [Fnum Fexp]. rewrite Rmult_assoc, <- bpow_plus. apply format64_float; [exact G2|lia]. }
    rewrite D in Vm. destruct (@fsub_spec (fmul (fz 2) (cdf z)) (fz 1) Fm F1) as [Fs Vs]; [rewrite Vm, V1; apply Rle_trans with 1; [apply Rabs_le; lra|lra]|]. rewrite Vm, V1 in Vs.
    set (w := fsub (fmul (fz 2) (cdf z)) (fz 1)) in *.
    assert (Uw : unit_number w) by (split; auto; rewrite Vs; apply Rabs_le_inv, rnd64_abs_le; [apply (format64_bpow (e := 0)); lia|apply Rabs_le; lra]).
    destruct (mul_unit Hp Uw) as [U1 W1].
    assert (R3 : forall y, format64 y -> forall a, In a [-1; 0; 1] -> rnd64 (a * y) = a * y).
    { intros y G a [<-|[<-|[<-|[]]]]; [replace (-1 * y) with (- y) by ring; rewrite rnd64_opp, (rnd64_id G); reflexivity|rewrite Rmult_0_l; apply rnd64_0|rewrite Rmult_1_l; now apply rnd64_id]. }
    unfold side_of. destruct (fs_side s) as [d|].
    + destruct (mul_unit U1 (Hs d eq_refl)) as [U3 W3]. split; auto. intros I1 I2. rewrite W3, (Rmult_comm _ (fv d)), (R3 _ (fv_format _) _ I2), W1, (R3 _ (fv_format _) _ I1), Vs. ring.
    + split; auto. intros I1 _. rewrite W1, (R3 _ (fv_format _) _ I1), Vs. ring.
Qed.
Print Assumptions c165_bet.
(** ** the whole function *)
(** every size is between -1 and 1 or NaN, and a NaN comes only from bets that are all NaN; else it is at most half a step and
    m + 5 roundings from the exact mean of the m bets found, or 0 when there is none *)
Theorem c165_sizes sum cdf classes step signals t x : is_sum sum -> float_cdf cdf -> (Z.of_nat (length signals) <= 2 ^ 50)%Z ->
  fin step -> bpow radix2 (-1000) <= fv step <= 1 ->
  (forall s, In s signals -> unit_number (fs_pred s) /\ (forall d, fs_side s = Some d -> unit_number d)) ->
  In (t, x) (fsize_from_probabilities sum cdf classes step signals) ->
  let bets := map (fsignal_bet cdf classes) signals in
  let found := map fb_size (filter (fun b => zmem (fb_start b) (map fb_start (filter (factive_at t) bets))) bets) in
  (found = [] /\ fv x = 0) \/ (found <> [] /\ (forall y, In y found -> is_nan y = true) /\ is_nan x = true) \/
  (unit_number x /\ Rabs (fv x - rmean (map fv (present found))) <= fv step / 2 + INR (length found + 5) * bpow radix2 (-53)).
Proof.
  intros HS Hc Hn Fs Hs Hsig Hin bets found. unfold fsize_from_probabilities in Hin. apply in_map_iff in Hin as ([u a] & E & Hin). cbn [fst snd] in E. fold bets in Hin. unfold favg_active_positions in Hin.
  apply in_map_iff in Hin as (v & E2 & Hin). assert (v = t /\ x = fdiscretize step a) as [-> ->] by (split; congruence). assert (a = snd (u, a)) as Ea by reflexivity. rewrite <- E2 in Ea. cbn [snd] in Ea. cbv zeta in Ea.
  pose proof (bpow_gt_0 radix2 (-1000)) as B0. assert (B1 : 1 <= bpow radix2 1000) by (change 1 with (bpow radix2 0); apply bpow_le; lia).
  unfold found. set (starts := map fb_start (filter (factive_at t) bets)) in *.
  destruct starts as [|s0 ss] eqn:Es.
  - left. split; [clear; induction bets; auto|]. rewrite Ea. destruct fz0 as [F0 V0]. apply (@c165_discretize_odd step (fz 0)); auto; rewrite ?V0; lra.
  - rewrite <- Es in *. set (fd := map fb_size (filter (fun b => zmem (fb_start b) starts) bets)) in *. right.
    assert (Ea' : a = fmean_present sum fd) by exact Ea.
    assert (Lf : (length fd <= length signals)%nat).
    { unfold fd. rewrite map_length. rewrite <- (map_length (fsignal_bet cdf classes) signals). fold bets. clearbody starts. clear. induction bets as [|b l IH]; cbn; auto. destruct (zmem (fb_start b) starts); cbn; lia. }
    assert (Hu : forall y, In y fd -> nan_or_unit y).
    { intros y Hy. apply in_map_iff in Hy as (b & <- & Hb). apply filter_In in Hb as [Hb _]. apply in_map_iff in Hb as (sg & <- & Hsg). destruct (Hsig sg Hsg) as [H1 H2].
      destruct (@c165_bet cdf classes sg Hc H1 H2) as (_ & _ & H3). destruct (is_nan (ftest_stat classes (fs_prob sg))); [now left|right; apply H3]. }
    destruct (@c165_average sum fd HS) as [[P N]|(P & F & B & R)]; [lia|exact Hu| |].
    + left. split; [|split].
      * unfold fd. intro Z. apply map_eq_nil in Z. assert (I : In s0 starts) by (rewrite Es; now left). unfold starts in I. apply in_map_iff in I as (b & Eb & Hb). apply filter_In in Hb as [Hb Hact].
        assert (Hf : In b (filter (fun b => zmem (fb_start b) starts) bets)) by (apply filter_In; split; auto; apply zmem_in; unfold starts; apply in_map, filter_In; auto). rewrite Z in Hf. destruct Hf.
      * intros y Hy. destruct (is_nan y) eqn:N'; auto. exfalso. assert (I : In y (present fd)) by (apply filter_In; rewrite N'; auto). rewrite P in I. destruct I.
      * rewrite Ea'. destruct (fmean_present sum fd); try discriminate. reflexivity.
    + right. rewrite <- Ea' in *. destruct (@c165_discretize step a Fs Hs F B) as (F2 & B2 & D & _). split; [split; auto|].
      apply Rle_trans with (Rabs (fv (fdiscretize step a) - fv a) + Rabs (fv a - rmean (map fv (present fd)))).
      * replace (fv (fdiscretize step a) - rmean (map fv (present fd))) with ((fv (fdiscretize step a) - fv a) + (fv a - rmean (map fv (present fd)))) by ring. apply Rabs_triang.
      * rewrite plus_INR in *. cbn [INR] in *. lra.
Qed.
Print Assumptions c165_sizes.
(** ** budgeted sizes *)
(** for counts up to their maxima: between -1 and 1; no position is size 0, full long is 1, full short -1; at most four units of rounding (2^-53) from the exact size *)
Theorem c165_budgeted l ml s ms : (0 <= l <= ml)%Z -> (0 <= s <= ms)%Z -> (0 < ml <= 2 ^ 53)%Z -> (0 < ms <= 2 ^ 53)%Z ->
  let x := fbudgeted l ml s ms in fin x /\ -1 <= fv x <= 1 /\ Rabs (fv x - (IZR l / IZR ml - IZR s / IZR ms)) <= 4 * bpow radix2 (-53) /\
    (s = 0%Z -> l = ml -> fv x = 1) /\ (l = 0%Z -> s = ms -> fv x = -1) /\ (l = 0%Z -> s = 0%Z -> fv x = 0).
Proof.
  intros Hl Hs Hml Hms x. destruct fz0 as [F0 V0]. assert (B1 : 1 <= big) by (change 1 with (bpow radix2 0); apply bpow_le; lia).
  assert (G : forall c b, (0 <= c <= b)%Z -> (0 < b <= 2 ^ 53)%Z -> 0 <= IZR c / IZR b <= 1 /\ fin (fshare c b) /\ fv (fshare c b) = rnd64 (IZR c / IZR b)).
  { intros c b Hc Hb. assert (P : 0 < IZR b) by (apply IZR_lt; lia). assert (C0 : 0 <= IZR c) by (apply IZR_le; lia). assert (C1 : IZR c <= IZR b) by (apply IZR_le; lia).
    assert (Q : 0 <= IZR c / IZR b <= 1).
    { unfold Rdiv. split; [apply Rmult_le_pos; auto; left; now apply Rinv_0_lt_compat|]. apply Rmult_le_reg_r with (IZR b); auto. rewrite Rmult_assoc, Rinv_l by lra. lra. }
    destruct (@fz_spec c) as [Fc Vc]; [lia|]. destruct (@fz_spec b) as [Fb Vb]; [lia|]. destruct (@fdiv_spec (fz c) (fz b) Fc) as [Fd Vd]; rewrite ?Vc, ?Vb; [lra|rewrite Rabs_pos_eq; lra|]. rewrite Vc, Vb in Vd.
    assert (R1 : 0 <= fv (fdiv (fz c) (fz b)) <= 1) by (rewrite Vd; split; [rewrite <- rnd64_0; apply rnd64_mono; lra|apply Rle_trans with (rnd64 1); [apply rnd64_mono; lra|rewrite rnd64_1; lra]]).
    destruct (@fadd_spec (fz 0) (fdiv (fz c) (fz b)) F0 Fd) as [Fa Va]; [rewrite V0, Rplus_0_l, Rabs_pos_eq; lra|]. rewrite V0, Rplus_0_l, rnd64_fv in Va.
    split; auto. unfold fshare, no_nan. destruct (is_nan (fadd (fz 0) (fdiv (fz c) (fz b)))) eqn:N; [exfalso; destruct (fadd _ _); discriminate|]. split; auto. congruence. }
  destruct (G l ml Hl Hml) as (Q1 & F1 & V1). destruct (G s ms Hs Hms) as (Q2 & F2 & V2).
  assert (R1 : 0 <= rnd64 (IZR l / IZR ml) <= 1) by (split; [rewrite <- rnd64_0; apply rnd64_mono; lra|apply Rle_trans with (rnd64 1); [apply rnd64_mono; lra|rewrite rnd64_1; lra]]).
  assert (R2 : 0 <= rnd64 (IZR s / IZR ms) <= 1) by (split; [rewrite <- rnd64_0; apply rnd64_mono; lra|apply Rle_trans with (rnd64 1); [apply rnd64_mono; lra|rewrite rnd64_1; lra]]).
  destruct (@fsub_spec (fshare l ml) (fshare s ms) F1 F2) as [F V]; rewrite ?V1, ?V2; [apply Rle_trans with 1; [apply Rabs_le; lra|lra]|]. rewrite V1, V2 in V. fold (fbudgeted l ml s ms) in F, V. fold x in F, V.
  pose proof tiny_le as TL. pose proof u64_pos as U0. pose proof u64_small as US.
  assert (E1 : forall y, -1 <= y <= 1 -> Rabs (rnd64 y - y) <= u64 + / 1024 * u64).
  { intros y Hy. destruct (rnd_error_any y) as (e & h & He & Hh & ->). replace (y * (1 + e) + h - y) with (y * e + h) by ring. apply Rle_trans with (1 := Rabs_triang _ _). rewrite Rabs_mult.
    assert (Rabs y <= 1) by (apply Rabs_le; lra). pose proof (Rabs_pos y). pose proof (Rabs_pos e). nra. }
  split; auto. split; [rewrite V; apply Rabs_le_inv, rnd64_abs_le; [apply (format64_bpow (e := 0)); lia|apply Rabs_le; lra]|]. split; [|split; [|split]].
  - rewrite V. fold u64. pose proof (E1 (rnd64 (IZR l / IZR ml) - rnd64 (IZR s / IZR ms)) ltac:(lra)) as A1. pose proof (E1 (IZR l / IZR ml) ltac:(lra)) as A2. pose proof (E1 (IZR s / IZR ms) ltac:(lra)) as A3.
    apply Rabs_le_inv in A1, A2, A3. apply Rabs_le. lra.
  - intros -> ->. rewrite V. assert (0 < IZR ml) by (apply IZR_lt; lia). assert (0 < IZR ms) by (apply IZR_lt; lia). replace (IZR ml / IZR ml) with 1 by (field; lra). replace (0 / IZR ms) with 0 by (field; lra). rewrite rnd64_0, Rminus_0_r, !rnd64_1. reflexivity.
  - intros -> ->. rewrite V. assert (0 < IZR ml) by (apply IZR_lt; lia). assert (0 < IZR ms) by (apply IZR_lt; lia). replace (IZR ms / IZR ms) with 1 by (field; lra). replace (0 / IZR ml) with 0 by (field; lra). rewrite rnd64_0, rnd64_1. replace (0 - 1) with (- (1)) by ring. rewrite rnd64_opp, rnd64_1. lra.
  - intros -> ->. rewrite V. assert (0 < IZR ml) by (apply IZR_lt; lia). assert (0 < IZR ms) by (apply IZR_lt; lia). replace (0 / IZR ms) with 0 by (field; lra). replace (0 / IZR ml) with 0 by (field; lra). rewrite rnd64_0, Rminus_0_r. apply rnd64_0.
Qed.
Print Assumptions c165_budgeted.
(** ** the test statistic *)
Lemma fsqrt_spec x : fin x -> 0 <= fv x -> fin (fsqrt x) /\ fv (fsqrt x) = rnd64 (sqrt (fv x)).
Proof.
  intros F P. destruct (Bsqrt_correct 53 1024 _ _ mode_NE x) as (V & G & _). split; [|exact V]. unfold fin, fsqrt. rewrite G. destruct x as [s|s| |s m e b]; auto; try discriminate.
  destruct s; auto. exfalso. revert P. unfold fv. cbn [B2R]. unfold F2R. cbn [Fnum Fexp cond_Zopp]. pose proof (bpow_gt_0 radix2 e). assert (IZR (- Z.pos m) <= -1) by (apply IZR_le; lia). cbn [Z.opp] in *. nra.
Qed.
Lemma fv_small x : fv x <> 0 -> bpow radix2 (-1074) <= Rabs (fv x).
Proof.
  intro N. pose proof (fv_format x) as G. apply FLT_format_generic in G; [|reflexivity]. destruct G as [[m e] E1 E2 E3]. cbn in E2, E3. unfold F2R in E1. cbn [Fnum Fexp] in E1.
  rewrite E1 in *. rewrite Rabs_mult, (Rabs_pos_eq (bpow radix2 e)) by apply bpow_ge_0. apply Rle_trans with (1 * bpow radix2 e); [rewrite Rmult_1_l; apply bpow_le; lia|].
  apply Rmult_le_compat_r; [apply bpow_ge_0|]. rewrite <- abs_IZR. apply IZR_le. assert (m <> 0%Z) by (intros ->; apply N; ring). lia.
Qed.
Notation den := (bpow radix2 (-1074)).
Lemma format_den : format64 den. Proof. apply format64_bpow. lia. Qed.
(** for a probability strictly between 0 and 1 the statistic is a finite number, of the sign of p - 1/n *)
Theorem c165_statistic classes p : (1 <= classes <= 2 ^ 53)%Z -> fin p -> 0 < fv p < 1 ->
  let z := ftest_stat classes p in fin z /\ (0 < fv z <-> fv (fdiv (fz 1) (fz classes)) < fv p) /\ (fv z < 0 <-> fv p < fv (fdiv (fz 1) (fz classes))).
Proof.
  intros Hk Fp P z. destruct one_spec as [F1 V1]. destruct (@fz_spec classes) as [Fk Vk]; [lia|]. assert (K1 : 1 <= IZR classes) by (apply IZR_le; lia).
  assert (B1 : 1 <= big) by (change 1 with (bpow radix2 0); apply bpow_le; lia).
  assert (Q : 0 <= 1 / IZR classes <= 1).
  { unfold Rdiv. rewrite Rmult_1_l. split; [left; apply Rinv_0_lt_compat; lra|]. rewrite <- Rinv_1. apply Rinv_le_contravar; lra. }
  destruct (@fdiv_spec (fz 1) (fz classes) F1) as [Fq Vq]; rewrite ?V1, ?Vk; [lra|rewrite Rabs_pos_eq; lra|]. rewrite V1, Vk in Vq.
  set (c := fdiv (fz 1) (fz classes)) in *. assert (C : 0 <= fv c <= 1).
  { rewrite Vq. split; [rewrite <- rnd64_0; apply rnd64_mono; lra|]. apply Rle_trans with (rnd64 1); [apply rnd64_mono; lra|rewrite rnd64_1; lra]. }
  destruct (@fsub_spec p c Fp Fq) as [Fn Vn]; [apply Rle_trans with 1; [apply Rabs_le; lra|lra]|]. set (num := fsub p c) in *.
  destruct (@fsub_spec (fz 1) p F1 Fp) as [Fo Vo]; [rewrite V1; apply Rle_trans with 1; [apply Rabs_le; lra|lra]|]. rewrite V1 in Vo. set (o := fsub (fz 1) p) in *.
  (* the complement: at least 2^-53, and at least a half for p up to a half *)
  assert (O1 : rnd64 (1 - fv p) <= 1) by (apply Rle_trans with (rnd64 1); [apply rnd64_mono; lra|rewrite rnd64_1; lra]).
  assert (O2 : bpow radix2 (-53) <= fv o).
  { assert (PU : fv p <= 1 - bpow radix2 (-53)).
    { replace (1 - bpow radix2 (-53)) with (pred radix2 fexp64 1).
      - apply pred_ge_gt; auto using valid64; [apply fv_format|apply (format64_bpow (e := 0)); lia|lra].
      - change 1 with (bpow radix2 0) at 1. rewrite pred_bpow. reflexivity. }
    rewrite Vo. assert (FB : format64 (bpow radix2 (-53))) by (apply format64_bpow; lia). rewrite <- (rnd64_id FB) at 1. apply rnd64_mono. lra. }
  assert (O3 : fv p <= / 2 -> / 2 <= fv o).
  { intro L. rewrite Vo. change (/ 2) with (bpow radix2 (-1)) in *. assert (FB : format64 (bpow radix2 (-1))) by (apply format64_bpow; lia). rewrite <- (rnd64_id FB) at 1. apply rnd64_mono. replace (bpow radix2 (-1)) with (/ 2) in * by reflexivity. lra. }
  pose proof (bpow_gt_0 radix2 (-53)) as B53. pose proof (bpow_gt_0 radix2 (-1074)) as B74. assert (DP : den <= fv p) by (pose proof (@fv_small p ltac:(lra)) as S; rewrite Rabs_pos_eq in S; lra).
  destruct (@fmul_spec p o Fp Fo) as [Fm Vm]; [rewrite Vo in *; rewrite Rabs_pos_eq; nra|]. set (v := fmul p o) in *.
  assert (VU : fv v <= 1) by (rewrite Vm; apply Rle_trans with (rnd64 1); [apply rnd64_mono; rewrite Vo in *; nra|rewrite rnd64_1; lra]).
  assert (VL : den <= fv v).
  { rewrite Vm. destruct (Rle_lt_dec (fv p) (/ 2)) as [L|L].
    - destruct (Rle_lt_dec (bpow radix2 (-54)) (fv p)) as [M|M].
      + rewrite <- (rnd64_id format_den). apply rnd64_mono. apply Rle_trans with (bpow radix2 (-54) * bpow radix2 (-53)); [rewrite <- bpow_plus; apply bpow_le; lia|]. apply Rmult_le_compat; try apply bpow_ge_0; lra.
      + assert (fv o = 1) as ->.
        { rewrite Vo. apply Rle_antisym; auto. replace 1 with (rnd64 (1 - bpow radix2 (-54))) at 1; [apply rnd64_mono; lra|].
          apply Rle_antisym; [apply Rle_trans with (rnd64 1); [apply rnd64_mono; pose proof (bpow_gt_0 radix2 (-54)); lra|rewrite rnd64_1; lra]|].
          (* halfway between 1 - 2^-53 and 1: to even *)
          destruct (@one_spec) as [G1 W1]. assert (E : feq (fsub (fz 1) (ff 1 (-54))) (fz 1) = true) by (vm_compute; reflexivity).
          assert (S54 : fin (ff 1 (-54)) /\ fv (ff 1 (-54)) = bpow radix2 (-54)).
          { destruct (@ff_spec 1 (-54)) as [A B]; [rewrite Rmult_1_l, Rabs_pos_eq by apply bpow_ge_0; apply bpow_le; lia|]. split; auto. rewrite B, Rmult_1_l. apply rnd64_id, format64_bpow. lia. }
          destruct S54 as [A B]. destruct (@fsub_spec (fz 1) (ff 1 (-54)) G1 A) as [A2 B2]; [rewrite W1, B; pose proof (bpow_gt_0 radix2 (-54)); assert (bpow radix2 (-54) <= 1) by (change 1 with (bpow radix2 0); apply bpow_le; lia); rewrite Rabs_pos_eq; lra|].
          apply feq_spec in E; auto. rewrite W1, B2, W1, B in E. lra. }
        rewrite Rmult_1_r, rnd64_fv. exact DP.
    - rewrite <- (rnd64_id format_den). apply rnd64_mono. apply Rle_trans with (/ 2 * bpow radix2 (-53)); [change (/ 2) with (bpow radix2 (-1)); rewrite <- bpow_plus; apply bpow_le; lia|]. apply Rmult_le_compat; lra. }
  destruct (@fsqrt_spec v Fm) as [Fr Vr]; [lra|]. set (r := fsqrt v) in *.
  assert (RL : bpow radix2 (-537) <= fv r).
  { rewrite Vr. assert (FB : format64 (bpow radix2 (-537))) by (apply format64_bpow; lia). rewrite <- (rnd64_id FB) at 1. apply rnd64_mono.
    replace (bpow radix2 (-537)) with (sqrt den); [apply sqrt_le_1_alt; exact VL|]. apply sqrt_lem_1; [lra|apply bpow_ge_0|]. rewrite <- bpow_plus. reflexivity. }
  assert (RU : fv r <= 1).
  { rewrite Vr. apply Rle_trans with (rnd64 1); [apply rnd64_mono|rewrite rnd64_1; lra]. rewrite <- sqrt_1. apply sqrt_le_1_alt. exact VU. }
  pose proof (bpow_gt_0 radix2 (-537)) as B537.
  assert (NA : Rabs (fv num) <= 1) by (rewrite Vn; apply rnd64_abs_le; [apply (format64_bpow (e := 0)); lia|apply Rabs_le; lra]).
  assert (I : 1 <= / fv r <= bpow radix2 537).
  { split; [rewrite <- Rinv_1 at 1; apply Rinv_le_contravar; lra|]. change 537%Z with (- (-537))%Z. rewrite bpow_opp. apply Rinv_le_contravar; lra. }
  destruct (@fdiv_spec num r Fn) as [Fz Vz]; [lra|unfold Rdiv; rewrite Rabs_mult, (Rabs_pos_eq (/ fv r)) by lra; apply Rle_trans with (1 * bpow radix2 537); [apply Rmult_le_compat; auto using Rabs_pos; lra|rewrite Rmult_1_l; apply bpow_le; lia]|].
  fold z in Fz, Vz. change (fdiv num r) with z in Fz, Vz. split; auto.
  (* signs *)
  assert (SN : (fv c < fv p -> den <= fv num) /\ (fv p < fv c -> fv num <= - den) /\ (fv p = fv c -> fv num = 0)).
  { assert (G : forall a b : f64, fv a < fv b -> 0 < rnd64 (fv b - fv a)).
    { intros a b L. pose proof (fv_format a) as Ga. pose proof (fv_format b) as Gb. destruct (Rle_lt_dec (rnd64 (fv b - fv a)) 0) as [X|X]; auto. exfalso.
      destruct (@add_error (fv b) (- fv a)) as (e & He & E); auto using generic_format_opp. unfold Rminus in X. rewrite E in X. pose proof u64_small. apply Rabs_le_inv in He. nra. }
    split; [|split].
    - intro L. rewrite Vn. pose proof (G c p L) as X. pose proof (@fv_small num ltac:(rewrite Vn; lra)) as S. rewrite Vn in S. rewrite Rabs_pos_eq in S; lra.
    - intro L. pose proof (G p c L) as X. replace (fv p - fv c) with (- (fv c - fv p)) in Vn by ring. rewrite rnd64_opp in Vn. pose proof (@fv_small num ltac:(rewrite Vn; lra)) as S. rewrite Vn in *. rewrite Rabs_Ropp, Rabs_pos_eq in S; lra.
    - intro L. rewrite Vn, L, Rminus_eq_0. apply rnd64_0. }
  destruct SN as (S1 & S2 & S3).
  assert (Z1 : fv c < fv p -> 0 < fv z).
  { intro L. apply Rlt_le_trans with den; auto. rewrite Vz. rewrite <- (rnd64_id format_den). apply rnd64_mono. specialize (S1 L). unfold Rdiv. nra. }
  assert (Z2 : fv p < fv c -> fv z < 0).
  { intro L. apply Rle_lt_trans with (- den); [|lra]. rewrite Vz. rewrite <- (rnd64_id format_den), <- rnd64_opp. apply rnd64_mono. specialize (S2 L). unfold Rdiv. nra. }
  assert (Z3 : fv p = fv c -> fv z = 0) by (intro L; rewrite Vz, (S3 L); unfold Rdiv; rewrite Rmult_0_l; apply rnd64_0).
  split; split; intro H; auto; destruct (Rtotal_order (fv p) (fv c)) as [L|[L|L]]; auto; try (specialize (Z1 L)); try (specialize (Z2 L)); try (specialize (Z3 L)); lra.
Qed.
Print Assumptions c165_statistic.
(** the times are those of the bets *)
Theorem c165_times sum cdf classes step signals : map fst (fsize_from_probabilities sum cdf classes step signals) = zset (map fs_start signals ++ somes (map fs_end signals)).
Proof.
  unfold fsize_from_probabilities, favg_active_positions. rewrite !map_map. cbn [fst]. rewrite map_id. f_equal.
Qed.
Print Assumptions c165_times.
(** non-vacuity: a step function for the cdf, two overlapping bets, one short, of three classes *)
Definition step_cdf (z : f64) : f64 := if is_nan z then B754_nan else if flt z (fz 0) then ff 1 (-2) else ff 7 (-3).
Example c165_example : float_cdf step_cdf /\ is_sum fsum_left /\
  let signals := [FSignal 0 (Some 2%Z) (ff 3 (-2)) (fz 1) None; FSignal 1 None (ff 1 (-3)) (fz (-1)) (Some (fz (-1))); FSignal 1 (Some 3%Z) (fz 2) (fz 1) None] in
  map (fun r => (fst r, feq (snd r) (ff 5 (-3)), feq (snd r) (ff 1 (-3)), feq (snd r) (ff (-1) (-1)))) (fsize_from_probabilities fsum_left step_cdf 3 (ff 1 (-3)) signals) =
    [(0%Z, false, false, false); (1%Z, false, true, false); (2%Z, false, true, false); (3%Z, false, false, true)].
Proof.
  split; [|split; [apply c126_left_sum|vm_compute; reflexivity]]. intro z. unfold step_cdf. destruct (is_nan z); [reflexivity|].
  assert (A : fin (ff 1 (-2)) /\ fv (ff 1 (-2)) = / 4).
  { destruct (@ff_spec 1 (-2)) as [A B]; [apply Rle_trans with (bpow radix2 0); [cbn; apply Rabs_le; lra|apply bpow_le; lia]|]. split; auto. rewrite B, rnd64_id by (apply format64_float; lia). cbn. lra. }
  assert (B : fin (ff 7 (-3)) /\ fv (ff 7 (-3)) = 7 / 8).
  { destruct (@ff_spec 7 (-3)) as [B C]; [apply Rle_trans with (bpow radix2 0); [cbn; apply Rabs_le; lra|apply bpow_le; lia]|]. split; auto. rewrite C, rnd64_id by (apply format64_float; lia). cbn. lra. }
  destruct A as [A1 A2], B as [B1 B2]. destruct (flt z (fz 0)); [rewrite A2|rewrite B2]; split; auto; lra.
Qed.
Print Assumptions c165_example.
