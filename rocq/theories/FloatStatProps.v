(** C169-C171: the market meanness index, bet timings and the Sharpe ratio of equal returns, in binary64. *)
From Coq Require Import ZArith QArith Qcanon Reals Lra Lia List Bool Permutation Sorting.
From Flocq Require Import Core Relative BinarySingleNaN Plus_error Mult_error.
From Verif Require Import Py Num RNum Float64 FloatBarsModel FloatBarsProofs FloatBarsProps FloatPosModel FloatPosProofs MetricsModel MetricsSpec MetricsProofs MetricsProps FloatStatModel.
Import ListNotations.
Set Implicit Arguments.
Unset Strict Implicit.
Open Scope R_scope.

(** ** the mean of two floats with a float between them lies strictly between them *)
Lemma half_format r : format64 r -> bpow radix2 (-1021) <= Rabs r -> format64 (r * / 2).
Proof.
  intros F B. change (/ 2) with (bpow radix2 (-1)). apply mult_bpow_exact_FLT; auto. pose proof (mag_ge_bpow radix2 r (-1020)) as M. change (-1020 - 1)%Z with (-1021)%Z in M. specialize (M B). lia.
Qed.
Lemma double_format r : format64 r -> format64 (2 * r).
Proof.
  intro F. rewrite Rmult_comm. change 2 with (bpow radix2 1). destruct (Req_dec r 0) as [->|N]; [rewrite Rmult_0_l; apply generic_format_0|]. apply mult_bpow_pos_exact_FLT; auto. lia.
Qed.
Lemma mean_above a b g : format64 a -> format64 b -> format64 g -> a < g -> g < b -> a < rnd64 (rnd64 (a + b) / 2).
Proof.
  intros Fa Fb Fg AG GB. set (c := succ radix2 fexp64 a). assert (Fc : format64 c) by (apply generic_format_succ; [apply valid64|auto]). assert (CG : c <= g) by (apply succ_le_lt; auto; apply valid64).
  assert (PC : pred radix2 fexp64 c = a) by (apply pred_succ; auto; apply valid64). assert (AC : a < c).
  { destruct (Req_dec a 0) as [Z|N]; [|apply succ_gt_id; auto]. apply Rnot_le_lt. intro L. assert (S0 : c = ulp radix2 fexp64 0) by (unfold c; rewrite Z; apply succ_0). assert (0 < ulp radix2 fexp64 0) by (rewrite ulp_FLT_0; [apply bpow_gt_0|apply prec64_pos]). lra. }
  destruct (Rle_lt_dec (Rabs (a + b)) (bpow radix2 (-1021))) as [S|S].
  - (* the sum is exact *)
    assert (E : rnd64 (a + b) = a + b) by (apply rnd64_id; apply FLT_format_plus_small; [apply prec64_pos|auto|auto|exact S]).
    rewrite E. apply Rlt_le_trans with c; auto. apply round_N_ge_midp; auto; [apply valid64|]. fold c. rewrite PC. lra.
  - (* the division is exact *)
    assert (B : bpow radix2 (-1021) <= Rabs (rnd64 (a + b))) by (apply abs_round_ge_generic; [apply valid64|apply valid_rnd_N|apply format64_bpow; lia|lra]).
    assert (FR : format64 (rnd64 (a + b))) by (apply generic_format_round; [apply valid64|apply valid_rnd_N]).
    unfold Rdiv. rewrite (rnd64_id (x := rnd64 (a + b) * / 2)) by now apply half_format. assert (L : 2 * a < rnd64 (a + b)); [|lra].
    set (d := succ radix2 fexp64 (2 * a)). assert (F2 : format64 (2 * a)) by now apply double_format. assert (Fd : format64 d) by (apply generic_format_succ; [apply valid64|auto]). assert (PD : pred radix2 fexp64 d = 2 * a) by (apply pred_succ; auto; apply valid64).
    assert (D2 : d <= 2 * c) by (apply succ_le_lt; auto; [apply valid64|now apply double_format|lra]).
    assert (AD : 2 * a < d).
    { destruct (Req_dec a 0) as [Z|N]; [|apply succ_gt_id; lra]. assert (S0 : d = ulp radix2 fexp64 0) by (unfold d; replace (2 * a) with 0 by lra; apply succ_0). assert (0 < ulp radix2 fexp64 0) by (rewrite ulp_FLT_0; [apply bpow_gt_0|apply prec64_pos]). lra. }
    apply Rlt_le_trans with d; auto. apply round_N_ge_midp; auto; [apply valid64|]. fold d. rewrite PD. lra.
Qed.
Lemma mean_below a b g : format64 a -> format64 b -> format64 g -> a < g -> g < b -> rnd64 (rnd64 (a + b) / 2) < b.
Proof.
  intros Fa Fb Fg AG GB. assert (H : - b < rnd64 (rnd64 (- b + - a) / 2)) by (apply mean_above with (- g); try lra; now apply generic_format_opp).
  replace (- b + - a) with (- (a + b)) in H by ring. rewrite rnd64_opp in H. replace (- rnd64 (a + b) / 2) with (- (rnd64 (a + b) / 2)) in H by field. rewrite rnd64_opp in H. lra.
Qed.
(** ** sorting *)
Lemma sorted_perm_eq s1 s2 : Sorted Rle s1 -> Sorted Rle s2 -> Permutation s1 s2 -> s1 = s2.
Proof.
  intros H1 H2. apply Sorted_StronglySorted in H1, H2; try (intros x y z; lra). revert s2 H2. induction H1 as [|x s1 S1 IH F1]; intros s2 H2 P; [apply Permutation_nil in P; now subst|].
  destruct H2 as [|y s2 S2 F2]; [apply Permutation_sym, Permutation_nil in P; discriminate|]. rewrite Forall_forall in F1, F2.
  assert (E : x = y).
  { assert (In y (x :: s1)) as [->|Hy] by (apply (Permutation_in _ (Permutation_sym P)); now left); auto. assert (In x (y :: s2)) as [->|Hx] by (apply (Permutation_in _ P); now left); auto. apply Rle_antisym; auto. }
  subst y. f_equal. apply IH; auto. eapply Permutation_cons_inv; eauto.
Qed.
Lemma fsort_perm l : Permutation (fsort l) l.
Proof.
  assert (I : forall x t, Permutation (finsert x t) (x :: t)) by (intros x t; induction t as [|y t IH]; cbn; auto; destruct (fle x y); auto; rewrite IH; constructor).
  induction l as [|x l IH]; cbn; auto. fold (fsort l). rewrite I. now constructor.
Qed.
Lemma fsort_sorted l : (forall x, In x l -> fin x) -> Sorted Rle (map fv (fsort l)).
Proof.
  induction l as [|x l IH]; intro F; cbn; [constructor|]. fold (fsort l). assert (FS : forall y, In y (fsort l) -> fin y) by (intros y Hy; apply F; right; eapply Permutation_in; [apply fsort_perm|auto]).
  assert (Fx : fin x) by (apply F; now left). assert (S : Sorted Rle (map fv (fsort l))) by (apply IH; intros; apply F; now right). clear IH F. induction (fsort l) as [|y t IH]; cbn; [repeat constructor|].
  assert (Fy : fin y) by (apply FS; now left). cbn [map] in S. inversion_clear S as [|? ? S' Hd]. destruct (fle x y) eqn:E.
  - apply fle_spec in E; auto. cbn [map]. apply Sorted_cons; [now apply Sorted_cons|now apply HdRel_cons].
  - assert (L : fv y <= fv x) by (apply Rnot_lt_le; intro C; assert (fle x y = true) by (apply fle_spec; auto; lra); congruence). cbn [map]. apply Sorted_cons; [apply IH; auto; intros; apply FS; now right|].
    destruct t as [|z t]; cbn; [now apply HdRel_cons|]. inversion_clear Hd. destruct (fle x z); cbn; now apply HdRel_cons.
Qed.
Lemma ff_exact m e : (Z.abs m < 2 ^ 53)%Z -> (-1074 <= e)%Z -> (e <= 970)%Z -> fin (ff m e) /\ fv (ff m e) = IZR m * bpow radix2 e.
Proof.
  intros M E1 E2. rewrite <- (rnd64_id (format64_float M E1)). apply ff_spec. rewrite Rabs_mult, (Rabs_pos_eq (bpow radix2 e)) by apply bpow_ge_0. rewrite <- abs_IZR.
  apply Rle_trans with (bpow radix2 53 * bpow radix2 e); [apply Rmult_le_compat_r; [apply bpow_ge_0|]; change (bpow radix2 53) with (IZR (2 ^ 53)); apply IZR_le; lia|]. rewrite <- bpow_plus. apply bpow_le. lia.
Qed.
(** ** C169 *)
(** the steps away from [m]: above it and rising, or below it and falling *)
Definition away (m : R) (xs : list R) (t : nat) : bool :=
  let x := nth t xs 0 in let p := nth (t - 1) xs 0 in Rlt_bool m x && Rlt_bool p x || Rlt_bool x m && Rlt_bool x p.
Definition away_count (m : R) (xs : list R) : nat := length (filter (away m xs) (seq 1 (length xs - 1))).
Lemma fsteps_seq (f : f64 * f64 -> bool) d x l : length (filter f (fsteps x l)) = length (filter (fun t => f (nth (t - 1) (x :: l) d, nth t (x :: l) d)) (seq 1 (length l))).
Proof.
  revert x. induction l as [|y l IH]; intro x; auto. cbn [fsteps filter length seq]. rewrite <- seq_shift. 
  assert (E : length (filter f (fsteps y l)) = length (filter (fun t => f (nth (t - 1) (x :: y :: l) d, nth t (x :: y :: l) d)) (map S (seq 1 (length l))))).
  { rewrite IH. assert (M : forall g s, length (filter g (map S s)) = length (filter (fun t => g (S t)) s)) by (intros g s; induction s as [|a s I]; auto; cbn; destruct (g (S a)); cbn; now rewrite I).
    rewrite M. f_equal. apply filter_ext_in. intros t Ht. apply in_seq in Ht. destruct t as [|t]; [lia|]. replace (S (S t) - 1)%nat with (S t) by lia. replace (S t - 1)%nat with t by lia. reflexivity. }
  cbn [Nat.sub nth]. destruct (f (x, y)); cbn [length]; now rewrite E.
Qed.
Lemma diff_sign x p : fin x -> fin p -> Rabs (fv x) <= bpow radix2 1022 -> Rabs (fv p) <= bpow radix2 1022 ->
  flt (fz 0) (fsub x p) = Rlt_bool (fv p) (fv x) /\ flt (fsub x p) (fz 0) = Rlt_bool (fv x) (fv p).
Proof.
  intros Fx Fp Bx Bp. destruct fz0 as [F0 V0]. destruct (@fsub_spec x p Fx Fp) as [F V].
  { apply Rle_trans with (1 := Rabs_triang _ _). rewrite Rabs_Ropp. replace big with (2 * bpow radix2 1022) by (change 2 with (bpow radix2 1) at 1; rewrite <- bpow_plus; reflexivity). lra. }
  destruct (@add_error (fv x) (- fv p) (fv_format _)) as (e & He & E); [apply generic_format_opp, fv_format|]. unfold Rminus in V. rewrite E in V. pose proof u64_small as U. apply Rabs_le_inv in He.
  split.
  - destruct (Rlt_bool_spec (fv p) (fv x)) as [L|L]; [apply flt_spec; auto; rewrite V0, V; nra|]. destruct (flt (fz 0) (fsub x p)) eqn:Q; auto. apply flt_spec in Q; auto. rewrite V0, V in Q. nra.
  - destruct (Rlt_bool_spec (fv x) (fv p)) as [L|L]; [apply flt_spec; auto; rewrite V0, V; nra|]. destruct (flt (fsub x p) (fz 0)) eqn:Q; auto. apply flt_spec in Q; auto. rewrite V0, V in Q. nra.
Qed.
Lemma flt_bool x y : fin x -> fin y -> flt x y = Rlt_bool (fv x) (fv y).
Proof. intros Fx Fy. destruct (Rlt_bool_spec (fv x) (fv y)) as [L|L]; [now apply flt_spec|]. destruct (flt x y) eqn:E; auto. apply flt_spec in E; auto. lra. Qed.
Lemma filter_disjoint A (f g : A -> bool) l : (forall a, In a l -> f a = true -> g a = false) -> (length (filter f l) + length (filter g l))%nat = length (filter (fun a => f a || g a) l).
Proof.
  induction l as [|a l IH]; intro H; auto. cbn. assert (IHl : (length (filter f l) + length (filter g l))%nat = length (filter (fun a => f a || g a) l)) by (apply IH; intros; apply H; auto; now right).
  destruct (f a) eqn:E; [rewrite (H a) by (auto; now left); cbn; lia|]. cbn. destruct (g a); cbn; lia.
Qed.
(** unless the two middle values are neighbouring floats, the index is the exact fraction, rounded once *)
Theorem c169_mmi series s : (2 <= length series)%nat -> (Z.of_nat (length series) <= 2 ^ 53)%Z -> (forall x, In x series -> fin x /\ Rabs (fv x) <= bpow radix2 1022) ->
  Permutation s (map fv series) -> Sorted Rle s ->
  let n := length series in let a := nth ((n - 1) / 2) s 0 in let b := nth (n / 2) s 0 in
  (a = b \/ exists g, format64 g /\ a < g < b) ->
  exists q, fget_mmi series = Ok q /\ fin q /\ fv q = rnd64 (INR (away_count ((a + b) / 2) (map fv series)) / INR (n - 1)).
Proof.
  intros L1 L2 H P SO n a b G. assert (FS : forall x, In x series -> fin x) by (intros x Hx; now apply H).
  assert (ES : s = map fv (fsort series)) by (apply sorted_perm_eq; auto; [now apply fsort_sorted|]; rewrite P; apply Permutation_map, Permutation_sym, fsort_perm).
  assert (LS : length s = n) by (rewrite (Permutation_length P), map_length; reflexivity). assert (LF : length (fsort series) = n) by (apply Permutation_length, fsort_perm).
  assert (NF : forall k, (k < n)%nat -> fin (nth k (fsort series) (fz 0)) /\ Rabs (nth k s 0) <= bpow radix2 1022 /\ nth k s 0 = fv (nth k (fsort series) (fz 0))).
  { intros k Hk. assert (I : In (nth k (fsort series) (fz 0)) series) by (eapply Permutation_in; [apply fsort_perm|]; apply nth_In; lia). assert (E : nth k s 0 = fv (nth k (fsort series) (fz 0))).
    { rewrite ES. rewrite (nth_indep _ 0 (fv (fz 0))) by (rewrite map_length; lia). apply map_nth. }
    rewrite E. repeat split; auto; now apply H. }
  assert (MON : forall i j, (i <= j < n)%nat -> nth i s 0 <= nth j s 0).
  { clear - SO LS. apply Sorted_StronglySorted in SO; [|intros x y z; lra]. rewrite <- LS. clear LS. induction SO as [|x s SO IH F]; intros i j Hij; [cbn in Hij; lia|]. destruct j as [|j]; [destruct i; [lra|lia]|]. cbn [length] in Hij. destruct i as [|i]; cbn [nth].
    - rewrite Forall_forall in F. apply F, nth_In. lia.
    - apply IH. lia. }
  assert (NB : (n / 2 < n)%nat) by (apply Nat.div_lt; unfold n; lia). assert (N1 : ((n - 1) / 2 < n)%nat) by (apply Nat.div_lt_upper_bound; unfold n; lia).
  assert (AB : a <= b) by (apply MON; split; auto; apply Nat.div_le_mono; lia).
  assert (Fa : format64 a) by (unfold a; destruct (NF _ N1) as (_ & _ & ->); apply fv_format). assert (Fb : format64 b) by (unfold b; destruct (NF _ NB) as (_ & _ & ->); apply fv_format).
  (* the computed median *)
  assert (MED : fin (fmedian series) /\ (a = b -> fv (fmedian series) = a) /\ (a < b -> a < fv (fmedian series) < b)).
  { unfold fmedian. fold n. destruct (Nat.even n) eqn:EV.
    - apply Nat.even_spec in EV. destruct EV as (h & Eh). assert (H2 : (n / 2 = h)%nat) by (rewrite Eh, Nat.mul_comm; apply Nat.div_mul; lia). assert (H1 : ((n - 1) / 2 = h - 1)%nat) by (symmetry; apply Nat.div_unique with 1%nat; unfold n in *; lia).
      rewrite H2. unfold a, b in *. rewrite H1, H2 in *. assert (h - 1 < n)%nat as K1 by (unfold n in *; lia). assert (h < n)%nat as K2 by (unfold n in *; lia).
      destruct (NF _ K1) as (F1 & B1 & E1). destruct (NF _ K2) as (F2 & B2 & E2). set (x := nth (h - 1) (fsort series) (fz 0)) in *. set (y := nth h (fsort series) (fz 0)) in *. rewrite E1, E2 in *.
      assert (BG : big = 2 * bpow radix2 1022) by (change 2 with (bpow radix2 1) at 1; rewrite <- bpow_plus; reflexivity).
      assert (BS : Rabs (fv x + fv y) <= big) by (apply Rle_trans with (1 := Rabs_triang _ _); rewrite BG; lra). destruct (fadd_spec F1 F2 BS) as [F3 V3]. destruct (@fz_spec 2) as [F4 V4]; [lia|].
      assert (B3 : Rabs (rnd64 (fv x + fv y)) <= big) by (apply rnd64_abs_le; auto; apply format64_bpow; lia).
      destruct (@fdiv_spec (fadd x y) (fz 2) F3) as [F5 V5]; rewrite ?V3, ?V4; [lra|unfold Rdiv; rewrite Rabs_mult, (Rabs_pos_eq (/ 2)) by lra; pose proof (Rabs_pos (rnd64 (fv x + fv y))); lra|]. rewrite V3, V4 in V5.
      split; auto. rewrite V5. split.
      + intro E. rewrite <- E. replace (fv x + fv x) with (2 * fv x) by ring. rewrite (rnd64_id (x := 2 * fv x)) by (apply double_format, fv_format). replace (2 * fv x / 2) with (fv x) by field. apply rnd64_fv.
      + intro Lt. destruct G as [G|(g & Fg & G1 & G2)]; [lra|]. split; [now apply mean_above with g|now apply mean_below with g].
    - assert (OD : Nat.odd n = true) by (unfold Nat.odd; now rewrite EV). apply Nat.odd_spec in OD. destruct OD as (h & Eh). assert (H2 : (n / 2 = h)%nat) by (symmetry; apply Nat.div_unique with 1%nat; lia). assert (H1 : ((n - 1) / 2 = h)%nat) by (rewrite Eh; replace (2 * h + 1 - 1)%nat with (h * 2)%nat by lia; apply Nat.div_mul; lia).
      rewrite H2. unfold a, b in *. rewrite H1, H2 in *. destruct (NF h) as (F1 & _ & E1); [lia|]. repeat split; auto; intros; lra. }
  destruct MED as (FM & ME & ML). set (m' := fmedian series) in *. set (m := (a + b) / 2).
  assert (CMP : forall x, In x series -> flt m' x = Rlt_bool m (fv x) /\ flt x m' = Rlt_bool (fv x) m).
  { intros x Hx. rewrite !flt_bool by auto. assert (SIDE : fv x <= a \/ b <= fv x).
    { assert (I : In (fv x) s) by (apply (Permutation_in _ (Permutation_sym P)), in_map; auto). apply In_nth with (d := 0) in I. destruct I as (k & Hk & <-). rewrite LS in Hk. destruct (Nat.le_gt_cases k ((n - 1) / 2)) as [C|C]; [left; apply MON; lia|right; apply MON].
      split; auto. assert (n / 2 <= S ((n - 1) / 2))%nat; [|lia]. apply Nat.div_le_upper_bound; [lia|]. pose proof (Nat.div_mod (n - 1) 2 ltac:(lia)). pose proof (Nat.mod_upper_bound (n - 1) 2 ltac:(lia)). lia. }
    destruct (Req_dec a b) as [E|E]; [rewrite (ME E); replace m with a by (unfold m; lra); auto|]. destruct ML as [M1 M2]; [lra|]. unfold m.
    split; [destruct (Rlt_bool_spec (fv m') (fv x)), (Rlt_bool_spec ((a + b) / 2) (fv x)); auto; exfalso; lra|destruct (Rlt_bool_spec (fv x) (fv m')), (Rlt_bool_spec (fv x) ((a + b) / 2)); auto; exfalso; lra]. }
  (* the counts *)
  destruct series as [|x l] eqn:ESER; [cbn in L1; lia|]. set (hi := fun p : f64 * f64 => flt m' (snd p) && flt (fz 0) (fsub (snd p) (fst p))). set (lo := fun p : f64 * f64 => flt (snd p) m' && flt (fsub (snd p) (fst p)) (fz 0)).
  assert (CNT : (length (filter hi (fsteps x l)) + length (filter lo (fsteps x l)))%nat = away_count m (map fv (x :: l))).
  { rewrite !(fsteps_seq _ (fz 0)). rewrite filter_disjoint.
    - unfold away_count. rewrite map_length. replace (length (x :: l) - 1)%nat with (length l) by (cbn; lia). f_equal. apply filter_ext_in. intros t Ht. apply in_seq in Ht.
      assert (IX : forall k, (k <= length l)%nat -> In (nth k (x :: l) (fz 0)) (x :: l) /\ nth k (map fv (x :: l)) 0 = fv (nth k (x :: l) (fz 0))) by (intros k Hk; split; [apply nth_In; cbn; lia|rewrite (nth_indep _ 0 (fv (fz 0))) by (rewrite map_length; cbn; lia); apply map_nth]).
      destruct (IX t) as [I1 E1]; [lia|]. destruct (IX (t - 1)%nat) as [I2 E2]; [lia|]. unfold away. cbv zeta. rewrite E1, E2. unfold hi, lo. cbn [fst snd]. destruct (CMP _ I1) as [C1 C2]. rewrite C1, C2. destruct (H _ I1), (H _ I2). destruct (@diff_sign (nth t (x :: l) (fz 0)) (nth (t - 1) (x :: l) (fz 0))) as [D1 D2]; auto. rewrite D1, D2. reflexivity.
    - intros t Ht. apply in_seq in Ht. assert (I1 : In (nth t (x :: l) (fz 0)) (x :: l)) by (apply nth_In; cbn; lia). unfold hi, lo. cbn [fst snd]. destruct (CMP _ I1) as [C1 C2]. rewrite C1, C2. destruct (Rlt_bool_spec m (fv (nth t (x :: l) (fz 0)))); [|discriminate]. intros _. rewrite Rlt_bool_false by lra. reflexivity. }
  set (c := away_count m (map fv (x :: l))) in *.
  assert (CB : (c <= n - 1)%nat).
  { assert (FL : forall (f : nat -> bool) u, (length (filter f u) <= length u)%nat) by (intros f u; induction u as [|w u IH]; cbn; [lia|]; destruct (f w); cbn; lia).
    unfold c, away_count. rewrite map_length. fold n. eapply Nat.le_trans; [apply FL|]. rewrite seq_length. lia. }
  assert (X1 : (Z.abs (Z.of_nat c) <= 2 ^ 53)%Z) by lia. assert (X2 : (Z.abs (Z.of_nat (n - 1)) <= 2 ^ 53)%Z) by lia. destruct (fz_spec X1) as [F1 V1]. destruct (fz_spec X2) as [F2 V2]. rewrite <- INR_IZR_INZ in V1, V2.
  assert (P1 : 1 <= INR (n - 1)) by (change 1 with (INR 1); apply le_INR; unfold n; lia). assert (C1 : 0 <= INR c <= INR (n - 1)) by (split; [apply pos_INR|now apply le_INR]).
  assert (I : / INR (n - 1) * INR (n - 1) = 1) by (apply Rinv_l; lra). assert (I0 : 0 < / INR (n - 1)) by (apply Rinv_0_lt_compat; lra).
  destruct (@fdiv_spec (fz (Z.of_nat c)) (fz (Z.of_nat (n - 1))) F1) as [FQ VQ]; rewrite ?V1, ?V2; [lra| |].
  { rewrite Rabs_pos_eq by (apply Rmult_le_pos; lra). apply Rle_trans with 1; [unfold Rdiv; nra|change 1 with (bpow radix2 0); apply bpow_le; lia]. }
  rewrite V1, V2 in VQ. exists (fdiv (fz (Z.of_nat c)) (fz (Z.of_nat (n - 1)))). split; [|split; auto].
  unfold fget_mmi. fold m'. cbv zeta. destruct l as [|y l]; [cbn in L1; lia|]. fold hi lo. rewrite CNT. reflexivity.
Qed.
Print Assumptions c169_mmi.
Theorem c169_raises : fget_mmi [] = Err ValueError /\ forall x, fget_mmi [x] = Err ZeroDivisionError.
Proof. split; reflexivity. Qed.
Print Assumptions c169_raises.
(** two neighbouring floats: their mean rounds to the lower one, and the fall to it is not counted; exactly, every step is away from the median *)
Theorem c169_mmi_refuted : exists x y q, fin x /\ fin y /\ fget_mmi [x; y] = Ok q /\ fv q = 0 /\ away_count ((fv x + fv y) / 2) [fv x; fv y] = 1%nat.
Proof.
  exists (ff 4503599627370497 (-52)), (fz 1), (fdiv (fz 0) (fz 1)). destruct (@ff_exact 4503599627370497 (-52)) as [F1 V1]; [lia|lia|lia|]. destruct (@fz_spec 1) as [F2 V2]; [lia|].
  destruct fz0 as [F0 V0]. destruct (@fz_spec 1) as [F3 V3]; [lia|]. destruct (@fdiv_spec (fz 0) (fz 1) F0) as [F4 V4]; rewrite ?V0, ?V3; [lra|unfold Rdiv; rewrite Rmult_0_l, Rabs_R0; apply bpow_ge_0|]. rewrite V0, V3 in V4.
  split; auto. split; auto. split; [|split].
  - unfold fget_mmi. cbn [length fsteps Nat.sub]. match goal with |- Ok (fdiv (fz ?a) _) = _ => replace a with 0%Z by (vm_compute; reflexivity) end. reflexivity.
  - rewrite V4. unfold Rdiv. rewrite Rmult_0_l. apply rnd64_0.
  - rewrite V1. change (bpow radix2 (-52)) with (/ 4503599627370496). unfold away_count, away. cbn [length seq Nat.sub filter nth].
    repeat match goal with |- context [Rlt_bool ?a ?b] => first [rewrite (@Rlt_bool_true a b) by lra|rewrite (@Rlt_bool_false a b) by lra] end. reflexivity.
Qed.
Print Assumptions c169_mmi_refuted.
(** 1, 3, 2, 5: the median is 2.5, and two of the three steps move away from it, or one falls below *)
Example c169_example : exists q, fget_mmi [fz 1; fz 3; fz 2; fz 5] = Ok q /\ fin q /\ fv q = rnd64 (INR 3 / INR 3).
Proof.
  assert (V : forall m, (0 <= m <= 5)%Z -> fin (fz m) /\ fv (fz m) = IZR m) by (intros m Hm; apply fz_spec; lia).
  destruct (@c169_mmi [fz 1; fz 3; fz 2; fz 5] [1; 2; 3; 5]) as (q & Q1 & Q2 & Q3).
  - cbn. lia.
  - cbn. lia.
  - intros x Hx. assert (exists m, (0 <= m <= 5)%Z /\ x = fz m) as (m & Hm & ->) by (destruct Hx as [<-|[<-|[<-|[<-|[]]]]]; eexists; (split; [|reflexivity]); lia). destruct (V m Hm) as [F E]. split; auto. rewrite E, <- abs_IZR. apply Rle_trans with (bpow radix2 3); [change (bpow radix2 3) with 8; apply IZR_le; lia|apply bpow_le; lia].
  - cbn [map]. rewrite !(fun m Hm => proj2 (V m Hm)) by lia. apply perm_skip. apply perm_swap.
  - repeat constructor; lra.
  - right. exists (5 / 2). cbn. split; [|lra]. replace (5 / 2) with (IZR 5 * bpow radix2 (-1)) by (change (bpow radix2 (-1)) with (/ 2); lra). apply format64_float; lia.
  - exists q. split; auto. split; auto. rewrite Q3. f_equal. f_equal. f_equal. cbn [length Nat.sub Nat.div Nat.divmod fst snd nth map]. rewrite !(fun m Hm => proj2 (V m Hm)) by lia.
    unfold away_count, away. cbn [length seq Nat.sub filter nth]. repeat match goal with |- context [Rlt_bool ?a ?b] => first [rewrite (@Rlt_bool_true a b) by lra|rewrite (@Rlt_bool_false a b) by lra] end. reflexivity.
Qed.
(** ** C170 *)
(** flat, or of a size whose products neither underflow nor overflow *)
Definition ordinary (p : f64) : Prop := fin p /\ (fv p = 0 \/ bpow radix2 (-500) <= Rabs (fv p) <= bpow radix2 500).
Definition side (p : f64) : Qc := if flt (fz 0) p then 1%Qc else if flt p (fz 0) then (- (1))%Qc else 0%Qc.
Lemma side_cases p : fin p -> (fv p = 0 /\ side p = 0%Qc) \/ (0 < fv p /\ side p = 1%Qc) \/ (fv p < 0 /\ side p = (- (1))%Qc).
Proof.
  intro F. destruct fz0 as [F0 V0]. unfold side. rewrite !flt_bool, V0 by auto. destruct (Rlt_bool_spec 0 (fv p)) as [L|L]; [right; left; auto|]. destruct (Rlt_bool_spec (fv p) 0) as [M|M]; [right; right; auto|]. left. split; auto. lra.
Qed.
Lemma feq_side p : ordinary p -> feq p (fz 0) = qeq (side p) 0.
Proof.
  intros [F _]. destruct fz0 as [F0 V0]. destruct (feq p (fz 0)) eqn:E.
  - apply feq_spec in E; auto. rewrite V0 in E. destruct (side_cases F) as [[_ ->]|[[L _]|[L _]]]; [reflexivity|lra|lra].
  - destruct (side_cases F) as [[Z _]|[[_ ->]|[_ ->]]]; [|reflexivity|reflexivity]. assert (feq p (fz 0) = true) by (apply feq_spec; auto; now rewrite V0). congruence.
Qed.
Lemma mul_sign p q : ordinary p -> ordinary q -> flt (fmul p q) (fz 0) = Rlt_bool (fv p * fv q) 0.
Proof.
  intros [Fp Hp] [Fq Hq]. destruct fz0 as [F0 V0]. assert (B : fv p * fv q = 0 \/ bpow radix2 (-1000) <= Rabs (fv p * fv q) <= bpow radix2 1000).
  { destruct Hp as [->|Hp]; [left; ring|]. destruct Hq as [->|Hq]; [left; ring|]. right. rewrite Rabs_mult. change (-1000)%Z with (-500 + -500)%Z. change 1000%Z with (500 + 500)%Z. rewrite !bpow_plus. pose proof (bpow_gt_0 radix2 (-500)). split; apply Rmult_le_compat; lra. }
  destruct (@fmul_spec p q Fp Fq) as [F V].
  { destruct B as [->|[_ B]]; [rewrite Rabs_R0; apply bpow_ge_0|]. apply Rle_trans with (1 := B), bpow_le. lia. }
  rewrite flt_bool, V, V0 by auto. destruct B as [->|[B _]]; [now rewrite rnd64_0|]. assert (FB : format64 (bpow radix2 (-1000))) by (apply format64_bpow; lia). pose proof (bpow_gt_0 radix2 (-1000)) as P.
  destruct (Rle_lt_dec 0 (fv p * fv q)) as [L|L].
  - rewrite Rabs_pos_eq in B by auto. apply rnd64_mono in B. rewrite rnd64_id in B by auto. rewrite !Rlt_bool_false by lra. reflexivity.
  - rewrite Rabs_left in B by auto. apply Ropp_le_contravar in B. rewrite Ropp_involutive in B. apply rnd64_mono in B. rewrite rnd64_opp, (rnd64_id FB) in B. rewrite !Rlt_bool_true by lra. reflexivity.
Qed.
Lemma mul_side p q : ordinary p -> ordinary q -> flt (fmul p q) (fz 0) = qlt (side p * side q) 0.
Proof.
  intros Hp Hq. rewrite mul_sign by auto. destruct Hp as [Fp _], Hq as [Fq _].
  destruct (side_cases Fp) as [[Lp ->]|[[Lp ->]|[Lp ->]]], (side_cases Fq) as [[Lq ->]|[[Lq ->]|[Lq ->]]]; rewrite ?Lp, ?Lq; first [rewrite Rlt_bool_true by nra|rewrite Rlt_bool_false by nra]; reflexivity.
Qed.
Definition sides (ps : list (Z * f64)) : list (Z * Qc) := map (fun r => (fst r, side (snd r))) ps.
Lemma filter_map_len A B (g : A -> B) f h (l : list A) : (forall x, In x l -> f x = h (g x)) -> map g (filter f l) = filter h (map g l).
Proof. induction l as [|x l IH]; intro H; auto. cbn. rewrite <- (H x) by now left. destruct (f x); cbn; rewrite IH by (intros; apply H; now right); auto. Qed.
Lemma removelast_map A B (g : A -> B) l : removelast (map g l) = map g (removelast l).
Proof. induction l as [|x [|y l] IH]; auto. cbn [map removelast] in *. now rewrite IH. Qed.
Lemma removelast_In A (x : A) l : In x (removelast l) -> In x l.
Proof. induction l as [|y [|z l] IH]; cbn; [tauto|tauto|]. cbn in IH. intros [->|H]; auto. Qed.
Lemma timings_sides ps : (forall r, In r ps -> ordinary (snd r)) -> fposition_timings ps = position_timings (sides ps).
Proof.
  intro H. unfold fposition_timings, position_timings.
  assert (E1 : map fst (filter (fun r => feq (snd r) (fz 0)) ps) = map fst (filter (fun r => qeq (snd r) 0) (sides ps))).
  { unfold sides. rewrite <- (@filter_map_len _ _ (fun r : Z * f64 => (fst r, side (snd r))) (fun r => feq (snd r) (fz 0))) by (intros r Hr; cbn; apply feq_side; auto). rewrite map_map. reflexivity. }
  assert (E2 : map fst (filter (fun r => match snd r with None => true | Some p => negb (feq p (fz 0)) end) (combine (map fst ps) (shift1 (map snd ps)))) = map fst (filter (fun r => match snd r with None => true | Some p => negb (qeq p 0) end) (combine (map fst (sides ps)) (shift1 (map snd (sides ps)))))).
  { replace (combine (map fst (sides ps)) (shift1 (map snd (sides ps)))) with (map (fun r : Z * option f64 => (fst r, option_map side (snd r))) (combine (map fst ps) (shift1 (map snd ps)))).
    - rewrite <- (@filter_map_len _ _ (fun r : Z * option f64 => (fst r, option_map side (snd r))) (fun r => match snd r with None => true | Some p => negb (feq p (fz 0)) end)); [rewrite map_map; reflexivity|].
      intros [t [p|]] Hr; cbn; auto. f_equal. apply feq_side. apply in_combine_r in Hr. unfold shift1 in Hr. destruct (map snd ps) eqn:E; [destruct Hr|]. destruct Hr as [Hr|Hr]; [discriminate|]. apply in_map_iff in Hr. destruct Hr as (p' & Ep & Hr). injection Ep as ->. apply removelast_In in Hr. rewrite <- E in Hr. apply in_map_iff in Hr. destruct Hr as (r & <- & Hr). auto.
    - assert (K1 : map fst (sides ps) = map fst ps) by (unfold sides; now rewrite map_map). assert (K2 : shift1 (map snd (sides ps)) = map (option_map side) (shift1 (map snd ps))).
      { replace (map snd (sides ps)) with (map side (map snd ps)) by (unfold sides; now rewrite !map_map). destruct (map snd ps) as [|x l]; auto. unfold shift1. cbn [map option_map]. f_equal. rewrite <- (map_cons side x l), removelast_map, !map_map. reflexivity. }
      rewrite K1, K2. generalize (map fst ps) (shift1 (map snd ps)). clear. intro a. induction a as [|x a IH]; intros [|y b]; auto. cbn. now rewrite IH. }
  assert (E3 : map fst (filter (fun r => flt (snd r) (fz 0)) (map (fun x => (fst (fst x), fmul (snd (fst x)) (snd x))) (combine (tl ps) (map snd (removelast ps))))) =
               map fst (filter (fun r => qlt (snd r) 0) (map (fun x => (fst (fst x), (snd (fst x) * snd x)%Qc)) (combine (tl (sides ps)) (map snd (removelast (sides ps))))))).
  { replace (combine (tl (sides ps)) (map snd (removelast (sides ps)))) with (map (fun x : Z * f64 * f64 => (fst (fst x), side (snd (fst x)), side (snd x))) (combine (tl ps) (map snd (removelast ps)))).
    - assert (I : forall x, In x (combine (tl ps) (map snd (removelast ps))) -> ordinary (snd (fst x)) /\ ordinary (snd x)).
      { intros [[t p] q] Hx. cbn. split; [apply in_combine_l in Hx; apply (H (t, p)); destruct ps; [destruct Hx|now right]|]. apply in_combine_r in Hx. apply in_map_iff in Hx. destruct Hx as (r & <- & Hr). apply H. now apply removelast_In. }
      revert I. generalize (combine (tl ps) (map snd (removelast ps))). clear. intros u I. induction u as [|[[t p] q] u IH]; auto. cbn. destruct (I (t, p, q)) as [O1 O2]; [now left|]. cbn in O1, O2. rewrite mul_side by auto. assert (IHu : forall x, In x u -> ordinary (snd (fst x)) /\ ordinary (snd x)) by (intros; apply I; now right). specialize (IH IHu). cbn in IH. destruct (qlt (side p * side q) 0); cbn; now rewrite IH.
    - unfold sides. rewrite removelast_map, map_map. replace (tl (map (fun r : Z * f64 => (fst r, side (snd r))) ps)) with (map (fun r : Z * f64 => (fst r, side (snd r))) (tl ps)) by (now destruct ps). cbn [snd]. generalize (tl ps) (removelast ps). clear. intro a. induction a as [|x a IH]; intros [|y b]; auto. cbn. now rewrite IH. }
  cbv zeta. rewrite E1, E2, E3. reflexivity.
Qed.
(** a bet ends where the position, in real numbers, becomes zero or changes sign; the first row also counts when it is flat *)
Theorem c170_timings ps t : StronglySorted Z.lt (map fst ps) -> (forall r, In r ps -> ordinary (snd r)) ->
  StronglySorted Z.lt (fposition_timings ps) /\
  (In t (fposition_timings ps) <->
    (exists p, nth_error ps 0 = Some (t, p) /\ fv p = 0) \/
    exists i s p q, nth_error ps i = Some (s, p) /\ nth_error ps (S i) = Some (t, q) /\ (fv p <> 0 /\ fv q = 0 \/ fv p * fv q < 0)).
Proof.
  intros ST H. assert (TI : times_increase (sides ps)) by (unfold times_increase, sides; rewrite map_map; exact ST). rewrite timings_sides by auto. split.
  { apply sorted_nodup_strict; [apply zsort_sorted|]. unfold position_timings. eapply Permutation_NoDup; [apply zsort_perm|apply NoDup_nodup]. }
  rewrite (@timings_In _ t TI). assert (NE : forall i s x, nth_error (sides ps) i = Some (s, x) <-> exists p, nth_error ps i = Some (s, p) /\ x = side p).
  { intros i s x. unfold sides. rewrite nth_error_map. destruct (nth_error ps i) as [[s' p]|]; cbn; [|split; [discriminate|intros (p & ? & _); discriminate]]. split; [intro E; injection E as <- <-; eauto|intros (p' & E & ->); now injection E as <- <-]. }
  assert (FN : forall i s p, nth_error ps i = Some (s, p) -> fin p) by (intros i s p E; apply nth_error_In in E; apply H in E; apply E).
  split.
  - intros [E|(i & [(p0 & t0 & p & E1 & E2 & N0 & Z)|(p0 & t0 & p & E1 & E2 & C)])].
    + apply NE in E. destruct E as (p & E & SP). left. exists p. split; auto. destruct (side_cases (FN _ _ _ E)) as [[Lp Q]|[[Lp Q]|[Lp Q]]]; auto; rewrite Q in SP; discriminate.
    + apply NE in E1, E2. destruct E1 as (a & E1 & ->), E2 as (b & E2 & ->). right. exists i, t0, a, b. split; auto. split; auto. left. destruct (side_cases (FN _ _ _ E1)) as [[La Q]|[[La Q]|[La Q]]], (side_cases (FN _ _ _ E2)) as [[Lb Q']|[[Lb Q']|[Lb Q']]]; rewrite Q in N0; rewrite Q' in Z; try discriminate; try (exfalso; now apply N0); split; lra.
    + apply NE in E1, E2. destruct E1 as (a & E1 & ->), E2 as (b & E2 & ->). right. exists i, t0, a, b. split; auto. split; auto. right. destruct (side_cases (FN _ _ _ E1)) as [[La Q]|[[La Q]|[La Q]]], (side_cases (FN _ _ _ E2)) as [[Lb Q']|[[Lb Q']|[Lb Q']]]; rewrite Q, Q' in C; first [nra|exfalso; destruct C as [[C1 C2]|[C1 C2]]; first [now apply Qclt_not_eq in C1|discriminate C1|discriminate C2]].
  - intros [(p & E & Zp)|(i & s & p & q & E1 & E2 & C)].
    + left. apply NE. exists p. split; auto. destruct (side_cases (FN _ _ _ E)) as [[Lp Q]|[[Lp Q]|[Lp Q]]]; auto; lra.
    + right. exists i. destruct (side_cases (FN _ _ _ E1)) as [[La Q]|[[La Q]|[La Q]]], (side_cases (FN _ _ _ E2)) as [[Lb Q']|[[Lb Q']|[Lb Q']]]; try (exfalso; destruct C as [C|C]; nra).
      * left. exists (side p), s, (side q). rewrite Q, Q'. split; [apply NE; eauto|]. split; [apply NE; eauto|]. split; auto. discriminate.
      * right. exists (side p), s, (side q). rewrite Q, Q'. split; [apply NE; eauto|]. split; [apply NE; eauto|]. right. split; reflexivity.
      * left. exists (side p), s, (side q). rewrite Q, Q'. split; [apply NE; eauto|]. split; [apply NE; eauto|]. split; auto. discriminate.
      * right. exists (side p), s, (side q). rewrite Q, Q'. split; [apply NE; eauto|]. split; [apply NE; eauto|]. left. split; reflexivity.
Qed.
Print Assumptions c170_timings.
(** a flip between positions so small that their product underflows is missed *)
Theorem c170_timings_refuted : exists p q, fin p /\ fin q /\ fv p * fv q < 0 /\ fposition_timings [(0%Z, p); (1%Z, q)] = [].
Proof.
  exists (ff 1 (-600)), (ff (-1) (-600)). destruct (@ff_exact 1 (-600)) as [F1 V1]; [lia|lia|lia|]. destruct (@ff_exact (-1) (-600)) as [F2 V2]; [lia|lia|lia|]. split; auto. split; auto. split.
  - rewrite V1, V2. pose proof (bpow_gt_0 radix2 (-600)). nra.
  - vm_compute. reflexivity.
Qed.
Print Assumptions c170_timings_refuted.
(** long, flat, short, long: the bets end when the position is closed and when it flips *)
Example c170_example : (forall r, In r [(3%Z, fz 1); (5%Z, fz 0); (8%Z, ff (-1) (-1)); (9%Z, fz 2)] -> ordinary (snd r)) /\
  fposition_timings [(3%Z, fz 1); (5%Z, fz 0); (8%Z, ff (-1) (-1)); (9%Z, fz 2)] = [5%Z; 9%Z].
Proof.
  assert (V : forall m, (0 <= m <= 5)%Z -> fin (fz m) /\ fv (fz m) = IZR m) by (intros m Hm; apply fz_spec; lia).
  assert (B : / 2 = bpow radix2 (-1)) by reflexivity. assert (B1 : bpow radix2 (-500) <= / 2) by (rewrite B; apply bpow_le; lia). assert (B2 : 2 <= bpow radix2 500) by (change 2 with (bpow radix2 1) at 1; apply bpow_le; lia).
  split; [|vm_compute; reflexivity]. destruct (@ff_exact (-1) (-1)) as [F1 V1]; [lia|lia|lia|]. rewrite <- B in V1.
  intros r [<-|[<-|[<-|[<-|[]]]]]; cbn [snd]; split; try apply V; try exact F1; try lia; try (left; apply fz0); right.
  - rewrite (proj2 (V 1%Z ltac:(lia))). rewrite Rabs_pos_eq; lra.
  - rewrite V1. rewrite Rabs_left; lra.
  - rewrite (proj2 (V 2%Z ltac:(lia))). rewrite Rabs_pos_eq; lra.
Qed.
(** ** C171 *)
Lemma zero_shape d : fin d -> fv d = 0 -> exists s, d = B754_zero s.
Proof.
  intros F V. destruct d as [s|s| |s m e b]; try discriminate; eauto. exfalso. unfold fv in V. cbn [B2R] in V. apply eq_0_F2R in V. cbn in V. destruct s; discriminate.
Qed.
Lemma square_zero d : fin d -> fv d = 0 -> fmul d d = B754_zero false.
Proof. intros F V. destruct (zero_shape F V) as ([|] & ->); reflexivity. Qed.
Lemma seval_zeros t : (forall y, In y (leaves t) -> y = B754_zero false) -> seval t = B754_zero false.
Proof.
  induction t as [|x|l IHl r IHr]; cbn; intro H; [reflexivity|apply H; now left|]. rewrite IHl, IHr by (intros; apply H, in_app_iff; auto). reflexivity.
Qed.
Lemma zero_over x : fin x -> 0 < fv x -> fdiv (B754_zero false) x = B754_zero false.
Proof.
  intros F P. destruct x as [s|s| |s m e b]; try discriminate; [unfold fv in P; cbn in P; lra|]. destruct s; [|reflexivity]. exfalso. unfold fv in P. cbn [B2R] in P. apply gt_0_F2R in P. cbn in P. lia.
Qed.
Lemma over_zero x : fin x -> fdiv x (B754_zero false) = if Rlt_bool 0 (fv x) then B754_infinity false else if Rlt_bool (fv x) 0 then B754_infinity true else B754_nan.
Proof.
  intro F. destruct x as [s|s| |s m e b]; try discriminate.
  - unfold fv. cbn [B2R]. rewrite Rlt_bool_false by lra. reflexivity.
  - unfold fv. cbn [B2R]. destruct s; cbn [cond_Zopp].
    + assert (L : F2R (Float radix2 (Z.neg m) e) < 0) by (apply F2R_lt_0; cbn; lia). rewrite Rlt_bool_false by (cbn in *; lra). rewrite Rlt_bool_true by (cbn in *; lra). reflexivity.
    + assert (L : 0 < F2R (Float radix2 (Z.pos m) e)) by (apply F2R_gt_0; cbn; lia). rewrite Rlt_bool_true by (cbn in *; lra). reflexivity.
Qed.
Lemma seval_constant M e N t : (-1074 <= e)%Z -> (e <= 970)%Z -> (Z.abs M * Z.of_nat N < 2 ^ 53)%Z -> (length (leaves t) <= N)%nat ->
  (forall y, In y (leaves t) -> fin y /\ fv y = IZR M * bpow radix2 e) -> fin (seval t) /\ fv (seval t) = IZR (Z.of_nat (length (leaves t)) * M) * bpow radix2 e.
Proof.
  intros E1 E2 B. assert (SM : forall k, (k <= N)%nat -> (Z.abs (Z.of_nat k * M) < 2 ^ 53)%Z) by (intros k Hk; rewrite Z.abs_mul, (Z.abs_eq (Z.of_nat k)) by lia; nia).
  assert (BG : forall m, (Z.abs m < 2 ^ 53)%Z -> Rabs (IZR m * bpow radix2 e) <= big).
  { intros m Hm. rewrite Rabs_mult, (Rabs_pos_eq (bpow radix2 e)) by apply bpow_ge_0. rewrite <- abs_IZR. apply Rle_trans with (bpow radix2 53 * bpow radix2 e); [apply Rmult_le_compat_r; [apply bpow_ge_0|]; change (bpow radix2 53) with (IZR (2 ^ 53)); apply IZR_le; lia|]. rewrite <- bpow_plus. apply bpow_le. lia. }
  induction t as [|x|l IHl r IHr]; cbn [leaves seval]; intros L H.
  - destruct fz0 as [F V]. split; auto. rewrite V. cbn [length Z.of_nat Z.mul]. ring.
  - destruct (H x) as [F V]; [now left|]. split; auto. rewrite V. cbn [length]. change (Z.of_nat 1) with 1%Z. now rewrite Z.mul_1_l.
  - rewrite app_length in *. destruct IHl as [F1 V1]; [lia|intros; apply H, in_app_iff; auto|]. destruct IHr as [F2 V2]; [lia|intros; apply H, in_app_iff; auto|].
    assert (E : fv (seval l) + fv (seval r) = IZR (Z.of_nat (length (leaves l) + length (leaves r)) * M) * bpow radix2 e) by (rewrite V1, V2, Nat2Z.inj_add, Z.mul_add_distr_r, plus_IZR; ring).
    destruct (@fadd_spec _ _ F1 F2) as [F V]; rewrite E in *; [apply BG, SM; lia|]. split; auto. rewrite V. apply rnd64_id, format64_float; auto.
Qed.
(** equal returns that are short enough numbers: no spread at all, in whatever order numpy adds, and the ratio is infinite with the sign of the return, or NaN *)
Theorem c171_constant sum l r M e : is_sum sum -> l <> [] -> (forall y, In y l -> fin y /\ fv y = r) -> r = IZR M * bpow radix2 e -> (-1074 <= e)%Z -> (e <= 970)%Z -> (Z.abs M * Z.of_nat (length l) < 2 ^ 53)%Z -> (Z.of_nat (length l) <= 2 ^ 53)%Z ->
  fv (fmean sum l) = r /\ fstd sum l = B754_zero false /\
  fsharpe_ratio sum l = (if Rlt_bool 0 r then B754_infinity false else if Rlt_bool r 0 then B754_infinity true else B754_nan).
Proof.
  intros SU NE H R E1 E2 B BN. destruct (SU l) as (t & ST & PT & _). pose proof (Permutation_length PT) as LT. assert (LP : (1 <= length l)%nat) by (destruct l; [congruence|cbn; lia]).
  destruct (@seval_constant M e (length l) t E1 E2 B) as [FS VS]; [lia|intros y Hy; rewrite <- R; apply H; now apply (Permutation_in _ PT)|]. rewrite <- ST, LT in *.
  assert (BZ : (Z.abs (Z.of_nat (length l)) <= 2 ^ 53)%Z) by lia. destruct (fz_spec BZ) as [FN VN]. assert (PN : 1 <= fv (fz (Z.of_nat (length l)))) by (rewrite VN; apply IZR_le; lia).
  assert (Q : fv (sum l) / fv (fz (Z.of_nat (length l))) = r) by (rewrite VS, VN, R, mult_IZR; field; rewrite VN in PN; lra).
  assert (NM : (Z.abs M < 2 ^ 53)%Z) by nia. assert (FR : format64 r) by (rewrite R; now apply format64_float).
  assert (BR : Rabs r <= big).
  { rewrite R, Rabs_mult, (Rabs_pos_eq (bpow radix2 e)) by apply bpow_ge_0. rewrite <- abs_IZR. apply Rle_trans with (bpow radix2 53 * bpow radix2 e); [apply Rmult_le_compat_r; [apply bpow_ge_0|]; change (bpow radix2 53) with (IZR (2 ^ 53)); apply IZR_le; lia|]. rewrite <- bpow_plus. apply bpow_le. lia. }
  destruct (@fdiv_spec (sum l) (fz (Z.of_nat (length l))) FS) as [FM VM]; [lra|rewrite Q; auto|]. rewrite Q, (rnd64_id FR) in VM. fold (fmean sum l) in FM, VM.
  assert (SD : fstd sum l = B754_zero false).
  { unfold fstd. cbv zeta. destruct (SU (map (fun x => fmul (fsub x (fmean sum l)) (fsub x (fmean sum l))) l)) as (t2 & -> & P2 & _). rewrite seval_zeros; [rewrite zero_over by (auto; lra); reflexivity|].
    intros y Hy. apply (Permutation_in _ P2) in Hy. apply in_map_iff in Hy. destruct Hy as (x & <- & Hx). destruct (H x Hx) as [Fx Vx]. destruct (@fsub_spec x (fmean sum l) Fx FM) as [F V]; rewrite ?Vx, ?VM in *; [replace (r - r) with 0 by ring; rewrite Rabs_R0; apply bpow_ge_0|]. apply square_zero; auto. rewrite V. replace (r - r) with 0 by ring. apply rnd64_0. }
  split; auto. split; auto. unfold fsharpe_ratio. rewrite SD, over_zero, VM by auto. reflexivity.
Qed.
Print Assumptions c171_constant.
(** three returns of 0.1: the computed mean is above every return, the computed spread is not zero, and the ratio is a number above 10^15 *)
Theorem c171_constant_refuted : is_sum fsum_left /\ let l := [tenth; tenth; tenth] in
  fin (fsharpe_ratio fsum_left l) /\ 1000000000000000 < fv (fsharpe_ratio fsum_left l) /\ fv tenth < fv (fmean fsum_left l) /\ fstd fsum_left l <> B754_zero false.
Proof.
  split; [apply c126_left_sum|]. cbv zeta. assert (F : fin (fsharpe_ratio fsum_left [tenth; tenth; tenth])) by (vm_compute; reflexivity). assert (FM : fin (fmean fsum_left [tenth; tenth; tenth])) by (vm_compute; reflexivity). split; auto. split; [|split].
  - destruct (@fz_spec 1000000000000000) as [FZ VZ]; [lia|]. rewrite <- VZ. apply flt_spec; auto; vm_compute; reflexivity.
  - apply flt_spec; auto; vm_compute; reflexivity.
  - intro E. assert (C : feq (fstd fsum_left [tenth; tenth; tenth]) (fz 0) = false) by (vm_compute; reflexivity). rewrite E in C. discriminate C.
Qed.
Print Assumptions c171_constant_refuted.
(** four returns of -1/8 *)
Example c171_example : fsharpe_ratio fsum_left (repeat (ff (-1) (-3)) 4) = B754_infinity true.
Proof.
  destruct (@ff_exact (-1) (-3)) as [F V]; [lia|lia|lia|].
  destruct (@c171_constant fsum_left (repeat (ff (-1) (-3)) 4) (IZR (-1) * bpow radix2 (-3)) (-1) (-3)) as (_ & _ & ->); try (cbn; lia); auto using c126_left_sum; [discriminate|intros y Hy; apply repeat_spec in Hy; subst y; auto|].
  change (bpow radix2 (-3)) with (/ 8). rewrite Rlt_bool_false by lra. rewrite Rlt_bool_true by lra. reflexivity.
Qed.
