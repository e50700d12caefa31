(** Rounded sums, cumulative sums and floor division. *)
From Coq Require Import ZArith Reals Lra Lia List Permutation.
From Flocq Require Import Core BinarySingleNaN Plus_error.
From Verif Require Import RNum Float64 FloatBarsModel.
Import ListNotations.
Set Implicit Arguments.
Unset Strict Implicit.
Open Scope R_scope.

(** ** Powers of 1 - u and 1 + u *)
Lemma u64_half : u64 <= / 2. Proof. pose proof u64_small. lra. Qed.
Lemma pow_lo_pos n : 0 < (1 - u64) ^ n. Proof. apply pow_lt. pose proof u64_half. lra. Qed.
Lemma pow_hi_pos n : 0 < (1 + u64) ^ n. Proof. apply pow_lt. pose proof u64_pos. lra. Qed.
Lemma pow_lo_le_1 n : (1 - u64) ^ n <= 1.
Proof. pose proof u64_pos. pose proof u64_half. apply Rle_trans with (1 ^ n); [apply pow_incr; lra|rewrite pow1; lra]. Qed.
Lemma pow_hi_ge_1 n : 1 <= (1 + u64) ^ n.
Proof. apply pow_R1_Rle. pose proof u64_pos. lra. Qed.
Lemma pow_lo_mono m n : (m <= n)%nat -> (1 - u64) ^ n <= (1 - u64) ^ m.
Proof. intro H. replace n with (m + (n - m))%nat by lia. rewrite pow_add. pose proof (pow_lo_pos m). pose proof (pow_lo_le_1 (n - m)). nra. Qed.
Lemma pow_hi_mono m n : (m <= n)%nat -> (1 + u64) ^ m <= (1 + u64) ^ n.
Proof. intro H. apply Rle_pow; auto. pose proof u64_pos. lra. Qed.
Lemma bernoulli n : 1 - INR n * u64 <= (1 - u64) ^ n.
Proof.
  induction n as [|n IH]; [cbn; lra|]. rewrite S_INR. cbn [pow]. pose proof (pow_lo_pos n). pose proof u64_pos. pose proof u64_half. pose proof (pos_INR n).
  destruct (Rle_lt_dec (1 - INR n * u64) 0); nra.
Qed.
Lemma hi_le_inv_lo n : (1 + u64) ^ n <= / (1 - u64) ^ n.
Proof.
  pose proof (pow_lo_pos n). apply Rmult_le_reg_r with ((1 - u64) ^ n); auto. rewrite Rinv_l by lra. rewrite <- Rpow_mult_distr.
  replace ((1 + u64) * (1 - u64)) with (1 - u64 * u64) by ring. pose proof u64_pos. pose proof u64_half.
  apply Rle_trans with (1 ^ n); [apply pow_incr; nra|rewrite pow1; lra].
Qed.

(** ** Sums in any order *)
Fixpoint leaves (t : sum_tree) : list f64 := match t with SZero => [] | SLeaf x => [x] | SNode l r => leaves l ++ leaves r end.
Fixpoint depth (t : sum_tree) : nat := match t with SZero | SLeaf _ => 0 | SNode l r => S (Nat.max (depth l) (depth r)) end.
Definition total (l : list f64) : R := rsum (map fv l).
Definition amounts (l : list f64) : Prop := forall x, In x l -> fin x /\ 0 <= fv x.
Lemma total_app l r : total (l ++ r) = total l + total r.
Proof. unfold total. rewrite map_app. apply rsum_app. Qed.
Lemma total_nonneg l : amounts l -> 0 <= total l.
Proof. intro H. apply rsum_nonneg. intros x Hx. apply in_map_iff in Hx. destruct Hx as (y & <- & Hy). now apply H. Qed.
Lemma fz0 : fin (fz 0) /\ fv (fz 0) = 0.
Proof. apply (@fz_spec 0). lia. Qed.
Lemma seval_bounds t : amounts (leaves t) -> total (leaves t) * (1 + u64) ^ depth t <= big ->
  fin (seval t) /\ total (leaves t) * (1 - u64) ^ depth t <= fv (seval t) <= total (leaves t) * (1 + u64) ^ depth t.
Proof.
  pose proof u64_pos as U. pose proof u64_half as U2.
  induction t as [|x|l IHl r IHr]; cbn [leaves depth seval]; intros A H.
  - destruct fz0 as [F V]. unfold total. cbn [map rsum pow]. rewrite V. split; auto. lra.
  - destruct (A x) as [F P]; [now left|]. unfold total. cbn [map rsum pow]. split; auto. lra.
  - rewrite total_app in *. assert (Al : amounts (leaves l)) by (intros x Hx; apply A, in_app_iff; auto). assert (Ar : amounts (leaves r)) by (intros x Hx; apply A, in_app_iff; auto).
    pose proof (total_nonneg Al) as Pl. pose proof (total_nonneg Ar) as Pr. set (d := Nat.max (depth l) (depth r)) in *.
    assert (Ll : (1 - u64) ^ d <= (1 - u64) ^ depth l) by (apply pow_lo_mono; unfold d; lia). assert (Lr : (1 - u64) ^ d <= (1 - u64) ^ depth r) by (apply pow_lo_mono; unfold d; lia).
    assert (Hl : (1 + u64) ^ depth l <= (1 + u64) ^ d) by (apply pow_hi_mono; unfold d; lia). assert (Hr : (1 + u64) ^ depth r <= (1 + u64) ^ d) by (apply pow_hi_mono; unfold d; lia).
    cbn [pow] in *. pose proof (pow_hi_pos d) as Pd. pose proof (pow_lo_pos d) as Qd. pose proof (pow_hi_pos (depth l)). pose proof (pow_hi_pos (depth r)). pose proof (pow_lo_pos (depth l)). pose proof (pow_lo_pos (depth r)).
    set (Sl := total (leaves l)) in *. set (Sr := total (leaves r)) in *.
    assert (T : (Sl + Sr) * (1 + u64) ^ d <= big) by (apply Rle_trans with (2 := H); apply Rmult_le_compat_l; [lra|]; clear - Pd U; nra).
    assert (M : forall s a b, 0 <= s -> a <= b -> s * a <= s * b) by (intros; now apply Rmult_le_compat_l).
    pose proof (M Sl _ _ Pl Ll). pose proof (M Sl _ _ Pl Hl). pose proof (M Sr _ _ Pr Lr). pose proof (M Sr _ _ Pr Hr).
    assert (0 <= Sl * (1 - u64) ^ d) by (apply Rmult_le_pos; lra). assert (0 <= Sr * (1 - u64) ^ d) by (apply Rmult_le_pos; lra).
    assert (0 <= Sl * (1 + u64) ^ d) by (apply Rmult_le_pos; lra). assert (0 <= Sr * (1 + u64) ^ d) by (apply Rmult_le_pos; lra).
    destruct IHl as (Fl & Bl); auto; [lra|]. destruct IHr as (Fr & Br); auto; [lra|].
    assert (Xl : Sl * (1 - u64) ^ d <= fv (seval l) <= Sl * (1 + u64) ^ d) by lra. assert (Xr : Sr * (1 - u64) ^ d <= fv (seval r) <= Sr * (1 + u64) ^ d) by lra.
    destruct (@fadd_spec (seval l) (seval r) Fl Fr) as [F V]; [rewrite Rabs_pos_eq; lra|]. split; auto. rewrite V.
    destruct (add_error (fv_format (seval l)) (fv_format (seval r))) as (e & He & ->). apply Rabs_le_inv in He.
    set (a := fv (seval l)) in *. set (b := fv (seval r)) in *. split.
    + replace ((Sl + Sr) * ((1 - u64) * (1 - u64) ^ d)) with ((Sl * (1 - u64) ^ d + Sr * (1 - u64) ^ d) * (1 - u64)) by ring. apply Rmult_le_compat; lra.
    + replace ((Sl + Sr) * ((1 + u64) * (1 + u64) ^ d)) with ((Sl * (1 + u64) ^ d + Sr * (1 + u64) ^ d) * (1 + u64)) by ring. apply Rmult_le_compat; lra.
Qed.
(** adding one after the other is such a sum *)
Fixpoint left_tree (acc : sum_tree) (l : list f64) : sum_tree := match l with [] => acc | x :: r => left_tree (SNode acc (SLeaf x)) r end.
Lemma left_tree_spec l acc : seval (left_tree acc l) = fold_left fadd l (seval acc) /\ leaves (left_tree acc l) = leaves acc ++ l /\ (depth (left_tree acc l) = depth acc + length l)%nat.
Proof.
  revert acc. induction l as [|x l IH]; intro acc; cbn [left_tree fold_left length]; [rewrite app_nil_r; auto|].
  destruct (IH (SNode acc (SLeaf x))) as (A & B & C). cbn [seval leaves depth] in *. rewrite A, B, C. rewrite <- app_assoc. repeat split. lia.
Qed.

(** ** Cumulative sums *)
Lemma cumsum_step s x : fin s -> fin x -> 0 <= fv s -> 0 <= fv x -> fv s + fv x <= big ->
  fin (fadd s x) /\ fv s <= fv (fadd s x) /\ (fv s + fv x) * (1 - u64) <= fv (fadd s x) <= (fv s + fv x) * (1 + u64).
Proof.
  intros Fs Fx Ps Px B. destruct (@fadd_spec s x Fs Fx) as [F V]; [rewrite Rabs_pos_eq; lra|]. split; auto. rewrite V. split.
  - rewrite <- (rnd64_fv s) at 1. apply rnd64_mono. lra.
  - destruct (add_error (fv_format s) (fv_format x)) as (e & He & ->). apply Rabs_le_inv in He. split; apply Rmult_le_compat_l; lra.
Qed.
Lemma fcumsum_from_spec l : forall s S k, fin s -> amounts l -> 0 <= S -> S * (1 - u64) ^ k <= fv s <= S * (1 + u64) ^ k ->
  (S + total l) * (1 + u64) ^ (k + length l) <= big ->
  length (fcumsum_from s l) = length l /\
  forall i x, nth_error (fcumsum_from s l) i = Some x ->
    fin x /\ fv s <= fv x /\ (S + total (firstn (i + 1) l)) * (1 - u64) ^ (k + i + 1) <= fv x <= (S + total (firstn (i + 1) l)) * (1 + u64) ^ (k + i + 1) /\
    forall j y, nth_error (fcumsum_from s l) j = Some y -> (i <= j)%nat -> fv x <= fv y.
Proof.
  pose proof u64_pos as U. pose proof u64_half as U2.
  induction l as [|a l IH]; intros s S k Fs A PS B H; cbn [fcumsum_from length]; [split; auto; intros [|i] x E; discriminate|].
  destruct (A a) as [Fa Pa]; [now left|]. assert (Al : amounts l) by (intros x Hx; apply A; now right). pose proof (total_nonneg Al) as Pl.
  assert (ET : forall n, total (firstn (n + 1) (a :: l)) = fv a + total (firstn n l)) by (intro n; rewrite Nat.add_1_r; reflexivity).
  assert (T : total (a :: l) = fv a + total l) by reflexivity. rewrite T in H. cbn [length] in H.
  pose proof (pow_lo_pos k) as Lk. pose proof (pow_hi_pos k) as Hk. pose proof (pow_hi_ge_1 k) as H1. pose proof (pow_lo_le_1 k) as L1.
  assert (Mk : (1 + u64) ^ k <= (1 + u64) ^ (k + Datatypes.S (length l))) by (apply pow_hi_mono; lia).
  assert (Ps : 0 <= fv s) by (apply Rle_trans with (2 := proj1 B); apply Rmult_le_pos; lra).
  assert (BB : fv s + fv a <= (S + fv a) * (1 + u64) ^ k) by nra.
  assert (BB2 : (S + fv a) * (1 + u64) ^ k <= big).
  { apply Rle_trans with (2 := H). apply Rle_trans with ((S + (fv a + total l)) * (1 + u64) ^ k); [apply Rmult_le_compat_r; lra|apply Rmult_le_compat_l; lra]. }
  destruct (@cumsum_step s a Fs Fa Ps Pa) as (Fn & Mn & Bn); [lra|]. set (s' := fadd s a) in *.
  assert (B' : (S + fv a) * (1 - u64) ^ (k + 1) <= fv s' <= (S + fv a) * (1 + u64) ^ (k + 1)).
  { rewrite !Nat.add_1_r. cbn [pow]. assert ((S + fv a) * (1 - u64) ^ k <= fv s + fv a) by nra. split.
    - apply Rle_trans with (2 := proj1 Bn). rewrite Rmult_comm, Rmult_assoc, (Rmult_comm (fv s + fv a)). apply Rmult_le_compat_l; [lra|]. rewrite Rmult_comm. lra.
    - apply Rle_trans with (1 := proj2 Bn). rewrite (Rmult_comm (S + fv a)), Rmult_assoc, (Rmult_comm (fv s + fv a)). apply Rmult_le_compat_l; [lra|]. rewrite Rmult_comm. lra. }
  destruct (IH s' (S + fv a) (k + 1)%nat Fn Al) as (L & P); auto; [lra|replace (k + 1 + length l)%nat with (k + Datatypes.S (length l))%nat by lia; rewrite Rplus_assoc; exact H|].
  split; [now rewrite L|].
  intros [|i] x E; cbn [nth_error] in E.
  - injection E as <-. rewrite ET. cbn [firstn]. unfold total at 1 2. cbn [map rsum]. rewrite !Rplus_0_r, Nat.add_0_r. repeat split; auto; try apply B'.
    intros [|j] y Ej _; cbn [nth_error] in Ej; [injection Ej as <-; lra|]. apply (P j y Ej).
  - destruct (P i x E) as (P1 & P2 & P3 & P4). split; auto. split; [lra|]. split.
    + rewrite ET. replace (k + Datatypes.S i + 1)%nat with (k + 1 + i + 1)%nat by lia. replace (Datatypes.S i) with (i + 1)%nat by lia. rewrite <- !Rplus_assoc. exact P3.
    + intros [|j] y Ej Hj; [lia|]. cbn [nth_error] in Ej. apply (P4 j y Ej). lia.
Qed.
Lemma fcumsum_spec l : amounts l -> total l * (1 + u64) ^ length l <= big ->
  length (fcumsum l) = length l /\
  forall i x, nth_error (fcumsum l) i = Some x ->
    fin x /\ 0 <= fv x /\ total (firstn (i + 1) l) * (1 - u64) ^ i <= fv x <= total (firstn (i + 1) l) * (1 + u64) ^ i /\
    forall j y, nth_error (fcumsum l) j = Some y -> (i <= j)%nat -> fv x <= fv y.
Proof.
  intros A H. destruct l as [|a l]; cbn [fcumsum length]; [split; auto; intros [|i] x E; discriminate|].
  destruct (A a) as [Fa Pa]; [now left|]. assert (Al : amounts l) by (intros x Hx; apply A; now right). pose proof (total_nonneg Al) as Pl.
  assert (ET : forall n, total (firstn (n + 1) (a :: l)) = fv a + total (firstn n l)) by (intro n; rewrite Nat.add_1_r; reflexivity).
  destruct (@fcumsum_from_spec l a (fv a) 0%nat) as (L & P); auto; [cbn; lra| |].
  { change (total (a :: l)) with (fv a + total l) in H. cbn [length] in H. apply Rle_trans with (2 := H). apply Rmult_le_compat_l; [lra|]. apply pow_hi_mono. lia. }
  split; [now rewrite L|]. intros [|i] x E; cbn [nth_error] in E.
  - injection E as <-. rewrite ET. unfold total at 1 2. cbn [firstn map rsum pow]. repeat split; auto; try lra.
    intros [|j] y Ej _; cbn [nth_error] in Ej; [injection Ej as <-; lra|]. apply (P j y Ej).
  - destruct (P i x E) as (P1 & P2 & P3 & P4). split; auto. split; [lra|]. split.
    + rewrite ET. replace (Datatypes.S i) with (i + 1)%nat by lia. exact P3.
    + intros [|j] y Ej Hj; [lia|]. cbn [nth_error] in Ej. apply (P4 j y Ej). lia.
Qed.

(** ** fmod and floor division *)
Lemma bounded_mantissa m e : SpecFloat.bounded 53 1024 m e = true -> (Z.pos m < 2 ^ 53)%Z /\ (-1074 <= e)%Z.
Proof.
  intro B. apply andb_prop in B. destruct B as [C _]. unfold SpecFloat.canonical_mantissa in C. apply Zeq_bool_eq in C. unfold SpecFloat.fexp, SpecFloat.emin in C.
  rewrite Digits.Zpos_digits2_pos in C. assert (D : (Digits.Zdigits radix2 (Z.pos m) <= 53)%Z) by lia. split; [|lia].
  pose proof (Digits.Zdigits_correct radix2 (Z.pos m)) as [_ H]. change (Z.abs (Z.pos m)) with (Z.pos m) in H.
  apply Z.lt_le_trans with (1 := H). change (2 ^ 53)%Z with (Zpower radix2 53). apply Zpower_le. exact D.
Qed.
Lemma format64_float m e : (Z.abs m < 2 ^ 53)%Z -> (-1074 <= e)%Z -> format64 (IZR m * bpow radix2 e).
Proof. intros Hm He. apply generic_format_FLT. apply FLT_spec with (Float radix2 m e); [reflexivity|exact Hm|exact He]. Qed.
Lemma fin_lt_big x : fin x -> Rabs (fv x) < bpow radix2 1024.
Proof. intro F. apply abs_B2R_lt_emax. Qed.
Lemma ffmod_spec a b : fin a -> fin b -> 0 <= fv a <= big -> 0 < fv b ->
  fin (ffmod a b) /\ fv (ffmod a b) = fv a - IZR (Zfloor (fv a / fv b)) * fv b.
Proof.
  intros Fa Fb [Pa Ba] Pb. destruct b as [sb|sb| |sb mb eb Bb]; try discriminate; [cbn in Pb; lra|].
  destruct a as [sa|sa| |sa ma ea Ha]; try discriminate.
  - cbn [ffmod]. split; auto. change (fv (B754_zero sa)) with 0 at 1 2. unfold Rdiv. rewrite Rmult_0_l, Zfloor_IZR. cbn. ring.
  - assert (S : sa = false). { destruct sa; auto. exfalso. unfold fv in Pa. cbn [B2R] in Pa. assert (F2R (Float radix2 (cond_Zopp true (Z.pos ma)) ea) < 0) by (apply F2R_lt_0; reflexivity). lra. }
    assert (S' : sb = false). { destruct sb; auto. exfalso. unfold fv in Pb. cbn [B2R] in Pb. assert (F2R (Float radix2 (cond_Zopp true (Z.pos mb)) eb) < 0) by (apply F2R_lt_0; reflexivity). lra. }
    subst sa sb. cbn [ffmod]. set (e := Z.min ea eb). set (A := (Z.pos ma * 2 ^ (ea - e))%Z). set (B := (Z.pos mb * 2 ^ (eb - e))%Z).
    destruct (bounded_mantissa Ha) as [Ma Ea]. destruct (bounded_mantissa Bb) as [Mb Eb].
    assert (PA : (0 < A)%Z) by (apply Z.mul_pos_pos; [reflexivity|apply Z.pow_pos_nonneg; lia]). assert (PB : (0 < B)%Z) by (apply Z.mul_pos_pos; [reflexivity|apply Z.pow_pos_nonneg; lia]).
    assert (V : forall m x, (e <= x)%Z -> IZR (Z.pos m) * bpow radix2 x = IZR (Z.pos m * 2 ^ (x - e)) * bpow radix2 e).
    { intros m x Hx. rewrite mult_IZR. change 2%Z with (radix_val radix2). rewrite IZR_Zpower by lia. rewrite Rmult_assoc, <- bpow_plus. do 2 f_equal. lia. }
    assert (VA : fv (B754_finite false ma ea Ha) = IZR A * bpow radix2 e) by (exact (V ma ea ltac:(unfold e; lia))). assert (VB : fv (B754_finite false mb eb Bb) = IZR B * bpow radix2 e) by (exact (V mb eb ltac:(unfold e; lia))).
    rewrite VA, VB in *. pose proof (bpow_gt_0 radix2 e) as PE.
    rewrite Z.rem_mod_nonneg by lia.
    assert (EF : Zfloor (IZR A * bpow radix2 e / (IZR B * bpow radix2 e)) = (A / B)%Z).
    { replace (IZR A * bpow radix2 e / (IZR B * bpow radix2 e)) with (IZR A / IZR B) by (field; split; [lra|apply IZR_neq; lia]). apply Zfloor_div. lia. }
    rewrite EF. pose proof (Z.mod_pos_bound A B PB) as MB. pose proof (Z.mod_le A B ltac:(lia) PB) as MA.
    assert (R : (A mod B < 2 ^ 53)%Z).
    { unfold e in *. destruct (Z.min_spec ea eb) as [[_ E]|[_ E]].
      - apply Z.le_lt_trans with (1 := MA). unfold A, e. rewrite E, Z.sub_diag, Z.pow_0_r, Z.mul_1_r. exact Ma.
      - apply Z.lt_trans with (1 := proj2 MB). unfold B, e. rewrite E, Z.sub_diag, Z.pow_0_r, Z.mul_1_r. exact Mb. }
    assert (AR : IZR (A mod B) <= IZR A) by now apply IZR_le. assert (0 <= IZR (A mod B)) by (apply IZR_le; lia).
    destruct (@ff_spec (A mod B) e) as [F VR].
    + rewrite Rabs_pos_eq by (apply Rmult_le_pos; lra). apply Rle_trans with (2 := Ba). apply Rmult_le_compat_r; lra.
    + split; auto. rewrite VR. rewrite rnd64_id by (apply format64_float; [lia|unfold e; lia]).
      rewrite (Z.mod_eq A B) by lia. rewrite minus_IZR, mult_IZR. ring.
Qed.
Lemma ffloor_spec x : fin x -> fin (ffloor x) /\ fv (ffloor x) = IZR (Zfloor (fv x)).
Proof.
  intro F. destruct (Bnearbyint_correct 53 1024 _ mode_DN x) as (V & F' & _). split; [unfold fin, ffloor; now rewrite F'|].
  unfold fv, ffloor. rewrite V. unfold round, F2R, scaled_mantissa, cexp, FIX_exp. cbn. now rewrite !Rmult_1_r.
Qed.
(** floor division is exact as long as the quotient stays below 2^50 *)
Lemma ffloordiv_spec a b : fin a -> fin b -> 0 <= fv a <= big -> 0 < fv b -> fv a <= bpow radix2 50 * fv b ->
  fin (ffloordiv a b) /\ fv (ffloordiv a b) = IZR (Zfloor (fv a / fv b)).
Proof.
  intros Fa Fb Ha Hb Hq. destruct (ffmod_spec Fa Fb Ha Hb) as [Fm Vm]. unfold ffloordiv. set (m := ffmod a b) in *. set (k := Zfloor (fv a / fv b)) in *.
  pose proof (Zfloor_lb (fv a / fv b)) as K1. pose proof (Zfloor_ub (fv a / fv b)) as K2. fold k in K1, K2.
  assert (K1' : IZR k * fv b <= fv a) by (apply Rmult_le_reg_r with (/ fv b); [now apply Rinv_0_lt_compat|]; rewrite Rmult_assoc, Rinv_r by lra; rewrite Rmult_1_r; exact K1).
  assert (K2' : fv a < (IZR k + 1) * fv b) by (apply Rmult_lt_reg_r with (/ fv b); [now apply Rinv_0_lt_compat|]; rewrite (Rmult_assoc (IZR k + 1)), Rinv_r by lra; rewrite Rmult_1_r; exact K2).
  assert (K0 : (0 <= k)%Z). { apply Zfloor_lub. cbn. apply Rmult_le_pos; [lra|]. left. now apply Rinv_0_lt_compat. }
  assert (PK : 0 <= IZR k) by (now apply IZR_le).
  assert (KB : IZR k <= bpow radix2 50). { apply Rmult_le_reg_r with (fv b); auto. lra. }
  assert (Pm : 0 <= fv m < fv b) by (rewrite Vm; lra).
  destruct fz0 as [F0 V0]. destruct (@fz_spec 1 ltac:(lia)) as [F1 V1].
  destruct (@fsub_spec a m Fa Fm) as [Fs Vs]; [rewrite Vm; replace (fv a - (fv a - IZR k * fv b)) with (IZR k * fv b) by ring; rewrite Rabs_pos_eq by (apply Rmult_le_pos; lra); lra|].
  assert (EV : fv a - fv m = IZR k * fv b) by (rewrite Vm; ring).
  destruct (@add_error (fv a) (- fv m) (fv_format a) (generic_format_opp _ _ _ (fv_format m))) as (e1 & E1 & EE1).
  change (fv a + - fv m) with (fv a - fv m) in EE1. rewrite EV in EE1, Vs. rewrite EE1 in Vs. apply Rabs_le_inv in E1.
  pose proof u64_pos as U. pose proof u64_half as U2. pose proof u64_small as U3.
  assert (QV : fv (fsub a m) / fv b = IZR k * (1 + e1)) by (rewrite Vs; field; lra).
  assert (QB : 0 <= IZR k * (1 + e1) <= 2 * bpow radix2 50) by (split; [apply Rmult_le_pos; lra|]; rewrite Rmult_comm; apply Rmult_le_compat; lra).
  assert (B50 : 2 * bpow radix2 50 <= big). { change 2 with (bpow radix2 1). rewrite <- bpow_plus. apply bpow_le. lia. }
  destruct (@fdiv_spec (fsub a m) b Fs ltac:(lra)) as [Fd Vd]; [rewrite QV, Rabs_pos_eq; lra|]. rewrite QV in Vd. set (d := fdiv (fsub a m) b) in *.
  assert (ED : (if feq m (fz 0) then d else if Bool.eqb (flt b (fz 0)) (flt m (fz 0)) then d else fsub d (fz 1)) = d).
  { destruct (feq m (fz 0)); auto. replace (flt b (fz 0)) with false; [replace (flt m (fz 0)) with false; auto|]; symmetry; apply Bool.not_true_iff_false; intro C; apply flt_spec in C; auto; lra. }
  rewrite ED. clear ED. destruct (Z.eq_dec k 0) as [Z0|NZ].
  - rewrite Z0 in *. rewrite Rmult_0_l, rnd64_0 in Vd. replace (feq d (fz 0)) with true; [split; auto|]. symmetry. apply feq_spec; auto.
  - assert (K3 : 1 <= IZR k) by (apply IZR_le; lia). assert (NB : bpow radix2 (-1022) <= / 2) by (replace (/ 2) with (bpow radix2 (-1)) by (cbn; lra); apply bpow_le; lia).
    assert (QL : / 2 <= IZR k * (1 + e1)) by (rewrite <- (Rmult_1_l (/ 2)); apply Rmult_le_compat; lra).
    destruct (@rnd_error (IZR k * (1 + e1))) as (e2 & E2 & EE2); [rewrite Rabs_pos_eq; lra|]. rewrite EE2 in Vd. apply Rabs_le_inv in E2.
    assert (UU : bpow radix2 50 * u64 = / 8). { unfold ulp64. rewrite <- bpow_plus. cbn. lra. }
    assert (DK : - (3 / 8) < fv d - IZR k < 3 / 8).
    { rewrite Vd. replace (IZR k * (1 + e1) * (1 + e2) - IZR k) with (IZR k * (e1 + e2 + e1 * e2)) by ring.
      assert (X : Rabs (e1 + e2 + e1 * e2) <= 2 * u64 + / 2 * u64) by (apply Rabs_le; nra). apply Rabs_lt_inv.
      rewrite Rabs_mult, (Rabs_pos_eq (IZR k)) by lra. apply Rle_lt_trans with (bpow radix2 50 * (2 * u64 + / 2 * u64)); [apply Rmult_le_compat; try lra; apply Rabs_pos|].
      replace (bpow radix2 50 * (2 * u64 + / 2 * u64)) with (2 * (bpow radix2 50 * u64) + / 2 * (bpow radix2 50 * u64)) by ring. rewrite UU. lra. }
    assert (ND : feq d (fz 0) = false) by (apply Bool.not_true_iff_false; intro C; apply feq_spec in C; auto; lra). rewrite ND.
    destruct (ffloor_spec Fd) as [Ff Vf]. set (f := ffloor d) in *.
    assert (KI : (k <= 2 ^ 50)%Z) by (apply le_IZR; change (IZR (2 ^ 50)) with (IZR (Zpower radix2 50)); rewrite IZR_Zpower by lia; exact KB).
    assert (H2 : fin (ff 1 (-1)) /\ fv (ff 1 (-1)) = / 2).
    { assert (EH : IZR 1 * bpow radix2 (-1) = / 2) by (cbn; lra).
      destruct (@ff_spec 1 (-1)) as [A B]; [rewrite EH, Rabs_pos_eq by lra; apply Rle_trans with (bpow radix2 0); [cbn; lra|apply bpow_le; lia]|].
      split; auto. rewrite B, rnd64_id; [exact EH|]. apply (@format64_float 1 (-1)); lia. }
    destruct H2 as [Fh Vh]. assert (big1 : 1 <= big) by (change 1 with (bpow radix2 0); apply bpow_le; lia).
    assert (FC : Zfloor (fv d) = k \/ Zfloor (fv d) = (k - 1)%Z).
    { destruct (Rle_lt_dec (IZR k) (fv d)) as [L|L].
      - left. apply Zfloor_imp. rewrite plus_IZR. lra.
      - right. apply Zfloor_imp. rewrite plus_IZR, minus_IZR. lra. }
    destruct FC as [FC|FC]; rewrite FC in Vf.
    + assert (LB := Zfloor_lb (fv d)). rewrite FC in LB. destruct (@fsub_spec d f Fd Ff) as [Fr Vr]; [rewrite Vf, Rabs_pos_eq; lra|].
      replace (flt (ff 1 (-1)) (fsub d f)) with false; [split; auto|]. symmetry. apply Bool.not_true_iff_false. intro C. apply flt_spec in C; auto. rewrite Vh, Vr, Vf in C.
      assert (rnd64 (fv d - IZR k) <= rnd64 (/ 2)) by (apply rnd64_mono; lra). rewrite <- Vh in H at 1. rewrite rnd64_fv in H. lra.
    + rewrite minus_IZR in Vf. destruct (@fsub_spec d f Fd Ff) as [Fr Vr]; [rewrite Vf, Rabs_pos_eq; lra|].
      assert (F58 : format64 (5 / 8)). { replace (5 / 8) with (IZR 5 * bpow radix2 (-3)) by (cbn; lra). apply format64_float; lia. }
      assert (L58 : rnd64 (5 / 8) <= rnd64 (fv d - fv f)) by (apply rnd64_mono; rewrite Vf; lra). rewrite (rnd64_id F58) in L58.
      replace (flt (ff 1 (-1)) (fsub d f)) with true by (symmetry; apply flt_spec; auto; lra).
      destruct (@fadd_spec f (fz 1) Ff F1) as [Fx Vx]; [rewrite Vf, V1, Rabs_pos_eq by lra; lra|]. split; auto. rewrite Vx, Vf, V1.
      replace (IZR k - 1 + 1) with (IZR k) by ring. apply rnd64_int. lia.
Qed.
