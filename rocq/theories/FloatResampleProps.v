(** C185: resampled volume and VWAP in binary64. *)
From Coq Require Import ZArith List Bool Reals Lra Lia Permutation.
From Flocq Require Import Core BinarySingleNaN.
From Verif Require Import Py RNum Float64 FloatBarsModel FloatBarsProofs FloatBarsProps FloatResampleModel.
Import ListNotations.
Set Implicit Arguments.
Unset Strict Implicit.
Open Scope R_scope.

(** x is y but for k roundings *)
Definition rel (k : nat) (x y : R) : Prop := y * (1 - u64) ^ k <= x <= y / (1 - u64) ^ k.
Lemma rel_pos k x y : 0 < y -> rel k x y -> 0 < x.
Proof. intros Y [H _]. apply Rlt_le_trans with (2 := H). apply Rmult_lt_0_compat; auto. apply pow_lo_pos. Qed.
Lemma rel_mono j k x y : 0 <= y -> (j <= k)%nat -> rel j x y -> rel k x y.
Proof.
  intros Y L [A B]. pose proof (pow_lo_mono L) as M. pose proof (pow_lo_pos j). pose proof (pow_lo_pos k). split.
  - apply Rle_trans with (2 := A). now apply Rmult_le_compat_l.
  - apply Rle_trans with (1 := B). apply Rmult_le_compat_l; auto. now apply Rinv_le.
Qed.
Lemma rel_mul j k x y a b : 0 < y -> 0 < b -> rel j x y -> rel k a b -> rel (j + k) (x * a) (y * b).
Proof.
  intros Y B R1 R2. pose proof (rel_pos Y R1). pose proof (rel_pos B R2). destruct R1 as [A1 A2]. destruct R2 as [B1 B2]. unfold rel. rewrite pow_add. pose proof (pow_lo_pos j). pose proof (pow_lo_pos k). set (p := (1 - u64) ^ j) in *. set (q := (1 - u64) ^ k) in *. split.
  - replace (y * b * (p * q)) with (y * p * (b * q)) by ring. apply Rmult_le_compat; auto; apply Rmult_le_pos; lra.
  - replace (y * b / (p * q)) with (y / p * (b / q)) by (field; lra). apply Rmult_le_compat; lra.
Qed.
Lemma rel_inv k a b : 0 < b -> rel k a b -> rel k (/ a) (/ b).
Proof.
  intros B R2. pose proof (rel_pos B R2) as A. destruct R2 as [B1 B2]. unfold rel. pose proof (pow_lo_pos k). set (q := (1 - u64) ^ k) in *. split.
  - replace (/ b * q) with (/ (b / q)) by (field; lra). now apply Rinv_le.
  - replace (/ b / q) with (/ (b * q)) by (field; lra). apply Rinv_le; auto. apply Rmult_lt_0_compat; lra.
Qed.
Lemma rel_div j k x y a b : 0 < y -> 0 < b -> rel j x y -> rel k a b -> rel (j + k) (x / a) (y / b).
Proof. intros Y B R1 R2. apply rel_mul; auto; [now apply Rinv_0_lt_compat|now apply rel_inv]. Qed.
Lemma rel_trans j k x y z : 0 < z -> rel j x y -> rel k y z -> rel (j + k) x z.
Proof.
  intros Z0 [A1 A2] [B1 B2]. unfold rel. rewrite pow_add. pose proof (pow_lo_pos j). pose proof (pow_lo_pos k). set (p := (1 - u64) ^ j) in *. set (q := (1 - u64) ^ k) in *. split.
  - apply Rle_trans with (2 := A1). replace (z * (p * q)) with (z * q * p) by ring. apply Rmult_le_compat_r; lra.
  - apply Rle_trans with (1 := A2). replace (z / (p * q)) with (z / q * / p) by (field; lra). apply Rmult_le_compat_r; auto. left. now apply Rinv_0_lt_compat.
Qed.
Lemma rel_refl y : rel 0 y y. Proof. unfold rel. cbn [pow]. lra. Qed.
Lemma rel_rnd x : bpow radix2 (-1022) <= x -> rel 1 (rnd64 x) x.
Proof.
  intro H. assert (0 < x) by (apply Rlt_le_trans with (2 := H), bpow_gt_0). destruct (@rnd_error x) as (e & He & ->); [rewrite Rabs_pos_eq; lra|]. apply Rabs_le_inv in He. pose proof u64_pos. pose proof u64_half. unfold rel. rewrite pow_1. split; [apply Rmult_le_compat_l; lra|].
  apply Rmult_le_compat_l; [lra|]. apply Rle_trans with (1 + u64); [lra|]. pose proof (hi_le_inv_lo 1) as L. now rewrite !pow_1 in L.
Qed.
Lemma rel_sum k l m : Forall2 (rel k) l m -> rel k (rsum l) (rsum m).
Proof. unfold rel, Rdiv. induction 1 as [|x y l m [A B] F [I1 I2]]; unfold rsum in *; cbn [fold_right]; [lra|]. lra. Qed.
Lemma rel_fsum sum l n : is_sum sum -> amounts l -> (length l <= n)%nat -> total l / (1 - u64) ^ n <= big -> fin (sum l) /\ rel n (fv (sum l)) (total l).
Proof.
  intros HS A L B. pose proof (total_nonneg A) as T. pose proof (hi_le_inv_lo n) as H. destruct (@sum_bounds sum l n HS A L) as (F & B1 & B2); [apply Rle_trans with (2 := B); now apply Rmult_le_compat_l|]. split; auto. split; auto. apply Rle_trans with (1 := B2). now apply Rmult_le_compat_l.
Qed.

(** ** one VWAP *)
Definition vw (l : list (R * R)) : R := rsum (map (fun t => fst t * snd t) l) / rsum (map snd l).
Definition pairs (ticks : list ftick) : list (R * R) := map (fun t => (fv (ft_price t), fv (ft_vol t))) ticks.
Definition ranged (k : Z) (x : f64) : Prop := fin x /\ bpow radix2 (- k) <= fv x <= bpow radix2 k.
Lemma ranged_pos k x : ranged k x -> 0 < fv x.
Proof. intros (_ & A & _). apply Rlt_le_trans with (2 := A), bpow_gt_0. Qed.
Lemma half_pow n : INR n * u64 <= / 2 -> / 2 <= (1 - u64) ^ n.
Proof. intro H. pose proof (bernoulli n). lra. Qed.
Lemma total_range a b l : 0 <= a -> l <> [] -> (forall x, In x l -> a <= x <= b) -> a <= rsum l <= INR (length l) * b.
Proof.
  intros A NE H. destruct l as [|x l]; [congruence|]. clear NE. revert x H. induction l as [|y l IH]; intros x H.
  - unfold rsum. cbn [fold_right length INR]. specialize (H x (or_introl eq_refl)). lra.
  - destruct (IH y) as [I1 I2]; [intros z Hz; apply H; now right|]. specialize (H x (or_introl eq_refl)). change (rsum (x :: y :: l)) with (x + rsum (y :: l)). change (length (x :: y :: l)) with (S (length (y :: l))). rewrite S_INR. lra.
Qed.
Lemma vwap_rel sum ticks : is_sum sum -> ticks <> [] -> (Z.of_nat (length ticks) <= 2 ^ 50)%Z -> (forall t, In t ticks -> ranged 400 (ft_price t) /\ ranged 400 (ft_vol t)) ->
  fin (sum (map ft_vol ticks)) /\ rel (length ticks) (fv (sum (map ft_vol ticks))) (rsum (map snd (pairs ticks))) /\
  fin (fvwap sum ticks) /\ rel (2 * length ticks + 2) (fv (fvwap sum ticks)) (vw (pairs ticks)).
Proof.
  intros HS NE HN HT. set (n := length ticks) in *. pose proof u64_pos as U0. pose proof u64_small as U1.
  assert (NU : INR n * u64 <= / 8). { rewrite INR_IZR_INZ. unfold ulp64. apply Rle_trans with (bpow radix2 50 * bpow radix2 (-53)); [|rewrite <- bpow_plus; cbn; lra]. apply Rmult_le_compat_r; [apply bpow_ge_0|]. rewrite <- IZR_Zpower by lia. now apply IZR_le. }
  assert (NB : INR n <= bpow radix2 50) by (rewrite INR_IZR_INZ, <- IZR_Zpower by lia; now apply IZR_le). pose proof (half_pow (n := n) ltac:(lra)) as HP. pose proof (pow_lo_pos n) as PP.
  assert (INV : forall x, 0 <= x -> x / (1 - u64) ^ n <= x * 2). { intros x X. apply Rmult_le_compat_l; auto. rewrite <- (Rinv_inv 2). apply Rinv_le; lra. }
  (* volumes *)
  assert (AV : amounts (map ft_vol ticks)) by (intros x Hx; apply in_map_iff in Hx; destruct Hx as (t & <- & Ht); destruct (HT t Ht) as [_ R]; split; [apply R|left; now apply ranged_pos in R]).
  assert (EV : total (map ft_vol ticks) = rsum (map snd (pairs ticks))) by (unfold total, pairs; rewrite !map_map; reflexivity).
  assert (BV : bpow radix2 (-400) <= rsum (map snd (pairs ticks)) <= bpow radix2 450).
  { destruct (@total_range (bpow radix2 (-400)) (bpow radix2 400) (map snd (pairs ticks))) as [T1 T2]; [apply bpow_ge_0|unfold pairs; destruct ticks; [congruence|discriminate]| |].
    - intros x Hx. unfold pairs in Hx. rewrite map_map in Hx. apply in_map_iff in Hx. destruct Hx as (t & <- & Ht). apply (HT t Ht).
    - split; auto. apply Rle_trans with (1 := T2). unfold pairs. rewrite !map_length. fold n. change 450%Z with (50 + 400)%Z. rewrite bpow_plus. apply Rmult_le_compat_r; auto. apply bpow_ge_0. }
  assert (B2 : forall k, (0 <= k <= 900)%Z -> bpow radix2 k * 2 <= big) by (intros k K; change 2 with (bpow radix2 1); rewrite <- bpow_plus; apply bpow_le; lia). pose proof (bpow_gt_0 radix2 (-400)) as G4.
  destruct (@rel_fsum sum (map ft_vol ticks) n HS AV) as [FV RV]; [rewrite map_length; fold n; lia|rewrite EV; eapply Rle_trans; [apply INV; lra|]; apply Rle_trans with (2 := B2 450%Z ltac:(lia)); apply Rmult_le_compat_r; [lra|apply BV]|]. rewrite EV in RV. split; auto. split; auto.
  (* products *)
  assert (PR : forall t, In t ticks -> fin (fmul (ft_price t) (ft_vol t)) /\ rel 1 (fv (fmul (ft_price t) (ft_vol t))) (fv (ft_price t) * fv (ft_vol t)) /\ bpow radix2 (-800) <= fv (ft_price t) * fv (ft_vol t) <= bpow radix2 800).
  { intros t Ht. destruct (HT t Ht) as [(Fp & P1 & P2) (Fq & Q1 & Q2)]. assert (B : bpow radix2 (-800) <= fv (ft_price t) * fv (ft_vol t) <= bpow radix2 800). { change (-800)%Z with (-400 + -400)%Z. change 800%Z with (400 + 400)%Z. rewrite !bpow_plus. change (- (400))%Z with (-400)%Z in *. split; apply Rmult_le_compat; lra. }
    pose proof (bpow_gt_0 radix2 (-800)). assert (big800 : bpow radix2 800 <= big) by (apply bpow_le; lia). destruct (@fmul_spec (ft_price t) (ft_vol t) Fp Fq) as [F V]; [rewrite Rabs_pos_eq; lra|]. split; auto. split; auto. rewrite V. apply rel_rnd. apply Rle_trans with (2 := proj1 B). apply bpow_le. lia. }
  set (ps := map (fun t => fmul (ft_price t) (ft_vol t)) ticks). set (Pt := rsum (map (fun t => fst t * snd t) (pairs ticks))).
  assert (BP : bpow radix2 (-800) <= Pt <= bpow radix2 850).
  { destruct (@total_range (bpow radix2 (-800)) (bpow radix2 800) (map (fun t => fst t * snd t) (pairs ticks))) as [T1 T2]; [apply bpow_ge_0|unfold pairs; destruct ticks; [congruence|discriminate]| |].
    - intros x Hx. unfold pairs in Hx. rewrite map_map in Hx. apply in_map_iff in Hx. destruct Hx as (t & <- & Ht). apply (PR t Ht).
    - split; auto. apply Rle_trans with (1 := T2). unfold pairs. rewrite !map_length. fold n. change 850%Z with (50 + 800)%Z. rewrite bpow_plus. apply Rmult_le_compat_r; auto. apply bpow_ge_0. }
  pose proof (bpow_gt_0 radix2 (-800)) as G8. assert (RT : rel 1 (total ps) Pt).
  { unfold total, ps, Pt, pairs. rewrite !map_map. apply rel_sum. cbn [fst snd]. clear - PR. induction ticks as [|t l IH]; cbn [map]; constructor; [apply (PR t); now left|apply IH; intros; apply PR; now right]. }
  assert (AP : amounts ps). { intros x Hx. apply in_map_iff in Hx. destruct Hx as (t & <- & Ht). destruct (PR t Ht) as (F & R & B & _). split; auto. left. apply rel_pos with (2 := R). lra. }
  assert (TP : total ps <= bpow radix2 850 * 2). { apply Rle_trans with (1 := proj2 RT). rewrite pow_1. apply Rmult_le_compat; [lra|left; apply Rinv_0_lt_compat; lra|lra|]. rewrite <- (Rinv_inv 2). apply Rinv_le; lra. }
  destruct (@rel_fsum sum ps n HS AP) as [FP RP]; [unfold ps; rewrite map_length; fold n; lia| |].
  { apply Rle_trans with (1 := INV _ (total_nonneg AP)). apply Rle_trans with (bpow radix2 850 * 2 * 2); [lra|]. apply Rle_trans with (2 := B2 851%Z ltac:(lia)). apply Rmult_le_compat_r; [lra|]. right. change 2 with (bpow radix2 1). rewrite <- bpow_plus. reflexivity. }
  assert (RPP : rel (n + 1) (fv (sum ps)) Pt) by (apply rel_trans with (total ps); auto; lra).
  unfold vw. fold Pt. set (V := rsum (map snd (pairs ticks))) in *. assert (RD : rel (n + 1 + n) (fv (sum ps) / fv (sum (map ft_vol ticks))) (Pt / V)) by (apply rel_div; auto; lra).
  (* the quotient is between the lowest and the highest price *)
  assert (VWB : bpow radix2 (-400) <= Pt / V <= bpow radix2 400).
  { assert (V0 : 0 < V) by lra. assert (E : bpow radix2 (-400) * V <= Pt <= bpow radix2 400 * V). { unfold Pt, V, pairs. rewrite !map_map, <- !rsum_map_scale. cbn [fst snd]. split; apply rsum_map_le; intros t Ht; destruct (HT t Ht) as [(_ & P1 & P2) R]; apply ranged_pos in R; apply Rmult_le_compat_r; auto; lra. }
    split; apply Rmult_le_reg_r with V; auto; unfold Rdiv; rewrite Rmult_assoc, Rinv_l, Rmult_1_r by lra; lra. }
  assert (HP2 : / 2 <= (1 - u64) ^ (n + 1 + n)). { apply half_pow. rewrite !plus_INR. cbn [INR]. lra. } pose proof (pow_lo_pos (n + 1 + n)) as PP2. set (q := fv (sum ps) / fv (sum (map ft_vol ticks))) in *.
  assert (Q1 : bpow radix2 (-401) <= q). { apply Rle_trans with (2 := proj1 RD). change (-401)%Z with (-400 + -1)%Z. rewrite bpow_plus. change (bpow radix2 (-1)) with (/ 2). apply Rmult_le_compat; lra. }
  assert (Q2 : q <= bpow radix2 401). { apply Rle_trans with (1 := proj2 RD). change 401%Z with (400 + 1)%Z. rewrite bpow_plus. change (bpow radix2 1) with 2. apply Rmult_le_compat; [lra|left; now apply Rinv_0_lt_compat|lra|]. rewrite <- (Rinv_inv 2). apply Rinv_le; lra. }
  pose proof (bpow_gt_0 radix2 (-401)). unfold fvwap. fold ps. assert (VP : 0 < fv (sum (map ft_vol ticks))) by (apply rel_pos with (2 := RV); lra).
  destruct (@fdiv_spec (sum ps) (sum (map ft_vol ticks)) FP) as [FD VD]; [lra|fold q; rewrite Rabs_pos_eq by lra; apply Rle_trans with (1 := Q2); apply bpow_le; lia|]. fold q in VD. split; auto. rewrite VD.
  replace (2 * n + 2)%nat with (1 + (n + 1 + n))%nat by lia. apply rel_trans with q; auto; [lra|]. apply rel_rnd. apply Rle_trans with (2 := Q1). apply bpow_le. lia.
Qed.

Lemma vw_between lo hi l : l <> [] -> (forall t, In t l -> lo <= fst t <= hi /\ 0 < snd t) -> 0 < rsum (map snd l) /\ lo <= vw l <= hi.
Proof.
  intros NE H. assert (V0 : 0 < rsum (map snd l)).
  { destruct l as [|t l]; [congruence|]. unfold rsum. cbn [map fold_right]. fold (rsum (map snd l)). assert (0 <= rsum (map snd l)). { apply Rle_trans with (rsum (map (fun _ => 0) l)); [|apply rsum_map_le; intros x Hx; left; apply H; now right]. clear. induction l; unfold rsum in *; cbn [map fold_right]; lra. } pose proof (proj2 (H t (or_introl eq_refl))). lra. }
  split; auto. unfold vw. assert (E : lo * rsum (map snd l) <= rsum (map (fun t => fst t * snd t) l) <= hi * rsum (map snd l)). { rewrite <- !rsum_map_scale. split; apply rsum_map_le; intros t Ht; destruct (H t Ht) as [A B]; apply Rmult_le_compat_r; lra. }
  split; apply Rmult_le_reg_r with (rsum (map snd l)); auto; unfold Rdiv; rewrite Rmult_assoc, Rinv_l, Rmult_1_r by lra; lra.
Qed.
Lemma rsum_groups A (f : A -> R) groups : rsum (map f (concat groups)) = rsum (map (fun g => rsum (map f g)) groups).
Proof. induction groups as [|g l IH]; [reflexivity|]. cbn [concat map]. rewrite map_app, rsum_app, IH. reflexivity. Qed.
Lemma rel_sum_map A k (f g : A -> R) l : (forall x, In x l -> rel k (f x) (g x)) -> rel k (rsum (map f l)) (rsum (map g l)).
Proof. intro H. apply rel_sum. induction l as [|x l IH]; cbn [map]; constructor; [apply H; now left|apply IH; intros; apply H; now right]. Qed.
Lemma rel_eps k x y : 0 < y -> INR k * u64 < 1 -> rel k x y -> y * (1 - INR k * u64) <= x <= y / (1 - INR k * u64).
Proof.
  intros Y E [A B]. pose proof (bernoulli k) as H. pose proof (pow_lo_pos k). split; [apply Rle_trans with (2 := A); apply Rmult_le_compat_l; lra|]. apply Rle_trans with (1 := B). apply Rmult_le_compat_l; [lra|]. apply Rinv_le; lra.
Qed.
(** a tick the theorems speak about: price and volume between 2^-300 and 2^300 *)
Definition usual (t : ftick) : Prop := ranged 300 (ft_price t) /\ ranged 300 (ft_vol t).
Lemma resample_rel sum groups n : is_sum sum -> groups <> [] -> (Z.of_nat (length groups) <= 2 ^ 50)%Z -> (Z.of_nat n <= 2 ^ 40)%Z ->
  (forall g, In g groups -> g <> [] /\ (length g <= n)%nat /\ forall t, In t g -> usual t) ->
  let bar := fresample_bar_stats sum (map (fbar_stats sum) groups) in let ticks := concat groups in
  fin (fb_vol bar) /\ fin (fb_vwap bar) /\ rel (n + length groups) (fv (fb_vol bar)) (rsum (map snd (pairs ticks))) /\ rel (4 * n + 2 * length groups + 4) (fv (fb_vwap bar)) (vw (pairs ticks)) /\
  0 < rsum (map snd (pairs ticks)) /\ 0 < vw (pairs ticks).
Proof.
  intros HS NE HM HN HG bar ticks. set (m := length groups) in *. pose proof u64_pos as U0. pose proof u64_small as U1.
  assert (NB : INR n <= bpow radix2 40) by (rewrite INR_IZR_INZ, <- IZR_Zpower by lia; now apply IZR_le).
  assert (NU : INR n * u64 <= / 8). { unfold ulp64. apply Rle_trans with (bpow radix2 40 * bpow radix2 (-53)); [apply Rmult_le_compat_r; auto; apply bpow_ge_0|]. rewrite <- bpow_plus. cbn. lra. }
  assert (HP : / 2 <= (1 - u64) ^ (2 * n + 2)). { apply half_pow. rewrite plus_INR, mult_INR. cbn [INR]. lra. }
  assert (UP : forall t, usual t -> ranged 400 (ft_price t) /\ ranged 400 (ft_vol t)).
  { assert (R : forall x, ranged 300 x -> ranged 400 x). { intros x (F & A & B). split; auto. split; [apply Rle_trans with (2 := A)|apply Rle_trans with (1 := B)]; apply bpow_le; lia. } intros t [A B]. split; now apply R. }
  pose proof (bpow_gt_0 radix2 (-300)) as G3.
  assert (P0 : forall g, In g groups -> forall t, In t (pairs g) -> bpow radix2 (-300) <= fst t <= bpow radix2 300 /\ 0 < snd t).
  { intros g Hg t Ht. unfold pairs in Ht. apply in_map_iff in Ht. destruct Ht as (x & <- & Hx). cbn [fst snd]. destruct (HG g Hg) as (_ & _ & H). destruct (H x Hx) as [(_ & A) B]. split; auto. now apply ranged_pos in B. }
  assert (B1 : forall g, In g groups -> fin (sum (map ft_vol g)) /\ rel n (fv (sum (map ft_vol g))) (rsum (map snd (pairs g))) /\ fin (fvwap sum g) /\ rel (2 * n + 2) (fv (fvwap sum g)) (vw (pairs g)) /\
    0 < rsum (map snd (pairs g)) /\ 0 < vw (pairs g) /\ ranged 400 (fvwap sum g) /\ ranged 400 (sum (map ft_vol g))).
  { intros g Hg. destruct (HG g Hg) as (N0 & L & HT). assert (Z.of_nat (length g) <= 2 ^ 50)%Z by lia. destruct (@vwap_rel sum g HS N0) as (F1 & R1 & F2 & R2); auto.
    assert (N1 : pairs g <> []) by (unfold pairs; destruct g; [congruence|discriminate]). destruct (@vw_between _ _ (pairs g) N1 (P0 g Hg)) as [V0 [W1 W2]].
    assert (R1' : rel n (fv (sum (map ft_vol g))) (rsum (map snd (pairs g)))) by (apply rel_mono with (3 := R1); [lra|lia]). assert (R2' : rel (2 * n + 2) (fv (fvwap sum g)) (vw (pairs g))) by (apply rel_mono with (3 := R2); [lra|lia]).
    assert (D : forall k x y, (k <= 2 * n + 2)%nat -> 0 < y -> rel k x y -> y * / 2 <= x <= y * 2).
    { intros k x y K Y R. apply rel_mono with (k := (2 * n + 2)%nat) in R; [|lra|auto]. destruct R as [A B]. split; [apply Rle_trans with (2 := A); apply Rmult_le_compat_l; lra|]. apply Rle_trans with (1 := B). apply Rmult_le_compat_l; [lra|]. rewrite <- (Rinv_inv 2). apply Rinv_le; lra. }
    assert (RG : forall x y, fin x -> bpow radix2 (-300) <= y <= bpow radix2 340 -> y * / 2 <= fv x <= y * 2 -> ranged 400 x).
    { intros x y F [Y1 Y2] [X1 X2]. split; auto. split; [apply Rle_trans with (2 := X1); apply Rle_trans with (bpow radix2 (-300 + -1)); [apply bpow_le; lia|rewrite bpow_plus; change (bpow radix2 (-1)) with (/ 2); lra]|].
      apply Rle_trans with (1 := X2). apply Rle_trans with (bpow radix2 (340 + 1)); [rewrite bpow_plus; change (bpow radix2 1) with 2; lra|apply bpow_le; lia]. }
    assert (B34 : bpow radix2 300 <= bpow radix2 340) by (apply bpow_le; lia).
    assert (VB : bpow radix2 (-300) <= rsum (map snd (pairs g)) <= bpow radix2 340).
    { destruct (@total_range (bpow radix2 (-300)) (bpow radix2 300) (map snd (pairs g))) as [T1 T2]; [lra|unfold pairs; destruct g; [congruence|discriminate]| |].
      - intros x Hx. unfold pairs in Hx. rewrite map_map in Hx. apply in_map_iff in Hx. destruct Hx as (t & <- & Ht). apply (HT t Ht).
      - split; auto. apply Rle_trans with (1 := T2). unfold pairs. rewrite !map_length. change 340%Z with (40 + 300)%Z. rewrite bpow_plus. apply Rmult_le_compat_r; [apply bpow_ge_0|]. apply Rle_trans with (2 := NB). now apply le_INR. }
    split; [exact F1|]. split; [exact R1'|]. split; [exact F2|]. split; [exact R2'|]. split; [exact V0|]. split; [lra|]. split.
    - apply RG with (vw (pairs g)); auto; [lra|]. apply D with (2 * n + 2)%nat; auto. lra.
    - apply RG with (rsum (map snd (pairs g))); auto. apply D with n; auto. lia. }
  set (bt := map (fun g => FTick (fvwap sum g) (sum (map ft_vol g))) groups).
  assert (EB : fb_vwap bar = fvwap sum bt /\ fb_vol bar = sum (map ft_vol bt)) by (unfold bar, fresample_bar_stats, fresample_vwap, fvwap, bt, fbar_stats; cbn [fb_vwap fb_vol]; rewrite !map_map; split; reflexivity). destruct EB as [-> ->].
  assert (LB : length bt = m) by (unfold bt; now rewrite map_length).
  destruct (@vwap_rel sum bt HS) as (F1 & R1 & F2 & R2); [unfold bt; destruct groups; [congruence|discriminate]|now rewrite LB| |].
  { intros t Ht. unfold bt in Ht. apply in_map_iff in Ht. destruct Ht as (g & <- & Hg). cbn [ft_price ft_vol]. now destruct (B1 g Hg) as (_ & _ & _ & _ & _ & _ & A & B). }
  rewrite LB in R1, R2.
  assert (NT : pairs ticks <> []). { unfold ticks, pairs. destruct groups as [|g l]; [congruence|]. destruct (HG g (or_introl eq_refl)) as (N0 & _). cbn [concat]. destruct g; [congruence|discriminate]. }
  destruct (@vw_between (bpow radix2 (-300)) (bpow radix2 300) (pairs ticks) NT) as [V0 [W1 W2]].
  { intros t Ht. unfold pairs in Ht. apply in_map_iff in Ht. destruct Ht as (x & <- & Hx). unfold ticks in Hx. apply in_concat in Hx. destruct Hx as (g & Hg & Hx). apply (P0 g Hg). unfold pairs. apply in_map_iff. now exists x. }
  assert (EV : rsum (map snd (pairs ticks)) = rsum (map (fun g => rsum (map snd (pairs g))) groups)). { unfold pairs, ticks. rewrite map_map. rewrite rsum_groups. apply rsum_map_ext. intros g _. now rewrite map_map. }
  assert (EP : rsum (map (fun t => fst t * snd t) (pairs ticks)) = rsum (map (fun g => vw (pairs g) * rsum (map snd (pairs g))) groups)).
  { unfold ticks. transitivity (rsum (map (fun g => rsum (map (fun t => fst t * snd t) (pairs g))) groups)).
    - unfold pairs. rewrite map_map, rsum_groups. apply rsum_map_ext. intros g _. now rewrite map_map.
    - apply rsum_map_ext. intros g Hg. destruct (B1 g Hg) as (_ & _ & _ & _ & A & _). unfold vw. field. lra. }
  assert (RV : rel n (rsum (map snd (pairs bt))) (rsum (map snd (pairs ticks)))). { rewrite EV. unfold pairs at 1, bt. rewrite !map_map. apply rel_sum_map. intros g Hg. now destruct (B1 g Hg) as (_ & A & _). }
  assert (RP : rel (2 * n + 2 + n) (rsum (map (fun t => fst t * snd t) (pairs bt))) (rsum (map (fun t => fst t * snd t) (pairs ticks)))). { rewrite EP. unfold pairs at 1, bt. rewrite !map_map. apply rel_sum_map. intros g Hg. destruct (B1 g Hg) as (_ & A & _ & B & C & D & _). cbn [fst snd ft_price ft_vol]. now apply rel_mul. }
  assert (W0 : 0 < vw (pairs ticks)) by lra.
  assert (PT : 0 < rsum (map (fun t => fst t * snd t) (pairs ticks))). { replace (rsum (map (fun t => fst t * snd t) (pairs ticks))) with (vw (pairs ticks) * rsum (map snd (pairs ticks))) by (unfold vw; field; lra). now apply Rmult_lt_0_compat. }
  split; [exact F1|]. split; [exact F2|]. split; [|split; [|now split]].
  - rewrite Nat.add_comm. now apply rel_trans with (rsum (map snd (pairs bt))).
  - replace (4 * n + 2 * m + 4)%nat with (2 * m + 2 + (2 * n + 2 + n + n))%nat by lia. apply rel_trans with (vw (pairs bt)); auto. unfold vw. now apply rel_div.
Qed.

(** ** C185 *)
(** a bar resampled from bars of at most n ticks has the volume and the VWAP of all their ticks, but for the roundings *)
Theorem c185_resample sum groups n : is_sum sum -> groups <> [] -> (Z.of_nat (length groups) <= 2 ^ 50)%Z -> (Z.of_nat n <= 2 ^ 40)%Z ->
  (forall g, In g groups -> g <> [] /\ (length g <= n)%nat /\ forall t, In t g -> usual t) ->
  let bar := fresample_bar_stats sum (map (fbar_stats sum) groups) in let ticks := concat groups in
  let volume := rsum (map (fun t => fv (ft_vol t)) ticks) in let vwap := rsum (map (fun t => fv (ft_price t) * fv (ft_vol t)) ticks) / volume in
  let e1 := INR (n + length groups) * u64 in let e2 := INR (4 * n + 2 * length groups + 4) * u64 in
  fin (fb_vol bar) /\ fin (fb_vwap bar) /\ 0 < volume /\ e1 < / 2 /\ e2 < / 2 /\
  volume * (1 - e1) <= fv (fb_vol bar) <= volume / (1 - e1) /\ vwap * (1 - e2) <= fv (fb_vwap bar) <= vwap / (1 - e2).
Proof.
  intros HS NE HM HN HG bar ticks volume vwap e1 e2. destruct (resample_rel HS NE HM HN HG) as (F1 & F2 & R1 & R2 & V0 & W0). fold bar ticks in F1, F2, R1, R2, V0, W0.
  assert (EV : rsum (map snd (pairs ticks)) = volume) by (unfold volume, pairs; now rewrite map_map). assert (EW : vw (pairs ticks) = vwap) by (unfold vw; rewrite EV; unfold vwap, pairs; now rewrite map_map). rewrite EV in *. rewrite EW in *.
  pose proof u64_small as U1. pose proof u64_pos as U0.
  assert (NU : INR n * u64 <= / 1024). { rewrite INR_IZR_INZ. unfold ulp64. apply Rle_trans with (bpow radix2 40 * bpow radix2 (-53)); [|rewrite <- bpow_plus; cbn; lra]. apply Rmult_le_compat_r; [apply bpow_ge_0|]. rewrite <- IZR_Zpower by lia. now apply IZR_le. }
  assert (MU : INR (length groups) * u64 <= / 8). { rewrite INR_IZR_INZ. unfold ulp64. apply Rle_trans with (bpow radix2 50 * bpow radix2 (-53)); [|rewrite <- bpow_plus; cbn; lra]. apply Rmult_le_compat_r; [apply bpow_ge_0|]. rewrite <- IZR_Zpower by lia. now apply IZR_le. }
  assert (E1 : e1 < / 2) by (unfold e1; rewrite plus_INR; lra). assert (E2 : e2 < / 2) by (unfold e2; rewrite !plus_INR, !mult_INR; cbn [INR]; lra).
  repeat (split; [assumption|]). split; apply rel_eps; auto; fold e1 e2; lra.
Qed.
Print Assumptions c185_resample.
(** and that VWAP is between the lowest and the highest price of the ticks, but for the roundings *)
Theorem c185_bounds sum groups n lo hi : is_sum sum -> groups <> [] -> (Z.of_nat (length groups) <= 2 ^ 50)%Z -> (Z.of_nat n <= 2 ^ 40)%Z ->
  (forall g, In g groups -> g <> [] /\ (length g <= n)%nat /\ forall t, In t g -> usual t /\ lo <= fv (ft_price t) <= hi) ->
  let e := INR (4 * n + 2 * length groups + 4) * u64 in
  lo * (1 - e) <= fv (fb_vwap (fresample_bar_stats sum (map (fbar_stats sum) groups))) <= hi / (1 - e).
Proof.
  intros HS NE HM HN HG e. assert (HG' : forall g, In g groups -> g <> [] /\ (length g <= n)%nat /\ forall t, In t g -> usual t) by (intros g Hg; destruct (HG g Hg) as (A & B & C); repeat split; auto; now apply C).
  destruct (c185_resample HS NE HM HN HG') as (_ & _ & V0 & _ & E2 & _ & B1 & B2). fold e in E2, B1, B2.
  destruct (@vw_between lo hi (pairs (concat groups))) as [_ [W1 W2]].
  { unfold pairs. destruct groups as [|g l]; [congruence|]. destruct (HG g (or_introl eq_refl)) as (N0 & _). cbn [concat]. destruct g; [congruence|discriminate]. }
  { intros t Ht. unfold pairs in Ht. apply in_map_iff in Ht. destruct Ht as (x & <- & Hx). apply in_concat in Hx. destruct Hx as (g & Hg & Hx). destruct (HG g Hg) as (_ & _ & C). destruct (C x Hx) as [[_ U] P]. split; auto. now apply ranged_pos in U. }
  unfold vw, pairs in W1, W2. rewrite !map_map in W1, W2. cbn [fst snd] in W1, W2. split.
  - apply Rle_trans with (2 := B1). apply Rmult_le_compat_r; [lra|exact W1].
  - apply Rle_trans with (1 := B2). apply Rmult_le_compat_r; [left; apply Rinv_0_lt_compat; lra|exact W2].
Qed.
Print Assumptions c185_bounds.
(** so it is the VWAP computed from all the N ticks at once, but for the roundings of both *)
Lemma rel_sym k x y : rel k x y -> rel k y x.
Proof.
  intros [A B]. pose proof (pow_lo_pos k). unfold rel. set (q := (1 - u64) ^ k) in *. split.
  - replace y with (y / q * q) by (field; lra). apply Rmult_le_compat_r; lra.
  - replace y with (y * q / q) by (field; lra). apply Rmult_le_compat_r; auto. left. now apply Rinv_0_lt_compat.
Qed.
Theorem c185_direct sum groups n : is_sum sum -> groups <> [] -> (Z.of_nat n <= 2 ^ 40)%Z -> (Z.of_nat (length (concat groups)) <= 2 ^ 48)%Z ->
  (forall g, In g groups -> g <> [] /\ (length g <= n)%nat /\ forall t, In t g -> usual t) ->
  let direct := fvwap sum (concat groups) in let e := INR (4 * n + 2 * length groups + 4 + (2 * length (concat groups) + 2)) * u64 in
  fin direct /\ 0 < fv direct /\ e < / 2 /\ fv direct * (1 - e) <= fv (fb_vwap (fresample_bar_stats sum (map (fbar_stats sum) groups))) <= fv direct / (1 - e).
Proof.
  intros HS NE HN HL HG direct e. assert (LM : (length groups <= length (concat groups))%nat).
  { clear - HG. induction groups as [|g l IH]; [cbn; lia|]. cbn [concat]. rewrite app_length. specialize (IH (fun g' Hg => HG g' (or_intror Hg))). destruct (HG g (or_introl eq_refl)) as (N0 & _). destruct g; [congruence|]. cbn [length]. lia. }
  destruct (@resample_rel sum groups n HS NE ltac:(lia) HN HG) as (_ & _ & _ & R & _ & W0).
  destruct (@vwap_rel sum (concat groups) HS) as (_ & _ & FD & RD); [|lia| |].
  { destruct groups as [|g l]; [congruence|]. destruct (HG g (or_introl eq_refl)) as (N0 & _). cbn [concat]. destruct g; [congruence|discriminate]. }
  { intros t Ht. apply in_concat in Ht. destruct Ht as (g & Hg & Ht). destruct (HG g Hg) as (_ & _ & C). assert (R' : forall x, ranged 300 x -> ranged 400 x). { intros x (F & A & B). split; auto. split; [apply Rle_trans with (2 := A)|apply Rle_trans with (1 := B)]; apply bpow_le; lia. } destruct (C t Ht) as [A B]. split; now apply R'. }
  fold direct in FD, RD. assert (D0 : 0 < fv direct) by (apply rel_pos with (2 := RD); auto). pose proof u64_small as U1. pose proof u64_pos as U0.
  assert (NU : forall k b, (Z.of_nat k <= 2 ^ b)%Z -> (0 <= b)%Z -> INR k * u64 <= bpow radix2 (b + -53)). { intros k b K B. rewrite INR_IZR_INZ, bpow_plus. unfold ulp64. apply Rmult_le_compat_r; [apply bpow_ge_0|]. rewrite <- IZR_Zpower by lia. now apply IZR_le. }
  assert (A1 : INR n * u64 <= / 32) by (apply Rle_trans with (1 := NU _ 40%Z HN ltac:(lia)); cbn; lra). assert (A2 : INR (length (concat groups)) * u64 <= / 32) by (apply Rle_trans with (1 := NU _ 48%Z HL ltac:(lia)); cbn; lra).
  assert (A3 : INR (length groups) * u64 <= / 32) by (apply Rle_trans with (1 := NU (length groups) 48%Z ltac:(lia) ltac:(lia)); cbn; lra).
  assert (E : e < / 2) by (unfold e; rewrite !plus_INR, !mult_INR; cbn [INR]; lra). split; [exact FD|]. split; [exact D0|]. split; [exact E|]. apply rel_eps; auto; [fold e; lra|]. apply rel_trans with (vw (pairs (concat groups))); auto. now apply rel_sym.
Qed.
Print Assumptions c185_direct.
Definition four_ticks : list (list ftick) := [[FTick (fz 1) (fz 1); FTick (fz 1) (fz 1)]; [FTick (fz 4) (fz 2); FTick (fz 10) (fz 5)]].
(** REFUTED: the resampled VWAP is not bit for bit the VWAP of the ticks, with whole prices and volumes: 60 / 9 comes out larger from two bars than from the four ticks *)
Theorem c185_same_refuted : is_sum fsum_left /\ let direct := fvwap fsum_left (concat four_ticks) in let bar := fresample_bar_stats fsum_left (map (fbar_stats fsum_left) four_ticks) in
  fin direct /\ fin (fb_vwap bar) /\ fv (fb_vol bar) = 9 /\ fv direct < fv (fb_vwap bar).
Proof.
  split; [apply c126_left_sum|]. intros direct bar. assert (F1 : fin direct) by (vm_compute; reflexivity). assert (F2 : fin (fb_vwap bar)) by (vm_compute; reflexivity). assert (F3 : fin (fb_vol bar)) by (vm_compute; reflexivity).
  destruct (@fz_spec 9) as [F9 V9]; [lia|]. split; auto. split; auto. split; [rewrite <- V9; apply feq_spec; auto; vm_compute; reflexivity|apply flt_spec; auto; vm_compute; reflexivity].
Qed.
Print Assumptions c185_same_refuted.
Example c185_example : four_ticks <> [] /\ forall g, In g four_ticks -> g <> [] /\ (length g <= 2)%nat /\ forall t, In t g -> usual t /\ 1 <= fv (ft_price t) <= 10.
Proof.
  split; [discriminate|]. assert (R : forall k, (1 <= k <= 10)%Z -> ranged 300 (fz k) /\ fv (fz k) = IZR k).
  { intros k K. destruct (@fz_spec k) as [F V]; [lia|]. split; auto. split; auto. rewrite V. assert (1 <= IZR k <= 10) by (split; apply IZR_le; lia). assert (bpow radix2 (- (300)) <= 1) by (change 1 with (bpow radix2 0); apply bpow_le; lia). assert (16 <= bpow radix2 300) by (change 16 with (bpow radix2 4); apply bpow_le; lia). lra. }
  intros g [<-|[<-|[]]]; (split; [discriminate|split; [cbn; lia|]]); intros t [<-|[<-|[]]]; unfold usual; cbn [ft_price ft_vol]; (split; [split; match goal with |- ranged _ (fz ?k) => exact (proj1 (R k ltac:(lia))) end|]); match goal with |- context [fz ?k] => rewrite (proj2 (R k ltac:(lia))) end; lra.
Qed.
