(** C126-C128: bars and the tick rule in binary64. *)
From Coq Require Import ZArith Reals Lra Lia List Permutation Sorted.
From Flocq Require Import Core BinarySingleNaN Plus_error.
From Verif Require Import RNum Float64 FloatBarsModel FloatBarsProofs.
Import ListNotations.
Set Implicit Arguments.
Unset Strict Implicit.
Open Scope R_scope.

(** 0.1 *)
Definition tenth : f64 := ff 3602879701896397 (-55).

(** ** C126 VWAP *)
(** REFUTED in binary64: the VWAP of one trade of 3 at 0.1 is above its only price *)
Theorem c126_vwap_refuted : exists t, let vwap := fvwap fsum_left [t] in
  fin (ft_price t) /\ fin (ft_vol t) /\ 0 < fv (ft_price t) /\ 0 < fv (ft_vol t) /\ fin vwap /\ flt (ft_price t) vwap = true /\ fv (ft_price t) < fv vwap.
Proof.
  exists (FTick tenth (fz 3)). cbv zeta. assert (F1 : fin tenth) by (vm_compute; reflexivity). assert (F2 : fin (fz 3)) by (vm_compute; reflexivity).
  assert (F3 : fin (fvwap fsum_left [FTick tenth (fz 3)])) by (vm_compute; reflexivity). assert (L : flt tenth (fvwap fsum_left [FTick tenth (fz 3)]) = true) by (vm_compute; reflexivity).
  destruct fz0 as [F0 V0]. cbn [ft_price ft_vol]. repeat split; auto.
  - rewrite <- V0. apply flt_spec; auto.
  - rewrite <- V0. apply flt_spec; auto.
  - apply flt_spec; auto.
Qed.
Print Assumptions c126_vwap_refuted.
(** a sum: additions in some order, at most one after the other *)
Definition is_sum (sum : list f64 -> f64) : Prop := forall l, exists t, sum l = seval t /\ Permutation (leaves t) l /\ (depth t <= length l)%nat.
Theorem c126_left_sum : is_sum fsum_left.
Proof.
  intro l. exists (left_tree SZero l). destruct (left_tree_spec l SZero) as (A & B & C). rewrite A, B, C. repeat split; auto.
Qed.
Print Assumptions c126_left_sum.
Lemma sum_bounds sum l n : is_sum sum -> amounts l -> (length l <= n)%nat -> total l * (1 + u64) ^ n <= big ->
  fin (sum l) /\ total l * (1 - u64) ^ n <= fv (sum l) <= total l * (1 + u64) ^ n.
Proof.
  intros HS A Hn HB. destruct (HS l) as (t & -> & P & D). assert (At : amounts (leaves t)) by (intros x Hx; apply A; eapply Permutation_in; eauto).
  assert (ET : total (leaves t) = total l) by (apply rsum_perm, Permutation_map, P). pose proof (total_nonneg A) as T0.
  assert (M1 : (1 + u64) ^ depth t <= (1 + u64) ^ n) by (apply pow_hi_mono; lia). assert (M2 : (1 - u64) ^ n <= (1 - u64) ^ depth t) by (apply pow_lo_mono; lia).
  assert (N1 := Rmult_le_compat_l _ _ _ T0 M1). assert (N2 := Rmult_le_compat_l _ _ _ T0 M2).
  destruct (@seval_bounds t At) as (F & B); rewrite ET in *; [lra|]. split; auto. lra.
Qed.
(** what holds: up to 2n + 2 roundings the VWAP of n trades is between the lowest and the highest price, whatever the order of the additions,
    for products that do not underflow and sums that do not overflow *)
Theorem c126_vwap_bounds sum ticks lo hi : is_sum sum -> ticks <> [] -> (Z.of_nat (length ticks) <= 2 ^ 50)%Z ->
  (forall t, In t ticks -> fin (ft_price t) /\ fin (ft_vol t) /\ lo <= fv (ft_price t) <= hi /\ 0 < fv (ft_vol t) /\ bpow radix2 (-1022) <= fv (ft_price t) * fv (ft_vol t)) ->
  bpow radix2 (-1000) <= lo -> rsum (map (fun t => fv (ft_vol t)) ticks) <= bpow radix2 1000 -> hi * rsum (map (fun t => fv (ft_vol t)) ticks) <= bpow radix2 1000 -> hi <= bpow radix2 1000 ->
  let eps := INR (2 * length ticks + 2) * u64 in
  fin (fvwap sum ticks) /\ lo * (1 - eps) <= fv (fvwap sum ticks) <= hi / (1 - eps).
Proof.
  intros HS Hne Hn Ht Hlo HV HP Hhi eps. set (n := length ticks) in *. pose proof u64_pos as U. pose proof u64_half as U2.
  set (vs := map ft_vol ticks). set (ps := map (fun t => fmul (ft_price t) (ft_vol t)) ticks).
  assert (EN : INR n * u64 <= / 8).
  { rewrite INR_IZR_INZ. unfold ulp64. apply Rle_trans with (bpow radix2 50 * bpow radix2 (-53)); [|rewrite <- bpow_plus; cbn; lra].
    apply Rmult_le_compat_r; [apply bpow_ge_0|]. rewrite <- IZR_Zpower by lia. now apply IZR_le. }
  assert (N1 : INR (2 * n + 2) = 2 * INR n + 2) by (rewrite plus_INR, mult_INR; cbn [INR]; ring).
  assert (EE : eps <= / 2). { unfold eps. rewrite N1. pose proof u64_small. lra. }
  assert (EL : 1 - eps <= (1 - u64) ^ (2 * n + 2)) by apply bernoulli.
  assert (L0 : 0 < lo) by (apply Rlt_le_trans with (2 := Hlo); apply bpow_gt_0).
  assert (H0 : 0 < hi). { destruct ticks as [|t r]; [congruence|]. destruct (Ht t (or_introl eq_refl)) as (_ & _ & B & _). lra. }
  (* volumes *)
  assert (Av : amounts vs). { intros x Hx. apply in_map_iff in Hx. destruct Hx as (t & <- & It). destruct (Ht t It) as (_ & F & _ & P & _). split; auto. lra. }
  set (V := rsum (map (fun t => fv (ft_vol t)) ticks)) in *. assert (TV : total vs = V) by (unfold total, vs; now rewrite map_map).
  assert (V0 : 0 < V). { apply rsum_pos; [destruct ticks; [congruence|discriminate]|]. intros x Hx. apply in_map_iff in Hx. destruct Hx as (t & <- & It). now apply Ht in It. }
  (* powers *)
  set (a := (1 - u64) ^ n). set (b := (1 + u64) ^ n). assert (a0 : 0 < a) by apply pow_lo_pos. assert (b1 : 1 <= b) by apply pow_hi_ge_1. assert (a1 : a <= 1) by apply pow_lo_le_1.
  assert (b2 : b <= 2). { apply Rle_trans with (/ a); [apply hi_le_inv_lo|]. assert (/ 2 <= a) by (pose proof (bernoulli n); unfold a; lra). rewrite <- (Rinv_inv 2). apply Rinv_le_contravar; lra. }
  assert (ab : b * a <= 1). { unfold a, b. pose proof (hi_le_inv_lo n). pose proof (pow_lo_pos n). apply Rle_trans with (/ (1 - u64) ^ n * (1 - u64) ^ n); [apply Rmult_le_compat_r; lra|rewrite Rinv_l; lra]. }
  assert (B4 : 4 * bpow radix2 1000 <= big). { change 4 with (bpow radix2 2). rewrite <- bpow_plus. apply bpow_le. lia. }
  destruct (@sum_bounds sum vs n HS Av) as (FV & BV); [unfold vs; now rewrite map_length|fold b; rewrite TV; nra|]. rewrite TV in BV. fold a b in BV.
  (* products *)
  assert (Pr : forall t, In t ticks -> fin (fmul (ft_price t) (ft_vol t)) /\ lo * (1 - u64) * fv (ft_vol t) <= fv (fmul (ft_price t) (ft_vol t)) <= hi * (1 + u64) * fv (ft_vol t)).
  { intros t It. destruct (Ht t It) as (Fp & Fv & Bp & Pv & Un). assert (fv (ft_vol t) <= V).
    { apply rsum_ge_elem; [|apply in_map_iff; eauto]. intros y Hy. apply in_map_iff in Hy. destruct Hy as (t' & <- & It'). destruct (Ht t' It') as (_ & _ & _ & P & _). lra. }
    assert (X : fv (ft_price t) * fv (ft_vol t) <= hi * V) by (apply Rmult_le_compat; lra).
    pose proof (bpow_gt_0 radix2 (-1022)) as G.
    destruct (@fmul_spec (ft_price t) (ft_vol t) Fp Fv) as [F E]; [rewrite Rabs_pos_eq by lra; pose proof (bpow_gt_0 radix2 1000); lra|]. split; auto. rewrite E.
    destruct (@rnd_error (fv (ft_price t) * fv (ft_vol t))) as (e & He & ->); [rewrite Rabs_pos_eq; lra|]. apply Rabs_le_inv in He.
    split.
    - replace (lo * (1 - u64) * fv (ft_vol t)) with (lo * fv (ft_vol t) * (1 - u64)) by ring. apply Rmult_le_compat; try lra; [apply Rmult_le_pos; lra|apply Rmult_le_compat_r; lra].
    - replace (hi * (1 + u64) * fv (ft_vol t)) with (hi * fv (ft_vol t) * (1 + u64)) by ring. apply Rmult_le_compat; try lra; apply Rmult_le_compat_r; lra. }
  assert (Ap : amounts ps). { intros x Hx. apply in_map_iff in Hx. destruct Hx as (t & <- & It). destruct (Pr t It) as [F B]. split; auto. destruct (Ht t It) as (_ & _ & _ & P & _). apply Rle_trans with (2 := proj1 B). apply Rmult_le_pos; [apply Rmult_le_pos; lra|lra]. }
  assert (TP : lo * (1 - u64) * V <= total ps <= hi * (1 + u64) * V).
  { unfold total, ps, V. rewrite map_map. rewrite <- !rsum_map_scale. split; apply rsum_map_le; intros t It; now apply Pr. }
  assert (HV' : hi * V * (1 + u64) * b <= big).
  { apply Rle_trans with (bpow radix2 1000 * 2 * 2); [|lra]. pose proof (bpow_gt_0 radix2 1000). apply Rmult_le_compat; try lra; [|apply Rmult_le_compat; try lra]; apply Rmult_le_pos; try lra; apply Rmult_le_pos; lra. }
  destruct (@sum_bounds sum ps n HS Ap) as (FP & BP); [unfold ps; now rewrite map_length| |].
  { fold b. apply Rle_trans with (hi * (1 + u64) * V * b); [apply Rmult_le_compat_r; lra|]. replace (hi * (1 + u64) * V * b) with (hi * V * (1 + u64) * b) by ring. exact HV'. }
  fold a b in BP. unfold fvwap. fold ps vs. set (P := fv (sum ps)) in *. set (W := fv (sum vs)) in *.
  assert (W0 : 0 < W) by (apply Rlt_le_trans with (2 := proj1 BV); now apply Rmult_lt_0_compat).
  assert (PL : lo * (1 - u64) * V * a <= P) by (apply Rle_trans with (2 := proj1 BP); apply Rmult_le_compat_r; lra).
  assert (PH : P <= hi * (1 + u64) * V * b) by (apply Rle_trans with (1 := proj2 BP); apply Rmult_le_compat_r; lra).
  assert (QL : lo * (1 - u64) * a * a <= P / W).
  { apply Rmult_le_reg_r with W; auto. unfold Rdiv. rewrite (Rmult_assoc P), Rinv_l, Rmult_1_r by lra. apply Rle_trans with (2 := PL).
    apply Rle_trans with (lo * (1 - u64) * a * a * (V * b)); [apply Rmult_le_compat_l; [repeat apply Rmult_le_pos; lra|lra]|].
    replace (lo * (1 - u64) * a * a * (V * b)) with (lo * (1 - u64) * V * a * (b * a)) by ring. rewrite <- (Rmult_1_r (lo * (1 - u64) * V * a)) at 2. apply Rmult_le_compat_l; auto. repeat apply Rmult_le_pos; lra. }
  assert (QH : P / W <= hi * (1 + u64) / (a * a)).
  { apply Rmult_le_reg_r with W; auto. unfold Rdiv at 1. rewrite (Rmult_assoc P), Rinv_l, Rmult_1_r by lra. apply Rle_trans with (1 := PH).
    apply Rle_trans with (hi * (1 + u64) / (a * a) * (V * a)); [|apply Rmult_le_compat_l; [apply Rmult_le_pos; [apply Rmult_le_pos; lra|left; apply Rinv_0_lt_compat; nra]|lra]].
    replace (hi * (1 + u64) / (a * a) * (V * a)) with (hi * (1 + u64) * V * (/ a)) by (field; lra). apply Rmult_le_compat_l; [repeat apply Rmult_le_pos; lra|]. unfold a, b. apply hi_le_inv_lo. }
  assert (a2 : (1 - u64) * (1 - u64) * (a * a) = (1 - u64) ^ (2 * n + 2)). { unfold a. replace (2 * n + 2)%nat with (n + n + 2)%nat by lia. rewrite !pow_add. cbn [pow]. ring. }
  assert (a3 : 1 - eps <= (1 - u64) * (1 - u64) * (a * a)) by (rewrite a2; exact EL).
  assert (aa : / 2 <= a * a) by nra.
  assert (QN : bpow radix2 (-1022) <= P / W).
  { apply Rle_trans with (2 := QL). apply Rle_trans with (bpow radix2 (-1000) * / 4).
    - replace (/ 4) with (bpow radix2 (-2)) by (cbn; lra). rewrite <- bpow_plus. apply bpow_le. lia.
    - replace (lo * (1 - u64) * a * a) with (lo * ((1 - u64) * (a * a))) by ring. apply Rmult_le_compat; try lra; [apply bpow_ge_0|nra]. }
  pose proof (bpow_gt_0 radix2 (-1022)) as G.
  assert (QB : P / W <= big).
  { apply Rle_trans with (1 := QH). apply Rle_trans with (2 := B4). apply Rle_trans with (hi * 4); [|lra]. unfold Rdiv. rewrite Rmult_assoc. apply Rmult_le_compat_l; [lra|].
    apply Rle_trans with (2 * 2); [|lra]. apply Rmult_le_compat; try lra; [left; apply Rinv_0_lt_compat; lra|]. rewrite <- (Rinv_inv 2). apply Rinv_le_contravar; lra. }
  destruct (@fdiv_spec (sum ps) (sum vs) FP) as [FD VD]; [unfold W in *; lra|fold P W; rewrite Rabs_pos_eq; lra|]. fold P W in VD. split; auto. rewrite VD.
  destruct (@rnd_error (P / W)) as (e & He & ->); [rewrite Rabs_pos_eq; lra|]. apply Rabs_le_inv in He. split.
  - apply Rle_trans with (lo * (1 - u64) * a * a * (1 - u64)).
    + replace (lo * (1 - u64) * a * a * (1 - u64)) with (lo * ((1 - u64) * (1 - u64) * (a * a))) by ring. apply Rmult_le_compat_l; lra.
    + apply Rmult_le_compat; try lra. repeat apply Rmult_le_pos; lra.
  - apply Rle_trans with (hi * (1 + u64) / (a * a) * (1 + u64)); [apply Rmult_le_compat; lra|].
    replace (hi * (1 + u64) / (a * a) * (1 + u64)) with (hi * ((1 + u64) * (1 + u64) / (a * a))) by (field; lra). apply Rmult_le_compat_l; [lra|].
    apply Rmult_le_reg_r with (a * a * (1 - eps)); [apply Rmult_lt_0_compat; lra|].
    replace ((1 + u64) * (1 + u64) / (a * a) * (a * a * (1 - eps))) with ((1 + u64) * (1 + u64) * (1 - eps)) by (field; lra).
    replace (/ (1 - eps) * (a * a * (1 - eps))) with (a * a) by (field; lra).
    apply Rle_trans with ((1 + u64) * (1 + u64) * ((1 - u64) * (1 - u64) * (a * a))); [apply Rmult_le_compat_l; [nra|lra]|].
    replace ((1 + u64) * (1 + u64) * ((1 - u64) * (1 - u64) * (a * a))) with ((1 - u64 * u64) * (1 - u64 * u64) * (a * a)) by ring. assert (0 < u64 * u64 <= / 2) by nra. nra.
Qed.
Print Assumptions c126_vwap_bounds.
(** whole-number prices and volumes: no rounding before the division, so the VWAP is the rounded exact one and between the lowest and highest price *)
Lemma seval_whole t zs : (forall x, In x (leaves t) -> fin x) -> map fv (leaves t) = map IZR zs -> (forall z, In z zs -> (0 <= z)%Z) -> (fold_right Z.add 0 zs <= 2 ^ 53)%Z ->
  fin (seval t) /\ fv (seval t) = IZR (fold_right Z.add 0%Z zs).
Proof.
  assert (FA : forall l r, fold_right Z.add 0%Z (l ++ r) = (fold_right Z.add 0 l + fold_right Z.add 0 r)%Z) by (induction l as [|z l IH]; intro r; cbn; [auto|rewrite IH; lia]).
  assert (FP : forall l, (forall z, In z l -> (0 <= z)%Z) -> (0 <= fold_right Z.add 0 l)%Z) by (induction l as [|z l IH]; intro H; cbn; [lia|]; specialize (H z (or_introl eq_refl)) as Hz; specialize (IH (fun w Hw => H w (or_intror Hw))); lia).
  revert zs. induction t as [|x|l IHl r IHr]; intros zs F E P B; cbn [leaves seval] in *.
  - destruct zs; [|discriminate]. exact fz0.
  - destruct zs as [|z [|]]; try discriminate. injection E as E. cbn [fold_right]. rewrite Z.add_0_r. split; [apply F; now left|exact E].
  - rewrite map_app in E. set (nl := length (leaves l)). assert (E1 : map fv (leaves l) = map IZR (firstn nl zs)).
    { rewrite <- firstn_map, <- E, firstn_app, map_length. fold nl. rewrite Nat.sub_diag, firstn_O, app_nil_r. symmetry. apply firstn_all2. rewrite map_length. fold nl. lia. }
    assert (E2 : map fv (leaves r) = map IZR (skipn nl zs)).
    { rewrite <- skipn_map, <- E, skipn_app, map_length. fold nl. rewrite Nat.sub_diag, skipn_O, skipn_all2; [reflexivity|]. rewrite map_length. fold nl. lia. }
    rewrite <- (firstn_skipn nl zs), FA in B. assert (P1 : forall z, In z (firstn nl zs) -> (0 <= z)%Z) by (intros z Hz; apply P; rewrite <- (firstn_skipn nl zs); apply in_app_iff; auto).
    assert (P2 : forall z, In z (skipn nl zs) -> (0 <= z)%Z) by (intros z Hz; apply P; rewrite <- (firstn_skipn nl zs); apply in_app_iff; auto).
    pose proof (FP _ P1). pose proof (FP _ P2).
    destruct (IHl (firstn nl zs)) as [F1 V1]; auto; [intros x Hx; apply F, in_app_iff; auto|lia|]. destruct (IHr (skipn nl zs)) as [F2 V2]; auto; [intros x Hx; apply F, in_app_iff; auto|lia|].
    assert (ES : fv (seval l) + fv (seval r) = IZR (fold_right Z.add 0%Z zs)) by (rewrite V1, V2, <- plus_IZR, <- FA, firstn_skipn; reflexivity).
    rewrite <- FA, firstn_skipn in B. pose proof (FP _ P).
    destruct (@fadd_spec (seval l) (seval r) F1 F2) as [F3 V3]; [rewrite ES; apply big_ge; lia|]. split; auto. rewrite V3, ES. apply rnd64_int. lia.
Qed.
Theorem c126_vwap_whole sum ticks pv lo hi : is_sum sum -> ticks <> [] ->
  Forall2 (fun t q => fin (ft_price t) /\ fin (ft_vol t) /\ fv (ft_price t) = IZR (fst q) /\ fv (ft_vol t) = IZR (snd q) /\ (lo <= fst q <= hi)%Z /\ (0 < snd q)%Z) ticks pv ->
  (0 <= lo)%Z -> (hi <= 2 ^ 53)%Z -> (fold_right Z.add 0 (map (fun q => fst q * snd q) pv) <= 2 ^ 53)%Z -> (fold_right Z.add 0 (map snd pv) <= 2 ^ 53)%Z ->
  fin (fvwap sum ticks) /\ fv (fvwap sum ticks) = rnd64 (IZR (fold_right Z.add 0%Z (map (fun q => (fst q * snd q)%Z) pv)) / IZR (fold_right Z.add 0%Z (map snd pv))) /\
  IZR lo <= fv (fvwap sum ticks) <= IZR hi.
Proof.
  intros HS Hne H Hlo Hhi BP BV. unfold fvwap. set (ps := map (fun t => fmul (ft_price t) (ft_vol t)) ticks). set (vs := map ft_vol ticks).
  assert (FP : forall l : list Z, (forall z, In z l -> (0 <= z)%Z) -> (0 <= fold_right Z.add 0 l)%Z) by (induction l as [|z l IH]; intro G; cbn; [lia|]; specialize (G z (or_introl eq_refl)) as Hz; specialize (IH (fun w Hw => G w (or_intror Hw))); lia).
  assert (FE : forall (l : list Z) z, (forall z, In z l -> (0 <= z)%Z) -> In z l -> (z <= fold_right Z.add 0 l)%Z).
  { induction l as [|y l IH]; intros z G Hz; [destruct Hz|]; destruct Hz as [->|Hz]; cbn; [specialize (FP l (fun w Hw => G w (or_intror Hw))); lia|].
    specialize (IH z (fun w Hw => G w (or_intror Hw)) Hz). specialize (G y (or_introl eq_refl)). lia. }
  assert (PV : forall z, In z (map snd pv) -> (0 <= z)%Z). { intros z Hz. apply in_map_iff in Hz. destruct Hz as (q & <- & Hq). clear - H Hq. induction H as [|t q' l l' (_ & _ & _ & _ & _ & P) F IH]; [destruct Hq|]. destruct Hq as [<-|Hq]; [lia|auto]. }
  assert (PP : forall z, In z (map (fun q => (fst q * snd q)%Z) pv) -> (0 <= z)%Z). { intros z Hz. apply in_map_iff in Hz. destruct Hz as (q & <- & Hq). clear - H Hq Hlo. induction H as [|t q' l l' (_ & _ & _ & _ & B & P) F IH]; [destruct Hq|]. destruct Hq as [<-|Hq]; [apply Z.mul_nonneg_nonneg; lia|auto]. }
  assert (EV : map fv vs = map IZR (map snd pv) /\ forall x, In x vs -> fin x).
  { unfold vs. clear - H. induction H as [|t q l l' (_ & F & _ & V & _) FF [IH1 IH2]]; cbn; [split; auto; tauto|]. rewrite V, IH1. split; auto. intros x [<-|Hx]; auto. }
  assert (EP : map fv ps = map IZR (map (fun q => (fst q * snd q)%Z) pv) /\ forall x, In x ps -> fin x).
  { unfold ps. assert (BB : forall q, In q pv -> (0 <= fst q * snd q <= 2 ^ 53)%Z).
    { intros q Hq. split; [apply PP; apply in_map_iff; eauto|]. apply Z.le_trans with (2 := BP). apply FE; auto. apply in_map_iff. eauto. }
    clear - H BB. induction H as [|t q l l' (F1 & F2 & V1 & V2 & _) FF IH]; cbn [map]; [split; auto; intros x []|].
    destruct IH as [IH1 IH2]; [intros q' Hq'; apply BB; now right|]. specialize (BB q (or_introl eq_refl)).
    destruct (@fmul_spec (ft_price t) (ft_vol t) F1 F2) as [F V]; [rewrite V1, V2, <- mult_IZR; apply big_ge; lia|]. rewrite V1, V2, <- mult_IZR, rnd64_int in V by lia.
    rewrite V, IH1. split; auto. intros x [<-|Hx]; auto. }
  destruct EV as [EV FV]. destruct EP as [EP FPs].
  assert (G : forall l zs, map fv l = map IZR zs -> (forall x, In x l -> fin x) -> (forall z, In z zs -> (0 <= z)%Z) -> (fold_right Z.add 0 zs <= 2 ^ 53)%Z -> fin (sum l) /\ fv (sum l) = IZR (fold_right Z.add 0%Z zs)).
  { intros l zs E F P B. destruct (HS l) as (t & -> & PM & _). assert (PM' : Permutation (map IZR zs) (map fv (leaves t))) by (rewrite <- E; apply Permutation_map; now symmetry).
    apply Permutation_sym, Permutation_map_inv in PM'. destruct PM' as (zs' & E' & PZ).
    assert (EF : fold_right Z.add 0%Z zs = fold_right Z.add 0%Z zs') by (clear - PZ; induction PZ; cbn; lia).
    rewrite EF in *. apply seval_whole; auto.
    - intros x Hx. apply F. eapply Permutation_in; eauto.
    - intros z Hz. apply P. eapply Permutation_in; [symmetry; exact PZ|exact Hz]. }
  destruct (G ps _ EP FPs PP BP) as [F1 V1]. destruct (G vs _ EV FV PV BV) as [F2 V2].
  set (P := fold_right Z.add 0%Z (map (fun q => (fst q * snd q)%Z) pv)) in *. set (W := fold_right Z.add 0%Z (map snd pv)) in *.
  assert (BN : (lo * W <= P <= hi * W)%Z /\ (0 < W)%Z).
  { unfold P, W. clear - H Hne Hlo. assert (X : (lo * fold_right Z.add 0 (map snd pv) <= fold_right Z.add 0 (map (fun q => fst q * snd q) pv) <= hi * fold_right Z.add 0 (map snd pv))%Z /\ (0 <= fold_right Z.add 0 (map snd pv))%Z).
    { clear Hne. induction H as [|t q l l' (_ & _ & _ & _ & B & P) F IH]; cbn [map fold_right]; [lia|]. destruct IH as [IH1 IH2]. split; [|lia]. rewrite !Z.mul_add_distr_l.
      assert (lo * snd q <= fst q * snd q)%Z by (apply Z.mul_le_mono_nonneg_r; lia). assert (fst q * snd q <= hi * snd q)%Z by (apply Z.mul_le_mono_nonneg_r; lia). lia. }
    split; [apply X|]. destruct H as [|t q l l' (_ & _ & _ & _ & _ & P) F]; [congruence|]. cbn [map fold_right] in *. assert (0 <= fold_right Z.add 0 (map snd l'))%Z; [|lia].
    clear - F. induction F as [|t q l l' (_ & _ & _ & _ & _ & P) F IH]; cbn; lia. }
  destruct BN as [[B1 B2] W0]. apply IZR_le in B1, B2. rewrite mult_IZR in B1, B2. assert (W0' : 0 < IZR W) by now apply IZR_lt.
  assert (Q1 : IZR lo <= IZR P / IZR W) by (apply Rmult_le_reg_r with (IZR W); auto; unfold Rdiv; rewrite Rmult_assoc, Rinv_l, Rmult_1_r by lra; exact B1).
  assert (Q2 : IZR P / IZR W <= IZR hi) by (apply Rmult_le_reg_r with (IZR W); auto; unfold Rdiv; rewrite (Rmult_assoc (IZR P)), Rinv_l, Rmult_1_r by lra; exact B2).
  assert (lo <= hi)%Z by (apply le_IZR; lra). assert (0 <= IZR lo) by (now apply IZR_le).
  destruct (@fdiv_spec (sum ps) (sum vs) F1) as [F3 V3]; [rewrite V2; lra|rewrite V1, V2, Rabs_pos_eq by lra; apply Rle_trans with (IZR hi); auto; rewrite <- (Rabs_pos_eq (IZR hi)) by lra; apply big_ge; lia|].
  rewrite V1, V2 in V3. split; auto. split; auto. rewrite V3. rewrite <- (@rnd64_int lo) at 1 by lia. rewrite <- (@rnd64_int hi) by lia. split; now apply rnd64_mono.
Qed.
Print Assumptions c126_vwap_whole.
(** the hypotheses of [c126_vwap_bounds] and [c126_vwap_whole] hold of two trades, 3 at 1 and 5 at 2; and the VWAP of 3 at 0.1 and 2 at 1 is between its prices *)
Example c126_ex : let ticks := [FTick (fz 1) (fz 3); FTick (fz 2) (fz 5)] in
  (forall t, In t ticks -> fin (ft_price t) /\ fin (ft_vol t) /\ 1 <= fv (ft_price t) <= 2 /\ 0 < fv (ft_vol t) /\ bpow radix2 (-1022) <= fv (ft_price t) * fv (ft_vol t)) /\
  bpow radix2 (-1000) <= 1 /\ rsum (map (fun t => fv (ft_vol t)) ticks) <= bpow radix2 1000 /\ 2 * rsum (map (fun t => fv (ft_vol t)) ticks) <= bpow radix2 1000 /\ 2 <= bpow radix2 1000.
Proof.
  intro ticks. destruct (@fz_spec 1) as [F1 V1]; [lia|]. destruct (@fz_spec 2) as [F2 V2]; [lia|]. destruct (@fz_spec 3) as [F3 V3]; [lia|]. destruct (@fz_spec 5) as [F5 V5]; [lia|].
  assert (B : bpow radix2 (-1022) <= 1) by (change 1 with (bpow radix2 0); apply bpow_le; lia). assert (B' : bpow radix2 (-1000) <= 1) by (change 1 with (bpow radix2 0); apply bpow_le; lia).
  assert (T : 16 <= bpow radix2 1000) by (change 16 with (bpow radix2 4); apply bpow_le; lia).
  assert (ES : rsum (map (fun t => fv (ft_vol t)) ticks) = 8) by (unfold ticks; cbn [map ft_vol rsum]; rewrite V3, V5; lra). rewrite ES.
  split; [|repeat split; lra]. intros t [<-|[<-|[]]]; cbn [ft_price ft_vol]; rewrite ?V1, ?V2, ?V3, ?V5; repeat split; auto; lra.
Qed.
Example c126_ex_whole : Forall2 (fun t q => fin (ft_price t) /\ fin (ft_vol t) /\ fv (ft_price t) = IZR (fst q) /\ fv (ft_vol t) = IZR (snd q) /\ (1 <= fst q <= 2)%Z /\ (0 < snd q)%Z)
  [FTick (fz 1) (fz 3); FTick (fz 2) (fz 5)] [(1, 3); (2, 5)]%Z.
Proof.
  destruct (@fz_spec 1) as [F1 V1]; [lia|]. destruct (@fz_spec 2) as [F2 V2]; [lia|]. destruct (@fz_spec 3) as [F3 V3]; [lia|]. destruct (@fz_spec 5) as [F5 V5]; [lia|].
  repeat constructor; auto; cbn; lia.
Qed.

(** ** C127 volume and dollar bar ids *)
Lemma ids_spec l freq : amounts l -> fin freq -> 0 < fv freq -> total l * (1 + u64) ^ length l <= big -> total l * (1 + u64) ^ length l <= bpow radix2 50 * fv freq ->
  let ids := map (fun s => ffloordiv s freq) (fcumsum l) in
  length ids = length l /\
  forall i x, nth_error ids i = Some x -> exists k, fin x /\ fv x = IZR k /\
    (Zfloor (total (firstn (i + 1) l) * (1 - u64) ^ i / fv freq) <= k <= Zfloor (total (firstn (i + 1) l) * (1 + u64) ^ i / fv freq))%Z /\
    forall j y, nth_error ids j = Some y -> (i <= j)%nat -> fv x <= fv y.
Proof.
  intros A Ff Pf HB HQ ids. destruct (fcumsum_spec A HB) as [L H]. assert (Pi : 0 < / fv freq) by now apply Rinv_0_lt_compat.
  assert (U : forall i s, nth_error (fcumsum l) i = Some s -> fv s <= total l * (1 + u64) ^ length l).
  { intros i s E. destruct (H i s E) as (_ & _ & [_ B] & _). apply Rle_trans with (1 := B).
    assert (Hi : (i < length l)%nat) by (rewrite <- L; apply nth_error_Some; congruence).
    assert (T1 : total l = total (firstn (i + 1) l) + total (skipn (i + 1) l)) by (rewrite <- total_app, firstn_skipn; reflexivity).
    assert (A1 : amounts (firstn (i + 1) l)) by (intros x Hx; apply A; rewrite <- (firstn_skipn (i + 1) l); apply in_app_iff; auto).
    assert (A2 : amounts (skipn (i + 1) l)) by (intros x Hx; apply A; rewrite <- (firstn_skipn (i + 1) l); apply in_app_iff; auto).
    pose proof (total_nonneg A1). pose proof (total_nonneg A2). apply Rmult_le_compat; try lra; [apply Rlt_le, pow_hi_pos|apply pow_hi_mono; lia]. }
  assert (V : forall i s, nth_error (fcumsum l) i = Some s -> fin (ffloordiv s freq) /\ fv (ffloordiv s freq) = IZR (Zfloor (fv s / fv freq))).
  { intros i s E. destruct (H i s E) as (F & P & _). specialize (U i s E). apply ffloordiv_spec; auto; lra. }
  split; [unfold ids; rewrite map_length; exact L|]. intros i x E. unfold ids in E. rewrite nth_error_map in E. destruct (nth_error (fcumsum l) i) as [s|] eqn:Es; [|discriminate]. injection E as <-.
  destruct (V i s Es) as [F1 V1]. destruct (H i s Es) as (_ & _ & [B1 B2] & M). exists (Zfloor (fv s / fv freq)). repeat split; auto.
  - apply Zfloor_le, Rmult_le_compat_r; lra.
  - apply Zfloor_le, Rmult_le_compat_r; lra.
  - intros j y E Hj. unfold ids in E. rewrite nth_error_map in E. destruct (nth_error (fcumsum l) j) as [s'|] eqn:Es'; [|discriminate]. injection E as <-.
    destruct (V j s' Es') as [F2 V2]. rewrite V1, V2. apply IZR_le, Zfloor_le, Rmult_le_compat_r; [lra|]. apply (M j s' Es' Hj).
Qed.
(** the id of a tick is the whole number of [freq]s in the volume up to it, to within one rounding per addition; ids never go down, so the ticks of a bar are consecutive *)
Theorem c127_volume_ids ticks freq : (forall t, In t ticks -> fin (ft_vol t) /\ 0 <= fv (ft_vol t)) -> fin freq -> 0 < fv freq ->
  let vol n := rsum (map (fun t => fv (ft_vol t)) (firstn n ticks)) in
  vol (length ticks) * (1 + u64) ^ length ticks <= big -> vol (length ticks) * (1 + u64) ^ length ticks <= bpow radix2 50 * fv freq ->
  length (fvolume_ids ticks freq) = length ticks /\
  forall i x, nth_error (fvolume_ids ticks freq) i = Some x -> exists k, fin x /\ fv x = IZR k /\
    (Zfloor (vol (i + 1)%nat * (1 - u64) ^ i / fv freq) <= k <= Zfloor (vol (i + 1)%nat * (1 + u64) ^ i / fv freq))%Z /\
    forall j y, nth_error (fvolume_ids ticks freq) j = Some y -> (i <= j)%nat -> fv x <= fv y.
Proof.
  intros H Ff Pf vol HB HQ. assert (ET : forall n, total (firstn n (map ft_vol ticks)) = vol n) by (intro n; unfold total, vol; rewrite firstn_map, map_map; reflexivity).
  assert (ET' : total (map ft_vol ticks) = vol (length ticks)) by (rewrite <- ET, firstn_all2; [reflexivity|rewrite map_length; lia]).
  destruct (@ids_spec (map ft_vol ticks) freq) as [L G]; auto; [intros x Hx; apply in_map_iff in Hx; destruct Hx as (t & <- & Ht); auto|rewrite ET', map_length; auto|rewrite ET', map_length; auto|].
  fold (fvolume_ids ticks freq) in L, G. rewrite map_length in L. split; auto. intros i x E. destruct (G i x E) as (k & G1 & G2 & G3 & G4). exists k. rewrite ET in G3. auto.
Qed.
Print Assumptions c127_volume_ids.
(** the same of dollar bars, with one more rounding per tick for its price times volume *)
Theorem c127_dollar_ids ticks freq : (forall t, In t ticks -> fin (ft_price t) /\ fin (ft_vol t) /\ bpow radix2 (-1022) <= fv (ft_vol t) * fv (ft_price t)) -> fin freq -> 0 < fv freq ->
  let dollars n := rsum (map (fun t => fv (ft_vol t) * fv (ft_price t)) (firstn n ticks)) in
  dollars (length ticks) * (1 + u64) ^ (length ticks + 1) <= big -> dollars (length ticks) * (1 + u64) ^ (length ticks + 1) <= bpow radix2 50 * fv freq ->
  length (fdollar_ids ticks freq) = length ticks /\
  forall i x, nth_error (fdollar_ids ticks freq) i = Some x -> exists k, fin x /\ fv x = IZR k /\
    (Zfloor (dollars (i + 1)%nat * (1 - u64) ^ (i + 1) / fv freq) <= k <= Zfloor (dollars (i + 1)%nat * (1 + u64) ^ (i + 1) / fv freq))%Z /\
    forall j y, nth_error (fdollar_ids ticks freq) j = Some y -> (i <= j)%nat -> fv x <= fv y.
Proof.
  intros H Ff Pf dollars HB HQ. set (ps := map (fun t => fmul (ft_vol t) (ft_price t)) ticks). pose proof u64_pos as U. pose proof u64_half as U2. assert (Pi : 0 < / fv freq) by now apply Rinv_0_lt_compat.
  pose proof (bpow_gt_0 radix2 (-1022)) as BP.
  assert (DB : forall t, In t ticks -> fv (ft_vol t) * fv (ft_price t) <= dollars (length ticks)).
  { intros t Ht. unfold dollars. rewrite firstn_all. apply rsum_ge_elem; [|apply in_map_iff; eauto]. intros x Hx. apply in_map_iff in Hx. destruct Hx as (t' & <- & Ht'). destruct (H t' Ht') as (_ & _ & P). lra. }
  assert (D0 : forall t, In t ticks -> dollars (length ticks) <= big).
  { intros t Ht. apply Rle_trans with (2 := HB). specialize (DB t Ht). destruct (H t Ht) as (_ & _ & P). rewrite <- (Rmult_1_r (dollars (length ticks))) at 1. apply Rmult_le_compat_l; [lra|apply pow_hi_ge_1]. }
  assert (PS : forall t, In t ticks -> fin (fmul (ft_vol t) (ft_price t)) /\ fv (ft_vol t) * fv (ft_price t) * (1 - u64) <= fv (fmul (ft_vol t) (ft_price t)) <= fv (ft_vol t) * fv (ft_price t) * (1 + u64)).
  { intros t Ht. destruct (H t Ht) as (F1 & F2 & P). specialize (DB t Ht). specialize (D0 t Ht). destruct (@fmul_spec (ft_vol t) (ft_price t) F2 F1) as [F V]; [rewrite Rabs_pos_eq; lra|]. split; auto. rewrite V.
    destruct (@rnd_error (fv (ft_vol t) * fv (ft_price t))) as (e & He & ->); [rewrite Rabs_pos_eq; lra|]. apply Rabs_le_inv in He. split; apply Rmult_le_compat_l; lra. }
  assert (A : amounts ps). { intros x Hx. apply in_map_iff in Hx. destruct Hx as (t & <- & Ht). destruct (PS t Ht) as [F B]. destruct (H t Ht) as (_ & _ & P). split; auto. assert (0 <= fv (ft_vol t) * fv (ft_price t) * (1 - u64)) by (apply Rmult_le_pos; lra). lra. }
  assert (ET : forall n, dollars n * (1 - u64) <= total (firstn n ps) <= dollars n * (1 + u64)).
  { intro n. unfold total, dollars, ps. rewrite firstn_map, map_map.
    assert (PS' : forall t, In t (firstn n ticks) -> fv (ft_vol t) * fv (ft_price t) * (1 - u64) <= fv (fmul (ft_vol t) (ft_price t)) <= fv (ft_vol t) * fv (ft_price t) * (1 + u64)) by (intros t Ht; apply PS; rewrite <- (firstn_skipn n ticks); apply in_app_iff; auto).
    clear - PS'. induction (firstn n ticks) as [|t l IH]; cbn [map rsum]; [lra|]. specialize (PS' t (or_introl eq_refl)) as P. specialize (IH (fun x Hx => PS' x (or_intror Hx))). lra. }
  assert (EL : total ps <= dollars (length ticks) * (1 + u64)) by (rewrite <- (firstn_all ps); unfold ps at 1; rewrite map_length; apply ET).
  assert (EL' : total ps * (1 + u64) ^ length ps <= dollars (length ticks) * (1 + u64) ^ (length ticks + 1)).
  { unfold ps at 2. rewrite map_length, pow_add, pow_1. replace (dollars (length ticks) * ((1 + u64) ^ length ticks * (1 + u64))) with (dollars (length ticks) * (1 + u64) * (1 + u64) ^ length ticks) by ring.
    apply Rmult_le_compat_r; auto. apply Rlt_le, pow_hi_pos. }
  destruct (@ids_spec ps freq A Ff Pf) as [L G]; [lra|lra|]. change (map (fun s => ffloordiv s freq) (fcumsum ps)) with (fdollar_ids ticks freq) in L, G.
  split; [rewrite L; unfold ps; apply map_length|]. intros i x E. destruct (G i x E) as (k & G1 & G2 & [G3 G3'] & G4).
  exists k. repeat split; auto; specialize (ET (i + 1)%nat); rewrite pow_add, pow_1.
  - apply Z.le_trans with (2 := G3). apply Zfloor_le, Rmult_le_compat_r; [lra|]. rewrite (Rmult_comm ((1 - u64) ^ i)), <- Rmult_assoc. apply Rmult_le_compat_r; [apply Rlt_le, pow_lo_pos|lra].
  - apply Z.le_trans with (1 := G3'). apply Zfloor_le, Rmult_le_compat_r; [lra|]. rewrite (Rmult_comm ((1 + u64) ^ i)), <- Rmult_assoc. apply Rmult_le_compat_r; [apply Rlt_le, pow_hi_pos|lra].
Qed.
Print Assumptions c127_dollar_ids.
(** REFUTED in binary64: ten ticks of volume 0.1 make up a volume of at least 1.0, but all ten are in bar 0 when the bars are of 1.0 *)
Theorem c127_exact_refuted : exists ticks freq, let vol := rsum (map (fun t => fv (ft_vol t)) ticks) in
  (forall t, In t ticks -> fin (ft_vol t) /\ 0 < fv (ft_vol t)) /\ fin freq /\ 0 < fv freq /\ length ticks = 10%nat /\ fv freq < vol /\
  forall x, In x (fvolume_ids ticks freq) -> fv x = 0.
Proof.
  exists (repeat (FTick (fz 1) tenth) 10), (fz 1). destruct (@fz_spec 1) as [F1 V1]; [lia|]. assert (F : fin tenth) by (vm_compute; reflexivity). destruct fz0 as [F0 V0].
  assert (VT : fv tenth = IZR 3602879701896397 * / IZR (2 ^ 55)).
  { destruct (@ff_spec 3602879701896397 (-55)) as [_ V].
    - rewrite Rabs_pos_eq by (apply Rmult_le_pos; [apply IZR_le; lia|apply bpow_ge_0]). apply Rle_trans with (bpow radix2 53 * bpow radix2 (-55)).
      + apply Rmult_le_compat_r; [apply bpow_ge_0|]. change (bpow radix2 53) with (IZR (2 ^ 53)). apply IZR_le. lia.
      + rewrite <- bpow_plus. apply bpow_le. lia.
    - unfold tenth. rewrite V. rewrite rnd64_id; [|apply format64_float; lia]. reflexivity. }
  cbv zeta. split; [|split; [exact F1|split; [rewrite V1; lra|split; [reflexivity|split]]]].
  - intros t Ht. apply repeat_spec in Ht. subst t. cbn [ft_vol]. split; auto. rewrite <- V0. apply flt_spec; auto.
  - cbn [repeat map ft_vol rsum]. rewrite V1, VT. change (2 ^ 55)%Z with 36028797018963968%Z. lra.
  - assert (E : forallb (fun x => andb (feq x (fz 0)) (is_finite x)) (fvolume_ids (repeat (FTick (fz 1) tenth) 10) (fz 1)) = true) by (vm_compute; reflexivity).
    rewrite forallb_forall in E. intros x Hx. apply E, andb_prop in Hx. destruct Hx as [Hx Fx]. apply feq_spec in Hx; auto.
Qed.
Print Assumptions c127_exact_refuted.
(** whole-number volumes: the ids are exact *)
Lemma fcumsum_whole zs : forall l s a, fin s -> fv s = IZR a -> (0 <= a)%Z -> (forall x, In x l -> fin x) -> map fv l = map IZR zs -> (forall z, In z zs -> (0 <= z)%Z) -> (a + fold_right Z.add 0 zs <= 2 ^ 53)%Z ->
  forall i x, nth_error (fcumsum_from s l) i = Some x -> fin x /\ fv x = IZR (a + fold_right Z.add 0%Z (firstn (i + 1) zs)).
Proof.
  assert (FP : forall l : list Z, (forall z, In z l -> (0 <= z)%Z) -> (0 <= fold_right Z.add 0 l)%Z) by (induction l as [|z l IH]; intro G; cbn; [lia|]; specialize (G z (or_introl eq_refl)) as Hz; specialize (IH (fun w Hw => G w (or_intror Hw))); lia).
  induction zs as [|z zs IH]; intros l s a Fs Vs Pa F E P B i x Ex; destruct l as [|y l]; try discriminate; [destruct i; discriminate|].
  injection E as Ey El. cbn [fcumsum_from] in Ex. cbn [fold_right] in B. pose proof (P z (or_introl eq_refl)) as Pz. pose proof (FP zs (fun w Hw => P w (or_intror Hw))) as Pzs.
  destruct (@fadd_spec s y Fs (F y (or_introl eq_refl))) as [F2 V2]; [rewrite Vs, Ey, <- plus_IZR; apply big_ge; lia|]. rewrite Vs, Ey, <- plus_IZR, rnd64_int in V2 by lia.
  destruct i as [|i]; cbn [nth_error] in Ex.
  - injection Ex as <-. cbn [Nat.add firstn fold_right]. rewrite Z.add_0_r. auto.
  - replace (S i + 1)%nat with (S (i + 1)) by lia. cbn [firstn fold_right]. rewrite Z.add_assoc.
    apply (IH l (fadd s y) (a + z)%Z); auto; try lia. intros w Hw. apply F. now right. intros w Hw. apply P. now right.
Qed.
Theorem c127_whole ticks vols freq f : Forall2 (fun t v => fin (ft_vol t) /\ fv (ft_vol t) = IZR v /\ (0 <= v)%Z) ticks vols -> fin freq -> fv freq = IZR f -> (0 < f)%Z ->
  (fold_right Z.add 0 vols <= 2 ^ 50)%Z ->
  length (fvolume_ids ticks freq) = length ticks /\
  forall i x, nth_error (fvolume_ids ticks freq) i = Some x -> fin x /\ fv x = IZR (fold_right Z.add 0 (firstn (i + 1) vols) / f)%Z.
Proof.
  intros H Ff Vf Pf B. assert (FP : forall l : list Z, (forall z, In z l -> (0 <= z)%Z) -> (0 <= fold_right Z.add 0 l)%Z) by (induction l as [|z l IH]; intro G; cbn; [lia|]; specialize (G z (or_introl eq_refl)) as Hz; specialize (IH (fun w Hw => G w (or_intror Hw))); lia).
  assert (FA : forall l r, fold_right Z.add 0%Z (l ++ r) = (fold_right Z.add 0 l + fold_right Z.add 0 r)%Z) by (induction l as [|z l IH]; intro r; cbn; [auto|rewrite IH; lia]).
  assert (E : map fv (map ft_vol ticks) = map IZR vols /\ (forall x, In x (map ft_vol ticks) -> fin x) /\ forall z, In z vols -> (0 <= z)%Z).
  { clear - H. induction H as [|t v l l' (F & V & P) FF (IH1 & IH2 & IH3)]; cbn; [repeat split; auto; tauto|]. rewrite V, IH1. repeat split; auto; intros x [<-|Hx]; auto. }
  destruct E as (E & F & P). unfold fvolume_ids.
  assert (LF : forall l s, length (fcumsum_from s l) = length l) by (induction l as [|y l IH]; intro s; cbn [fcumsum_from length]; auto).
  split. { rewrite map_length. rewrite <- (map_length ft_vol ticks). destruct (map ft_vol ticks) as [|y l]; cbn [fcumsum length]; auto. }
  intros i x Ex. rewrite nth_error_map in Ex. destruct (nth_error (fcumsum (map ft_vol ticks)) i) as [s|] eqn:Es; [|discriminate]. injection Ex as <-.
  assert (S : fin s /\ fv s = IZR (fold_right Z.add 0%Z (firstn (i + 1) vols))).
  { destruct (map ft_vol ticks) as [|y l]; [destruct i; discriminate|]. destruct vols as [|z vols]; [discriminate|]. injection E as Ey El. pose proof (P z (or_introl eq_refl)) as Pz. destruct i as [|i]; cbn [fcumsum nth_error] in Es.
    - injection Es as <-. cbn [Nat.add firstn fold_right]. rewrite Z.add_0_r. split; auto. apply F. now left.
    - replace (S i + 1)%nat with (S (i + 1)) by lia. cbn [firstn fold_right] in *. apply (@fcumsum_whole vols l y z); auto; try lia; [apply F; now left|intros w Hw; apply F; now right|intros w Hw; apply P; now right]. }
  destruct S as [Fs Vs]. set (a := fold_right Z.add 0%Z (firstn (i + 1) vols)) in *.
  assert (Ba : (0 <= a <= 2 ^ 50)%Z). { unfold a. rewrite <- (firstn_skipn (i + 1) vols), FA in B. pose proof (FP (firstn (i + 1) vols) (fun z Hz => P z (eq_ind _ (In z) (in_or_app _ _ _ (or_introl Hz)) _ (firstn_skipn _ _)))).
    pose proof (FP (skipn (i + 1) vols) (fun z Hz => P z (eq_ind _ (In z) (in_or_app _ _ _ (or_intror Hz)) _ (firstn_skipn _ _)))). lia. }
  assert (IZR 1 <= IZR f) by (apply IZR_le; lia). assert (IZR 0 <= IZR a <= IZR (2 ^ 50)) by (split; apply IZR_le; lia). change (bpow radix2 50) with (IZR (2 ^ 50)).
  destruct (@ffloordiv_spec s freq Fs Ff) as [F3 V3]; rewrite ?Vs, ?Vf; [split; [lra|]|lra| |].
  - rewrite <- (Rabs_pos_eq (IZR a)) by lra. apply big_ge. lia.
  - change (bpow radix2 50) with (IZR (2 ^ 50)). nra.
  - split; auto. rewrite V3, Vs, Vf, Zfloor_div by lia. reflexivity.
Qed.
Print Assumptions c127_whole.
Example c127_ex : map (fun x => feq x (fz 0)) (fvolume_ids [FTick (fz 7) (fz 3); FTick (fz 8) (fz 2); FTick (fz 9) (fz 4)] (fz 5)) = [true; false; false]
  /\ Forall2 (fun t v => fin (ft_vol t) /\ fv (ft_vol t) = IZR v /\ (0 <= v)%Z) [FTick (fz 7) (fz 3); FTick (fz 8) (fz 2); FTick (fz 9) (fz 4)] [3; 2; 4]%Z.
Proof.
  destruct (@fz_spec 4) as [F1 V1]; [lia|]. destruct (@fz_spec 2) as [F2 V2]; [lia|]. destruct (@fz_spec 3) as [F3 V3]; [lia|].
  split; [vm_compute; reflexivity|]. repeat constructor; auto; cbn; lia.
Qed.

(** ** C128 tick rule *)
Lemma rnd_diff_sign x y : format64 x -> format64 y -> (y < x -> 0 < rnd64 (x - y)) /\ (x < y -> rnd64 (x - y) < 0).
Proof.
  assert (G : forall x y, format64 x -> format64 y -> y < x -> 0 < rnd64 (x - y)).
  { clear x y. intros x y Fx Fy H. assert (0 <= rnd64 (x - y)) by (rewrite <- rnd64_0; apply rnd64_mono; lra).
    assert (rnd64 (x - y) <> 0); [|lra]. unfold Rminus, rnd64. apply round_plus_neq_0; try typeclasses eauto; auto; [apply generic_format_opp; exact Fy|lra]. }
  intros Fx Fy. split; intro H; auto. specialize (G y x Fy Fx H). replace (x - y) with (- (y - x)) by lra. rewrite rnd64_opp. lra.
Qed.
Lemma sign_quotient c : fin c -> fv c <> 0 -> fin (fdiv (fabs c) c) /\ (0 < fv c -> fv (fdiv (fabs c) c) = 1) /\ (fv c < 0 -> fv (fdiv (fabs c) c) = -1).
Proof.
  intros F N. destruct (fabs_spec F) as [Fa Va]. assert (EQ : (0 < fv c -> Rabs (fv c) / fv c = 1) /\ (fv c < 0 -> Rabs (fv c) / fv c = -1)).
  { split; intro H; [rewrite Rabs_pos_eq by lra|rewrite Rabs_left by lra]; field; lra. }
  assert (B1 : 1 <= big) by (change 1 with (bpow radix2 0); apply bpow_le; lia).
  destruct (@fdiv_spec (fabs c) c Fa N) as [F2 V2]. { rewrite Va. destruct (Rlt_or_le 0 (fv c)); [rewrite (proj1 EQ) by auto|rewrite (proj2 EQ) by lra]; [rewrite Rabs_pos_eq|rewrite Rabs_left]; lra. }
  rewrite Va in V2. split; auto. split; intro H; rewrite V2; [rewrite (proj1 EQ H)|rewrite (proj2 EQ H)]; [apply rnd64_1|apply (@rnd64_int (-1)); lia].
Qed.
(** the tick rule rounds nothing away: however close two prices are, the direction is exactly 1 after a rise, exactly -1 after a fall, and the last one after no change *)
Theorem c128_tick_rule prices b0 : fin b0 -> (forall p, In p prices -> fin p /\ Rabs (fv p) <= bpow radix2 1022) ->
  length (ftick_rule prices b0) = length prices /\
  (forall d, nth_error (ftick_rule prices b0) 0 = Some d -> d = b0) /\
  forall i p p' d d', nth_error prices i = Some p -> nth_error prices (S i) = Some p' -> nth_error (ftick_rule prices b0) i = Some d -> nth_error (ftick_rule prices b0) (S i) = Some d' ->
    fin d' /\ (fv p < fv p' -> fv d' = 1) /\ (fv p' < fv p -> fv d' = -1) /\ (fv p' = fv p -> d' = d).
Proof.
  intros Fb H. assert (EB : bpow radix2 1022 + bpow radix2 1022 = big) by (change big with (bpow radix2 (1 + 1022)); rewrite bpow_plus; change (bpow radix2 1) with 2; ring).
  assert (G : forall ps p d, fin d -> fin p /\ Rabs (fv p) <= bpow radix2 1022 -> (forall q, In q ps -> fin q /\ Rabs (fv q) <= bpow radix2 1022) ->
    length (ftick_rule_from p d ps) = length ps /\
    forall i q q' e e', nth_error (p :: ps) i = Some q -> nth_error ps i = Some q' -> nth_error (d :: ftick_rule_from p d ps) i = Some e -> nth_error (ftick_rule_from p d ps) i = Some e' ->
    fin e' /\ (fv q < fv q' -> fv e' = 1) /\ (fv q' < fv q -> fv e' = -1) /\ (fv q' = fv q -> e' = e)).
  { induction ps as [|p' ps IH]; intros p d Fd [Fp Bp] Hps; [split; auto; intros [|i]; discriminate|].
    cbn [ftick_rule_from]. set (c := fsub p' p). set (d' := if feq c (fz 0) then d else fdiv (fabs c) c). destruct (Hps p' (or_introl eq_refl)) as [Fp' Bp']. destruct fz0 as [F0 V0].
    destruct (@fsub_spec p' p Fp' Fp) as [Fc Vc]; [apply Rle_trans with (Rabs (fv p') + Rabs (fv p)); [|lra]; unfold Rminus; rewrite <- (Rabs_Ropp (fv p)); apply Rabs_triang|]. fold c in Fc, Vc.
    destruct (rnd_diff_sign (fv_format p') (fv_format p)) as [S1 S2]. rewrite <- Vc in S1, S2.
    assert (D : fin d' /\ (fv p < fv p' -> fv d' = 1) /\ (fv p' < fv p -> fv d' = -1) /\ (fv p' = fv p -> d' = d)).
    { unfold d'. destruct (feq c (fz 0)) eqn:Ec.
      - apply feq_spec in Ec; auto. rewrite V0 in Ec. split; auto. repeat split; auto; intro X; exfalso; [specialize (S1 X)|specialize (S2 X)]; lra.
      - assert (N : fv c <> 0) by (intro X; rewrite <- V0 in X; apply feq_spec in X; auto; congruence). destruct (sign_quotient Fc N) as (Q1 & Q2 & Q3). split; auto. repeat split; auto.
        intro X. exfalso. apply N. rewrite Vc, X. replace (fv p - fv p) with 0 by lra. apply rnd64_0. }
    destruct (IH p' d' (proj1 D) (conj Fp' Bp') (fun q Hq => Hps q (or_intror Hq))) as [L IHs]. cbn [length]. split; [now rewrite L|].
    intros [|i] q q' e e' E1 E2 E3 E4; cbn [nth_error] in *; [congruence|]. apply (IHs i q q' e e'); auto. }
  destruct prices as [|p ps]; cbn [ftick_rule]; [split; [reflexivity|split; [intros d E; discriminate|intros [|i] p p' d d' E; discriminate]]|].
  destruct (G ps p b0 Fb (H p (or_introl eq_refl)) (fun q Hq => H q (or_intror Hq))) as [L Gs]. cbn [length]. split; [now rewrite L|]. split; [intros d E; injection E as <-; reflexivity|].
  intros i q q' e e' E1 E2 E3 E4. exact (Gs i q q' e e' E1 E2 E3 E4).
Qed.
Print Assumptions c128_tick_rule.
Example c128_ex : map (fun d => (feq d (fz 1), feq d (fz (-1)))) (ftick_rule [tenth; fadd tenth (ff 1 (-56)); fadd tenth (ff 1 (-56)); ff 1 (-1074); fz 0] (fz 1)) = [(true, false); (true, false); (true, false); (false, true); (false, true)].
Proof. vm_compute. reflexivity. Qed.
