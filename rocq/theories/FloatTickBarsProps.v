(** C138 at the entry point: imbalance bars over ticks, from the prices on. *)
From Coq Require Import ZArith QArith Qcanon Qreals Reals Lra Lia List Bool Permutation.
From Flocq Require Import Core BinarySingleNaN.
From Verif Require Import Py Num RNum Float64 FloatBarsModel FloatBarsProofs FloatBarsProps FloatHRPProofs FloatRetModel FloatRetProps FloatSeriesModel FloatSeriesProofs FloatSeriesProps FloatCusumProps FloatEwmaProps.
From Verif Require Import SeriesModel SeriesSpec SeriesProofs BarsModel BarsSpec BarsProofs InfoBarsProofs InfoBarsProps InfoTraceProps FloatInfoModel FloatInfoSpec FloatInfoProofs FloatInfoProps.
Import ListNotations.
Set Implicit Arguments.
Unset Strict Implicit.
Open Scope R_scope.

Definition same_price (x : f64) (q : Qc) : Prop := fin x /\ fv x = qr q /\ Rabs (fv x) <= bpow radix2 1022.
Lemma qr_eq a b : qr a = qr b -> a = b.
Proof. intro H. assert (E : (a - b = 0)%Qc) by (apply qr_eq_0; rewrite qr_sub; lra). clear - E. qlra. Qed.
(** the float directions are the exact ones *)
Lemma direction_same p p' d q q' z : same_price p q -> same_price p' q' -> whole_value 1 d (qz z) -> 
  whole_value 1 (if feq (fsub p' p) (fz 0) then d else fdiv (fabs (fsub p' p)) (fsub p' p)) (if qeq (q' - q) 0 then qz z else qabs (q' - q) / (q' - q))%Qc.
Proof.
  intros (F & V & B) (F' & V' & B') D. assert (EB : bpow radix2 1022 + bpow radix2 1022 = big) by (change big with (bpow radix2 (1 + 1022)); rewrite bpow_plus; change (bpow radix2 1) with 2; ring).
  destruct (@fsub_spec p' p F' F) as [Fc Vc]; [unfold Rminus; apply Rle_trans with (1 := Rabs_triang _ _); rewrite Rabs_Ropp; lra|]. destruct fz0 as [F0 V0].
  destruct (rnd_diff_sign (fv_format p') (fv_format p)) as [S1 S2]. rewrite <- Vc in S1, S2.
  pose proof (feq_spec Fc F0) as FQ. rewrite V0 in FQ. destruct (qeq (q' - q) 0) eqn:EQ.
  - apply qeq_iff in EQ. assert (fv (fsub p' p) = 0). { rewrite Vc, V, V'. replace q' with q by (clear - EQ; qlra). rewrite Rminus_diag_eq by auto. apply rnd64_0. }
    apply FQ in H. rewrite H. exact D.
  - assert (NE : q' <> q) by (intro; subst; rewrite (proj2 (qeq_iff _ _)) in EQ; [discriminate|ring]). assert (NF : feq (fsub p' p) (fz 0) = false).
    { destruct (feq (fsub p' p) (fz 0)); auto. exfalso. apply NE. apply qr_eq. rewrite <- V, <- V'. destruct (Rtotal_order (fv p') (fv p)) as [H|[H|H]]; auto; exfalso; [specialize (S2 H)|specialize (S1 H)]; pose proof (proj1 FQ eq_refl); lra. }
    rewrite NF. assert (NZ : fv (fsub p' p) <> 0) by (intro C; apply FQ in C; congruence). destruct (sign_quotient Fc NZ) as (Fq & P1 & P2).
    destruct (Rtotal_order (fv p') (fv p)) as [H|[H|H]].
    + exists (-1)%Z. split; auto. split; [apply P2; auto|]. split; [|lia]. assert (q' < q)%Qc by (apply qr_lt; lra). rewrite qabs_neg by (clear - H0; qlra). change (qz (-1)) with (- (1))%Qc. field. clear - NE; intro C; apply NE; qlra.
    + exfalso. apply NE. apply qr_eq. lra.
    + exists 1%Z. split; auto. split; [apply P1; auto|]. split; [|lia]. assert (q < q')%Qc by (apply qr_lt; lra). rewrite qabs_pos by (clear - H0; qlra). change (qz 1) with 1%Qc. field. clear - NE; intro C; apply NE; qlra.
Qed.
Lemma tick_rule_same prices qs b0 z : Forall2 same_price prices qs -> whole_value 1 b0 (qz z) -> Forall2 (whole_value 1) (ftick_rule prices b0) (tick_rule qs (qz z)).
Proof.
  assert (G : forall prices qs, Forall2 same_price prices qs -> forall p q b0 z, same_price p q -> whole_value 1 b0 (qz z) -> Forall2 (whole_value 1) (ftick_rule_from p b0 prices) (tick_rule_loop q (qz z) qs)).
  { induction 1 as [|p' q' l1 l2 S F IH]; intros p q d w SP D; [constructor|]. cbn [ftick_rule_from tick_rule_loop]. pose proof (direction_same SP S D) as W. constructor; [exact W|]. pose proof W as (w' & _ & _ & EW & _). rewrite EW in *. now apply IH. }
  intros F D. destruct F; [constructor|]. cbn [ftick_rule tick_rule]. constructor; auto.
Qed.
(** sums of directions are exact in any order *)
Lemma seval_signs t : (forall x, In x (leaves t) -> exists z, fin x /\ fv x = IZR z /\ (Z.abs z <= 1)%Z) -> (Z.of_nat (length (leaves t)) <= 2 ^ 53)%Z ->
  exists z, fin (seval t) /\ fv (seval t) = IZR z /\ (Z.abs z <= Z.of_nat (length (leaves t)))%Z /\ IZR z = rsum (map fv (leaves t)).
Proof.
  induction t as [|x|l IHl r IHr]; cbn [leaves seval]; intros H L.
  - destruct fz0 as [F V]. exists 0%Z. split; auto. split; auto. split; [cbn; lia|reflexivity].
  - destruct (H x (or_introl eq_refl)) as (z & F & V & B). exists z. split; auto. split; auto. split; [cbn; lia|]. cbn [map]. unfold rsum. cbn [fold_right]. lra.
  - rewrite app_length in *. destruct IHl as (a & Fa & Va & Ba & Sa); [intros; apply H; apply in_or_app; auto|lia|]. destruct IHr as (b & Fb & Vb & Bb & Sb); [intros; apply H; apply in_or_app; auto|lia|].
    exists (a + b)%Z. assert (B : (Z.abs (a + b) <= 2 ^ 53)%Z) by lia. destruct (@fadd_spec _ _ Fa Fb) as [F V]; [rewrite Va, Vb, <- plus_IZR; apply big_ge; lia|].
    rewrite Va, Vb, <- plus_IZR, rnd64_int in V by auto. split; auto. split; auto. split; [lia|]. rewrite map_app, rsum_app, plus_IZR. lra.
Qed.

(** the default for the expected imbalance: the mean of the first directions *)
Lemma mean_same sum l qs : is_sum sum -> Forall2 (whole_value 1) l qs -> l <> [] -> (Z.of_nat (length l) <= 2 ^ 53)%Z ->
  exists m, np_mean qs = Some m /\ Rabs (qr m) <= 1 /\ fin (fdiv (sum l) (fz (Z.of_nat (length l)))) /\ Rabs (fv (fdiv (sum l) (fz (Z.of_nat (length l)))) - qr m) <= 2 * u64.
Proof.
  intros HS F NE L. pose proof (Forall2_length F) as LL. exists (qmean qs). split; [destruct qs; [destruct l; [congruence|discriminate]|reflexivity]|].
  destruct (HS l) as (t & -> & PM & _). destruct (@seval_signs t) as (z & Fs & Vs & Bs & Es).
  { intros x Hx. apply (Permutation_in _ PM) in Hx. clear - F Hx. induction F as [|y q l1 l2 (z & A & B & _ & C) F IH]; [destruct Hx|]. destruct Hx as [<-|Hx]; eauto. } { now rewrite (Permutation_length PM). }
  rewrite (Permutation_length PM) in Bs. rewrite (rsum_perm (Permutation_map fv PM)) in Es. assert (EV : rsum (map fv l) = qr (qsum qs)).
  { rewrite qr_sum. f_equal. clear - F. induction F as [|y q l1 l2 (z & A & B & -> & C) F IH]; cbn [map]; [auto|]. rewrite qr_z, B. congruence. }
  assert (L0 : (0 < length l)%nat) by (destruct l; [congruence|cbn; lia]). assert (I0 : 0 < INR (length l)) by now apply lt_0_INR. destruct (@fz_spec (Z.of_nat (length l))) as [Fn Vn]; [lia|]. rewrite <- INR_IZR_INZ in Vn.
  assert (Q : qr (qmean qs) = IZR z / INR (length l)). { unfold qmean. rewrite qr_div, qr_n, <- LL, <- EV, Es; auto. intro C. apply (f_equal qr) in C. rewrite qr_n, qr_0 in C. rewrite LL in I0. lra. }
  assert (BZ : Rabs (IZR z / INR (length l)) <= 1). { unfold Rdiv. rewrite Rabs_mult, Rabs_inv, (Rabs_right (INR _)) by lra. apply Rmult_le_reg_r with (INR (length l)); auto. rewrite Rmult_assoc, Rinv_l by lra. rewrite <- abs_IZR, INR_IZR_INZ, Rmult_1_l, Rmult_1_r. now apply IZR_le. }
  split; [now rewrite Q|]. destruct (@fdiv_spec (seval t) (fz (Z.of_nat (length l))) Fs) as [Fd Vd]; [rewrite Vn; lra|rewrite Vs, Vn; apply Rle_trans with (1 := BZ); change 1 with (bpow radix2 0); apply bpow_le; lia|].
  split; auto. rewrite Vd, Vs, Vn, Q. apply Rle_trans with (1 := rnd_abs_err _). pose proof u64_pos as U. pose proof eta_le_u as EU. assert (u64 * Rabs (IZR z / INR (length l)) <= u64 * 1) by (apply Rmult_le_compat_l; lra). lra.
Qed.

(** From the prices to the ends of the bars: the directions are exact however close the prices are, so the float bars are the exact bars as soon as the imbalance stays away from the thresholds *)
Theorem c138_tick_bars sum N fticks ticks z fmin min fmax max ET Ts bs fE E ends sizes thetas thrs : is_sum sum -> 1 <= INR N <= bpow radix2 16 ->
  Forall2 (fun f t => fin (ft_price f) /\ fv (ft_price f) = qr (t_price t) /\ Rabs (fv (ft_price f)) <= bpow radix2 1022) fticks ticks ->
  (length fticks <= N)%nat -> (1 <= ET <= N)%nat -> (Z.of_nat Ts < 2 ^ 53)%Z -> (forall b, bs = Some b -> (1 <= b)%Z) -> (Z.abs z <= 1)%Z ->
  fin fmin -> fv fmin = qr min -> same_limit fmax max ->
  (fE = None /\ E = None \/ exists fe e, fE = Some fe /\ E = Some e /\ fin fe /\ fv fe = qr e /\ Rabs (qr e) <= 1) ->
  compute_imbalance_bar_sizes (ImbParams min max ET Ts (match bs with Some b => b | None => (3 * Z.of_nat ET)%Z end)) (tick_rule (map t_price ticks) (qz z))
    (match E with Some e => Some e | None => option_map qabs (np_mean (firstn ET (tick_rule (map t_price ticks) (qz z)))) end) = Ok ((ends, sizes), (thetas, thrs)) ->
  (forall i theta t, (1 <= i)%nat -> nth_error thetas i = Some theta -> nth_error thrs i = Some (Some t) -> 30 * INR N ^ 3 * bpow radix2 (-53) < Rabs (qr theta - qr t)) ->
  fimbalance_ends sum TICK fmin fmax (fz z) ET fE Ts bs fticks = Some ends.
Proof.
  intros HS HN HF HL HET HTs Hbs Hz Fm Vm Lim HE EX MARGIN. change (bpow radix2 (-53)) with u64 in *. pose proof u64_pos as U.
  assert (HP : Forall2 same_price (map ft_price fticks) (map t_price ticks)) by (clear - HF; induction HF; cbn [map]; constructor; auto).
  destruct (@fz_spec z) as [Fz Vz]; [lia|]. assert (W0 : whole_value 1 (fz z) (qz z)) by (exists z; auto).
  pose proof (tick_rule_same HP W0) as HW. set (flow := tick_rule (map t_price ticks) (qz z)) in *. set (fflow := ftick_rule (map ft_price fticks) (fz z)) in *.
  assert (LF : length fflow = length fticks) by (unfold fflow; rewrite <- (map_length ft_price fticks); destruct (map ft_price fticks) as [|p l]; [reflexivity|]; cbn [ftick_rule length]; f_equal; clear; generalize (fz z) p; induction l as [|y k IH]; intros; cbn [ftick_rule_from length]; [reflexivity|]; f_equal; apply IH).
  assert (NEQ : flow <> []) by (intro C; rewrite C in EX; discriminate). assert (NEF : fflow <> []) by (intro C; rewrite C in HW; inversion HW; congruence).
  unfold fimbalance_ends, fsigned_flow. fold fflow. set (span := match bs with Some b => b | None => (3 * Z.of_nat ET)%Z end) in *. assert (Hspan : (1 <= span)%Z) by (unfold span; destruct bs as [b|]; [now apply Hbs|lia]).
  assert (N2 : 1 <= INR N ^ 2) by (replace 1 with (1 ^ 2) by ring; apply pow_incr; lra). assert (UN : 2 * u64 <= 13 * INR N ^ 2 * u64 * 1) by nra. 
  assert (KEY : forall fe e, fin fe -> Rabs (fv fe - qr e) <= 2 * u64 -> Rabs (qr e) <= 1 -> compute_imbalance_bar_sizes (ImbParams min max ET Ts span) flow (Some e) = Ok ((ends, sizes), (thetas, thrs)) ->
    option_map fst (fimbalance_sizes (FImbParams fmin fmax ET Ts span) fflow fe) = Some ends).
  { intros fe e Fe Ve Be Ee. destruct (@c138_same_bars_whole N 1 fflow flow ET Ts span fe e fmin min fmax max ends sizes thetas thrs) as (fs & -> & _); auto; try lia.
    - change (bpow radix2 (-53)) with u64. lra.
    - intros i theta t Hi E1 E2. change (bpow radix2 (-53)) with u64. rewrite Rmult_1_r. now apply (MARGIN i). }
  destruct HE as [[-> ->]|(fe & e & -> & -> & Fe & Ve & Be)].
  - assert (HH : Forall2 (whole_value 1) (firstn ET fflow) (firstn ET flow)) by now apply Forall2_firstn.
    assert (LH : (length (firstn ET fflow) <= N)%nat) by (rewrite firstn_length; lia). destruct (@mean_same sum _ _ HS HH) as (m & EM & Bm & Fd & Bd).
    + destruct ET as [|k]; [lia|]. destruct fflow; [congruence|discriminate].
    + assert (Z.of_nat (length (firstn ET fflow)) < 2 ^ 53)%Z by (apply N53 with (1 := HN); exact LH). lia.
    + rewrite EM in EX. cbn [option_map] in EX. destruct (fabs_spec Fd) as [Fa Va]. apply (KEY _ (qabs m) Fa); auto; [rewrite Va, qr_abs; apply Rle_trans with (1 := Rabs_triang_inv2 _ _); exact Bd|rewrite qr_abs, Rabs_Rabsolu; exact Bm].
  - apply (KEY fe e Fe); auto. rewrite Ve, Rminus_diag_eq, Rabs_R0 by auto. lra.
Qed.
Print Assumptions c138_tick_bars.

(** ** a stream that meets the hypotheses *)
Definition up_ticks (ps : list nat) : list ftick := map (fun p => FTick (fz (Z.of_nat p)) (fz 1)) ps.
Definition up_exact (ps : list nat) : list tick := map (fun p => Tick (Z.of_nat p) (qn p) 1%Qc) ps.
Lemma up_same ps : (forall p, In p ps -> (p <= 1000)%nat) -> Forall2 (fun f t => fin (ft_price f) /\ fv (ft_price f) = qr (t_price t) /\ Rabs (fv (ft_price f)) <= bpow radix2 1022) (up_ticks ps) (up_exact ps).
Proof.
  induction ps as [|p ps IH]; intro H; cbn [up_ticks up_exact map]; [constructor|]. constructor; [|apply IH; intros; apply H; now right]. cbn [ft_price t_price]. specialize (H p (or_introl eq_refl)).
  destruct (@fz_spec (Z.of_nat p)) as [F V]; [lia|]. rewrite qr_n, V, <- INR_IZR_INZ. split; auto. split; auto. rewrite Rabs_right by (apply Rle_ge, pos_INR). apply Rle_trans with (bpow radix2 10); [|apply bpow_le; lia].
  change (bpow radix2 10) with (IZR 1024). rewrite INR_IZR_INZ. apply IZR_le. lia.
Qed.
Lemma margin_check c thetas thrs : forallb (fun x => match snd x with Some t => qlt c (qabs (fst x - t))%Qc | None => true end) (tl (combine thetas thrs)) = true ->
  forall i theta t, (1 <= i)%nat -> nth_error thetas i = Some theta -> nth_error thrs i = Some (Some t) -> qr c < Rabs (qr theta - qr t).
Proof.
  intros H i theta t Hi E1 E2. rewrite forallb_forall in H. assert (IN : In (theta, Some t) (tl (combine thetas thrs))).
  { destruct i as [|i]; [lia|]. destruct thetas as [|a thetas], thrs as [|b thrs]; try discriminate. cbn [nth_error combine tl] in *. clear - E1 E2. revert thrs i E1 E2. induction thetas as [|a l IH]; intros [|b k] [|i] E1 E2; try discriminate; cbn [nth_error combine] in *.
    - left. congruence.
    - right. eauto. }
  specialize (H _ IN). cbn [fst snd] in H. apply qlt_iff in H. apply qr_lt in H. now rewrite qr_abs, qr_sub in H.
Qed.
Example c138_nonvacuous : exists sizes thetas thrs,
  compute_imbalance_bar_sizes (ImbParams 0%Qc None 4 0 12) (tick_rule (map t_price (up_exact [1;2;3;2;3;4;5]%nat)) (qz 1)) (Some (q 5 8)) = Ok (([2; 6]%nat, sizes), (thetas, thrs)) /\
  (forall i theta t, (1 <= i)%nat -> nth_error thetas i = Some theta -> nth_error thrs i = Some (Some t) -> 30 * INR 8 ^ 3 * bpow radix2 (-53) < Rabs (qr theta - qr t)) /\
  fimbalance_ends fsum_left TICK (fz 0) (B754_infinity false) (fz 1) 4 (Some (ff 5 (-3))) 0 None (up_ticks [1;2;3;2;3;4;5]%nat) = Some [2; 6]%nat.
Proof.
  destruct (compute_imbalance_bar_sizes (ImbParams 0%Qc None 4 0 12) (tick_rule (map t_price (up_exact [1;2;3;2;3;4;5]%nat)) (qz 1)) (Some (q 5 8))) as [((ends & sizes) & (thetas & thrs))|x] eqn:EX; [|vm_compute in EX; discriminate].
  assert (EE : ends = [2; 6]%nat) by (vm_compute in EX; congruence). subst ends. exists sizes, thetas, thrs. split; [reflexivity|].
  assert (MG : forall i theta t, (1 <= i)%nat -> nth_error thetas i = Some theta -> nth_error thrs i = Some (Some t) -> 30 * INR 8 ^ 3 * bpow radix2 (-53) < Rabs (qr theta - qr t)).
  { intros i theta t Hi E1 E2. apply Rlt_trans with (qr (q 1 10)).
    - assert (QE : qr (q 1 10) = / 10) by (unfold qr; replace (/ 10) with (Q2R (1 # 10)) by (unfold Q2R; cbn; lra); reflexivity). rewrite QE. replace (INR 8) with 8 by (cbn; lra). unfold bpow. change (Z.pow_pos radix2 53) with 9007199254740992%Z. lra.
    - revert i theta t Hi E1 E2. apply margin_check. vm_compute in EX. injection EX as <- <- <-. vm_compute. reflexivity. }
  split; [exact MG|]. assert (I8 : INR 8 = 8) by (cbn; lra).
  destruct (@ff_spec 5 (-3)) as [F5 V5]; [replace (IZR 5 * bpow radix2 (-3)) with (5 / 8) by (cbn; lra); rewrite Rabs_right by lra; apply Rle_trans with (bpow radix2 0); [cbn [bpow]; lra|apply bpow_le; lia]|].
  assert (Q58 : qr (q 5 8) = 5 / 8) by (unfold qr; replace (5 / 8) with (Q2R (5 # 8)) by (unfold Q2R; cbn; lra); reflexivity).
  apply (@c138_tick_bars fsum_left 8 (up_ticks [1;2;3;2;3;4;5]%nat) (up_exact [1;2;3;2;3;4;5]%nat) 1 (fz 0) 0%Qc (B754_infinity false) None 4 0 None (Some (ff 5 (-3))) (Some (q 5 8)) [2; 6]%nat sizes thetas thrs c126_left_sum).
  - rewrite I8. split; [lra|]. change 8 with (bpow radix2 3). apply bpow_le. lia.
  - apply up_same. intros p Hp. repeat (destruct Hp as [<-|Hp]; [lia|]). destruct Hp.
  - apply Nat.leb_le. reflexivity.
  - lia.
  - reflexivity.
  - discriminate.
  - lia.
  - apply fz0.
  - rewrite (proj2 fz0). symmetry. apply qr_0.
  - reflexivity.
  - right. exists (ff 5 (-3)), (q 5 8). split; auto. split; auto. split; auto. rewrite V5, Q58. split; [|rewrite Rabs_right; lra]. replace (IZR 5 * bpow radix2 (-3)) with (5 / 8) by (cbn; lra).
    apply rnd64_id. replace (5 / 8) with (IZR 5 * bpow radix2 (-3)) by (cbn; lra). apply format64_float; lia.
  - exact EX.
  - exact MG.
Qed.
(** without the margin the bars differ: six rising ticks where five are enough, with every argument at its default and whole prices *)
Theorem c138_exact_refuted : ~ (forall fticks ticks fends ends sizes dbg ET,
  Forall2 (fun f t => fin (ft_price f) /\ fv (ft_price f) = qr (t_price t) /\ Rabs (fv (ft_price f)) <= bpow radix2 1022) fticks ticks ->
  fimbalance_ends fsum_left TICK (fz 0) (B754_infinity false) (fz 1) ET None 0 None fticks = Some fends ->
  compute_imbalance_bar_sizes (ImbParams 0%Qc None ET 0 (3 * Z.of_nat ET)) (tick_rule (map t_price ticks) (qz 1)) (option_map qabs (np_mean (firstn ET (tick_rule (map t_price ticks) (qz 1))))) = Ok ((ends, sizes), dbg) ->
  fends = ends).
Proof.
  intro H. set (ps := [1;2;3;4;5;6;7;8;9;10;11;12]%nat). assert (FE : fimbalance_ends fsum_left TICK (fz 0) (B754_infinity false) (fz 1) 5 None 0 None (up_ticks ps) = Some [4; 10; 11]%nat) by (vm_compute; reflexivity).
  destruct (compute_imbalance_bar_sizes (ImbParams 0%Qc None 5 0 (3 * Z.of_nat 5)) (tick_rule (map t_price (up_exact ps)) (qz 1)) (option_map qabs (np_mean (firstn 5 (tick_rule (map t_price (up_exact ps)) (qz 1)))))) as [((ends & sizes) & dbg)|x] eqn:EX; [|vm_compute in EX; discriminate].
  assert (EE : ends = [4; 9; 11]%nat) by (vm_compute in EX; congruence). subst ends. assert (C := H _ _ _ _ _ _ 5%nat (@up_same ps ltac:(intros p Hp; cbn in Hp; repeat (destruct Hp as [<-|Hp]; [lia|]); destruct Hp)) FE EX). discriminate.
Qed.
Print Assumptions c138_exact_refuted.
