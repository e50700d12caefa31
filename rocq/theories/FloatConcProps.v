(** C134: the returns concentration in binary64. *)
From Coq Require Import ZArith Reals Lra Lia List Bool Permutation.
From Flocq Require Import Core BinarySingleNaN.
From Verif Require Import RNum Float64 FloatBarsModel FloatBarsProofs FloatBarsProps FloatHRPProofs FloatRetModel FloatRetProps FloatSeriesProofs.
Import ListNotations.
Set Implicit Arguments.
Unset Strict Implicit.
Open Scope R_scope.

(** a rounded sum of amounts *)
Lemma pow_hi_lin n : INR n * u64 <= / 2 -> (1 + u64) ^ n <= 1 + 2 * (INR n * u64).
Proof.
  intro H. pose proof u64_pos as U. pose proof u64_half as UH. pose proof (bernoulli n) as B. pose proof (pow_hi_pos n) as P. pose proof (pos_INR n) as N0.
  assert (E : (1 + u64) ^ n * (1 - u64) ^ n <= 1). { rewrite <- Rpow_mult_distr. apply Rle_trans with (1 ^ n); [apply pow_incr; split; nra|rewrite pow1; lra]. }
  assert (X : (1 + u64) ^ n * (1 - INR n * u64) <= 1) by (apply Rle_trans with (2 := E); apply Rmult_le_compat_l; lra).
  set (r := INR n * u64) in *. assert (R0 : 0 <= r) by (apply Rmult_le_pos; lra). apply Rmult_le_reg_r with (1 - r); [lra|]. nra.
Qed.
Lemma sum_error sum l : is_sum sum -> amounts l -> total l <= bpow radix2 1000 -> INR (length l) * u64 <= / 1024 ->
  fin (sum l) /\ Rabs (fv (sum l) - total l) <= 2 * (INR (length l) * u64) * total l.
Proof.
  intros HS A B N. destruct (HS l) as (t & E & P & D). pose proof u64_pos as U. pose proof (total_nonneg A) as T0. pose proof (pos_INR (length l)) as N0.
  assert (At : amounts (leaves t)) by (intros x Hx; apply A; eapply Permutation_in; eauto).
  assert (ET : total (leaves t) = total l) by (unfold total; apply rsum_perm, Permutation_map; auto).
  assert (DL : INR (depth t) * u64 <= INR (length l) * u64) by (apply Rmult_le_compat_r; [lra|apply le_INR; auto]). pose proof (pos_INR (depth t)) as D0.
  assert (PH : (1 + u64) ^ depth t <= 1 + 2 * (INR (length l) * u64)) by (apply Rle_trans with (1 + 2 * (INR (depth t) * u64)); [apply pow_hi_lin; lra|lra]).
  assert (PL : 1 - INR (length l) * u64 <= (1 - u64) ^ depth t) by (apply Rle_trans with (2 := bernoulli (depth t)); lra).
  destruct (@seval_bounds t At) as [F Bd].
  { rewrite ET. pose proof (bpow_gt_0 radix2 1000). apply Rle_trans with (bpow radix2 1000 * 2); [apply Rmult_le_compat; try lra; apply pow_le; lra|]. change 2 with (bpow radix2 1). rewrite <- bpow_plus. apply bpow_le. lia. }
  rewrite E. split; auto. rewrite ET in Bd. apply Rabs_le. set (r := INR (length l) * u64) in *. assert (0 <= r) by (apply Rmult_le_pos; lra). split; nra.
Qed.

Section Concentration.
Variable sum : list f64 -> f64.
Variable rets : list f64.
Hypothesis HS : is_sum sum.
Hypothesis HA : amounts rets.
Let n := length rets.
Let S := total rets.
Let rho := INR n * u64.
Hypothesis N2 : (2 <= n)%nat.
Hypothesis HN : rho <= / 1024.
Hypothesis S0 : 0 < S.
Hypothesis SB : S <= bpow radix2 1000.
Let H := rsum (map (fun r => (fv r / S) * (fv r / S)) rets).
Lemma rho_u : u64 <= rho / 2.
Proof. pose proof u64_pos. assert (2 <= INR n) by (change 2 with (INR 2); now apply le_INR). unfold rho. nra. Qed.
Lemma share_bound r : In r rets -> 0 <= fv r / S <= 1.
Proof.
  intro Hr. assert (0 <= fv r <= S). { split; [now apply HA|]. unfold S, total. apply rsum_ge_elem; [intros x Hx; apply in_map_iff in Hx; destruct Hx as (y & <- & Hy); now apply HA|now apply in_map]. }
  split; [apply Rmult_le_pos; [lra|left; now apply Rinv_0_lt_compat]|]. apply Rmult_le_reg_r with S; auto. unfold Rdiv. rewrite Rmult_assoc, Rinv_l by lra. lra.
Qed.
Lemma square_error r : In r rets -> let p := fmul (fdiv r (sum rets)) (fdiv r (sum rets)) in
  fin p /\ 0 <= fv p /\ Rabs (fv p - (fv r / S) * (fv r / S)) <= 10 * rho * (fv r / S) + 5 * eta64.
Proof.
  intros Hr p. destruct (sum_error HS HA SB HN) as [Fs Es]. fold S n rho in Es. pose proof u64_pos as U. pose proof rho_u as RU. pose proof eta_pos as T0. pose proof eta_le_u as TU. destruct (share_bound Hr) as [X0 X1]. set (x := fv r / S) in *.
  assert (Fr : fin r) by (now apply HA). set (s := fv (sum rets)) in *. apply Rabs_le_inv in Es.
  assert (s0 : S * (1 - 2 * rho) <= s <= S * (1 + 2 * rho)) by lra. assert (sp : 0 < s) by (apply Rlt_le_trans with (2 := proj1 s0); apply Rmult_lt_0_compat; lra).
  assert (EY : fv r / s = x * (S / s)) by (unfold x; field; lra).
  assert (Q : 1 - 2 * rho <= S / s <= 1 + 3 * rho).
  { split; apply Rmult_le_reg_r with s; auto; unfold Rdiv; rewrite (Rmult_assoc S), Rinv_l, Rmult_1_r by lra.
    - apply Rle_trans with ((1 - 2 * rho) * (S * (1 + 2 * rho))); [apply Rmult_le_compat_l; lra|]. nra.
    - apply Rle_trans with ((1 + 3 * rho) * (S * (1 - 2 * rho))); [|apply Rmult_le_compat_l; lra]. replace ((1 + 3 * rho) * (S * (1 - 2 * rho))) with (S * (1 + rho - 6 * (rho * rho))) by ring. rewrite <- (Rmult_1_r S) at 1. apply Rmult_le_compat_l; [lra|]. nra. }
  set (g := S / s) in *. assert (Y : 0 <= x * g <= (1 + 3 * rho) * x) by (split; [apply Rmult_le_pos; lra|rewrite (Rmult_comm _ x); apply Rmult_le_compat_l; lra]).
  assert (B1 := big_1). destruct (@fdiv_spec r (sum rets) Fr) as [Fw Vw]; [fold s; lra|fold s; rewrite EY, Rabs_pos_eq by lra; apply Rle_trans with 2; [nra|change 2 with (bpow radix2 1); apply bpow_le; lia]|].
  fold s in Vw. rewrite EY in Vw. pose proof (rnd_abs_err (x * g)) as W. rewrite <- Vw, (Rabs_pos_eq (x * g)) in W by lra.
  assert (W0 : 0 <= fv (fdiv r (sum rets))) by (rewrite Vw, <- rnd64_0; apply rnd64_mono; lra). unfold p. set (w := fdiv r (sum rets)) in *. set (v := fv w) in *.
  assert (EW : Rabs (v - x) <= 4 * rho * x + eta64).
  { apply Rabs_le_inv in W. assert (u64 * (x * g) <= rho / 2 * ((1 + 3 * rho) * x)) by (apply Rmult_le_compat; lra). assert (RX : 0 <= rho * x) by (apply Rmult_le_pos; lra).
    assert (A1 : rho / 2 * ((1 + 3 * rho) * x) <= rho * x) by (replace (rho / 2 * ((1 + 3 * rho) * x)) with ((rho * x) * ((1 + 3 * rho) / 2)) by field; rewrite <- (Rmult_1_r (rho * x)) at 2; apply Rmult_le_compat_l; lra).
    assert (A2 : x * g <= x * (1 + 3 * rho)) by (apply Rmult_le_compat_l; lra). assert (A3 : x * (1 - 2 * rho) <= x * g) by (apply Rmult_le_compat_l; lra). apply Rabs_le. lra. }
  apply Rabs_le_inv in EW. assert (RX : rho * x <= / 1024 * x) by (apply Rmult_le_compat_r; lra). assert (RX0 : 0 <= rho * x) by (apply Rmult_le_pos; lra). assert (V2 : v <= 11 / 10 * x + eta64) by lra. assert (V3 : v <= 12 / 10) by (pose proof u64_small; lra).
  destruct (@fmul_spec w w Fw Fw) as [Fp Vp]. { fold v. rewrite Rabs_pos_eq by nra. apply Rle_trans with 2; [nra|change 2 with (bpow radix2 1); apply bpow_le; lia]. }
  change (fv w) with v in Vp. split; auto. split; [rewrite Vp, <- rnd64_0; apply rnd64_mono; nra|]. pose proof (rnd_abs_err (v * v)) as R. rewrite <- Vp, (Rabs_pos_eq (v * v)) in R by nra. apply Rabs_le_inv in R.
  assert (V4 : v * v <= 2 * x + 2 * eta64) by nra. assert (V5 : u64 * (v * v) <= rho * x + eta64) by nra.
  assert (V6 : Rabs (v * v - x * x) <= 9 * rho * x + 3 * eta64).
  { replace (v * v - x * x) with ((v - x) * (v + x)) by ring. rewrite Rabs_mult, (Rabs_pos_eq (v + x)) by lra. apply Rle_trans with ((4 * rho * x + eta64) * (22 / 10)); [apply Rmult_le_compat; try lra; [apply Rabs_pos|apply Rabs_le; lra]|]. assert (0 <= rho * x) by (apply Rmult_le_pos; lra). lra. }
  apply Rabs_le_inv in V6. apply Rabs_le. lra.
Qed.
Lemma shares_sum : rsum (map (fun r => fv r / S) rets) = 1.
Proof. replace (map (fun r => fv r / S) rets) with (map (fun x => / S * x) (map fv rets)) by (rewrite map_map; apply map_ext; intro; unfold Rdiv; ring). rewrite rsum_map_scale. rewrite map_id. fold (total rets). fold S. field. lra. Qed.
Lemma hhi_bounds : / INR n <= H <= 1.
Proof.
  assert (N0 : 0 < INR n) by (apply lt_0_INR; lia). split.
  - (* Cauchy-Schwarz against the equal share *)
    assert (Q : 0 <= rsum (map (fun r => (fv r / S - / INR n) * (fv r / S - / INR n)) rets)) by (apply rsum_nonneg; intros x Hx; apply in_map_iff in Hx; destruct Hx as (r & <- & _); apply Rle_0_sqr).
    assert (E : rsum (map (fun r => (fv r / S - / INR n) * (fv r / S - / INR n)) rets) = H - 2 * / INR n * rsum (map (fun r => fv r / S) rets) + INR n * (/ INR n * / INR n)).
    { unfold H, n. generalize (/ INR (length rets)) as c. generalize S as T. clear. intros T c. induction rets as [|r l IH]; [cbn; ring|]. cbn [map rsum length] in *. rewrite IH, S_INR. ring. }
    rewrite E, shares_sum in Q. replace (INR n * (/ INR n * / INR n)) with (/ INR n) in Q by (field; lra). lra.
  - rewrite <- shares_sum. unfold H. apply rsum_map_le. intros r Hr. destruct (share_bound Hr). nra.
Qed.
Lemma squares_error : let ps := map (fun r => fmul (fdiv r (sum rets)) (fdiv r (sum rets))) rets in
  amounts ps /\ length ps = n /\ Rabs (total ps - H) <= 11 * rho.
Proof.
  intro ps. split; [|split].
  - intros p Hp. apply in_map_iff in Hp. destruct Hp as (r & <- & Hr). destruct (square_error Hr) as (F & P & _). auto.
  - apply map_length.
  - pose proof u64_pos as U. pose proof eta_pos as T0. assert (TU : 5 * (INR n * eta64) <= rho). { assert (5 * eta64 <= u64). { apply Rle_trans with (bpow radix2 3 * eta64); [change (bpow radix2 3) with 8; lra|]. unfold eta64, ulp64. rewrite <- bpow_plus. apply bpow_le. lia. } unfold rho. pose proof (pos_INR n). nra. }
    assert (G : forall l, (forall r, In r l -> In r rets) -> Rabs (rsum (map fv (map (fun r => fmul (fdiv r (sum rets)) (fdiv r (sum rets))) l)) - rsum (map (fun r => fv r / S * (fv r / S)) l)) <= 10 * rho * rsum (map (fun r => fv r / S) l) + 5 * (INR (length l) * eta64)).
    { induction l as [|r l IH]; intro Hl; [cbn; rewrite Rminus_0_r, Rabs_R0; lra|]. cbn [map rsum length]. rewrite S_INR. destruct (square_error (Hl r (or_introl eq_refl))) as (_ & _ & Er). cbv zeta in Er. specialize (IH (fun x Hx => Hl x (or_intror Hx))). apply Rabs_le_inv in Er. apply Rabs_le_inv in IH. apply Rabs_le. lra. }
    specialize (G rets (fun r Hr => Hr)). rewrite shares_sum in G. fold n H in G. unfold total, ps. lra.
Qed.
End Concentration.

(** the concentration of n >= 2 returns of one sign (not all zero) is within 50 n 2^-53 of the exact one, in every order of additions *)
Theorem c134_hhi_error sum rets : is_sum sum -> (forall r, In r rets -> fin r /\ 0 <= fv r) -> (2 <= length rets)%nat -> INR (length rets) * bpow radix2 (-53) <= / 1024 ->
  let n := INR (length rets) in let S := rsum (map fv rets) in 0 < S <= bpow radix2 1000 ->
  let h := rsum (map (fun r => (fv r / S) ^ 2) rets) in
  fin (fhhi sum rets) /\ 0 <= (h - / n) / (1 - / n) <= 1 /\ Rabs (fv (fhhi sum rets) - (h - / n) / (1 - / n)) <= 50 * n * bpow radix2 (-53).
Proof.
  intros HS HA N2 HN n S [S0 SB] h. pose proof u64_pos as U. set (rho := n * u64). assert (RU : u64 <= rho / 2) by (apply (@rho_u rets N2)).
  assert (EH : h = rsum (map (fun r => fv r / S * (fv r / S)) rets)) by (unfold h; f_equal; apply map_ext; intro; ring).
  destruct (@hhi_bounds rets HA N2 S0) as [H1 H2]. fold n in H1. change (total rets) with S in H1, H2. rewrite <- EH in H1, H2.
  destruct (@squares_error sum rets HS HA N2 HN S0 SB) as (A & L & E). change (total rets) with S in E. rewrite <- EH in E. change (INR (length rets) * u64) with rho in E. set (ps := map _ rets) in A, L, E.
  assert (R : rho <= / 1024) by exact HN. apply Rabs_le_inv in E.
  destruct (@sum_error sum ps HS A) as [Fs Es]; [apply Rle_trans with 2; [lra|change 2 with (bpow radix2 1); apply bpow_le; lia]|now rewrite L|]. rewrite L in Es. change (INR (length rets) * u64) with rho in Es. apply Rabs_le_inv in Es. pose proof (total_nonneg A) as P0. set (P := total ps) in *.
  assert (EQh : h - 14 * rho <= fv (sum ps) <= h + 14 * rho) by nra.
  assert (ZN : (Z.of_nat (length rets) <= 2 ^ 53)%Z). { apply le_IZR. rewrite <- INR_IZR_INZ. fold n. change (IZR (2 ^ 53)) with (bpow radix2 53). apply Rmult_le_reg_r with u64; auto. replace (bpow radix2 53 * u64) with 1 by (unfold ulp64; rewrite <- bpow_plus; reflexivity). fold rho. lra. }
  destruct (@fz_spec (Z.of_nat (length rets)) ltac:(lia)) as [Fn Vn]. rewrite <- INR_IZR_INZ in Vn. fold n in Vn. destruct (@fz_spec 1 ltac:(lia)) as [F1 V1]. pose proof big_1 as B1.
  assert (N2' : 2 <= n) by (change 2 with (INR 2); now apply le_INR). assert (IN : 0 < / n <= / 2) by (split; [apply Rinv_0_lt_compat; lra|apply Rinv_le_contravar; lra]).
  destruct (@fdiv_spec (fz 1) (fz (Z.of_nat (length rets))) F1) as [Fi Vi]; [lra|rewrite V1, Vn; unfold Rdiv; rewrite Rabs_pos_eq; lra|]. rewrite V1, Vn in Vi. unfold Rdiv in Vi. rewrite Rmult_1_l in Vi.
  pose proof (rnd_abs_err (/ n)) as Ei. rewrite <- Vi, (Rabs_pos_eq (/ n)) in Ei by lra. pose proof eta_pos as T0. pose proof eta_le_u as TU. unfold fhhi. fold ps. set (inv := fdiv (fz 1) (fz (Z.of_nat (length rets)))) in *.
  assert (EI : / n - u64 - eta64 <= fv inv <= / n + u64 + eta64) by (apply Rabs_le_inv in Ei; nra). clear Ei Vi. clearbody inv.
  assert (TU' : eta64 <= u64 / 2). { apply Rmult_le_reg_l with 2; [lra|]. replace (2 * (u64 / 2)) with u64 by field. change 2 with (bpow radix2 1). unfold eta64, ulp64. rewrite <- bpow_plus. apply bpow_le. lia. }
  assert (X1 : Rabs (fv (sum ps) - fv inv) <= 11 / 10) by (apply Rabs_le; lra). assert (X2 : Rabs (1 - fv inv) <= 11 / 10) by (apply Rabs_le; lra).
  assert (B2 : 4 <= big) by (change 4 with (bpow radix2 2); apply bpow_le; lia).
  destruct (@fsub_spec (sum ps) inv Fs Fi) as [Fa Va]; [lra|]. destruct (@fsub_spec (fz 1) inv F1 Fi) as [Fb Vb]; [rewrite V1; lra|]. rewrite V1 in Vb.
  pose proof (@sub_abs_err (fv (sum ps)) (fv inv) (fv_format _) (fv_format _)) as Ea. rewrite <- Va in Ea. assert (Fmt1 : format64 1) by (rewrite <- V1; apply fv_format). pose proof (@sub_abs_err 1 (fv inv) Fmt1 (fv_format _)) as Eb. rewrite <- Vb in Eb.
  set (a := fv (fsub (sum ps) inv)) in *. set (b := fv (fsub (fz 1) inv)) in *.
  assert (Ea' : Rabs (a - (h - / n)) <= 17 * rho). { apply Rabs_le. apply Rabs_le_inv in Ea. assert (u64 * Rabs (fv (sum ps) - fv inv) <= u64 * (11 / 10)) by (apply Rmult_le_compat_l; lra). lra. }
  assert (Eb' : Rabs (b - (1 - / n)) <= 3 / 2 * rho). { apply Rabs_le. apply Rabs_le_inv in Eb. assert (u64 * Rabs (1 - fv inv) <= u64 * (11 / 10)) by (apply Rmult_le_compat_l; lra). lra. }
  clear Ea Eb Va Vb. apply Rabs_le_inv in Ea'. apply Rabs_le_inv in Eb'. set (c := (h - / n) / (1 - / n)).
  assert (DN : / 2 <= 1 - / n) by lra. assert (EC : h - / n = c * (1 - / n)) by (unfold c; field; split; lra).
  assert (C01 : 0 <= c <= 1) by (split; apply Rmult_le_reg_r with (1 - / n); try lra; rewrite <- EC; lra).
  assert (BP : 49 / 100 <= b) by lra.
  assert (Q : Rabs (a / b - c) <= 39 * rho).
  { replace (a / b - c) with ((a - c * b) * / b) by (field; lra). rewrite Rabs_mult, (Rabs_pos_eq (/ b)) by (left; apply Rinv_0_lt_compat; lra). apply Rle_trans with (19 * rho * / (49 / 100)); [|lra].
    apply Rmult_le_compat; [apply Rabs_pos|left; apply Rinv_0_lt_compat; lra| |apply Rinv_le_contravar; lra]. apply Rabs_le. nra. }
  apply Rabs_le_inv in Q. destruct (@fdiv_spec (fsub (sum ps) inv) (fsub (fz 1) inv) Fa) as [Fq Vq]; [fold b; lra|fold a b; apply Rabs_le; lra|]. fold a b in Vq.
  split; auto. split; auto. rewrite Vq. pose proof (rnd_abs_err (a / b)) as Er. assert (AB : Rabs (a / b) <= 11 / 10) by (apply Rabs_le; lra). assert (u64 * Rabs (a / b) <= u64 * (11 / 10)) by (apply Rmult_le_compat_l; lra).
  apply Rabs_le_inv in Er. replace (50 * n * bpow radix2 (-53)) with (50 * rho) by (unfold rho, ulp64; ring). apply Rabs_le. lra.
Qed.
Print Assumptions c134_hhi_error.
Example c134_nonvacuous : (forall r, In r (map fz [1; 2; 3]%Z) -> fin r /\ 0 <= fv r) /\ INR (length (map fz [1; 2; 3]%Z)) * bpow radix2 (-53) <= / 1024 /\ 0 < rsum (map fv (map fz [1; 2; 3]%Z)) <= bpow radix2 1000.
Proof.
  destruct (@fz_spec 1 ltac:(lia)) as [F1 V1]. destruct (@fz_spec 2 ltac:(lia)) as [F2 V2]. destruct (@fz_spec 3 ltac:(lia)) as [F3 V3]. split; [|split].
  - intros r [<-|[<-|[<-|[]]]]; split; auto; lra.
  - cbn [length map INR]. apply Rle_trans with (bpow radix2 2 * bpow radix2 (-53)); [apply Rmult_le_compat_r; [apply bpow_ge_0|change (bpow radix2 2) with 4; lra]|]. rewrite <- bpow_plus. replace (/ 1024) with (bpow radix2 (-10)) by (cbn; lra). apply bpow_le. lia.
  - cbn [map rsum]. rewrite V1, V2, V3. split; [lra|]. apply Rle_trans with (bpow radix2 3); [change (bpow radix2 3) with 8; lra|apply bpow_le; lia].
Qed.
