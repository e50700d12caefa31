(** C164: the binomial tree converges to Black-Scholes (tools/option.py:154-273). *)
From Verif Require Import Py RNum Normal OptionModel OptionProofs OptionProps ConvProofs.
Set Implicit Arguments.
Unset Strict Implicit.
Open Scope R_scope.

Lemma step_small T e : 0 < T -> 0 < e -> exists n0, forall n, (n0 <= n)%nat -> (0 < n)%nat /\ 0 < sqrt (T / INR n) <= e.
Proof.
  intros HT He. exists (S (Z.to_nat (up (T / (e * e))))). intros n Hn. assert (Hp : (0 < n)%nat) by lia. split; auto. assert (HI : 0 < INR n) by now apply lt_0_INR. split; [apply sqrt_lt_R0; now apply Rdiv_lt_0_compat|].
  rewrite <- (sqrt_square e) by lra. apply sqrt_le_1_alt. apply Rmult_le_reg_r with (INR n); auto. replace (T / INR n * INR n) with T by (field; lra).
  assert (H0 : 0 < T / (e * e)) by (apply Rdiv_lt_0_compat; nra). destruct (archimed (T / (e * e))) as [A _]. assert (T / (e * e) <= INR n).
  { apply Rle_trans with (IZR (up (T / (e * e)))); [lra|]. rewrite INR_IZR_INZ. apply IZR_le. lia. }
  apply Rmult_le_reg_r with (/ (e * e)); [apply Rinv_0_lt_compat; nra|]. replace (e * e * INR n * / (e * e)) with (INR n) by (field; lra). exact H.
Qed.

Section Limit.
  Variables (cdf : R -> R) (c b sigma T : R).
  Hypothesis N : is_normal_cdf cdf.
  Hypothesis Hc : 0 < c.
  Hypothesis Hd : forall x, derivable_pt_lim cdf x (c * bell x).
  Hypothesis Hg : 0 < sigma.
  Hypothesis HT : 0 < T.
  Lemma walk_limit w eps : 0 < eps -> exists n0, forall n, (n0 <= n)%nat -> (0 < n)%nat /\ Rabs b * sqrt (T / INR n) <= sigma /\
    let h := sigma * sqrt (T / INR n) in let p := (exp (b * (T / INR n)) - exp (- h)) / (exp h - exp (- h)) in
    (0 <= p <= 1 -> Rabs (walk p h n w - pF cdf (w - (b - sigma ^ 2 / 2) * T) (sigma * sqrt T)) < eps).
  Proof.
    intros He. set (M := sqrt (1 + sigma ^ 2 * T)). assert (HM : 0 <= M) by apply sqrt_pos. set (L := 2 * c + M + 2). assert (HL : 0 < L) by (unfold L; lra).
    set (t := Rmin 1 (eps / (4 * L))). assert (Ht : 0 < t <= 1) by (split; [apply Rmin_pos; [lra|apply Rdiv_lt_0_compat; lra]|apply Rmin_l]).
    assert (HtL : L * t <= eps / 4). { apply Rle_trans with (L * (eps / (4 * L))); [apply Rmult_le_compat_l; [lra|apply Rmin_r]|right; field; lra]. }
    destruct (@walk_close cdf c N Hc Hd b sigma t M Hg Ht) as (C & HC & H).
    assert (HCT : 0 <= C * T) by (apply Rmult_le_pos; lra). pose proof (Rabs_pos b) as Hb0.
    set (e := Rmin (Rmin 1 (/ sigma)) (Rmin (Rmin (/ (Rabs b + 1)) (sigma / (Rabs b + 1))) (eps / (4 * (C * T + 1))))).
    assert (He0 : 0 < e). { unfold e. repeat apply Rmin_pos; try lra; try (apply Rinv_0_lt_compat; lra); apply Rdiv_lt_0_compat; lra. }
    assert (E1 : e <= 1) by (unfold e; eapply Rle_trans; [apply Rmin_l|apply Rmin_l]). assert (E2 : e <= / sigma) by (unfold e; eapply Rle_trans; [apply Rmin_l|apply Rmin_r]).
    assert (E3 : e <= / (Rabs b + 1)) by (unfold e; eapply Rle_trans; [apply Rmin_r|]; eapply Rle_trans; [apply Rmin_l|apply Rmin_l]). assert (E4 : e <= sigma / (Rabs b + 1)) by (unfold e; eapply Rle_trans; [apply Rmin_r|]; eapply Rle_trans; [apply Rmin_l|apply Rmin_r]).
    assert (E5 : e <= eps / (4 * (C * T + 1))) by (unfold e; eapply Rle_trans; [apply Rmin_r|apply Rmin_r]).
    destruct (step_small HT He0) as [n0 Hn0]. exists n0. intros n Hn. destruct (Hn0 n Hn) as [Hp [Y0 Y1]]. set (y := sqrt (T / INR n)) in *. assert (HI : 0 < INR n) by now apply lt_0_INR.
    assert (Ey : y ^ 2 = T / INR n) by (unfold y; apply pow2_sqrt; left; now apply Rdiv_lt_0_compat). split; auto. split.
    { apply Rle_trans with (Rabs b * (sigma / (Rabs b + 1))); [apply Rmult_le_compat_l; lra|]. apply Rmult_le_reg_r with (Rabs b + 1); [lra|]. replace (Rabs b * (sigma / (Rabs b + 1)) * (Rabs b + 1)) with (Rabs b * sigma) by (field; lra). nra. }
    intros h p Hpr. unfold p in *. rewrite <- Ey in *. unfold h in *.
    assert (S1 : sigma * y <= 1). { apply Rle_trans with (sigma * / sigma); [apply Rmult_le_compat_l; lra|rewrite Rinv_r; lra]. }
    assert (S2 : Rabs b * y ^ 2 <= 1). { apply Rle_trans with (Rabs b * / (Rabs b + 1)); [apply Rmult_le_compat_l; [lra|]; nra|]. apply Rmult_le_reg_r with (Rabs b + 1); [lra|]. rewrite Rmult_assoc, Rinv_l; lra. }
    assert (EN : INR n * (sigma * y) ^ 2 = sigma ^ 2 * T) by (rewrite Rpow_mult_distr, Ey; field; lra). assert (EM : INR n * ((b - sigma ^ 2 / 2) * y ^ 2) = (b - sigma ^ 2 / 2) * T) by (rewrite Ey; field; lra).
    specialize (H y ltac:(lra) S1 S2 Hpr n w). cbv zeta in H. rewrite EN, EM in H. assert (Hv : 0 < sigma ^ 2 * T) by (apply Rmult_lt_0_compat; [apply pow_lt|]; auto). assert (Ht2 : 0 < t ^ 2 <= 1) by (split; [apply pow_lt; lra|nra]).
    assert (Es : sqrt (sigma ^ 2 * T) = sigma * sqrt T) by (rewrite sqrt_mult by (try apply pow2_ge_0; lra); rewrite <- Rsqr_pow2, sqrt_Rsqr; lra).
    assert (HM2 : sqrt (t ^ 2 + sigma ^ 2 * T) <= M) by (apply sqrt_le_1_alt; lra). specialize (H HM2). set (s' := sqrt (t ^ 2 + sigma ^ 2 * T)) in *. set (s := sigma * sqrt T) in *.
    assert (Hs : 0 < s) by (apply Rmult_lt_0_compat; auto; now apply sqrt_lt_R0). assert (L1 : s <= s') by (rewrite <- Es; apply sqrt_le_1_alt; lra).
    assert (L2 : s' - s <= t). { assert (s' <= s + t); [|lra]. unfold s'. rewrite <- (sqrt_square (s + t)) by lra. apply sqrt_le_1_alt. assert (s * s = sigma ^ 2 * T) by (rewrite <- Es; apply sqrt_sqrt; lra). nra. }
    pose proof (@pF_deviation cdf c N Hc Hd (w - (b - sigma ^ 2 / 2) * T) s s' M Hs L1 HM2) as D.
    assert (Q : INR n * (C * y ^ 3) <= eps / 4).
    { replace (INR n * (C * y ^ 3)) with (C * T * y) by (replace (y ^ 3) with (y ^ 2 * y) by ring; rewrite Ey; field; lra). apply Rle_trans with ((C * T + 1) * (eps / (4 * (C * T + 1)))); [|right; field; lra]. apply Rmult_le_compat; lra. }
    set (X := walk _ _ _ _) in *. set (x := w - (b - sigma ^ 2 / 2) * T) in *. replace (X - pF cdf x s) with ((X - pF cdf x s') + (pF cdf x s' - pF cdf x s)) by ring. eapply Rle_lt_trans; [apply Rabs_triang|].
    assert ((c + M) * (s' - s) <= (c + M) * t) by (apply Rmult_le_compat_l; lra). assert (2 * t ^ 2 <= 2 * t) by nra. unfold L in HtL. lra.
  Qed.
End Limit.

(** with n steps, the price of a European option on the tree tends to its Black-Scholes price, whatever the type, rate, yield or underlying;
    from some n on the tree's probabilities are probabilities *)
Theorem c164_converges cdf ty s0 k T r sigma q fut : is_normal_cdf cdf -> 0 < s0 -> 0 < k -> 0 < T -> 0 < sigma ->
  exists b, bsm_option_price cdf ty s0 k r sigma T None q fut = Ok b /\
  forall eps, 0 < eps -> exists n0, forall n, (n0 <= n)%nat -> tree_sound T r sigma (carry r q fut) n /\
    exists v, binom_option_price ty European s0 k T r sigma q fut n = Ok v /\ Rabs (v - b) < eps.
Proof.
  intros N Hs Hk HT Hg. destruct (nc_derivative N) as (c & Hc & Hd). set (y := carry r q fut).
  assert (P : exists b, bsm_option_price cdf Put s0 k r sigma T None q fut = Ok b /\ forall eps, 0 < eps -> exists n0, forall n, (n0 <= n)%nat -> tree_sound T r sigma y n /\
    exists v, binom_option_price Put European s0 k T r sigma q fut n = Ok v /\ Rabs (v - b) < eps).
  { eexists. split; [apply (@bsm_as_bs cdf Put s0 k r sigma T None q fut); auto|]. intros eps He. cbn [net_spot]. fold y.
    assert (Hdk : 0 < exp (- (r * T)) * k) by (apply Rmult_lt_0_compat; [apply exp_pos|auto]).
    destruct (@walk_limit cdf c (r - y) sigma T N Hc Hd Hg HT (ln k - ln s0) (eps / (exp (- (r * T)) * k))) as [n0 Hn0]; [now apply Rdiv_lt_0_compat|]. exists n0. intros n Hn. destruct (Hn0 n Hn) as (Hp & Ha & Hw). clear Hn0.
    assert (TS : tree_sound T r sigma y n) by (repeat split; auto). split; auto. eexists. split; [apply c73_european_is_binomial_expectation; exact TS|]. cbv zeta in Hw. fold y.
    set (h := sigma * sqrt (T / INR n)) in *. set (u := exp h). assert (Hu : / u = exp (- h)) by (unfold u; now rewrite exp_Ropp). rewrite Hu. fold u in Hw. set (p := (exp ((r - y) * (T / INR n)) - exp (- h)) / (u - exp (- h))) in *.
    assert (Pr : 0 <= p <= 1). { pose proof (proj2 (c73_probability r y HT Hg Hp) Ha) as Q. cbv zeta in Q. fold h in Q. fold u in Q. replace (1 / u) with (exp (- h)) in Q by (rewrite <- Hu; unfold Rdiv; ring). exact Q. }
    specialize (Hw Pr). replace (- r * T) with (- (r * T)) by ring.
    match goal with |- Rabs (?a * rsum ?l - ?B) < _ => assert (E1 : rsum l = k * walk p h n (ln k - ln s0)); [|assert (E2 : B = a * (k * pF cdf (ln k - ln s0 - (r - y - sigma ^ 2 / 2) * T) (sigma * sqrt T)))] end.
    - unfold walk, binomial_expectation. rewrite <- rsum_map_scale. apply rsum_ext_in. intros l Hl. apply in_seq in Hl. cbn [intrinsic]. unfold u. rewrite !exp_pow, (Rmult_assoc s0), <- exp_plus.
      replace (h * INR l + - h * INR (n - l)) with ((2 * INR l - INR n) * h) by (rewrite minus_INR by lia; ring). set (z := (2 * INR l - INR n) * h). unfold hockey. replace (- (ln k - ln s0 - z)) with (ln s0 + (z + - ln k)) by ring. rewrite !exp_plus, exp_Ropp, !exp_ln by auto.
      replace (Rmax 0 (k - s0 * exp z)) with (k * Rmax 0 (1 - s0 * (exp z * / k))); [ring|]. rewrite <- RmaxRmult by lra. f_equal; field; lra.
    - set (s := sigma * sqrt T). assert (Hss : s * s = sigma ^ 2 * T) by (unfold s; replace (sigma * sqrt T * (sigma * sqrt T)) with (sigma ^ 2 * (sqrt T * sqrt T)) by ring; now rewrite sqrt_sqrt by lra). assert (Hs0 : 0 < s) by (apply Rmult_lt_0_compat; auto; now apply sqrt_lt_R0).
      set (x := ln k - ln s0 - (r - y - sigma ^ 2 / 2) * T). unfold pF, pG, bs. replace (bsD (k * exp (- (r * T))) (s0 * exp (- y * T)) s) with (x * / s).
      + replace (s0 * exp (- y * T)) with (exp (- (r * T)) * (k * exp (- x + s * s / 2))); [ring|]. rewrite Hss. replace (- x + sigma ^ 2 * T / 2) with (ln s0 + (- ln k + (r * T + - y * T))) by (unfold x; field). rewrite !exp_plus, !exp_Ropp, !exp_ln by auto. pose proof (exp_pos (r * T)). field. lra.
      + unfold bsD. rewrite !ln_mult, !ln_exp by (auto; apply exp_pos). apply Rmult_eq_reg_r with s; [|lra]. rewrite Rmult_assoc, Rinv_l, Rmult_1_r by lra. replace (((ln k + - (r * T) - (ln s0 + - y * T)) * / s + s / 2) * s) with (ln k + - (r * T) - (ln s0 + - y * T) + s * s / 2) by (field; lra). rewrite Hss. unfold x. field.
    - rewrite E1, E2. set (A := walk _ _ _ _) in *. set (B := pF _ _ _) in *. replace (exp (- (r * T)) * (k * A) - exp (- (r * T)) * (k * B)) with (exp (- (r * T)) * k * (A - B)) by ring. rewrite Rabs_mult, Rabs_right by lra.
      apply Rmult_lt_compat_l with (r := exp (- (r * T)) * k) in Hw; auto. replace (exp (- (r * T)) * k * (eps / (exp (- (r * T)) * k))) with eps in Hw by (field; split; [lra|apply Rgt_not_eq, exp_pos]). exact Hw. }
  destruct ty; [|exact P]. destruct P as (b & Eb & P). destruct (@c72_put_call_parity cdf s0 k r sigma T None q fut N Hs Hk Hg HT (or_introl eq_refl)) as (bc & bp & Ec & Ep & E). exists bc. split; [exact Ec|]. intros eps He. destruct (P eps He) as [n0 Hn0]. exists n0. intros n Hn. destruct (Hn0 n Hn) as (TS & v & Ev & Hv). split; auto.
  destruct (@c73_put_call_parity s0 k T r sigma q fut n TS) as (vc & vp & Fc & Fp & F). exists vc. split; auto. assert (vp = v) by congruence. assert (bp = b) by congruence. subst. cbn [net_spot] in E. replace (vc - bc) with (v - b) by lra. exact Hv.
Qed.
(** without a yield, and at a rate that is not negative, the American call tends to the same price *)
Theorem c164_american_call cdf s0 k T r sigma q fut : is_normal_cdf cdf -> 0 < s0 -> 0 < k -> 0 < T -> 0 < sigma -> carry r q fut <= 0 -> 0 <= r ->
  exists b, bsm_option_price cdf Call s0 k r sigma T None q fut = Ok b /\
  forall eps, 0 < eps -> exists n0, forall n, (n0 <= n)%nat -> exists v, binom_am_option_price cdf Call s0 k T r sigma q fut n false = Ok v /\ Rabs (v - b) < eps.
Proof.
  intros N Hs Hk HT Hg Hq Hr. destruct (@c164_converges cdf Call s0 k T r sigma q fut N Hs Hk HT Hg) as (b & Eb & H). exists b. split; auto. intros eps He. destruct (H eps He) as [n0 Hn0]. exists n0. intros n Hn. destruct (Hn0 n Hn) as (TS & v & Ev & Hv). exists v. split; auto.
  unfold binom_am_option_price. rewrite c73_american_call_is_european by (auto; lra). rewrite Ev. reflexivity.
Qed.
(** the correction by the control variate vanishes: with it or without it the American price has the same limit points *)
Theorem c164_control_variate cdf ty s0 k T r sigma q fut : is_normal_cdf cdf -> 0 < s0 -> 0 < k -> 0 < T -> 0 < sigma ->
  forall eps, 0 < eps -> exists n0, forall n, (n0 <= n)%nat -> exists plain corrected,
    binom_am_option_price cdf ty s0 k T r sigma q fut n false = Ok plain /\ binom_am_option_price cdf ty s0 k T r sigma q fut n true = Ok corrected /\ Rabs (corrected - plain) < eps.
Proof.
  intros N Hs Hk HT Hg eps He. destruct (@c164_converges cdf ty s0 k T r sigma q fut N Hs Hk HT Hg) as (b & Eb & H). destruct (H eps He) as [n0 Hn0]. exists n0. intros n Hn. destruct (Hn0 n Hn) as (TS & v & Ev & Hv).
  destruct (@c73_control_variates cdf ty s0 k T r sigma q fut n TS) as (am & eu & bsm & A1 & A2 & A3 & A4 & A5 & _). exists am, (am + bsm - eu). split; auto. split; auto. assert (eu = v) by congruence. assert (bsm = b) by congruence. subst. replace (am + b - v - am) with (- (v - b)) by ring. now rewrite Rabs_Ropp.
Qed.
(** and the American price without correction ends up above the Black-Scholes price less any margin *)
Theorem c164_american_above cdf ty s0 k T r sigma q fut : is_normal_cdf cdf -> 0 < s0 -> 0 < k -> 0 < T -> 0 < sigma ->
  exists b, bsm_option_price cdf ty s0 k r sigma T None q fut = Ok b /\
  forall eps, 0 < eps -> exists n0, forall n, (n0 <= n)%nat -> exists v, binom_am_option_price cdf ty s0 k T r sigma q fut n false = Ok v /\ b - eps < v.
Proof.
  intros N Hs Hk HT Hg. destruct (@c164_converges cdf ty s0 k T r sigma q fut N Hs Hk HT Hg) as (b & Eb & H). exists b. split; auto. intros eps He. destruct (H eps He) as [n0 Hn0]. exists n0. intros n Hn. destruct (Hn0 n Hn) as (TS & v & Ev & Hv).
  destruct (@c73_american_dominates ty s0 k T r sigma q fut n TS) as (am & eu & A1 & A2 & A3 & _). exists am. split; [unfold binom_am_option_price; now rewrite A1|]. assert (eu = v) by congruence. subst. apply Rabs_def2 in Hv. lra.
Qed.
(** the European prices of two numbers of steps come together: a refinement of the tree that goes on refining settles *)
Theorem c164_settles ty s0 k T r sigma q fut : 0 < s0 -> 0 < k -> 0 < T -> 0 < sigma ->
  forall eps, 0 < eps -> exists n0, forall m n, (n0 <= m)%nat -> (n0 <= n)%nat -> exists v v', binom_option_price ty European s0 k T r sigma q fut m = Ok v /\ binom_option_price ty European s0 k T r sigma q fut n = Ok v' /\ Rabs (v - v') < eps.
Proof.
  intros Hs Hk HT Hg eps He. destruct normal_cdf_exists as [cdf N]. destruct (@c164_converges cdf ty s0 k T r sigma q fut N Hs Hk HT Hg) as (b & Eb & H). destruct (H (eps / 2)) as [n0 Hn0]; [lra|]. exists n0. intros m n Hm Hn.
  destruct (Hn0 m Hm) as (_ & v & Ev & Hv). destruct (Hn0 n Hn) as (_ & v' & Ev' & Hv'). exists v, v'. split; auto. split; auto. replace (v - v') with ((v - b) + - (v' - b)) by ring. eapply Rle_lt_trans; [apply Rabs_triang|]. rewrite Rabs_Ropp. lra.
Qed.
(** an option at the money over a year *)
Example c164_example : exists cdf b, is_normal_cdf cdf /\ bsm_option_price cdf Put 100 100 (5 / 100) (2 / 10) 1 None 0 false = Ok b /\ 0 < b
  /\ exists n0, forall n, (n0 <= n)%nat -> exists v, binom_option_price Put European 100 100 1 (5 / 100) (2 / 10) 0 false n = Ok v /\ Rabs (v - b) < b / 1000.
Proof.
  destruct normal_cdf_exists as [cdf N]. exists cdf. destruct (@c164_converges cdf Put 100 100 1 (5 / 100) (2 / 10) 0 false N) as (b & Eb & H); try lra. exists b. split; auto. split; auto.
  assert (Hb : 0 < b). { rewrite (@bsm_as_bs cdf Put 100 100 (5 / 100) (2 / 10) 1 None 0 false N) in Eb by (auto; cbn; lra). assert (E : forall x y : R, Ok x = Ok y -> x = y) by congruence. apply E in Eb. rewrite <- Eb. rewrite sqrt_1. apply (bs_positive N); cbn [net_spot carry]; try (apply Rmult_lt_0_compat; [lra|apply exp_pos]); lra. }
  split; auto. destruct (H (b / 1000)) as [n0 Hn0]; [lra|]. exists n0. intros n Hn. destruct (Hn0 n Hn) as (_ & v). exact v.
Qed.

Print Assumptions c164_converges.
Print Assumptions c164_american_call.
Print Assumptions c164_control_variate.
Print Assumptions c164_american_above.
Print Assumptions c164_settles.
