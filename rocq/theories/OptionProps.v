(** C72-C74, C94-C96: option prices, implied rates, volatilities and distributions.
    The theorems use the axioms of the standard real numbers; [brentq_exists] also uses the standard library's indefinite description. *)
From Verif Require Import Py RNum Normal OptionModel OptionProofs.
From Coq Require Import ClassicalEpsilon Ranalysis5.
Set Implicit Arguments.
Unset Strict Implicit.
Open Scope R_scope.

(** ** C72 Black-Scholes *)
(** spot net of the present value of the discrete dividends, and yield in force *)
Definition net_spot (s0 r : R) (divs : option (list (R * R))) : R :=
  match divs with None => s0 | Some ds => fold_right (fun d acc => acc - fst d * exp (- (r * snd d))) s0 ds end.
Definition carry (r q : R) (fut : bool) : R := if fut then r else q.

Lemma net_spot_ok s0 r ds : s0 - divs_present r ds = net_spot s0 r (Some ds).
Proof. unfold divs_present. cbn [net_spot]. induction ds as [|x ds IH]; cbn; [ring|]. rewrite <- IH. rewrite Ropp_mult_distr_l. cbn. ring. Qed.
Lemma bsm_d1_bs s0 k r sigma T q : 0 < s0 -> 0 < k -> 0 < sigma -> 0 < T ->
  bsm_d1 s0 k r sigma T q = bsD (s0 * exp (- q * T)) (k * exp (- r * T)) (sigma * sqrt T).
Proof.
  intros Hs Hk Hg HT. unfold bsm_d1, bsD. pose proof (sqrt_lt_R0 T HT) as Hq. rewrite !ln_mult by (auto; apply exp_pos). rewrite !ln_exp.
  unfold Rdiv at 2. rewrite ln_mult, ln_Rinv by (auto; now apply Rinv_0_lt_compat).
  assert (ET : T = sqrt T * sqrt T) by (symmetry; apply sqrt_sqrt; lra). set (w := sqrt T) in *. clearbody w. subst T. field. lra.
Qed.
Lemma bsm_as_bs cdf ty s0 k r sigma T divs q fut : is_normal_cdf cdf -> 0 < net_spot s0 r divs -> 0 < k -> 0 < sigma -> 0 < T -> divs = None \/ q = 0 ->
  let A := net_spot s0 r divs * exp (- carry r q fut * T) in let B := k * exp (- r * T) in
  bsm_option_price cdf ty s0 k r sigma T divs q fut = Ok (match ty with Call => bs cdf A B (sigma * sqrt T) | Put => bs cdf B A (sigma * sqrt T) end).
Proof.
  intros N Hs Hk Hg HT Hd. unfold bsm_option_price. pose proof (sqrt_lt_R0 T HT) as Hq. assert (Hv : 0 < sigma * sqrt T) by now apply Rmult_lt_0_compat.
  replace (match divs with None => true | Some _ => if Req_EM_T q 0 then true else false end) with true by (destruct divs; auto; destruct Hd as [Hd|Hd]; [discriminate|]; destruct (Req_EM_T q 0); [auto|contradiction]).
  replace (match divs with Some ds => s0 - divs_present r ds | None => s0 end) with (net_spot s0 r divs) by (destruct divs; [rewrite net_spot_ok|]; reflexivity).
  cbv zeta. fold (carry r q fut). unfold bsm_d2. rewrite bsm_d1_bs by auto. destruct ty; [reflexivity|]. rewrite <- bs_put by exact Hv. f_equal. ring.
Qed.

(** the prices in closed form *)
Theorem c72_value cdf ty s0 k r sigma T divs q fut : divs = None \/ q = 0 ->
  let s := net_spot s0 r divs in let y := carry r q fut in
  let d1 := (ln (s / k) + (r - y + sigma ^ 2 / 2) * T) / (sigma * sqrt T) in let d2 := d1 - sigma * sqrt T in
  bsm_option_price cdf ty s0 k r sigma T divs q fut = Ok (match ty with
    | Call => s * exp (- (y * T)) * cdf d1 - k * exp (- (r * T)) * cdf d2
    | Put => k * exp (- (r * T)) * cdf (- d2) - s * exp (- (y * T)) * cdf (- d1) end).
Proof.
  intros Hd s y d1 d2. unfold bsm_option_price.
  replace (match divs with None => true | Some _ => if Req_EM_T q 0 then true else false end) with true by (destruct divs; auto; destruct Hd as [Hd|Hd]; [discriminate|]; destruct (Req_EM_T q 0); [auto|contradiction]).
  replace (match divs with Some ds => s0 - divs_present r ds | None => s0 end) with s by (unfold s; destruct divs; [rewrite net_spot_ok|]; reflexivity).
  cbv zeta. fold (carry r q fut). fold y. unfold bsm_d2, bsm_d1. replace (sigma * sigma) with (sigma ^ 2) by ring. fold d1. fold d2. rewrite <- !Ropp_mult_distr_l. destruct ty; f_equal; ring.
Qed.
Theorem c72_put_call_parity cdf s0 k r sigma T divs q fut :
  is_normal_cdf cdf -> 0 < net_spot s0 r divs -> 0 < k -> 0 < sigma -> 0 < T -> divs = None \/ q = 0 ->
  exists c p, bsm_option_price cdf Call s0 k r sigma T divs q fut = Ok c /\ bsm_option_price cdf Put s0 k r sigma T divs q fut = Ok p
    /\ c - p = net_spot s0 r divs * exp (- carry r q fut * T) - k * exp (- r * T).
Proof.
  intros N Hs Hk Hg HT Hd. pose proof (sqrt_lt_R0 T HT) as Hq. do 2 eexists.
  split; [apply bsm_as_bs; auto|]. split; [apply bsm_as_bs; auto|]. cbv beta iota. apply bs_parity; auto. now apply Rmult_lt_0_compat.
Qed.
(** no-arbitrage bounds, strict *)
Theorem c72_bounds cdf s0 k r sigma T divs q fut :
  is_normal_cdf cdf -> 0 < net_spot s0 r divs -> 0 < k -> 0 < sigma -> 0 < T -> divs = None \/ q = 0 ->
  let A := net_spot s0 r divs * exp (- carry r q fut * T) in let B := k * exp (- r * T) in
  exists c p, bsm_option_price cdf Call s0 k r sigma T divs q fut = Ok c /\ bsm_option_price cdf Put s0 k r sigma T divs q fut = Ok p
    /\ Rmax 0 (A - B) < c < A /\ Rmax 0 (B - A) < p < B.
Proof.
  intros N Hs Hk Hg HT Hd A B. pose proof (sqrt_lt_R0 T HT) as Hq. do 2 eexists.
  split; [apply bsm_as_bs; auto|]. split; [apply bsm_as_bs; auto|]. cbv beta iota. fold A B.
  assert (HA : 0 < A) by (apply Rmult_lt_0_compat; auto; apply exp_pos). assert (HB : 0 < B) by (apply Rmult_lt_0_compat; auto; apply exp_pos).
  assert (Hv : 0 < sigma * sqrt T) by now apply Rmult_lt_0_compat.
  pose proof (bs_parity N A B Hv). pose proof (bs_positive N HA HB Hv). pose proof (bs_positive N HB HA Hv).
  pose proof (@bs_lt_spot _ N A B (sigma * sqrt T) HA HB). pose proof (@bs_lt_spot _ N B A (sigma * sqrt T) HB HA).
  repeat split; auto; apply Rmax_lub_lt; lra.
Qed.
(** the price moves with the spot, the strike and the volatility as an option must *)
Theorem c72_monotone_spot cdf s1 s2 k r sigma T divs q fut c1 c2 p1 p2 :
  is_normal_cdf cdf -> 0 < net_spot s1 r divs -> s1 < s2 -> 0 < k -> 0 < sigma -> 0 < T -> divs = None \/ q = 0 ->
  bsm_option_price cdf Call s1 k r sigma T divs q fut = Ok c1 -> bsm_option_price cdf Call s2 k r sigma T divs q fut = Ok c2 ->
  bsm_option_price cdf Put s1 k r sigma T divs q fut = Ok p1 -> bsm_option_price cdf Put s2 k r sigma T divs q fut = Ok p2 ->
  c1 < c2 /\ p2 < p1.
Proof.
  intros N Hs H12 Hk Hg HT Hd. pose proof (sqrt_lt_R0 T HT) as Hq. assert (Hv : 0 < sigma * sqrt T) by now apply Rmult_lt_0_compat.
  assert (Hn : net_spot s1 r divs < net_spot s2 r divs).
  { destruct divs as [ds|]; auto. rewrite <- !net_spot_ok. lra. }
  rewrite !bsm_as_bs by (auto; lra). intros [= <-] [= <-] [= <-] [= <-].
  pose proof (exp_pos (- carry r q fut * T)). assert (HB : 0 < k * exp (- r * T)) by (apply Rmult_lt_0_compat; auto; apply exp_pos).
  assert (HA1 : 0 < net_spot s1 r divs * exp (- carry r q fut * T)) by now apply Rmult_lt_0_compat.
  assert (HA : net_spot s1 r divs * exp (- carry r q fut * T) < net_spot s2 r divs * exp (- carry r q fut * T)) by now apply Rmult_lt_compat_r.
  split; [now apply bs_spot_increasing|now apply bs_strike_decreasing].
Qed.
Theorem c72_monotone_strike cdf s0 k1 k2 r sigma T divs q fut c1 c2 p1 p2 :
  is_normal_cdf cdf -> 0 < net_spot s0 r divs -> 0 < k1 -> k1 < k2 -> 0 < sigma -> 0 < T -> divs = None \/ q = 0 ->
  bsm_option_price cdf Call s0 k1 r sigma T divs q fut = Ok c1 -> bsm_option_price cdf Call s0 k2 r sigma T divs q fut = Ok c2 ->
  bsm_option_price cdf Put s0 k1 r sigma T divs q fut = Ok p1 -> bsm_option_price cdf Put s0 k2 r sigma T divs q fut = Ok p2 ->
  c2 < c1 /\ p1 < p2.
Proof.
  intros N Hs Hk H12 Hg HT Hd. pose proof (sqrt_lt_R0 T HT) as Hq. assert (Hv : 0 < sigma * sqrt T) by now apply Rmult_lt_0_compat.
  rewrite !bsm_as_bs by (auto; lra). intros [= <-] [= <-] [= <-] [= <-].
  pose proof (exp_pos (- r * T)). assert (HA : 0 < net_spot s0 r divs * exp (- carry r q fut * T)) by (apply Rmult_lt_0_compat; auto; apply exp_pos).
  assert (HB1 : 0 < k1 * exp (- r * T)) by now apply Rmult_lt_0_compat. assert (HB : k1 * exp (- r * T) < k2 * exp (- r * T)) by now apply Rmult_lt_compat_r.
  split; [now apply bs_strike_decreasing|now apply bs_spot_increasing].
Qed.
Theorem c72_monotone_volatility cdf ty s0 k r v1 v2 T divs q fut x1 x2 :
  is_normal_cdf cdf -> 0 < net_spot s0 r divs -> 0 < k -> 0 < v1 -> v1 < v2 -> 0 < T -> divs = None \/ q = 0 ->
  bsm_option_price cdf ty s0 k r v1 T divs q fut = Ok x1 -> bsm_option_price cdf ty s0 k r v2 T divs q fut = Ok x2 -> x1 < x2.
Proof.
  intros N Hs Hk Hv H12 HT Hd. pose proof (sqrt_lt_R0 T HT) as Hq. assert (Hv1 : 0 < v1 * sqrt T) by now apply Rmult_lt_0_compat.
  rewrite !bsm_as_bs by (auto; lra). intros [= <-] [= <-]. assert (H : v1 * sqrt T < v2 * sqrt T) by now apply Rmult_lt_compat_r.
  assert (HA : 0 < net_spot s0 r divs * exp (- carry r q fut * T)) by (apply Rmult_lt_0_compat; auto; apply exp_pos).
  assert (HB : 0 < k * exp (- r * T)) by (apply Rmult_lt_0_compat; auto; apply exp_pos).
  destruct ty; now apply bs_vol_increasing.
Qed.
(** discrete dividends and a dividend yield cannot be given together *)
Theorem c72_both_dividends_refused cdf ty s0 k r sigma T ds q fut : q <> 0 -> bsm_option_price cdf ty s0 k r sigma T (Some ds) q fut = Err AssertionError.
Proof. intros H. unfold bsm_option_price. destruct (Req_EM_T q 0); [contradiction|reflexivity]. Qed.
Example c72_hypotheses_met : (exists cdf, is_normal_cdf cdf) /\ 0 < net_spot 100 0 (Some [(1, / 2); (2, 1)]).
Proof. split; [exact normal_cdf_exists|]. cbn. rewrite !Rmult_0_l, Ropp_0, exp_0. lra. Qed.

(** ** C73 The binomial tree *)
Definition intrinsic (ty : option_type) (s k : R) : R := match ty with Call => Rmax 0 (s - k) | Put => Rmax 0 (k - s) end.
Lemma payoff_intrinsic ty s k : payoff ty s k = intrinsic ty s k. Proof. destruct ty; apply Rmax_comm. Qed.
(** the parameters for which the risk-neutral probability lies in [0,1] *)
Definition tree_sound (T r sigma q : R) (n : nat) : Prop := 0 < T /\ 0 < sigma /\ (0 < n)%nat /\ Rabs (r - q) * sqrt (T / INR n) <= sigma.
Section Params.
  Variables (T r sigma q : R) (n : nat).
  Let dt := T / INR n.
  Let u := exp (sigma * sqrt dt).
  Let d := 1 / u.
  Let a := exp ((r - q) * dt).
  Let p := (a - d) / (u - d).
  Lemma dt_pos : 0 < T -> (0 < n)%nat -> 0 < dt.
  Proof. intros HT Hn. unfold dt. apply Rdiv_lt_0_compat; auto. now apply lt_0_INR. Qed.
  Lemma d_exp : d = exp (- (sigma * sqrt dt)). Proof. unfold d, u. rewrite exp_Ropp. unfold Rdiv. ring. Qed.
  Lemma d_lt_u : 0 < T -> 0 < sigma -> (0 < n)%nat -> d < u.
  Proof. intros HT Hg Hn. pose proof (dt_pos HT Hn) as Hdt. pose proof (sqrt_lt_R0 _ Hdt). rewrite d_exp. unfold u. apply exp_increasing. assert (0 < sigma * sqrt dt) by now apply Rmult_lt_0_compat. lra. Qed.
  Theorem c73_probability : 0 < T -> 0 < sigma -> (0 < n)%nat -> (0 <= p <= 1 <-> Rabs (r - q) * sqrt dt <= sigma).
  Proof.
    intros HT Hg Hn. pose proof (dt_pos HT Hn) as Hdt. pose proof (sqrt_lt_R0 _ Hdt) as Hw. pose proof (d_lt_u HT Hg Hn) as Hdu.
    assert (Ep : 0 <= p <= 1 <-> d <= a <= u).
    { unfold p. split.
      - intros [H0 H1]. apply Rmult_le_compat_r with (r := u - d) in H0, H1; try lra. replace ((a - d) / (u - d) * (u - d)) with (a - d) in H0, H1 by (field; lra). lra.
      - intros [H0 H1]. split; [apply Rmult_le_pos; [lra|left; apply Rinv_0_lt_compat; lra]|]. apply Rmult_le_reg_r with (u - d); [lra|]. replace ((a - d) / (u - d) * (u - d)) with (a - d) by (field; lra). lra. }
    rewrite Ep, d_exp. unfold a, u. assert (Ed : (r - q) * dt = (r - q) * sqrt dt * sqrt dt) by (rewrite Rmult_assoc, sqrt_sqrt by lra; reflexivity).
    assert (Hexp : forall x y, exp x <= exp y <-> x <= y).
    { intros x y. split; intros H; [|destruct H as [H|<-]; [left; now apply exp_increasing|right; reflexivity]]. destruct (Rle_lt_dec x y) as [|H']; auto. apply exp_increasing in H'. lra. }
    rewrite !Hexp, Ed. set (w := sqrt dt) in *. set (m := r - q). split.
    - intros [H1 H2]. assert (m * w <= sigma) by nra. assert (- sigma <= m * w) by nra. rewrite <- (Rabs_right w) by lra. rewrite <- Rabs_mult. now apply Rabs_le.
    - intros H. rewrite <- (Rabs_right w) in H by lra. rewrite <- Rabs_mult in H. assert (- sigma <= m * w <= sigma) by (pose proof (Rle_abs (m * w)); pose proof (Rle_abs (- (m * w))); rewrite Rabs_Ropp in *; lra). nra.
  Qed.
  Lemma carry_step : 0 < T -> 0 < sigma -> (0 < n)%nat -> exp (- r * dt) * (p * u + (1 - p) * d) = exp (- q * dt).
  Proof.
    intros HT Hg Hn. pose proof (d_lt_u HT Hg Hn) as Hdu. replace (p * u + (1 - p) * d) with a by (unfold p; field; lra).
    unfold a. rewrite <- exp_plus. f_equal. ring.
  Qed.
  Lemma exp_pow x m : exp x ^ m = exp (x * INR m).
  Proof. induction m as [|m IH]; [cbn; now rewrite Rmult_0_r, exp_0|]. cbn [pow]. rewrite IH, <- exp_plus, S_INR. f_equal. ring. Qed.
  Lemma exp_steps x : (0 < n)%nat -> exp (- x * dt) ^ n = exp (- x * T).
  Proof. intros Hn. rewrite exp_pow. f_equal. unfold dt. field. apply not_0_INR. lia. Qed.
End Params.

Lemma binom_is_tree ty ex s0 k T r sigma q fut n : (0 < n)%nat ->
  let dt := T / INR n in let u := exp (sigma * sqrt dt) in let d := 1 / u in let p := (exp ((r - carry r q fut) * dt) - d) / (u - d) in
  binom_option_price ty ex s0 k T r sigma q fut n = Ok (tree ty ex s0 k u d p (exp (- r * dt)) n 0 0).
Proof. intros Hn. unfold binom_option_price. rewrite (proj2 (Nat.eqb_neq n 0)) by lia. cbv zeta. rewrite price_tree. reflexivity. Qed.

Theorem c73_european_is_binomial_expectation ty s0 k T r sigma q fut n : tree_sound T r sigma (carry r q fut) n ->
  let u := exp (sigma * sqrt (T / INR n)) in let p := (exp ((r - carry r q fut) * (T / INR n)) - / u) / (u - / u) in
  binom_option_price ty European s0 k T r sigma q fut n =
  Ok (exp (- r * T) * rsum (map (fun l => INR (binomial n l) * p ^ l * (1 - p) ^ (n - l) * intrinsic ty (s0 * u ^ l * (/ u) ^ (n - l)) k) (seq 0 (S n)))).
Proof.
  intros (HT & Hg & Hn & Hb) u p. rewrite binom_is_tree by exact Hn. f_equal.
  pose proof (proj2 (c73_probability r (carry r q fut) HT Hg Hn) Hb) as Hp. cbv zeta. rewrite european_tree_binomial; [|exact Hp|apply exp_pos].
  rewrite exp_steps by exact Hn. f_equal. unfold binomial_expectation. apply rsum_ext_in. intros l _. cbn [Nat.add].
  rewrite payoff_intrinsic. unfold node, p, u, Rdiv. rewrite Rmult_1_l. reflexivity.
Qed.
(** the expectation is over a probability distribution, with the mean the no-arbitrage forward price *)
Theorem c73_binomial_total p n : rsum (map (fun l => INR (binomial n l) * p ^ l * (1 - p) ^ (n - l)) (seq 0 (S n))) = 1.
Proof.
  assert (H : binomial_expectation p n (fun _ => 1) = 1).
  { induction n as [|n IH]; [unfold binomial_expectation; cbn; ring|]. rewrite binomial_expectation_S, IH. ring. }
  etransitivity; [|exact H]. apply rsum_ext_in. intros l _. ring.
Qed.
Theorem c73_put_call_parity s0 k T r sigma q fut n : tree_sound T r sigma (carry r q fut) n ->
  exists c p, binom_option_price Call European s0 k T r sigma q fut n = Ok c /\ binom_option_price Put European s0 k T r sigma q fut n = Ok p
    /\ c - p = s0 * exp (- carry r q fut * T) - k * exp (- r * T).
Proof.
  intros (HT & Hg & Hn & Hb). do 2 eexists. split; [apply binom_is_tree; exact Hn|]. split; [apply binom_is_tree; exact Hn|]. cbv zeta.
  pose proof (proj2 (c73_probability r (carry r q fut) HT Hg Hn) Hb) as Hp. rewrite (@european_tree_parity s0 k _ _ _ (exp (- r * (T / INR n))) Hp (exp_pos _) _ n (carry_step r (carry r q fut) HT Hg Hn)) by lia.
  rewrite !exp_steps by exact Hn. unfold node. cbn. ring.
Qed.
Theorem c73_american_dominates ty s0 k T r sigma q fut n : tree_sound T r sigma (carry r q fut) n ->
  exists am eu, binom_option_price ty American s0 k T r sigma q fut n = Ok am /\ binom_option_price ty European s0 k T r sigma q fut n = Ok eu
    /\ eu <= am /\ intrinsic ty s0 k <= am /\ 0 <= eu.
Proof.
  intros (HT & Hg & Hn & Hb). do 2 eexists. split; [apply binom_is_tree; exact Hn|]. split; [apply binom_is_tree; exact Hn|]. cbv zeta.
  pose proof (proj2 (c73_probability r (carry r q fut) HT Hg Hn) Hb) as Hp. split; [now apply american_ge_european; [|apply exp_pos]|]. split.
  - rewrite <- payoff_intrinsic. replace s0 with (node s0 (exp (sigma * sqrt (T / INR n))) (1 / exp (sigma * sqrt (T / INR n))) 0 0) at 1 by (unfold node; cbn; ring). apply american_ge_intrinsic.
  - apply tree_nonneg.
Qed.
Theorem c73_american_call_is_european s0 k T r sigma q fut n : tree_sound T r sigma (carry r q fut) n -> carry r q fut <= 0 -> 0 <= r -> 0 <= s0 -> 0 <= k ->
  binom_option_price Call American s0 k T r sigma q fut n = binom_option_price Call European s0 k T r sigma q fut n.
Proof.
  intros (HT & Hg & Hn & Hb) Hq Hr Hs Hk. rewrite !binom_is_tree by exact Hn. f_equal. cbv zeta.
  pose proof (proj2 (c73_probability r (carry r q fut) HT Hg Hn) Hb) as Hp. pose proof (@dt_pos T n HT Hn) as Hdt. pose proof (exp_pos (sigma * sqrt (T / INR n))) as Hu.
  apply american_call_european with (g := exp (- carry r q fut * (T / INR n))); auto using exp_pos, carry_step; try lra.
  - apply Rle_trans with (exp 0); [rewrite exp_0; lra|]. destruct (Rle_lt_or_eq_dec 0 (- carry r q fut * (T / INR n))) as [H|H]; [nra|left; now apply exp_increasing|rewrite <- H; lra].
  - apply Rle_trans with (exp 0); [|rewrite exp_0; lra]. destruct (Rle_lt_or_eq_dec (- r * (T / INR n)) 0) as [H|H]; [nra|left; now apply exp_increasing|rewrite <- H; lra].
  - left. now apply Rdiv_lt_0_compat; [lra|].
Qed.
(** an American call is worth at most the asset (carry >= 0), an American put at most the strike (rate >= 0) *)
Theorem c73_upper_bounds s0 k T r sigma q fut n : tree_sound T r sigma (carry r q fut) n -> 0 <= carry r q fut -> 0 <= r -> 0 <= s0 -> 0 <= k ->
  exists c p, binom_option_price Call American s0 k T r sigma q fut n = Ok c /\ binom_option_price Put American s0 k T r sigma q fut n = Ok p /\ c <= s0 /\ p <= k.
Proof.
  intros (HT & Hg & Hn & Hb) Hq Hr Hs Hk. do 2 eexists. split; [apply binom_is_tree; exact Hn|]. split; [apply binom_is_tree; exact Hn|]. cbv zeta.
  pose proof (proj2 (c73_probability r (carry r q fut) HT Hg Hn) Hb) as Hp. pose proof (@dt_pos T n HT Hn) as Hdt. pose proof (exp_pos (sigma * sqrt (T / INR n))) as Hu.
  assert (Hle : forall x, 0 <= x -> exp (- x * (T / INR n)) <= 1).
  { intros x Hx. apply Rle_trans with (exp 0); [|rewrite exp_0; lra]. destruct (Rle_lt_or_eq_dec (- x * (T / INR n)) 0) as [H|H]; [nra|left; now apply exp_increasing|rewrite <- H; lra]. }
  assert (Hd : 0 <= 1 / exp (sigma * sqrt (T / INR n))) by (left; apply Rdiv_lt_0_compat; lra). split.
  - set (u := exp (sigma * sqrt (T / INR n))) in *. replace s0 with (node s0 u (1 / u) 0 0) at 2 by (unfold node; cbn; ring).
    apply american_call_le_spot with (g := exp (- carry r q fut * (T / INR n))); auto using exp_pos; try lra. apply carry_step; auto.
  - apply american_put_le_strike; auto using exp_pos; lra.
Qed.
Theorem c73_no_steps_raises ty ex s0 k T r sigma q fut : binom_option_price ty ex s0 k T r sigma q fut 0 = Err ZeroDivisionError.
Proof. reflexivity. Qed.
(** with a risk-neutral probability above one, flooring the holding value at zero breaks put-call parity *)
Theorem c73_parity_needs_sound_tree : exists s0 k T r sigma c p, 0 < s0 /\ 0 < k /\ 0 < T /\ 0 < sigma /\
  binom_option_price Call European s0 k T r sigma 0 false 1 = Ok c /\ binom_option_price Put European s0 k T r sigma 0 false 1 = Ok p /\
  c - p <> s0 - k * exp (- r * T).
Proof.
  exists 1, 1, 1, (ln 4), (ln 2). do 2 eexists. split; [lra|]. split; [lra|]. split; [lra|]. split; [rewrite <- ln_1; apply ln_increasing; lra|].
  split; [apply binom_is_tree; lia|]. split; [apply binom_is_tree; lia|]. cbv zeta.
  replace (1 / INR 1) with 1 by (cbn; lra). rewrite sqrt_1, !Rmult_1_r. cbn [carry]. rewrite Rminus_0_r, !exp_Ropp, !exp_ln by lra.
  cbn [tree exercise_value payoff]. unfold node. cbn [pow Nat.sub].
  replace ((4 - 1 / 2) / (2 - 1 / 2)) with (7 / 3) by field. unfold Rmax. repeat destruct (Rle_dec _ _); lra.
Qed.
Example c73_tree_sound_ex : tree_sound 1 (5 / 100) (2 / 10) 0 4.
Proof.
  unfold tree_sound. repeat split; try lra; try lia. rewrite Rabs_right by lra. replace (1 / INR 4) with (/ 2 * / 2) by (cbn; field). rewrite sqrt_square by lra. lra.
Qed.
(** the control variate adds the Black-Scholes error of the European tree *)
Theorem c73_control_variates cdf ty s0 k T r sigma q fut n : tree_sound T r sigma (carry r q fut) n ->
  exists am eu bsm, binom_option_price ty American s0 k T r sigma q fut n = Ok am /\ binom_option_price ty European s0 k T r sigma q fut n = Ok eu
    /\ bsm_option_price cdf ty s0 k r sigma T None q fut = Ok bsm
    /\ binom_am_option_price cdf ty s0 k T r sigma q fut n false = Ok am
    /\ binom_am_option_price cdf ty s0 k T r sigma q fut n true = Ok (am + bsm - eu) /\ bsm <= am + bsm - eu.
Proof.
  intros H. destruct (@c73_american_dominates ty s0 k T r sigma q fut n H) as (am & eu & Ea & Ee & Hle & _). unfold bsm_option_price. do 3 eexists.
  split; [exact Ea|]. split; [exact Ee|]. split; [reflexivity|]. unfold binom_am_option_price, bsm_option_price. rewrite Ea, Ee. cbn [bind].
  split; [reflexivity|]. split; [f_equal; ring|lra].
Qed.

(** ** C74 Implied rates *)
Lemma insert_quote_perm x l : Permutation (insert_quote x l) (x :: l).
Proof. induction l as [|y l IH]; cbn [insert_quote]; auto. destruct (Rle_lt_dec _ _); auto. transitivity (y :: x :: l); [now constructor|constructor]. Qed.
Lemma quote_pairs_perm calls puts : Permutation (quote_pairs calls puts) (quote_matches calls puts).
Proof. unfold quote_pairs. induction (quote_matches calls puts) as [|x l IH]; cbn [fold_right]; auto. rewrite insert_quote_perm. now constructor. Qed.
Lemma quote_pairs_sorted calls puts : StronglySorted Rle (map (fun x => fst (fst x)) (quote_pairs calls puts)).
Proof.
  unfold quote_pairs. induction (quote_matches calls puts) as [|x l IH]; cbn [fold_right]; [constructor|]. revert IH. generalize (fold_right insert_quote [] l). clear l. intros l IH.
  induction l as [|y l IHl]; cbn [insert_quote map]; [repeat constructor|]. cbn [map] in IH. inversion IH as [|a b S F Ea]; subst. destruct (Rle_lt_dec _ _) as [Le|Lt]; cbn [map].
  - constructor; [exact IH|]. constructor; [exact Le|]. rewrite Forall_forall in *. intros z Hz. specialize (F z Hz). lra.
  - constructor; [now apply IHl|]. rewrite Forall_forall in *. intros z Hz. apply in_map_iff in Hz. destruct Hz as (w & <- & Hw). apply (Permutation_in _ (insert_quote_perm x l)) in Hw.
    destruct Hw as [->|Hw]; [lra|]. apply F. apply in_map_iff. now exists w.
Qed.
Lemma quote_pairs_in calls puts k pc pp : In (k, pc, pp) (quote_pairs calls puts) <-> In (k, Some pc) calls /\ In (k, Some pp) puts.
Proof.
  transitivity (In (k, pc, pp) (quote_matches calls puts)). { split; apply Permutation_in; [|symmetry]; apply quote_pairs_perm. }
  unfold quote_matches. rewrite in_flat_map. split.
  - intros ([kc [xc|]] & Hc & H); cbn [snd fst] in H; [|easy]. apply in_flat_map in H. destruct H as ([kp [xp|]] & Hp & H); cbn [snd fst] in H; [|easy].
    destruct (Req_EM_T kc kp) as [->|]; [|easy]. destruct H as [[= <- <- <-]|[]]. auto.
  - intros [Hc Hp]. exists (k, Some pc). split; auto. cbn [snd fst]. apply in_flat_map. exists (k, Some pp). split; auto. cbn [snd fst]. destruct (Req_EM_T k k); [now left|congruence].
Qed.
Lemma quote_matches_once calls puts : NoDup (map fst calls) -> NoDup (map fst puts) -> NoDup (map (fun x => fst (fst x)) (quote_matches calls puts)).
Proof.
  intros Hc Hp. assert (G : forall (c : R * option R) x, In x (match snd c with None => [] | Some pc => flat_map (fun p => match snd p with Some pp => if Req_EM_T (fst c) (fst p) then [(fst c, pc, pp)] else [] | None => [] end) puts end) -> fst (fst x) = fst c).
  { intros [k [pc|]] x Hx; cbn [snd fst] in *; [|easy]. apply in_flat_map in Hx. destruct Hx as ([k' [pp|]] & _ & Hx); cbn [snd fst] in Hx; [|easy]. destruct (Req_EM_T k k'); [|easy]. destruct Hx as [<-|[]]. reflexivity. }
  unfold quote_matches. induction calls as [|c calls IH]; cbn [flat_map map]; [constructor|]. cbn [map] in Hc. inversion Hc as [|a b Hn Hd]; subst. rewrite map_app. apply NoDup_app_intro; [|now apply IH|].
  - destruct c as [k [pc|]]; cbn [snd fst]; [|constructor]. clear - Hp. induction puts as [|[k' [pp|]] puts IHp]; cbn [flat_map map snd fst]; [constructor| |now apply IHp; inversion Hp].
    cbn [map] in Hp. inversion Hp as [|a b Hn Hd]; subst. destruct (Req_EM_T k k') as [->|]; [|now apply IHp]. cbn [app map fst]. constructor; [|now apply IHp].
    intro Hi. apply in_map_iff in Hi. destruct Hi as (x & E & Hx). apply in_flat_map in Hx. destruct Hx as ([k2 [p2|]] & H2 & Hx); cbn [snd fst] in Hx; [|easy]. destruct (Req_EM_T k' k2) as [->|]; [|easy]. apply Hn. apply in_map_iff. now exists (k2, Some p2).
  - intros k H1 H2. apply in_map_iff in H1. destruct H1 as (x & <- & H1). apply G in H1. apply in_map_iff in H2. destruct H2 as (y & E & H2). apply in_flat_map in H2. destruct H2 as (c' & Hc' & H2). apply G in H2.
    apply Hn. apply in_map_iff. exists c'. split; [congruence|exact Hc'].
Qed.
(** the series of rates: one for every pair of quotes of a strike, in the order of the strikes; NaN where the quotes admit arbitrage (nothing is left of the strike's present value) *)
Theorem c74_rates calls puts s0 t d : let rates := snd (implied_risk_free_rate calls puts s0 t d) in
  StronglySorted Rle (map fst rates) /\ (NoDup (map fst calls) -> NoDup (map fst puts) -> NoDup (map fst rates)) /\
  forall k x, In (k, x) rates <-> exists c p, In (k, Some c) calls /\ In (k, Some p) puts /\
    let v := (p + s0 - c - d) / k in (0 < v /\ x = Some (- ln v / t)) \/ (v <= 0 /\ x = None).
Proof.
  cbv zeta. unfold implied_risk_free_rate. cbn [snd]. rewrite map_map. cbn [fst]. split; [apply quote_pairs_sorted|]. split.
  - intros Hc Hp. apply (Permutation_NoDup (Permutation_map _ (Permutation_sym (quote_pairs_perm calls puts)))). now apply quote_matches_once.
  - intros k x. rewrite in_map_iff. split.
    + intros ([[k' c] p] & E & Hin). apply quote_pairs_in in Hin. destruct Hin as [H1 H2]. cbn [fst] in E. injection E as <- E. exists c, p. split; auto. split; auto. unfold parity_rate in E. destruct (Rlt_dec 0 _) as [L|L]; [left|right]; split; auto. lra.
    + intros (c & p & H1 & H2 & HV). exists (k, c, p). split; [|now apply quote_pairs_in]. cbn [fst]. f_equal. unfold parity_rate. destruct (Rlt_dec 0 _) as [L|L]; destruct HV as [[V ->]|[V ->]]; auto; lra.
Qed.
Theorem c74_parity_quotes_recover_rate calls puts s0 t d r k0 c0 p0 : 0 < t ->
  (forall k c p, In (k, Some c) calls -> In (k, Some p) puts -> 0 < k /\ c - p = s0 - d - k * exp (- r * t)) ->
  In (k0, Some c0) calls -> In (k0, Some p0) puts ->
  exists rates, implied_risk_free_rate calls puts s0 t d = (Some r, rates) /\ rates <> [] /\
    (forall k x, In (k, x) rates -> x = Some r) /\
    (forall k, In k (map fst rates) <-> exists c p, In (k, Some c) calls /\ In (k, Some p) puts).
Proof.
  intros Ht Hpar Hc0 Hp0.
  assert (HR : forall y, In y (quote_pairs calls puts) -> parity_rate s0 t d y = Some r).
  { intros [[k c] p] Hin. apply quote_pairs_in in Hin. destruct Hin as [Hc Hp]. destruct (Hpar k c p Hc Hp) as [Hk E]. unfold parity_rate. replace (p + s0 - c - d) with (k * exp (- r * t)) by lra.
    replace (k * exp (- r * t) / k) with (exp (- r * t)) by (field; lra). pose proof (exp_pos (- r * t)). destruct (Rlt_dec 0 _); [|lra]. rewrite ln_exp. f_equal. field. lra. }
  pose proof (proj2 (@quote_pairs_in calls puts k0 c0 p0) (conj Hc0 Hp0)) as Hin.
  eexists. split; [|split; [|split]].
  - unfold implied_risk_free_rate. f_equal. rewrite map_map. cbn [snd]. apply median_const.
    + destruct (quote_pairs calls puts) as [|y l]; [contradiction|]. cbn [map present flat_map]. rewrite (HR y) by now left. discriminate.
    + intros x Hx. apply in_flat_map in Hx. destruct Hx as (o & Ho & Hx). apply in_map_iff in Ho. destruct Ho as (y & <- & Hy). rewrite (HR y Hy) in Hx. destruct Hx as [<-|[]]. reflexivity.
  - destruct (quote_pairs calls puts); [contradiction|discriminate].
  - intros k x Hx. apply in_map_iff in Hx. destruct Hx as (y & [= _ <-] & Hy). apply HR, Hy.
  - intros k. rewrite map_map. cbn [fst]. rewrite in_map_iff. split.
    + intros ([[k' c] p] & <- & Hi). apply quote_pairs_in in Hi. now exists c, p.
    + intros (c & p & Hc & Hp). exists (k, c, p). split; auto. now apply quote_pairs_in.
Qed.
(** in particular: quotes priced by [bsm_option_price] give back the rate they were priced with *)
Theorem c74_recovers_bsm_rate cdf s0 r sigma t strikes calls puts k0 : is_normal_cdf cdf -> 0 < s0 -> 0 < sigma -> 0 < t ->
  (forall k, In k strikes -> 0 < k) -> In k0 strikes ->
  Forall2 (fun k q => fst q = k /\ exists x, snd q = Some x /\ bsm_option_price cdf Call s0 k r sigma t None 0 false = Ok x) strikes calls ->
  Forall2 (fun k q => fst q = k /\ exists x, snd q = Some x /\ bsm_option_price cdf Put s0 k r sigma t None 0 false = Ok x) strikes puts ->
  fst (implied_risk_free_rate calls puts s0 t 0) = Some r.
Proof.
  intros N Hs Hg Ht Hk Hin Hc Hp.
  assert (get : forall ty l k x, Forall2 (fun k q => fst q = k /\ exists x, snd q = Some x /\ bsm_option_price cdf ty s0 k r sigma t None 0 false = Ok x) strikes l ->
    In (k, Some x) l -> In k strikes /\ bsm_option_price cdf ty s0 k r sigma t None 0 false = Ok x).
  { intros ty l k x F. clear Hc Hp Hin Hk. induction F as [|a b la lb (E1 & y & E2 & E3) F IH]; [easy|]. intros [->|H]; [cbn in *; subst a; injection E2 as <-; auto|]. destruct (IH H). split; [now right|assumption]. }
  assert (ex : forall ty l, Forall2 (fun k q => fst q = k /\ exists x, snd q = Some x /\ bsm_option_price cdf ty s0 k r sigma t None 0 false = Ok x) strikes l -> exists x, In (k0, Some x) l).
  { intros ty l F. clear Hc Hp get Hk. induction F as [|a [b1 b2] la lb (E1 & y & E2 & E3) F IH]; [easy|]. cbn in *. subst. destruct Hin as [->|H]; [exists y; now left|]. destruct (IH H) as [x Hx]. exists x. now right. }
  destruct (ex _ _ Hc) as [c0 Hc0]. destruct (ex _ _ Hp) as [p0 Hp0].
  destruct (@c74_parity_quotes_recover_rate calls puts s0 t 0 r k0 c0 p0 Ht) as (rates & -> & _); auto.
  intros k c p H1 H2. destruct (get _ _ _ _ Hc H1) as [Hk1 E1]. destruct (get _ _ _ _ Hp H2) as [_ E2]. split; [auto|].
  destruct (@c72_put_call_parity cdf s0 k r sigma t None 0 false N) as (c' & p' & F1 & F2 & E); auto. rewrite E1 in F1. rewrite E2 in F2. injection F1 as <-. injection F2 as <-.
  rewrite E. cbn [net_spot carry]. rewrite Ropp_0, Rmult_0_l, exp_0. ring.
Qed.
Theorem c74_forward_rate s0 f t : 0 < s0 -> 0 < f -> t <> 0 -> s0 * exp (implied_forward_rate s0 f t * t) = f.
Proof. intros Hs Hf Ht. unfold implied_forward_rate. replace (ln (f / s0) / t * t) with (ln (f / s0)) by (field; exact Ht). rewrite exp_ln by now apply Rdiv_lt_0_compat. field. lra. Qed.
Theorem c74_forward_rate_unique s0 t r : 0 < s0 -> t <> 0 -> implied_forward_rate s0 (s0 * exp (r * t)) t = r.
Proof. intros Hs Ht. unfold implied_forward_rate. replace (s0 * exp (r * t) / s0) with (exp (r * t)) by (field; lra). rewrite ln_exp. field. exact Ht. Qed.
(** the rate is the median of the parity rates other than NaN of the strikes quoted on both sides: the middle one of the sorted rates, or the mean of the two middle ones *)
Theorem c74_median calls puts s0 t d m rates : implied_risk_free_rate calls puts s0 t d = (Some m, rates) ->
  exists s, (forall v, count_occ Req_EM_T s v = length (filter (fun e => match snd e with Some w => if Req_EM_T w v then true else false | None => false end) rates)) /\ StronglySorted Rle s /\
    ((exists k x y, length s = (2 * k + 2)%nat /\ nth_error s k = Some x /\ nth_error s (S k) = Some y /\ m = (x + y) / 2) \/
     (exists k, length s = (2 * k + 1)%nat /\ nth_error s k = Some m)).
Proof.
  unfold implied_risk_free_rate. intro H. injection H as H E. rewrite E in H. clear E.
  assert (HC : forall v, count_occ Req_EM_T (present (map snd rates)) v = length (filter (fun e => match snd e with Some w => if Req_EM_T w v then true else false | None => false end) rates)).
  { intro v. clear. induction rates as [|[k [w|]] l IH]; cbn [map present flat_map snd filter]; auto. cbn [app count_occ]. destruct (Req_EM_T w v); cbn [length]; now rewrite <- IH. }
  generalize dependent (present (map snd rates)). intros l H HC.
  exists (rsort l). split; [|split].
  - intro v. rewrite <- HC. symmetry. apply (Permutation_count_occ Req_EM_T). clear. induction l as [|x l IH]; cbn; auto. fold (rsort l). transitivity (x :: rsort l); [now constructor|]. generalize (rsort l). intro s.
    induction s as [|z s IHs]; cbn [rinsert]; auto. destruct (Rle_lt_dec x z); auto. transitivity (z :: x :: s); [constructor|]. now constructor.
  - clear. induction l as [|x l IH]; cbn; [constructor|]. fold (rsort l). revert IH. generalize (rsort l). intros s IH.
    induction IH as [|z s IH1 IH2 F]; cbn; [repeat constructor|]. destruct (Rle_lt_dec x z) as [Le|Lt].
    + constructor; [constructor; auto|]. constructor; auto. rewrite Forall_forall in *. intros y Hy. specialize (F y Hy). lra.
    + constructor; auto. apply Forall_forall. intros y Hy. apply rinsert_in in Hy. destruct Hy as [->|Hy]; [lra|]. rewrite Forall_forall in F. auto.
  - unfold median in H. assert (L := rsort_length l). destruct (length l =? 0)%nat eqn:E0; [discriminate|]. apply Nat.eqb_neq in E0.
    destruct (Nat.even (length l)) eqn:Ev.
    + left. apply Nat.even_spec in Ev. destruct Ev as [k Hk]. replace (length l / 2)%nat with k in H by (rewrite Hk, Nat.mul_comm, Nat.div_mul; lia).
      destruct k as [|k]; [lia|]. replace (S k - 1)%nat with k in H by lia. exists k, (nth k (rsort l) 0), (nth (S k) (rsort l) 0). injection H as <-.
      repeat split; [lia| | ]; apply nth_error_nth'; lia.
    + right. assert (O : Nat.odd (length l) = true) by (unfold Nat.odd; now rewrite Ev). apply Nat.odd_spec in O. destruct O as [k Hk].
      replace (length l / 2)%nat with k in H by (rewrite Hk, Nat.add_comm, Nat.mul_comm, Nat.div_add by lia; reflexivity). exists k. injection H as <-.
      split; [lia|]. apply nth_error_nth'; lia.
Qed.
Print Assumptions c74_median.
(** without a common strike the median is NaN and the series is empty (the guard returning (None, None) is dead) *)
Theorem c74_no_common_strike calls puts s0 t d : (forall k c p, In (k, Some c) calls -> In (k, Some p) puts -> False) -> implied_risk_free_rate calls puts s0 t d = (None, []).
Proof.
  intros H. unfold implied_risk_free_rate. assert (E : quote_pairs calls puts = []).
  { destruct (quote_pairs calls puts) as [|[[k c] p] l] eqn:E; auto. exfalso. apply (H k c p); apply (quote_pairs_in calls puts k c p); rewrite E; now left. }
  rewrite E. reflexivity.
Qed.
Example c74_ex : fst (implied_risk_free_rate [(100, Some 10); (90, None)] [(90, Some 5); (100, Some (10 - 100 + 100 * exp (- (3 / 100) * 1)))] 100 1 0) = Some (3 / 100).
Proof.
  destruct (@c74_parity_quotes_recover_rate [(100, Some 10); (90, None)] [(90, Some 5); (100, Some (10 - 100 + 100 * exp (- (3 / 100) * 1)))] 100 1 0 (3 / 100) 100 10 (10 - 100 + 100 * exp (- (3 / 100) * 1)))
    as (rates & -> & _); [lra| |now left|right; now left|reflexivity].
  intros k c p [E|[E|[]]] [F|[F|[]]]; inversion E; subst; inversion F; subst; lra.
Qed.

Example c74_nan_ex : implied_risk_free_rate [(50, Some 200)] [(50, Some 1)] 100 1 0 = (None, [(50, None)]).
Proof.
  unfold implied_risk_free_rate, quote_pairs, quote_matches. cbn [flat_map fst snd]. destruct (Req_EM_T 50 50) as [_|C]; [|congruence]. cbn [app fold_right insert_quote map fst]. unfold parity_rate.
  destruct (Rlt_dec 0 _) as [L|_]; [exfalso; lra|]. reflexivity.
Qed.

(** ** C94 Implied volatility *)
(** scipy's brentq: no sign change raises; on a continuous function it gives up or returns a point x of the bracket within [tol x] of a root
    (RootProps shows it of scipy's code) *)
Definition brentq_contract (tol : R -> R) (brentq : (R -> R) -> R -> R -> res R) : Prop := forall f lo hi, lo < hi ->
  (0 < f lo * f hi -> brentq f lo hi = Err ValueError) /\
  (f lo * f hi <= 0 -> (forall x, lo <= x <= hi -> continuity_pt f x) ->
   brentq f lo hi = Err RuntimeError \/ exists x x', brentq f lo hi = Ok x /\ lo <= x <= hi /\ lo <= x' <= hi /\ f x' = 0 /\ Rabs (x - x') <= tol x).
Lemma brentq_exists tol : (forall x, 0 <= tol x) -> exists brentq, brentq_contract tol brentq /\
  forall f lo hi, f lo * f hi <= 0 -> (exists x, lo <= x <= hi /\ f x = 0) -> exists x, brentq f lo hi = Ok x.
Proof.
  intros Ht. exists (fun f lo hi => if Rlt_dec 0 (f lo * f hi) then Err ValueError else match excluded_middle_informative (exists x, lo <= x <= hi /\ f x = 0) with
    | left H => Ok (proj1_sig (constructive_indefinite_description _ H)) | right _ => Err RuntimeError end).
  split.
  - intros f lo hi Hlt. split; [intros H; destruct (Rlt_dec 0 (f lo * f hi)); [reflexivity|contradiction]|]. intros H _. destruct (Rlt_dec 0 (f lo * f hi)); [lra|].
    destruct (excluded_middle_informative _) as [E|E]; [right|now left]. destruct (constructive_indefinite_description _ E) as (x & Hx & H0). exists x, x. cbn [proj1_sig].
    rewrite Rminus_diag_eq, Rabs_R0 by reflexivity. auto.
  - intros f lo hi H E. destruct (Rlt_dec 0 (f lo * f hi)); [lra|]. destruct (excluded_middle_informative _); [eexists; reflexivity|contradiction].
Qed.
Section ImpliedVol.
  Variables (cdf : R -> R) (ty : option_type) (s0 k r T : R) (divs : option (list (R * R))) (q : R) (fut : bool) (pricing : R -> R) (tol : R -> R) (brentq : (R -> R) -> R -> R -> res R).
  Hypothesis N : is_normal_cdf cdf.
  Hypothesis Hs : 0 < net_spot s0 r divs.
  Hypothesis Hk : 0 < k.
  Hypothesis HT : 0 < T.
  Hypothesis Hd : divs = None \/ q = 0.
  Hypothesis Hpricing : forall v, bsm_option_price cdf ty s0 k r v T divs q fut = Ok (pricing v).
  Hypothesis Hbrent : brentq_contract tol brentq.
  Lemma pricing_increasing v1 v2 : 0 < v1 -> v1 < v2 -> pricing v1 < pricing v2.
  Proof. intros H1 H2. exact (c72_monotone_volatility N Hs Hk H1 H2 HT Hd (Hpricing v1) (Hpricing v2)). Qed.
  Lemma pricing_continuous v c : 0 < v -> continuity_pt (fun v => pricing v - c) v.
  Proof.
    intros Hv. pose proof (sqrt_lt_R0 T HT) as Hq. assert (HA : 0 < net_spot s0 r divs * exp (- carry r q fut * T)) by (apply Rmult_lt_0_compat; auto; apply exp_pos).
    assert (HB : 0 < k * exp (- r * T)) by (apply Rmult_lt_0_compat; auto; apply exp_pos).
    set (A := net_spot s0 r divs * exp (- carry r q fut * T)) in *. set (B := k * exp (- r * T)) in *.
    set (g := fun x => match ty with Call => bs cdf A B x | Put => bs cdf B A x end).
    assert (Hg : forall w, 0 < w -> pricing w = g (w * sqrt T)).
    { intros w Hw. pose proof (Hpricing w) as E. rewrite bsm_as_bs in E by auto. injection E as <-. reflexivity. }
    assert (Hder : exists l, derivable_pt_lim g (v * sqrt T) l).
    { destruct (bs_vol_derivative N) as (c0 & _ & Hder). assert (Hpos : 0 < v * sqrt T) by now apply Rmult_lt_0_compat. unfold g. destruct ty; eexists; apply Hder; auto. }
    destruct Hder as [l Hl].
    assert (Hc : continuity_pt (fun v => g (v * sqrt T) - c) v).
    { apply (continuity_pt_minus (fun v => g (v * sqrt T)) (fun _ => c)); [|apply continuity_pt_const; intros ? ?; reflexivity].
      apply (continuity_pt_comp (fun v => v * sqrt T) g).
      - apply (continuity_pt_mult id (fun _ => sqrt T)); [apply derivable_continuous_pt, derivable_pt_id|apply continuity_pt_const; intros ? ?; reflexivity].
      - apply derivable_continuous_pt. now exists l. }
    intros eps He. destruct (Hc eps He) as (al & Ha & Hx). exists (Rmin al v). split; [apply Rmin_glb_lt; auto|]. intros x [Hx1 Hx2].
    assert (Hxv : 0 < x). { pose proof (Rmin_r al v). cbn in Hx2. unfold R_dist in Hx2. pose proof (Rle_abs (- (x - v))). rewrite Rabs_Ropp in *. lra. }
    rewrite !Hg by auto. apply Hx. split; auto. eapply Rlt_le_trans; [exact Hx2|apply Rmin_l].
  Qed.
  (** an observed price of the model is inverted to within the root finder's tolerance *)
  Theorem c94_recovers_volatility sigma lo hi : 0 < lo -> lo < hi -> lo <= sigma <= hi ->
    implied_volatility brentq pricing (pricing sigma) lo hi = Err RuntimeError \/
    exists x, implied_volatility brentq pricing (pricing sigma) lo hi = Ok x /\ lo <= x <= hi /\ Rabs (x - sigma) <= tol x.
  Proof.
    intros Hlo Hlt [H1 H2]. unfold implied_volatility. destruct (Hbrent (fun v => pricing v - pricing sigma) Hlt) as [_ B].
    destruct B as [B|(x & x' & B & Hx & Hx' & E & Htol)].
    - assert (pricing lo <= pricing sigma) by (destruct H1 as [H1| ->]; [left; now apply pricing_increasing|right; reflexivity]).
      assert (pricing sigma <= pricing hi) by (destruct H2 as [H2|<-]; [left; apply pricing_increasing; lra|right; reflexivity]). nra.
    - intros x Hx. apply pricing_continuous. lra.
    - now left.
    - right. exists x. split; auto. split; auto. replace sigma with x'; auto.
      destruct (Rtotal_order x' sigma) as [L|[L|L]]; auto; apply pricing_increasing in L; lra.
  Qed.
  (** a volatility outside the bracket raises *)
  Theorem c94_outside_bracket_raises sigma lo hi : 0 < lo -> lo < hi -> 0 < sigma -> sigma < lo \/ hi < sigma ->
    implied_volatility brentq pricing (pricing sigma) lo hi = Err ValueError.
  Proof.
    intros Hlo Hlt Hsg Hout. unfold implied_volatility. destruct (Hbrent (fun v => pricing v - pricing sigma) Hlt) as [B _]. apply B.
    pose proof (pricing_increasing Hlo Hlt) as HI. destruct Hout as [H|H]; apply pricing_increasing in H; auto; try lra; nra.
  Qed.
  (** a price no volatility can produce raises: below intrinsic value, or above the asset (call) or the discounted strike (put) *)
  Theorem c94_arbitrage_price_raises observed lo hi : 0 < lo -> lo < hi ->
    let A := net_spot s0 r divs * exp (- carry r q fut * T) in let B := k * exp (- r * T) in
    observed <= match ty with Call => Rmax 0 (A - B) | Put => Rmax 0 (B - A) end \/ match ty with Call => A | Put => B end <= observed ->
    implied_volatility brentq pricing observed lo hi = Err ValueError.
  Proof.
    intros Hlo Hlt A B Hobs. unfold implied_volatility. destruct (Hbrent (fun v => pricing v - observed) Hlt) as [Br _]. apply Br.
    assert (Hb : forall v, 0 < v -> match ty with Call => Rmax 0 (A - B) < pricing v < A | Put => Rmax 0 (B - A) < pricing v < B end).
    { intros v Hv. destruct (@c72_bounds cdf s0 k r v T divs q fut N Hs Hk Hv HT Hd) as (c & p & Ec & Ep & Bc & Bp). pose proof (Hpricing v) as E.
      destruct ty; [rewrite Ec in E|rewrite Ep in E]; injection E as <-; assumption. }
    pose proof (Hb lo Hlo) as B1. pose proof (Hb hi ltac:(lra)) as B2. destruct ty; destruct Hobs; nra.
  Qed.
End ImpliedVol.
Example c94_hypotheses_met : exists cdf pricing brentq, is_normal_cdf cdf /\ brentq_contract (fun _ => / 1000) brentq /\
  (forall v, bsm_option_price cdf Call 100 90 0 v 1 None 0 false = Ok (pricing v)) /\
  exists x, implied_volatility brentq pricing (pricing (2 / 10)) (1 / 100) 1 = Ok x.
Proof.
  destruct normal_cdf_exists as [cdf N]. destruct (@brentq_exists (fun _ => / 1000) ltac:(intros; lra)) as (brentq & Hb & Hok).
  assert (Hp : exists pricing, forall v, bsm_option_price cdf Call 100 90 0 v 1 None 0 false = Ok (pricing v)) by (eexists; intros v; reflexivity).
  destruct Hp as [pricing Hp]. exists cdf, pricing, brentq. split; auto. split; auto. split; auto. apply Hok.
  - assert (I : forall v1 v2, 0 < v1 -> v1 < v2 -> pricing v1 < pricing v2) by (intros v1 v2 H1 H2; apply (@c72_monotone_volatility cdf Call 100 90 0 v1 v2 1 None 0 false); auto; cbn; lra).
    pose proof (I (1 / 100) (2 / 10) ltac:(lra) ltac:(lra)). pose proof (I (2 / 10) 1 ltac:(lra) ltac:(lra)). nra.
  - exists (2 / 10). lra.
Qed.

(** ** C95 Implied asset price: at most one positive asset price explains an option price *)
Theorem c95_asset_price_unique cdf ty k r sigma T divs q fut pricing newton s0 x0 x :
  is_normal_cdf cdf -> 0 < k -> 0 < sigma -> 0 < T -> divs = None \/ q = 0 ->
  (forall s, bsm_option_price cdf ty s k r sigma T divs q fut = Ok (pricing s)) ->
  (forall f y z, newton f y = Ok z -> f z = 0) ->
  0 < net_spot s0 r divs -> implied_asset_price newton pricing (pricing s0) x0 = Ok x -> 0 < net_spot x r divs -> x = s0.
Proof.
  intros N Hk Hg HT Hd Hp Hnewton Hs Hx Hxp. apply Hnewton in Hx.
  assert (M : forall a b, a < b -> 0 < net_spot a r divs -> pricing a <> pricing b).
  { intros a b Hab Ha E. pose proof (sqrt_lt_R0 T HT) as Hq.
    assert (Hok : forall t s, exists y, bsm_option_price cdf t s k r sigma T divs q fut = Ok y).
    { intros t s. unfold bsm_option_price. destruct divs; [|eexists; reflexivity]. destruct Hd as [|Hd]; [discriminate|]. destruct (Req_EM_T q 0); [eexists; reflexivity|contradiction]. }
    destruct (Hok Call a) as [c1 C1], (Hok Call b) as [c2 C2], (Hok Put a) as [p1 P1], (Hok Put b) as [p2 P2].
    destruct (c72_monotone_spot N Ha Hab Hk Hg HT Hd C1 C2 P1 P2) as [I1 I2]. pose proof (Hp a) as Ea. pose proof (Hp b) as Eb.
    destruct ty; [rewrite C1 in Ea; rewrite C2 in Eb|rewrite P1 in Ea; rewrite P2 in Eb]; injection Ea as Ea; injection Eb as Eb; lra. }
  destruct (Rtotal_order x s0) as [L|[L|L]]; auto; exfalso; apply (M _ _ L); auto; lra.
Qed.

(** ** C96 Implied distribution *)
Lemma rlmin_le x l : In x l -> rlmin l <= x.
Proof.
  destruct l as [|y l]; [easy|]. cbn [rlmin]. assert (H : fold_right Rmin y l <= y /\ forall z, In z l -> fold_right Rmin y l <= z).
  { induction l as [|w l [IH1 IH2]]; cbn; [split; [lra|easy]|]. pose proof (Rmin_l w (fold_right Rmin y l)). pose proof (Rmin_r w (fold_right Rmin y l)). split; [lra|].
    intros z [->|Hz]; auto. specialize (IH2 z Hz). lra. }
  intros [->|H']; [exact (proj1 H)|exact (proj2 H _ H')].
Qed.
Lemma rlmax_ge x l : In x l -> x <= rlmax l.
Proof.
  destruct l as [|y l]; [easy|]. cbn [rlmax]. assert (H : y <= fold_right Rmax y l /\ forall z, In z l -> z <= fold_right Rmax y l).
  { induction l as [|w l [IH1 IH2]]; cbn; [split; [lra|easy]|]. pose proof (Rmax_l w (fold_right Rmax y l)). pose proof (Rmax_r w (fold_right Rmax y l)). split; [lra|].
    intros z [->|Hz]; auto. specialize (IH2 z Hz). lra. }
  intros [->|H']; [exact (proj1 H)|exact (proj2 H _ H')].
Qed.
Lemma rlmin_in l : l <> [] -> In (rlmin l) l.
Proof. destruct l as [|y l]; [congruence|]. intros _. cbn [rlmin]. induction l as [|w l IH]; [now left|]. cbn [fold_right]. set (m := fold_right Rmin y l) in *. clearbody m. destruct (Rle_dec w m); [rewrite Rmin_left by assumption; right; now left|rewrite Rmin_right by lra]. destruct IH as [IH|IH]; [left; exact IH|right; now right]. Qed.
Lemma rlmax_in l : l <> [] -> In (rlmax l) l.
Proof. destruct l as [|y l]; [congruence|]. intros _. cbn [rlmax]. induction l as [|w l IH]; [now left|]. cbn [fold_right]. set (m := fold_right Rmax y l) in *. clearbody m. destruct (Rle_dec w m); [rewrite Rmax_right by assumption; destruct IH as [IH|IH]; [left; exact IH|right; now right]|rewrite Rmax_left by lra; right; now left]. Qed.
Lemma linspace_in a b n x : a <= b -> In x (linspace a b n) -> a <= x <= b.
Proof.
  intros Hab. unfold linspace. destruct (n =? 1)%nat eqn:E1. { intros [<-|[]]. lra. } apply Nat.eqb_neq in E1.
  intros H. apply in_map_iff in H. destruct H as (i & <- & Hi). apply in_seq in Hi. assert (Hn : (0 < n - 1)%nat) by lia. pose proof (lt_0_INR _ Hn) as Hn'.
  assert (Hi' : INR i <= INR (n - 1)) by (apply le_INR; lia). pose proof (pos_INR i). assert (0 <= (b - a) / INR (n - 1)) by (apply Rmult_le_pos; [lra|left; now apply Rinv_0_lt_compat]).
  assert (E : INR (n - 1) * ((b - a) / INR (n - 1)) = b - a) by (field; lra). nra.
Qed.
(** every density value kept is non-negative and sits at a price between the smallest and largest strikes *)
Theorem c96_pdf_nonnegative deriv2 strikes t r n k x : In (k, x) (discrete_pdf deriv2 strikes t r n) ->
  0 <= x /\ x = exp (r * t) * deriv2 k /\ exists kmin kmax, In kmin strikes /\ In kmax strikes /\ kmin <= k <= kmax.
Proof.
  unfold discrete_pdf. destruct strikes as [|y l]; [easy|]. intros H. apply filter_In in H. destruct H as [H Hf]. apply in_map_iff in H. destruct H as (k' & [= -> <-] & Hk).
  cbn [snd] in Hf. destruct (Rle_dec 0 _); [|discriminate]. split; auto. split; auto. exists (rlmin (y :: l)), (rlmax (y :: l)). split; [apply rlmin_in; discriminate|]. split; [apply rlmax_in; discriminate|].
  apply linspace_in in Hk; auto. apply Rle_trans with y; [apply rlmin_le; now left|apply rlmax_ge; now left].
Qed.
(** and nothing non-negative on the grid is dropped; the first grid point is the smallest strike and the last the largest *)
Theorem c96_pdf_complete deriv2 strikes t r n i kmin kmax : strikes <> [] -> (1 < n)%nat -> (i < n)%nat ->
  In kmin strikes -> In kmax strikes -> (forall k, In k strikes -> kmin <= k <= kmax) ->
  let k := kmin + INR i * ((kmax - kmin) / INR (n - 1)) in 0 <= deriv2 k ->
  In (k, exp (r * t) * deriv2 k) (discrete_pdf deriv2 strikes t r (Some n)).
Proof.
  intros Hne Hn Hi Hmin Hmax Hall k Hd.
  assert (E1 : rlmin strikes = kmin) by (apply Rle_antisym; [now apply rlmin_le|apply Hall; now apply rlmin_in]).
  assert (E2 : rlmax strikes = kmax) by (apply Rle_antisym; [apply Hall; now apply rlmax_in|now apply rlmax_ge]).
  unfold discrete_pdf. destruct strikes as [|y l] eqn:E; [congruence|]. rewrite <- E in *. rewrite E1, E2. apply filter_In. cbn [snd]. split.
  - apply in_map_iff. exists k. split; auto. unfold linspace. rewrite (proj2 (Nat.eqb_neq n 1)) by lia. apply in_map_iff. exists i. split; [reflexivity|apply in_seq; lia].
  - destruct (Rle_dec 0 _) as [|Hx]; auto. exfalso. apply Hx. apply Rmult_le_pos; auto. left. apply exp_pos.
Qed.
Lemma rsum_div l c : rsum (map (fun e : R * R => snd e / c) l) = rsum (map snd l) / c.
Proof. induction l as [|x l IH]; cbn; [unfold Rdiv; ring|]. cbn in IH. rewrite IH. unfold Rdiv. ring. Qed.
(** the probabilities the price path is sampled with are a distribution over the strikes of the call and put densities *)
Theorem c96_sampling_distribution pc pp l : sampling_probs pc pp = Some l ->
  let all := match pc with Some a => a | None => [] end ++ match pp with Some b => b | None => [] end in
  (forall k x, In (k, x) all -> 0 <= x) -> 0 < rsum (map snd all) ->
  rsum (map snd l) = 1 /\ (forall k x, In (k, x) l -> 0 <= x) /\ map fst l = map fst all.
Proof.
  intros H all Hpos Hsum.
  assert (E : l = map (fun e => (fst e, snd e / rsum (map snd all))) all).
  { unfold sampling_probs in H. subst all. destruct pc as [a|], pp as [b|]; cbn [option_map] in H; try discriminate; injection H as <-; rewrite ?app_nil_r; reflexivity. }
  subst l. rewrite !map_map. cbn [fst snd]. split; [rewrite rsum_div; field; lra|]. split; [|reflexivity].
  intros k x Hx. apply in_map_iff in Hx. destruct Hx as ([k' x'] & [= <- <-] & Hin). cbn [snd]. apply Rmult_le_pos; [eapply Hpos; exact Hin|left; now apply Rinv_0_lt_compat].
Qed.
(** the Black-Scholes return distribution: the t-year log return has t times the mean and variance of one year's, and the annualised return is it divided by t *)
Theorem c96_return_distribution mu sigma t : 0 < t ->
  let '((m, s), (ma, sa)) := bsm_return_distribution mu sigma t in
  m = (mu - sigma * sigma / 2) * t /\ s * s = sigma * sigma * t /\ ma = m / t /\ sa = s / t.
Proof.
  intros Ht. cbn. pose proof (sqrt_lt_R0 t Ht) as Hq. assert (Et : sqrt t * sqrt t = t) by (apply sqrt_sqrt; lra). set (w := sqrt t) in *. clearbody w. subst t.
  split; [reflexivity|]. split; [ring|]. split; field; lra.
Qed.
(** ** The curve the density is read from: for exact Black-Scholes prices the scaled second derivative in the strike is the lognormal risk-neutral density,
    the same for calls and puts and positive everywhere *)
Lemma derivable_pt_lim_local f g x l del : 0 < del -> (forall y, Rabs (y - x) < del -> f y = g y) -> derivable_pt_lim f x l -> derivable_pt_lim g x l.
Proof.
  intros Hdel E H eps He. destruct (H eps He) as [d1 Hd1]. assert (Hm : 0 < Rmin d1 del) by (apply Rmin_glb_lt; auto; apply cond_pos). exists (mkposreal _ Hm). cbn. intros h Hh Hlt.
  pose proof (Rmin_l d1 del). pose proof (Rmin_r d1 del). rewrite <- !E; [apply Hd1; auto; lra| |]; [rewrite Rminus_diag_eq, Rabs_R0 by reflexivity; lra|]. replace (x + h - x) with h by ring. lra.
Qed.
Theorem c96_breeden_litzenberger cdf ty s0 r sigma T q pricing : is_normal_cdf cdf -> 0 < s0 -> 0 < sigma -> 0 < T ->
  (forall k, bsm_option_price cdf ty s0 k r sigma T None q false = Ok (pricing k)) ->
  exists pricing1 pricing2 c, 0 < c /\ (forall x, derivable_pt_lim cdf x (c * bell x)) /\ forall k, 0 < k ->
    derivable_pt_lim pricing k (pricing1 k) /\ derivable_pt_lim pricing1 k (pricing2 k) /\
    exp (r * T) * pricing2 k = c * bell ((ln (s0 / k) + (r - q - sigma * sigma / 2) * T) / (sigma * sqrt T)) / (k * (sigma * sqrt T)) /\
    0 < exp (r * T) * pricing2 k.
Proof.
  intros N Hs Hg HT Hp. pose proof (sqrt_lt_R0 T HT) as Hq. assert (Hv : 0 < sigma * sqrt T) by now apply Rmult_lt_0_compat. destruct (nc_derivative N) as (c & Hc & Hder).
  set (A := s0 * exp (- q * T)). set (e := exp (- r * T)). set (s := sigma * sqrt T) in *. assert (He : 0 < e) by apply exp_pos. assert (HA : 0 < A) by (apply Rmult_lt_0_compat; auto; apply exp_pos).
  set (D2 := fun k => bsD A (k * e) s - s).
  exists (fun k => match ty with Call => - cdf (D2 k) * e | Put => (1 - cdf (D2 k)) * e end), (fun k => c * bell (D2 k) * (/ k * / s) * e), c.
  split; auto. split; auto. intros k Hk. assert (HB : 0 < k * e) by now apply Rmult_lt_0_compat.
  assert (Hpr : forall k, 0 < k -> pricing k = match ty with Call => bs cdf A (k * e) s | Put => bs cdf A (k * e) s - A + k * e end).
  { intros y Hy. pose proof (Hp y) as E. rewrite bsm_as_bs in E by (auto; exact Hs). injection E as E. rewrite <- E. cbn [net_spot carry]. fold A e s.
    destruct ty; auto. pose proof (@bs_parity cdf N A (y * e) s Hv). lra. }
  assert (Hlin : derivable_pt_lim (fun y => y * e) k (1 * e + k * 0)) by (apply (derivable_pt_lim_mult id (fun _ => e)); [apply derivable_pt_lim_id|apply derivable_pt_lim_const]).
  replace (1 * e + k * 0) with e in Hlin by ring.
  assert (Hbs : derivable_pt_lim (fun y => bs cdf A (y * e) s) k (- cdf (D2 k) * e)).
  { exact (derivable_pt_lim_comp (fun y => y * e) (fun B => bs cdf A B s) k e _ Hlin (@bs_strike_derivative cdf N A (k * e) s HA HB Hv)). }
  assert (HD2 : derivable_pt_lim D2 k (- (/ k * / s))).
  { apply (@derivable_pt_lim_local (fun y => (ln A - (ln y + ln e)) * / s + s / 2 - s) D2 k _ k Hk).
    - intros y Hy. assert (0 < y) by (pose proof (Rle_abs (- (y - k))); rewrite Rabs_Ropp in *; lra). unfold D2, bsD. rewrite ln_mult by auto. reflexivity.
    - replace (- (/ k * / s)) with ((0 - (/ k + 0)) * / s + (ln A - (ln k + ln e)) * 0 + 0 - 0) by ring.
      apply (derivable_pt_lim_minus (fun y => (ln A - (ln y + ln e)) * / s + s / 2) (fun _ => s)); [|apply derivable_pt_lim_const].
      apply (derivable_pt_lim_plus (fun y => (ln A - (ln y + ln e)) * / s) (fun _ => s / 2)); [|apply derivable_pt_lim_const].
      apply (derivable_pt_lim_mult (fun y => ln A - (ln y + ln e)) (fun _ => / s)); [|apply derivable_pt_lim_const].
      apply (derivable_pt_lim_minus (fun _ => ln A) (fun y => ln y + ln e)); [apply derivable_pt_lim_const|].
      apply (derivable_pt_lim_plus ln (fun _ => ln e)); [now apply derivable_pt_lim_ln|apply derivable_pt_lim_const]. }
  assert (HF : derivable_pt_lim (fun y => cdf (D2 y)) k (c * bell (D2 k) * - (/ k * / s))) by exact (derivable_pt_lim_comp D2 cdf k _ _ HD2 (Hder _)).
  assert (Hclose : forall y, Rabs (y - k) < k -> 0 < y) by (intros y Hy; pose proof (Rle_abs (- (y - k))); rewrite Rabs_Ropp in *; lra).
  assert (Ee : exp (r * T) * e = 1) by (unfold e; rewrite <- exp_plus; replace (r * T + - r * T) with 0 by ring; apply exp_0).
  split; [|split; [|split]].
  - destruct ty.
    + apply (@derivable_pt_lim_local (fun y => bs cdf A (y * e) s) pricing k _ k Hk); [intros y Hy; symmetry; apply Hpr; auto|exact Hbs].
    + apply (@derivable_pt_lim_local (fun y => bs cdf A (y * e) s - A + y * e) pricing k _ k Hk); [intros y Hy; symmetry; apply Hpr; auto|].
      replace ((1 - cdf (D2 k)) * e) with (- cdf (D2 k) * e - 0 + e) by ring.
      apply (derivable_pt_lim_plus (fun y => bs cdf A (y * e) s - A) (fun y => y * e)); [|exact Hlin]. apply (derivable_pt_lim_minus (fun y => bs cdf A (y * e) s) (fun _ => A)); [exact Hbs|apply derivable_pt_lim_const].
  - destruct ty.
    + replace (c * bell (D2 k) * (/ k * / s) * e) with (- (c * bell (D2 k) * - (/ k * / s)) * e + - cdf (D2 k) * 0) by ring.
      apply (derivable_pt_lim_mult (fun y => - cdf (D2 y)) (fun _ => e)); [|apply derivable_pt_lim_const]. apply (derivable_pt_lim_opp (fun y => cdf (D2 y))). exact HF.
    + replace (c * bell (D2 k) * (/ k * / s) * e) with ((0 - c * bell (D2 k) * - (/ k * / s)) * e + (1 - cdf (D2 k)) * 0) by ring.
      apply (derivable_pt_lim_mult (fun y => 1 - cdf (D2 y)) (fun _ => e)); [|apply derivable_pt_lim_const]. apply (derivable_pt_lim_minus (fun _ => 1) (fun y => cdf (D2 y))); [apply derivable_pt_lim_const|exact HF].
  - replace ((ln (s0 / k) + (r - q - sigma * sigma / 2) * T) / s) with (D2 k).
    + replace (exp (r * T) * (c * bell (D2 k) * (/ k * / s) * e)) with (exp (r * T) * e * (c * bell (D2 k) * (/ k * / s))) by ring. rewrite Ee. field. split; apply Rgt_not_eq; auto.
    + unfold D2. unfold A, e, s. rewrite <- bsm_d1_bs by auto. unfold bsm_d1. assert (ET : T = sqrt T * sqrt T) by (symmetry; apply sqrt_sqrt; lra). set (w := sqrt T) in *. clearbody w. rewrite ET. field. lra.
  - replace (exp (r * T) * (c * bell (D2 k) * (/ k * / s) * e)) with (exp (r * T) * e * (c * bell (D2 k) * (/ k * / s))) by ring. rewrite Ee, Rmult_1_l.
    pose proof (bell_pos (D2 k)). repeat apply Rmult_lt_0_compat; auto; now apply Rinv_0_lt_compat.
Qed.
Example c96_ex : discrete_pdf (fun _ => 1) [3; 1] 0 0 (Some 2%nat) = [(1, 1); (3, 1)].
Proof.
  unfold discrete_pdf, linspace. cbn [rlmin rlmax fold_right Nat.eqb seq map Nat.sub INR].
  rewrite Rmin_left, Rmax_right by lra. rewrite !Rmult_0_l, exp_0, !Rmult_1_l. cbn [filter snd]. destruct (Rle_dec 0 1); [|lra]. rewrite Rplus_0_r. replace (1 + (3 - 1) / 1) with 3 by field. reflexivity.
Qed.
Print Assumptions c72_put_call_parity.
Print Assumptions c72_bounds.
Print Assumptions c72_monotone_spot.
Print Assumptions c72_monotone_strike.
Print Assumptions c72_monotone_volatility.
Print Assumptions c72_value.
Print Assumptions c73_european_is_binomial_expectation.
Print Assumptions c73_put_call_parity.
Print Assumptions c73_american_dominates.
Print Assumptions c73_american_call_is_european.
Print Assumptions c73_upper_bounds.
Print Assumptions c74_parity_quotes_recover_rate.
Print Assumptions c74_recovers_bsm_rate.
Print Assumptions c94_recovers_volatility.
Print Assumptions c94_outside_bracket_raises.
Print Assumptions c94_arbitrage_price_raises.
Print Assumptions c95_asset_price_unique.
Print Assumptions c96_pdf_nonnegative.
Print Assumptions c96_sampling_distribution.
Print Assumptions c96_breeden_litzenberger.
