(** Properties C40-C43: Sharpe ratios and strategy risk. *)
From Verif Require Import Py RNum SharpeModel SharpeSpec SharpeProofs.
Set Implicit Arguments.
Unset Strict Implicit.
Open Scope R_scope.

(** C40 *)
Lemma not_constant_scale c l : c <> 0 -> not_constant l -> not_constant (map (fun x => c * x) l).
Proof.
  intros H [x [y [Hx [Hy N]]]]. exists (c * x), (c * y). repeat split; try (apply in_map_iff; eauto; fail). intro E. apply N. now apply Rmult_eq_reg_l in E.
Qed.
Theorem c40_sharpe_defined : forall l, (exists s, sharpe_ratio l = Some s) <-> not_constant l.
Proof.
  intro l. split.
  - intros [s H]. unfold sharpe_ratio in H. destruct (Req_EM_T (np_std l) 0) as [E|E]; [discriminate|]. apply var_pos_iff.
    destruct (moment2_nonneg l) as [C|C]; auto. exfalso. apply E. now apply std_zero.
  - intro H. destruct (sharpe_defined H) as [E _]. eauto.
Qed.
Print Assumptions c40_sharpe_defined.
Theorem c40_scale : forall c l, 0 < c -> sharpe_ratio (map (fun x => c * x) l) = sharpe_ratio l.
Proof.
  intros c l H. unfold sharpe_ratio. rewrite np_std_scale, rmean_scale, Rabs_pos_eq by lra.
  destruct (Req_EM_T (np_std l) 0) as [E|E]; destruct (Req_EM_T (c * np_std l) 0) as [E'|E']; auto.
  - exfalso. apply E'. rewrite E. ring.
  - exfalso. apply Rmult_integral in E'. destruct E'; auto; lra.
  - f_equal. field. split; auto. lra.
Qed.
Print Assumptions c40_scale.
Theorem c40_negation : forall l, sharpe_ratio (map Ropp l) = option_map Ropp (sharpe_ratio l).
Proof.
  intros l. assert (E1 : map Ropp l = map (fun x => -1 * x) l) by (apply map_ext; intro; ring). rewrite E1. unfold sharpe_ratio.
  rewrite np_std_scale, rmean_scale. replace (Rabs (-1)) with 1 by (unfold Rabs; destruct (Rcase_abs (-1)); lra). rewrite Rmult_1_l.
  destruct (Req_EM_T (np_std l) 0); auto. cbn. f_equal. field. auto.
Qed.
Print Assumptions c40_negation.
(** in closed form: the mean over the root of the mean squared deviation *)
Theorem c40_value : forall l s, sharpe_ratio l = Some s ->
  s * sqrt (rsum (map (fun x => (x - rsum l / INR (length l)) ^ 2) l) / INR (length l)) = rsum l / INR (length l).
Proof.
  intros l s H. unfold sharpe_ratio in H. destruct (Req_EM_T (np_std l) 0) as [E|E]; [discriminate|]. inversion H; subst s.
  unfold np_std, np_var, moment, rmean in *. rewrite map_length in *. field_simplify_eq; auto. split; auto.
  intro C. apply E. rewrite C. unfold Rdiv. rewrite Rinv_0, Rmult_0_r. apply sqrt_0.
Qed.
Print Assumptions c40_value.
Theorem c40_annualized : forall s n m, 0 <= n -> 0 <= m ->
  annualized_sharpe_ratio s n = s * sqrt n /\ annualized_sharpe_ratio (annualized_sharpe_ratio s n) m = annualized_sharpe_ratio s (n * m).
Proof. intros. unfold annualized_sharpe_ratio. split; auto. rewrite sqrt_mult; auto. ring. Qed.
Print Assumptions c40_annualized.
Theorem c40_information_ratio : forall rs bs, information_ratio rs bs = sharpe_ratio (map (fun p => fst p - snd p) (combine rs bs)).
Proof. reflexivity. Qed.
Print Assumptions c40_information_ratio.
(** along an axis: one Sharpe ratio per column (row), that of the column (row) alone *)
Theorem c40_axis : forall n m, length (sharpe_axis0 n m) = n /\ length (sharpe_axis1 m) = length m /\
  (forall j, (j < n)%nat -> nth_error (sharpe_axis0 n m) j = Some (sharpe_ratio (map (fun row => nth j row 0) m))) /\
  (forall i row, nth_error m i = Some row -> nth_error (sharpe_axis1 m) i = Some (sharpe_ratio row)).
Proof.
  intros n m. unfold sharpe_axis0, sharpe_axis1, columns. rewrite !map_length, seq_length. repeat split; auto.
  - intros j H. rewrite map_map, nth_error_map. assert (E : nth_error (seq 0 n) j = Some j).
    { rewrite nth_error_nth' with (d := 0%nat) by now rewrite seq_length. now rewrite seq_nth. }
    now rewrite E.
  - intros i row H. now rewrite nth_error_map, H.
Qed.
Print Assumptions c40_axis.
Example c40_ex : not_constant [1; 3] /\ sharpe_ratio [1; 3] = Some 2.
Proof.
  assert (N : not_constant [1; 3]) by (exists 1, 3; cbn; repeat split; auto; lra). split; auto. destruct (sharpe_defined N) as [-> _].
  unfold np_std, np_var, moment, rmean. cbn. f_equal. match goal with |- context [sqrt ?x] => replace x with 1 by lra end. rewrite sqrt_1. lra.
Qed.

(** C41 *)
Theorem c41_psr_refuted : forall cdf benchmark, not_constant [1; 3] /\ psr cdf benchmark [1; 3] = None.
Proof.
  intros. destruct c40_ex as [N E]. split; auto. unfold psr, psr_with. rewrite E.
  assert (K : kurtosis [1; 3] = -2) by (unfold kurtosis, moment, rmean; cbn; field).
  assert (S : skew [1; 3] = 0) by (unfold skew, moment, rmean; cbn; unfold Rdiv; apply Rmult_eq_0_compat_r; field).
  rewrite K, S. unfold psr_radicand. destruct (Rlt_dec _ 0) as [_|C]; auto. exfalso. apply C. lra.
Qed.
Print Assumptions c41_psr_refuted.
Lemma numer_mono sr b b' n : b < b' -> 1 < n -> (sr - b') * sqrt (n - 1) < (sr - b) * sqrt (n - 1).
Proof. intros. apply Rmult_lt_compat_r; [apply sqrt_lt_R0; lra|lra]. Qed.
Lemma not_constant_length l : not_constant l -> 1 < INR (length l).
Proof.
  intros [x [y [Hx [Hy N]]]]. destruct l as [|a [|b l]]; [contradiction| |].
  - destruct Hx as [<-|[]]. destruct Hy as [<-|[]]. congruence.
  - change 1 with (INR 1). apply lt_INR. cbn. lia.
Qed.
(** What holds: with a positive radicand it is a probability, strictly decreasing in the benchmark and one half (the cdf
    at 0) at the observed ratio. *)
Theorem c41_psr_under_guard : forall cdf l s, is_cdf cdf -> sharpe_ratio l = Some s ->
  0 < 1 - skew l * s + (kurtosis l - 1) / 4 * s ^ 2 ->
  (forall b, exists p, psr cdf b l = Some p /\ 0 < p < 1) /\
  psr cdf s l = Some (cdf 0) /\
  (forall b b' p p', b < b' -> psr cdf b l = Some p -> psr cdf b' l = Some p' -> p' < p).
Proof.
  intros cdf l s [C1 C2] HS HR. fold (psr_radicand (skew l) (kurtosis l) s) in HR. unfold psr, psr_with. rewrite HS.
  set (r := psr_radicand _ _ _) in *. clearbody r. destruct (Rlt_dec r 0); [lra|]. destruct (Req_EM_T r 0); [lra|].
  split; [|split].
  - intro b. eexists. split; [reflexivity|apply C1].
  - do 2 f_equal. unfold Rdiv. ring.
  - intros b b' p p' L [= <-] [= <-]. apply C2. unfold Rdiv. apply Rmult_lt_compat_r; [apply Rinv_0_lt_compat; now apply sqrt_lt_R0|].
    apply numer_mono; auto. apply not_constant_length. apply c40_sharpe_defined. eauto.
Qed.
Print Assumptions c41_psr_under_guard.
(** A sufficient condition, from Pearson's inequality: for symmetric returns it says |S| < 2/sqrt 3. *)
Theorem c41_sufficient : forall l s, sharpe_ratio l = Some s -> 3 * s ^ 2 < (2 - skew l * s) ^ 2 ->
  0 < 1 - skew l * s + (kurtosis l - 1) / 4 * s ^ 2.
Proof.
  intros l s HS H. assert (V : 0 < moment 2 l) by (apply var_pos_iff, c40_sharpe_defined; eauto). pose proof (pearson V) as P.
  fold (skew l) in P. unfold kurtosis. set (k := moment 4 l / moment 2 l ^ 2) in *. set (sk := skew l) in *. clearbody k sk.
  assert (0 <= s ^ 2) by apply pow2_ge_0. assert ((sk ^ 2 - 3) * s ^ 2 <= (k - 4) * s ^ 2) by (apply Rmult_le_compat_r; lra). nra.
Qed.
Print Assumptions c41_sufficient.
(** With the raw kurtosis, as in the published formula, the radicand is never negative. *)
Theorem c41_raw_kurtosis : forall l s, sharpe_ratio l = Some s -> 0 <= 1 - skew l * s + ((kurtosis l + 3) - 1) / 4 * s ^ 2.
Proof.
  intros l s HS. assert (V : 0 < moment 2 l) by (apply var_pos_iff, c40_sharpe_defined; eauto). pose proof (pearson V) as P.
  fold (skew l) in P. unfold kurtosis. set (k := moment 4 l / moment 2 l ^ 2) in *. set (sk := skew l) in *. clearbody k sk.
  assert (0 <= s ^ 2) by apply pow2_ge_0. assert (sk ^ 2 * s ^ 2 <= (k - 1) * s ^ 2) by (apply Rmult_le_compat_r; lra).
  assert (0 <= (1 - sk * s / 2) ^ 2) by apply pow2_ge_0. nra.
Qed.
Print Assumptions c41_raw_kurtosis.
(** and it is never anything but a probability where it is defined *)
Theorem c41_range : forall cdf l b p, is_cdf cdf -> psr cdf b l = Some p -> 0 <= p <= 1.
Proof.
  intros cdf l b p [C1 _] H. unfold psr, psr_with in H. destruct (sharpe_ratio l); [|discriminate].
  repeat match type of H with context [if ?d then _ else _] => destruct d end; try discriminate; inversion H; subst; try lra.
  match goal with |- context [cdf ?x] => specialize (C1 x) end. lra.
Qed.
Print Assumptions c41_range.
Example c41_ex : sharpe_ratio [-1; 1; 2; -2] = Some 0 /\ 3 * 0 ^ 2 < (2 - skew [-1; 1; 2; -2] * 0) ^ 2.
Proof.
  split; [|lra]. assert (N : not_constant [-1; 1; 2; -2]) by (exists 1, 2; cbn; repeat split; auto; lra).
  destruct (sharpe_defined N) as [-> _]. f_equal. unfold rmean at 1. cbn. lra.
Qed.

(** C42 *)
Theorem c42_axis1 : forall cdf b n m, (forall row, In row m -> length row = n) -> psr_axis1 cdf b n m = map (psr cdf b) m.
Proof. intros cdf b n m H. unfold psr_axis1, psr. apply map_ext_in. intros row Hr. now rewrite (H row Hr). Qed.
Print Assumptions c42_axis1.
Theorem c42_axis0_under_guard : forall cdf b m, psr_axis0 cdf b 1 m = map (psr cdf b) (columns 1 m).
Proof.
  intros. unfold psr_axis0, psr. apply map_ext_in. intros c Hc. unfold columns in Hc. apply in_map_iff in Hc. destruct Hc as [j [<- _]].
  unfold column. rewrite map_length. now rewrite Nat.mul_1_r.
Qed.
Print Assumptions c42_axis0_under_guard.
Lemma ex01 : sharpe_ratio [0; 1; 0; 1] = Some 1 /\ 0 < psr_radicand (skew [0; 1; 0; 1]) (kurtosis [0; 1; 0; 1]) 1.
Proof.
  assert (N : not_constant [0; 1; 0; 1]) by (exists 0, 1; cbn; repeat split; auto; lra). destruct (sharpe_defined N) as [-> _].
  assert (M : np_std [0; 1; 0; 1] = / 2).
  { unfold np_std, np_var, moment, rmean. cbn. match goal with |- sqrt ?x = _ => replace x with (/ 2 * / 2) by lra end. apply sqrt_square. lra. }
  split.
  - f_equal. rewrite M. unfold rmean. cbn. lra.
  - assert (K : kurtosis [0; 1; 0; 1] = -2) by (unfold kurtosis, moment, rmean; cbn; field).
    assert (S : skew [0; 1; 0; 1] = 0) by (unfold skew, moment, rmean; cbn; unfold Rdiv; apply Rmult_eq_0_compat_r; field).
    rewrite K, S. unfold psr_radicand. lra.
Qed.
(** [axis=0] counts all entries of the matrix as observations. *)
Theorem c42_axis0_refuted : forall cdf, is_cdf cdf ->
  let m := [[0; 0]; [1; 1]; [0; 0]; [1; 1]] in nth_error (psr_axis0 cdf 0 2 m) 0 <> Some (psr cdf 0 (column 0 m)).
Proof.
  intros cdf [_ C2] m. unfold psr_axis0, columns. cbn [seq map nth_error]. change (column 0 m) with [0; 1; 0; 1]. change (length m * 2)%nat with 8%nat.
  unfold psr, psr_with. destruct ex01 as [-> R]. set (r := psr_radicand _ _ _) in *. clearbody r. destruct (Rlt_dec r 0); [lra|]. destruct (Req_EM_T r 0); [lra|].
  intro H. inversion H as [H']. clear H. assert (L : (1 - 0) * sqrt (INR (length [0; 1; 0; 1]) - 1) / sqrt r < (1 - 0) * sqrt (INR 8 - 1) / sqrt r).
  { unfold Rdiv. apply Rmult_lt_compat_r; [apply Rinv_0_lt_compat; now apply sqrt_lt_R0|]. rewrite !Rminus_0_r, !Rmult_1_l. apply sqrt_lt_1; cbn; lra. }
  apply C2 in L. cbn in *. lra.
Qed.
Print Assumptions c42_axis0_refuted.
(** The error always overstates the confidence: away from one half. *)
Theorem c42_axis0_overconfident : forall cdf b n m j s p p', is_cdf cdf -> (j < n)%nat ->
  sharpe_ratio (column j m) = Some s -> 0 < 1 - skew (column j m) * s + (kurtosis (column j m) - 1) / 4 * s ^ 2 ->
  nth_error (psr_axis0 cdf b n m) j = Some (Some p) -> psr cdf b (column j m) = Some p' ->
  (b <= s -> p' <= p) /\ (s <= b -> p <= p').
Proof.
  intros cdf b n m j s p p' [_ C2] Hj HS HR H H'.
  assert (E : nth_error (psr_axis0 cdf b n m) j = Some (psr_with cdf (length m * n) b (column j m))).
  { unfold psr_axis0, columns. rewrite map_map, nth_error_map. replace (nth_error (seq 0 n) j) with (Some j); auto.
    rewrite nth_error_nth' with (d := 0%nat) by now rewrite seq_length. now rewrite seq_nth. }
  rewrite E in H. inversion H as [H1]. clear H E. unfold psr in H'. unfold psr_with in *. rewrite HS in *.
  fold (psr_radicand (skew (column j m)) (kurtosis (column j m)) s) in HR. set (r := psr_radicand _ _ _) in *. clearbody r.
  destruct (Rlt_dec r 0); [lra|]. destruct (Req_EM_T r 0); [lra|]. inversion H1; inversion H'; subst.
  assert (M : forall x y, x <= y -> cdf x <= cdf y) by (intros x y [L|L]; [left; now apply C2|subst; lra]).
  assert (L : length (column j m) = length m) by (unfold column; apply map_length). rewrite L.
  assert (I : 0 < / sqrt r) by (apply Rinv_0_lt_compat; apply sqrt_lt_R0; lra).
  assert (Q : sqrt (INR (length m) - 1) <= sqrt (INR (length m * n) - 1)).
  { apply sqrt_le_1_alt. assert (INR (length m) <= INR (length m * n)) by (apply le_INR; nia). lra. }
  split; intro B; apply M; unfold Rdiv; apply Rmult_le_compat_r; try lra; nra.
Qed.
Print Assumptions c42_axis0_overconfident.

(** C43 *)
Section Precision.
Variables t f u v : R.   (* target, frequency, profit, -loss *)
Hypothesis Ht : 0 <= t.
Hypothesis Hf : 0 < f.
Hypothesis Hu : 0 < u.
Hypothesis Hv : 0 < v.
Let w := u - - v.
Let a := (f + t ^ 2) * w ^ 2.
Let b := (2 * f * - v - t ^ 2 * w) * w.
Let c := f * (- v) ^ 2.
Let D := b ^ 2 - 4 * a * c.
Lemma disc : D = w ^ 2 * t ^ 2 * (4 * f * v * u + t ^ 2 * w ^ 2).
Proof. unfold D, a, b, c, w. ring. Qed.
Lemma w_pos : 0 < w.
Proof. unfold w. lra. Qed.
Lemma disc_nonneg : 0 <= D.
Proof.
  rewrite disc. pose proof w_pos. apply Rmult_le_pos; [apply Rmult_le_pos; apply pow2_ge_0|]. assert (0 < f * v * u) by (repeat apply Rmult_lt_0_compat; auto).
  assert (0 <= t ^ 2 * w ^ 2) by (apply Rmult_le_pos; apply pow2_ge_0). lra.
Qed.
Lemma a_pos : 0 < a.
Proof. unfold a. pose proof w_pos. apply Rmult_lt_0_compat; [pose proof (pow2_ge_0 t); lra|now apply pow_lt]. Qed.
Let p := (- b + sqrt D) / (2 * a).
Lemma root : a * p ^ 2 + b * p + c = 0.
Proof.
  pose proof a_pos as A. assert (S : sqrt D ^ 2 = D) by (rewrite <- Rsqr_pow2; apply Rsqr_sqrt, disc_nonneg).
  apply Rmult_eq_reg_l with (4 * a); [|lra]. rewrite Rmult_0_r.
  replace (4 * a * (a * p ^ 2 + b * p + c)) with ((2 * a * p + b) ^ 2 - D) by (unfold D; ring).
  replace (2 * a * p + b) with (sqrt D) by (unfold p; field; lra). rewrite S. ring.
Qed.
Lemma root_right : 0 <= 2 * a * p + b.
Proof. pose proof a_pos as A. replace (2 * a * p + b) with (sqrt D) by (unfold p; field; lra). apply sqrt_pos. Qed.
(** the value of the quadratic is f edge^2 - t^2 w^2 x (1 - x) *)
Lemma quad x : a * x ^ 2 + b * x + c = f * (w * x + - v) ^ 2 - t ^ 2 * w ^ 2 * (x * (1 - x)).
Proof. unfold a, b, c. ring. Qed.
Lemma above x : a * x ^ 2 + b * x + c <= 0 -> x <= p.
Proof.
  intro H. pose proof a_pos as A. pose proof root as Rt. pose proof root_right as Rr. destruct (Rle_lt_dec x p) as [|C]; auto. exfalso.
  assert (a * x ^ 2 + b * x + c = (x - p) * (a * (x - p) + (2 * a * p + b)) + (a * p ^ 2 + b * p + c)) by ring.
  assert (0 < (x - p) * (a * (x - p) + (2 * a * p + b))).
  { apply Rmult_lt_0_compat; [lra|]. assert (0 < a * (x - p)) by (apply Rmult_lt_0_compat; lra). lra. }
  lra.
Qed.
Lemma below x : 0 < a * x ^ 2 + b * x + c -> v / w <= x -> p < x.
Proof.
  intros H Hx. pose proof a_pos as A. pose proof root as Rt. pose proof root_right as Rr. destruct (Rle_lt_dec x p) as [C|]; auto. exfalso.
  (* v/w <= x <= p, quadratic <= 0 at both ends, convex *)
  assert (W := w_pos). assert (E0 : a * (v / w) ^ 2 + b * (v / w) + c <= 0).
  { rewrite quad. replace (w * (v / w) + - v) with 0 by (field; lra). assert (0 <= t ^ 2 * w ^ 2 * (v / w * (1 - v / w))).
    { apply Rmult_le_pos; [apply Rmult_le_pos; apply pow2_ge_0|]. assert (0 < v / w) by (apply Rdiv_lt_0_compat; auto).
      assert (v / w < 1) by (apply Rmult_lt_reg_r with w; auto; replace (v / w * w) with v by (field; lra); unfold w; lra). apply Rmult_le_pos; lra. }
    nra. }
  set (x0 := v / w) in *. clearbody x0.
  assert (Q : (a * x ^ 2 + b * x + c) * (p - x0) = (a * x0 ^ 2 + b * x0 + c) * (p - x) + (a * p ^ 2 + b * p + c) * (x - x0) - a * (x - x0) * (p - x) * (p - x0)) by ring.
  rewrite Rt in Q. destruct (Req_dec p x0) as [E|E]; [assert (x = p) by lra; subst x; lra|].
  assert (0 < (a * x ^ 2 + b * x + c) * (p - x0)) by (apply Rmult_lt_0_compat; lra).
  assert (0 <= a * (x - x0) * (p - x) * (p - x0)) by (apply Rmult_le_pos; [apply Rmult_le_pos; [apply Rmult_le_pos; lra|lra]|lra]).
  assert ((a * x0 ^ 2 + b * x0 + c) * (p - x) <= 0) by nra. lra.
Qed.
Lemma p_range : v / w <= p < 1 /\ 0 < v / w /\ 0 <= w * p + - v.
Proof.
  assert (W := w_pos). assert (V0 : 0 < v / w) by (apply Rdiv_lt_0_compat; auto).
  assert (V1 : v / w < 1) by (apply Rmult_lt_reg_r with w; auto; replace (v / w * w) with v by (field; lra); unfold w; lra).
  assert (B1 : v / w <= p).
  { apply above. rewrite quad. replace (w * (v / w) + - v) with 0 by (field; lra). assert (0 <= t ^ 2 * w ^ 2 * (v / w * (1 - v / w))).
    { apply Rmult_le_pos; [apply Rmult_le_pos; apply pow2_ge_0|apply Rmult_le_pos; lra]. }
    nra. }
  split; [split; auto|split; auto].
  - apply below; [|lra]. rewrite quad. replace (w * 1 + - v) with u by (unfold w; ring). assert (0 < f * u ^ 2) by (apply Rmult_lt_0_compat; auto; now apply pow_lt). lra.
  - assert (w * (v / w) <= w * p) by (apply Rmult_le_compat_l; lra). replace (w * (v / w)) with v in H by (field; lra). lra.
Qed.
Lemma sharpe_at_precision : strategy_sharpe_ratio p f u (- v) = Some t.
Proof.
  destruct p_range as [[P1 P2] [P3 P4]]. assert (W := w_pos). assert (PP : 0 < p * (1 - p)) by (apply Rmult_lt_0_compat; lra).
  unfold strategy_sharpe_ratio. destruct (Rlt_dec 0 (p * (1 - p))); [|lra]. destruct (Req_EM_T u (- v)); [lra|]. destruct (Rle_dec 0 f); [|lra].
  f_equal. fold w. assert (SP : 0 < sqrt (p * (1 - p))) by now apply sqrt_lt_R0. assert (Rt := root). rewrite quad in Rt.
  apply Rmult_eq_reg_r with (w * sqrt (p * (1 - p))); [|apply Rgt_not_eq; now apply Rmult_lt_0_compat].
  replace ((w * p + - v) / (w * sqrt (p * (1 - p))) * sqrt f * (w * sqrt (p * (1 - p)))) with ((w * p + - v) * sqrt f) by (field; split; lra).
  apply Rsqr_inj.
  - apply Rmult_le_pos; auto. apply sqrt_pos.
  - apply Rmult_le_pos; auto. apply Rmult_le_pos; lra.
  - rewrite !Rsqr_mult, !Rsqr_sqrt by lra. rewrite !Rsqr_pow2. lra.
Qed.
Lemma precision_unique x : 0 < x < 1 -> strategy_sharpe_ratio x f u (- v) = Some t -> x = p.
Proof.
  intros Hx H. assert (W := w_pos). assert (PP : 0 < x * (1 - x)) by (apply Rmult_lt_0_compat; lra). assert (A := a_pos).
  unfold strategy_sharpe_ratio in H. destruct (Rlt_dec 0 (x * (1 - x))); [|lra]. destruct (Req_EM_T u (- v)); [lra|]. destruct (Rle_dec 0 f); [|lra].
  inversion H as [E]. clear H. fold w in E. assert (SP : 0 < sqrt (x * (1 - x))) by now apply sqrt_lt_R0. assert (SF : 0 < sqrt f) by now apply sqrt_lt_R0.
  assert (E1 : (w * x + - v) * sqrt f = t * (w * sqrt (x * (1 - x)))) by (rewrite <- E; field; split; lra).
  assert (ED : 0 <= w * x + - v).
  { apply Rmult_le_reg_r with (sqrt f); auto. rewrite E1, Rmult_0_l. repeat apply Rmult_le_pos; lra. }
  assert (Q : a * x ^ 2 + b * x + c = 0).
  { rewrite quad. assert (E2 : ((w * x + - v) * sqrt f)² = (t * (w * sqrt (x * (1 - x))))²) by now rewrite E1.
    rewrite !Rsqr_mult, !Rsqr_sqrt in E2 by lra. rewrite !Rsqr_pow2 in E2. lra. }
  assert (L : x <= p) by (apply above; lra). destruct L as [L|L]; auto. exfalso.
  pose proof root as Rt. pose proof root_right as Rr.
  destruct p_range as [[P1 P2] [P3 P4]].
  (* both roots: 0 = a (p - x)^2 - (2 a p + b)(p - x) *)
  assert (F : a * (p - x) = 2 * a * p + b).
  { apply Rmult_eq_reg_r with (p - x); [|lra]. assert ((2 * a * p + b) * (p - x) - a * (p - x) * (p - x) = (a * p ^ 2 + b * p + c) - (a * x ^ 2 + b * x + c)) by ring. lra. }
  (* so the other root is below v/w, unless t = 0 *)
  assert (S : a * (x + p) = - b) by lra.
  assert (E0 : (a * (v / w) ^ 2 + b * (v / w) + c) = a * (v / w - x) * (v / w - p)).
  { assert (b = - a * (x + p)) by lra. assert (c = - (a * x ^ 2 + b * x)) by lra. rewrite H0, H. ring. }
  assert (E3 : a * (v / w) ^ 2 + b * (v / w) + c = - (t ^ 2 * w ^ 2 * (v / w * (1 - v / w)))) by (rewrite quad; replace (w * (v / w) + - v) with 0 by (field; lra); ring).
  assert (V1 : v / w < 1) by lra.
  assert (XV : v / w <= x). { apply Rmult_le_reg_l with w; auto. replace (w * (v / w)) with v by (field; lra). lra. }
  assert (T0 : t ^ 2 * w ^ 2 * (v / w * (1 - v / w)) <= 0).
  { assert (0 <= a * ((x - v / w) * (p - v / w))) by (apply Rmult_le_pos; [lra|apply Rmult_le_pos; lra]). replace (a * (v / w - x) * (v / w - p)) with (a * ((x - v / w) * (p - v / w))) in E0 by ring. lra. }
  assert (TZ : t = 0).
  { destruct Ht as [T|T]; auto. exfalso. assert (0 < t ^ 2 * w ^ 2 * (v / w * (1 - v / w))) by (apply Rmult_lt_0_compat; [apply Rmult_lt_0_compat; now apply pow_lt|apply Rmult_lt_0_compat; lra]). lra. }
  assert (D0 : D = 0) by (rewrite disc, TZ; ring). assert (2 * a * p + b = 0) by (replace (2 * a * p + b) with (sqrt D) by (unfold p; field; lra); rewrite D0; apply sqrt_0).
  assert (0 < a * (p - x)) by (apply Rmult_lt_0_compat; lra). lra.
Qed.
End Precision.

Theorem c43_required_precision : forall target freq profit loss, 0 <= target -> 0 < freq -> loss < 0 < profit ->
  exists p, strategy_required_precision target freq profit loss = Some p /\ 0 < p < 1 /\
    strategy_sharpe_ratio p freq profit loss = Some target /\ 0 <= (profit - loss) * p + loss.
Proof.
  intros t f u l Ht Hf [Hl Hu]. assert (Hv : 0 < - l) by lra. replace l with (- - l) by ring. set (v := - l) in *. clearbody v.
  eexists. split; [|split; [|split]].
  - unfold strategy_required_precision. destruct (Req_EM_T _ 0) as [E|E]; [pose proof (@a_pos t f u v Hf Hu Hv); lra|].
    destruct (Rle_dec 0 _) as [E'|E']; [reflexivity|]. pose proof (@disc_nonneg t f u v Hf Hu Hv). lra.
  - destruct (@p_range t f u v Hf Hu Hv) as [[P1 P2] [P3 P4]]. split; auto. lra.
  - now apply sharpe_at_precision.
  - now apply p_range.
Qed.
Print Assumptions c43_required_precision.
(** it is the only precision with that Sharpe ratio *)
Theorem c43_precision_unique : forall target freq profit loss p, 0 <= target -> 0 < freq -> loss < 0 < profit -> 0 < p < 1 ->
  strategy_sharpe_ratio p freq profit loss = Some target -> strategy_required_precision target freq profit loss = Some p.
Proof.
  intros t f u l p Ht Hf [Hl Hu] Hp H. assert (EV : exists v, l = - v /\ 0 < v) by (exists (- l); lra). destruct EV as [v [-> Hv]].
  pose proof (precision_unique Ht Hf Hu Hv Hp H) as E. rewrite E. unfold strategy_required_precision.
  destruct (Req_EM_T _ 0) as [E1|E1]; [pose proof (@a_pos t f u v Hf Hu Hv); lra|].
  destruct (Rle_dec 0 _) as [E'|E']; [reflexivity|]. pose proof (@disc_nonneg t f u v Hf Hu Hv). lra.
Qed.
Print Assumptions c43_precision_unique.
(** a higher target needs a higher precision *)
Theorem c43_precision_monotone : forall t t' freq profit loss p p', 0 <= t < t' -> 0 < freq -> loss < 0 < profit ->
  strategy_required_precision t freq profit loss = Some p -> strategy_required_precision t' freq profit loss = Some p' -> p < p'.
Proof.
  intros t t' f u l p p' [Ht Htt] Hf HL H H'.
  destruct (@c43_required_precision t f u l Ht Hf HL) as [q [Q1 [Q2 [Q3 Q4]]]]. rewrite H in Q1. inversion Q1; subst q.
  destruct (@c43_required_precision t' f u l (Rle_trans _ _ _ Ht (Rlt_le _ _ Htt)) Hf HL) as [q' [R1 [R2 [R3 R4]]]]. rewrite H' in R1. inversion R1; subst q'. clear Q1 R1.
  destruct HL as [Hl Hu]. assert (EV : exists v, l = - v /\ 0 < v) by (exists (- l); lra). destruct EV as [v [-> Hv]].
  assert (T' : 0 < t') by lra. assert (Ht' : 0 <= t') by lra.
  assert (EP : p' = (- ((2 * f * - v - t' ^ 2 * (u - - v)) * (u - - v)) + sqrt (((2 * f * - v - t' ^ 2 * (u - - v)) * (u - - v)) ^ 2 - 4 * ((f + t' ^ 2) * (u - - v) ^ 2) * (f * (- v) ^ 2))) / (2 * ((f + t' ^ 2) * (u - - v) ^ 2))).
  { apply (precision_unique Ht' Hf Hu Hv R2 R3). }
  assert (P0 : 0 < p * (1 - p)) by (apply Rmult_lt_0_compat; lra). assert (W : 0 < u - - v) by lra.
  assert (N : (f + t' ^ 2) * (u - - v) ^ 2 * p ^ 2 + (2 * f * - v - t' ^ 2 * (u - - v)) * (u - - v) * p + f * (- v) ^ 2 < 0).
  { rewrite quad. unfold strategy_sharpe_ratio in Q3. destruct (Rlt_dec 0 (p * (1 - p))); [|lra]. destruct (Req_EM_T u (- v)); [lra|]. destruct (Rle_dec 0 f); [|lra].
    inversion Q3 as [E]. assert (SP : 0 < sqrt (p * (1 - p))) by now apply sqrt_lt_R0. assert (SF : 0 < sqrt f) by now apply sqrt_lt_R0. set (w := u - - v) in *.
    assert (E1 : (w * p + - v) * sqrt f = t * (w * sqrt (p * (1 - p)))) by (rewrite <- E; field; split; lra).
    assert (E2 : ((w * p + - v) * sqrt f)² = (t * (w * sqrt (p * (1 - p))))²) by now rewrite E1.
    rewrite !Rsqr_mult, !Rsqr_sqrt in E2 by lra. rewrite !Rsqr_pow2 in E2.
    assert (t ^ 2 < t' ^ 2) by nra. assert (0 < w ^ 2 * (p * (1 - p))) by (apply Rmult_lt_0_compat; auto; now apply pow_lt).
    assert (t ^ 2 * (w ^ 2 * (p * (1 - p))) < t' ^ 2 * (w ^ 2 * (p * (1 - p)))) by (apply Rmult_lt_compat_r; auto). lra. }
  assert (LE : p <= p') by (rewrite EP; apply (@above t' f u v Hf Hu Hv); lra). destruct LE as [|E]; auto. exfalso.
  rewrite E in Q3. rewrite Q3 in R3. inversion R3. lra.
Qed.
Print Assumptions c43_precision_monotone.

Lemma isclose_self x : isclose x x.
Proof. unfold isclose. replace (x - x) with 0 by ring. rewrite Rabs_R0. pose proof (Rabs_pos x). lra. Qed.
Theorem c43_required_freq : forall target p profit loss, 0 <= target -> loss < 0 < profit -> 0 < p < 1 -> (profit - loss) * p + loss <> 0 ->
  exists r, strategy_required_freq target p profit loss = Some r /\
  (0 < (profit - loss) * p + loss -> exists f, r = Some f /\ 0 <= f /\ strategy_sharpe_ratio p f profit loss = Some target) /\
  ((profit - loss) * p + loss < 0 -> (r = None <-> / 100000000 + / 100000 * target < 2 * target)).
Proof.
  intros t p u l Ht [Hl Hu] Hp HE. unfold strategy_required_freq. destruct (Req_EM_T _ 0) as [C|_]; [contradiction|].
  set (w := u - l) in *. assert (W : 0 < w) by (unfold w; lra). set (e := w * p + l) in *. assert (PP : 0 < p * (1 - p)) by (apply Rmult_lt_0_compat; lra).
  assert (E2 : 0 < e ^ 2) by (rewrite <- Rsqr_pow2; now apply Rsqr_pos_lt).
  assert (FE : (t * w) ^ 2 * p * (1 - p) / e ^ 2 = ((t * w) / Rabs e) ^ 2 * (p * (1 - p))).
  { assert (AE0 : 0 < Rabs e) by now apply Rabs_pos_lt. rewrite <- (pow2_abs e). field. lra. }
  assert (AE : 0 < Rabs e) by now apply Rabs_pos_lt.
  assert (TW : 0 <= t * w / Rabs e) by (apply Rmult_le_pos; [apply Rmult_le_pos; lra|left; now apply Rinv_0_lt_compat]).
  assert (FP : 0 <= (t * w) ^ 2 * p * (1 - p) / e ^ 2) by (rewrite FE; apply Rmult_le_pos; [apply pow2_ge_0|lra]).
  assert (SP : 0 < sqrt (p * (1 - p))) by now apply sqrt_lt_R0.
  assert (SR : strategy_sharpe_ratio p ((t * w) ^ 2 * p * (1 - p) / e ^ 2) u l = Some (e / Rabs e * t)).
  { unfold strategy_sharpe_ratio. destruct (Rlt_dec 0 (p * (1 - p))); [|lra]. destruct (Req_EM_T u l); [lra|]. destruct (Rle_dec 0 _); [|contradiction].
    f_equal. fold w. fold e. rewrite FE, (@sqrt_mult ((t * w / Rabs e) ^ 2)) by (try apply pow2_ge_0; lra). rewrite <- (Rsqr_pow2 (t * w / Rabs e)), sqrt_Rsqr by auto. field. repeat split; lra. }
  rewrite SR. destruct (isclose_dec (e / Rabs e * t) t) as [I|I]; eexists; (split; [reflexivity|]); split; intro H.
  - exists ((t * w) ^ 2 * p * (1 - p) / e ^ 2). split; auto. split; auto. rewrite SR. f_equal. rewrite Rabs_pos_eq by lra. field. lra.
  - rewrite Rabs_left in I by auto. replace (e / - e * t) with (- t) in I by (field; lra). unfold isclose in I.
    replace (- t - t) with (- (2 * t)) in I by ring. rewrite Rabs_Ropp, !Rabs_pos_eq in I by lra. split; [discriminate|]. intro; lra.
  - exfalso. apply I. rewrite Rabs_pos_eq by lra. replace (e / e * t) with t by (field; lra). apply isclose_self.
  - rewrite Rabs_left in I by auto. replace (e / - e * t) with (- t) in I by (field; lra). unfold isclose in I.
    replace (- t - t) with (- (2 * t)) in I by ring. rewrite Rabs_Ropp, !Rabs_pos_eq in I by lra. split; auto. intro. lra.
Qed.
Print Assumptions c43_required_freq.
Example c43_ex : strategy_required_precision 1 1 1 (-1) = Some ((2 + sqrt 2) / 4) /\ (1 - -1) * (3 / 4) + -1 <> 0.
Proof.
  split; [|lra]. unfold strategy_required_precision. destruct (Req_EM_T _ 0); [lra|]. destruct (Rle_dec 0 _) as [_|C]; [|exfalso; apply C; lra].
  f_equal. replace (((2 * 1 * -1 - 1 ^ 2 * (1 - -1)) * (1 - -1)) ^ 2 - 4 * ((1 + 1 ^ 2) * (1 - -1) ^ 2) * (1 * (-1) ^ 2)) with (4 ^ 2 * 2) by lra.
  rewrite sqrt_mult by lra. replace (sqrt (4 ^ 2)) with 4 by (symmetry; apply sqrt_lem_1; lra). lra.
Qed.

(** C86: the deflated Sharpe ratio never exceeds the undeflated one. *)
Theorem c86_benchmark_nonneg : forall ppf gamma srs, is_quantile ppf -> 0 <= gamma <= 1 -> (2 <= length srs)%nat -> 0 <= dsr_benchmark ppf gamma srs.
Proof.
  intros ppf g srs HQ HG HL. unfold dsr_benchmark. apply Rmult_le_pos; [apply sqrt_pos|].
  assert (L : 2 <= INR (length srs)) by (change 2 with (INR 2); now apply le_INR). set (n := INR (length srs)) in *.
  assert (N1 : 1 / n <= / 2) by (apply Rmult_le_reg_r with n; [lra|]; replace (1 / n * n) with 1 by (field; lra); lra).
  assert (N0 : 0 < 1 / n) by (apply Rdiv_lt_0_compat; lra).
  assert (E1 : exp (-1) <= 1) by (rewrite <- exp_0; left; apply exp_increasing; lra). assert (E0 := exp_pos (-1)).
  assert (1 / n * exp (-1) <= / 2) by nra.
  assert (0 <= ppf (1 - 1 / n)) by (apply HQ; lra). assert (0 <= ppf (1 - 1 / n * exp (-1))) by (apply HQ; lra).
  assert (0 <= (1 - g) * ppf (1 - 1 / n)) by (apply Rmult_le_pos; lra). assert (0 <= g * ppf (1 - 1 / n * exp (-1))) by (apply Rmult_le_pos; lra). lra.
Qed.
Print Assumptions c86_benchmark_nonneg.
Lemma all_some_map l r : all_some l = Some r -> l = map (@Some R) r.
Proof.
  revert r. induction l as [|[a|] l IH]; intros r H; cbn in H; try discriminate; [inversion H; auto|].
  destruct (all_some l) as [r'|]; [|discriminate]. inversion H; subst. cbn. f_equal. now apply IH.
Qed.
Theorem c86_deflation_lowers : forall cdf ppf gamma n m ps b i row p p0, is_cdf cdf -> is_quantile ppf -> 0 <= gamma <= 1 -> (2 <= length m)%nat ->
  (forall row, In row m -> length row = n) ->
  deflated_axis1 cdf ppf gamma n m = Some (ps, b) -> nth_error m i = Some row -> nth_error ps i = Some (Some p) -> psr cdf 0 row = Some p0 ->
  0 <= b /\ psr cdf b row = Some p /\ p <= p0.
Proof.
  intros cdf ppf g n m ps b i row p p0 HC HQ HG HL HN H Hi Hp H0. unfold deflated_axis1 in H. destruct (all_some (sharpe_axis1 m)) as [srs|] eqn:E; [|discriminate]. destruct (length srs <=? 1)%nat; [discriminate|].
  inversion H; subst ps b. clear H. set (b := dsr_benchmark ppf g srs) in *.
  assert (B : 0 <= b). { apply c86_benchmark_nonneg; auto. apply all_some_map in E. apply (f_equal (@length _)) in E. unfold sharpe_axis1 in E. rewrite !map_length in E. lia. }
  split; auto. rewrite (@c42_axis1 cdf b n m HN), nth_error_map, Hi in Hp. cbn in Hp. inversion Hp as [Hp']. clear Hp. split; auto.
  unfold psr, psr_with in *. destruct (sharpe_ratio row) as [s|]; [|discriminate]. set (r := psr_radicand _ _ _) in *. destruct (Rlt_dec r 0); [discriminate|].
  assert (SQ : 0 <= sqrt (INR (length row) - 1)) by apply sqrt_pos.
  assert (LE : (s - b) * sqrt (INR (length row) - 1) <= (s - 0) * sqrt (INR (length row) - 1)) by (apply Rmult_le_compat_r; lra).
  destruct (Req_EM_T r 0).
  - repeat match goal with H : context [if ?d then _ else _] |- _ => destruct d end; try discriminate; inversion H0; inversion Hp'; subst; lra.
  - inversion H0; inversion Hp'. destruct HC as [_ C2]. assert (I : 0 < / sqrt r) by (apply Rinv_0_lt_compat; apply sqrt_lt_R0; lra).
    assert (Q : (s - b) * sqrt (INR (length row) - 1) / sqrt r <= (s - 0) * sqrt (INR (length row) - 1) / sqrt r) by (apply Rmult_le_compat_r; lra).
    destruct Q as [Q|Q]; [left; now apply C2|rewrite Q; lra].
Qed.
Print Assumptions c86_deflation_lowers.

(** C87: probability of failure of a strategy *)
Theorem c87_probability_of_failure : forall cdf returns freq t t', is_cdf cdf -> 0 < freq -> 0 <= t < t' ->
  (exists x, In x returns /\ 0 < x) -> (exists x, In x returns /\ x < 0) ->
  exists r r', strategy_probability_of_failure cdf returns freq t = Some r /\ strategy_probability_of_failure cdf returns freq t' = Some r' /\
    0 < r < 1 /\ r < r'.
Proof.
  intros cdf rets f t t' [C1 C2] Hf [Ht Htt] [x [Hx Px]] [y [Hy Ny]]. unfold strategy_probability_of_failure.
  set (pos := filter rpos rets). set (neg := filter (fun x => negb (rpos x)) rets).
  assert (IP : In x pos) by (apply filter_In; split; auto; unfold rpos; destruct (Rlt_dec 0 x); [auto|lra]).
  assert (IN : In y neg) by (apply filter_In; split; auto; unfold rpos; destruct (Rlt_dec 0 y); [lra|auto]).
  assert (NP : pos <> []) by (intro E; rewrite E in IP; contradiction). assert (NN : neg <> []) by (intro E; rewrite E in IN; contradiction).
  assert (MP : 0 < rmean pos).
  { unfold rmean. apply Rdiv_lt_0_compat; [|now apply INR_length_pos]. apply rsum_pos; auto. intros z Hz. apply filter_In in Hz. destruct Hz as [_ Hz].
    unfold rpos in Hz. destruct (Rlt_dec 0 z); [auto|discriminate]. }
  assert (MN : rmean neg < 0).
  { assert (0 < rmean (map Ropp neg)).
    { unfold rmean. rewrite map_length. apply Rdiv_lt_0_compat; [|now apply INR_length_pos].
      assert (- y <= rsum (map Ropp neg)); [|lra]. apply rsum_ge_elem; [|apply in_map_iff; eauto]. intros z Hz. apply in_map_iff in Hz. destruct Hz as [a [<- Ha]].
      apply filter_In in Ha. destruct Ha as [_ Ha]. unfold rpos in Ha. destruct (Rlt_dec 0 a); [discriminate|lra]. }
    assert (E : rmean (map Ropp neg) = - rmean neg).
    { rewrite (map_ext _ (fun x => -1 * x)) by (intro; ring). rewrite rmean_scale. ring. }
    lra. }
  assert (LEN : INR (length rets) = INR (length pos) + INR (length neg)).
  { rewrite <- plus_INR. f_equal. unfold pos, neg. clear. induction rets as [|a l IH]; auto. cbn. destruct (rpos a); cbn; lia. }
  assert (LP := INR_length_pos NP). assert (LN := INR_length_pos NN).
  set (p := INR (length pos) / INR (length rets)).
  assert (P0 : 0 < p) by (apply Rdiv_lt_0_compat; lra).
  assert (P1 : p < 1) by (unfold p; apply Rmult_lt_reg_r with (INR (length rets)); [lra|]; unfold Rdiv; rewrite Rmult_assoc, Rinv_l, Rmult_1_r by lra; lra).
  destruct pos as [|a pos'] eqn:EP; [congruence|]. destruct neg as [|b neg'] eqn:EN; [congruence|].
  assert (HL : rmean (b :: neg') < 0 < rmean (a :: pos')) by auto.
  assert (Ht' : 0 <= t') by lra.
  destruct (@c43_required_precision t f _ _ Ht Hf HL) as [q [Q1 _]]. destruct (@c43_required_precision t' f _ _ Ht' Hf HL) as [q' [Q1' _]].
  rewrite Q1, Q1'. eexists. eexists. split; [reflexivity|]. split; [reflexivity|]. split; [apply C1|]. apply C2.
  assert (QQ : q < q') by (eapply c43_precision_monotone; [split; [exact Ht|exact Htt]|exact Hf|exact HL|exact Q1|exact Q1']).
  unfold Rdiv. apply Rmult_lt_compat_r; [|lra]. apply Rinv_0_lt_compat. apply Rmult_lt_0_compat; lra.
Qed.
Print Assumptions c87_probability_of_failure.

(** the hypotheses on the distribution are met, e.g. by the logistic distribution and its quantile function *)
Example is_cdf_ex : is_cdf (fun x => 1 / (1 + exp (- x))).
Proof.
  split; intros x.
  - pose proof (exp_pos (- x)) as E. split; [apply Rdiv_lt_0_compat; lra|]. apply Rmult_lt_reg_r with (1 + exp (- x)); [lra|].
    replace (1 / (1 + exp (- x)) * (1 + exp (- x))) with 1 by (field; lra). lra.
  - intros y L. pose proof (exp_pos (- x)). pose proof (exp_pos (- y)). assert (exp (- y) < exp (- x)) by (apply exp_increasing; lra).
    unfold Rdiv. rewrite !Rmult_1_l. apply Rinv_lt_contravar; [|lra]. apply Rmult_lt_0_compat; lra.
Qed.
Example is_quantile_ex : is_quantile (fun p => if Rlt_dec p 1 then ln (p / (1 - p)) else 0).
Proof.
  intros x H. destruct (Rlt_dec x 1) as [L|L]; [|lra]. assert (B : 1 <= x / (1 - x)).
  { apply Rmult_le_reg_r with (1 - x); [lra|]. replace (x / (1 - x) * (1 - x)) with x by (field; lra). lra. }
  rewrite <- ln_1. destruct B as [B|B]; [left; apply ln_increasing; lra|rewrite <- B; lra].
Qed.

(** Values, written out without the model's helpers. *)
(** the central moments of a sample; numpy's and scipy's are not corrected for bias *)
Definition central (k : nat) (l : list R) : R := rsum (map (fun x => (x - rsum l / INR (length l)) ^ k) l) / INR (length l).
(** the variance under the square root: 1 - skewness SR + (excess kurtosis - 1)/4 SR^2 *)
Definition estimator_variance (l : list R) (s : R) : R := 1 - central 3 l / (central 2 l * sqrt (central 2 l)) * s + (central 4 l / central 2 l ^ 2 - 3 - 1) / 4 * s ^ 2.
Lemma moment_central k l : moment k l = central k l.
Proof. unfold moment, central, rmean. now rewrite map_length. Qed.
Lemma psr_with_value cdf n b l s : sharpe_ratio l = Some s ->
  (0 < estimator_variance l s -> psr_with cdf n b l = Some (cdf ((s - b) * sqrt (INR n - 1) / sqrt (estimator_variance l s)))) /\
  (estimator_variance l s < 0 -> psr_with cdf n b l = None) /\
  (estimator_variance l s = 0 -> (1 < n)%nat -> psr_with cdf n b l = if Rlt_dec b s then Some 1 else if Rlt_dec s b then Some 0 else None).
Proof.
  intro HS. assert (E : psr_radicand (skew l) (kurtosis l) s = estimator_variance l s) by (unfold psr_radicand, skew, kurtosis, estimator_variance; now rewrite !moment_central).
  unfold psr_with. rewrite HS, E. set (r := estimator_variance l s). clearbody r. split; [|split]; intro Hr; destruct (Rlt_dec r 0); try lra; auto; destruct (Req_EM_T r 0); try lra; auto.
  intro Hn. assert (0 < sqrt (INR n - 1)) by (apply sqrt_lt_R0; apply lt_INR in Hn; cbn in Hn; lra). set (q := sqrt _) in *. clearbody q.
  destruct (Rlt_dec b s), (Rlt_dec 0 ((s - b) * q)); try nra; auto. destruct (Rlt_dec s b), (Rlt_dec ((s - b) * q) 0); try nra; auto.
Qed.
Theorem c41_value cdf b l s : sharpe_ratio l = Some s ->
  (0 < estimator_variance l s -> psr cdf b l = Some (cdf ((s - b) * sqrt (INR (length l) - 1) / sqrt (estimator_variance l s)))) /\
  (estimator_variance l s < 0 -> psr cdf b l = None) /\
  (estimator_variance l s = 0 -> (1 < length l)%nat -> psr cdf b l = if Rlt_dec b s then Some 1 else if Rlt_dec s b then Some 0 else None).
Proof. apply psr_with_value. Qed.
Print Assumptions c41_value.
Theorem c41_no_sharpe cdf b l : sharpe_ratio l = None -> psr cdf b l = None.
Proof. intro H. unfold psr, psr_with. now rewrite H. Qed.
Print Assumptions c41_no_sharpe.
(** C42: with axis 0 the sample size used for a column is rows times columns *)
Theorem c42_axis0_value cdf b n m j s : (j < n)%nat -> let l := map (fun row => nth j row 0) m in sharpe_ratio l = Some s -> 0 < estimator_variance l s ->
  length (psr_axis0 cdf b n m) = n /\
  nth_error (psr_axis0 cdf b n m) j = Some (Some (cdf ((s - b) * sqrt (INR (length m) * INR n - 1) / sqrt (estimator_variance l s)))).
Proof.
  intros Hj l HS HV. unfold psr_axis0, columns. split; [now rewrite !map_length, seq_length|].
  rewrite map_map, nth_error_map. rewrite nth_error_nth' with (d := 0%nat) by now rewrite seq_length. rewrite seq_nth by auto. cbn [option_map plus]. f_equal.
  change (column j m) with l. destruct (@psr_with_value cdf (length m * n) b l s HS) as [-> _]; auto. now rewrite mult_INR.
Qed.
Print Assumptions c42_axis0_value.
(** C43: the Sharpe ratio of a bet that gains [profit] with probability [p] and else [loss], made [freq] times a year: mean over standard deviation, annualised *)
Theorem c43_sharpe_value p freq profit loss : 0 < p < 1 -> 0 <= freq -> loss < profit ->
  let mean := p * profit + (1 - p) * loss in
  let var := p * (profit - mean) ^ 2 + (1 - p) * (loss - mean) ^ 2 in
  0 < var /\ strategy_sharpe_ratio p freq profit loss = Some (mean / sqrt var * sqrt freq).
Proof.
  intros Hp Hf HL mean var. assert (E : var = (profit - loss) * (profit - loss) * (p * (1 - p))) by (unfold var, mean; ring). assert (P : 0 < p * (1 - p)) by nra. assert (W : 0 < profit - loss) by lra. assert (W2 : 0 < (profit - loss) * (profit - loss)) by now apply Rmult_lt_0_compat. split; [rewrite E; now apply Rmult_lt_0_compat|].
  unfold strategy_sharpe_ratio. destruct (Rlt_dec 0 (p * (1 - p))); [|lra]. destruct (Req_EM_T profit loss); [lra|]. destruct (Rle_dec 0 freq); [|lra]. f_equal. f_equal.
  rewrite E, (sqrt_mult ((profit - loss) * (profit - loss))), sqrt_square by lra. unfold mean. f_equal. ring.
Qed.
Print Assumptions c43_sharpe_value.
Theorem c43_sharpe_undefined p freq profit loss : (p <= 0 \/ 1 <= p) \/ profit = loss \/ freq < 0 -> strategy_sharpe_ratio p freq profit loss = None.
Proof.
  intro H. unfold strategy_sharpe_ratio. destruct (Rlt_dec 0 (p * (1 - p))); auto. destruct (Req_EM_T profit loss); auto. destruct (Rle_dec 0 freq); auto. exfalso. destruct H as [[H|H]|[H|H]]; try lra; [assert (0 < 1 - p) by lra|assert (0 < p) by lra]; nra.
Qed.
Print Assumptions c43_sharpe_undefined.
(** C86: the benchmark is the deviation of the trials' Sharpe ratios times the expected maximum of that many standard normals *)
Theorem c86_value cdf ppf gamma n m ps b : deflated_axis1 cdf ppf gamma n m = Some (ps, b) ->
  (2 <= length m)%nat /\ exists srs, Forall2 (fun row s => sharpe_ratio row = Some s) m srs /\
    b = sqrt (central 2 srs) * ((1 - gamma) * ppf (1 - / INR (length m)) + gamma * ppf (1 - / (INR (length m) * exp 1))).
Proof.
  unfold deflated_axis1. intro H. destruct (all_some (sharpe_axis1 m)) as [srs|] eqn:E; [|discriminate]. destruct (Nat.leb_spec (length srs) 1) as [|L1]; [discriminate|]. inversion H; subst ps b. clear H. apply all_some_map in E.
  assert (L : length srs = length m) by (apply (f_equal (@length _)) in E; unfold sharpe_axis1 in E; now rewrite !map_length in E). split; [lia|]. exists srs. split.
  - clear L L1. revert srs E. unfold sharpe_axis1. induction m as [|row m IH]; intros [|s srs] E; try discriminate; constructor; cbn in E; [congruence|apply IH; congruence].
  - unfold dsr_benchmark, np_var. rewrite moment_central, L. f_equal. f_equal; f_equal; f_equal; [unfold Rdiv; ring|].
    rewrite Rinv_mult. replace (-1) with (- (1)) by ring. rewrite exp_Ropp. unfold Rdiv. ring.
Qed.
Print Assumptions c86_value.
(** C87: the code's probability of failure: the normal probability that a precision with mean the observed one (and deviation p(1-p), see C116) is below the one that is needed *)
Theorem c87_value cdf returns freq target r : strategy_probability_of_failure cdf returns freq target = Some r ->
  let gains := filter (fun x => if Rlt_dec 0 x then true else false) returns in let losses := filter (fun x => if Rlt_dec 0 x then false else true) returns in
  let p := INR (length gains) / INR (length returns) in
  gains <> [] /\ losses <> [] /\
  exists need, strategy_required_precision target freq (rsum gains / INR (length gains)) (rsum losses / INR (length losses)) = Some need /\ r = cdf ((need - p) / (p * (1 - p))).
Proof.
  intro H. unfold strategy_probability_of_failure in H. fold rpos in H.
  assert (E : filter (fun x => if Rlt_dec 0 x then false else true) returns = filter (fun x => negb (rpos x)) returns) by (apply filter_ext; intro x; unfold rpos; destruct (Rlt_dec 0 x); auto).
  rewrite E. change (filter (fun x => if Rlt_dec 0 x then true else false) returns) with (filter rpos returns). intros gains losses p. fold gains losses in H. destruct gains as [|a g] eqn:Eg; [discriminate|]. destruct losses as [|c k] eqn:Ek; [discriminate|].
  split; [discriminate|]. split; [discriminate|]. unfold rmean in H. destruct (strategy_required_precision _ _ _ _) as [need|]; [|discriminate]. inversion H. eauto.
Qed.
Print Assumptions c87_value.
Example c41_value_nonvacuous : sharpe_ratio [0; 1; 0; 1] = Some 1 /\ 0 < estimator_variance [0; 1; 0; 1] 1.
Proof. destruct ex01 as [E R]. split; [exact E|]. unfold psr_radicand, skew, kurtosis in R. rewrite !moment_central in R. exact R. Qed.
