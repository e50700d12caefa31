(** C157: the deflated Sharpe ratio with one trial per column, the default axis of metrics.py:153. *)
From Verif Require Import Py RNum SharpeModel SharpeSpec SharpeProps.
Set Implicit Arguments.
Unset Strict Implicit.
Open Scope R_scope.

Lemma psr_axis0_nth cdf b n m j : (j < n)%nat -> nth_error (psr_axis0 cdf b n m) j = Some (psr_with cdf (length m * n) b (column j m)).
Proof.
  intro Hj. unfold psr_axis0, columns. rewrite map_map, nth_error_map. replace (nth_error (seq 0 n) j) with (Some j); auto.
  rewrite nth_error_nth' with (d := 0%nat) by now rewrite seq_length. now rewrite seq_nth.
Qed.
Lemma all_some_ok (rs : list R) : all_some (map (@Some R) rs) = Some rs.
Proof. induction rs as [|r rs IH]; auto. cbn. now rewrite IH. Qed.

(** the benchmark comes from the Sharpe ratios of the columns, the number of observations is rows times columns *)
Theorem c157_value cdf ppf gamma n m ps b : deflated_axis0 cdf ppf gamma n m = Some (ps, b) ->
  (2 <= n)%nat /\ length ps = n /\ exists srs, length srs = n /\ (forall j s, nth_error srs j = Some s -> sharpe_ratio (map (fun row => nth j row 0) m) = Some s) /\
    b = sqrt (central 2 srs) * ((1 - gamma) * ppf (1 - / INR n) + gamma * ppf (1 - / (INR n * exp 1))) /\
    forall j s, nth_error srs j = Some s -> let l := map (fun row => nth j row 0) m in 0 < estimator_variance l s ->
      nth_error ps j = Some (Some (cdf ((s - b) * sqrt (INR (length m) * INR n - 1) / sqrt (estimator_variance l s)))).
Proof.
  unfold deflated_axis0. intro H. destruct (all_some (sharpe_axis0 n m)) as [srs|] eqn:E; [|discriminate]. destruct (Nat.leb_spec (length srs) 1) as [|L1]; [discriminate|]. inversion H; subst ps b. clear H. apply all_some_map in E.
  assert (L : length srs = n) by (apply (f_equal (@length _)) in E; unfold sharpe_axis0, columns in E; now rewrite !map_length, seq_length in E). split; [lia|]. split; [unfold psr_axis0, columns; now rewrite !map_length, seq_length|]. exists srs.
  assert (S : forall j s, nth_error srs j = Some s -> sharpe_ratio (map (fun row => nth j row 0) m) = Some s).
  { intros j s Hj. assert (J : (j < n)%nat) by (rewrite <- L; apply nth_error_Some; congruence). apply (f_equal (fun l => nth_error l j)) in E. unfold sharpe_axis0, columns in E. rewrite map_map, !nth_error_map, Hj in E.
    rewrite nth_error_nth' with (d := 0%nat) in E by now rewrite seq_length. rewrite seq_nth in E by auto. cbn [option_map plus] in E. injection E as E. exact E. }
  split; auto. split; auto. split.
  - unfold dsr_benchmark, np_var. rewrite moment_central, L. f_equal. f_equal; f_equal; f_equal; [unfold Rdiv; ring|]. rewrite Rinv_mult. replace (-1) with (- (1)) by ring. rewrite exp_Ropp. unfold Rdiv. ring.
  - intros j s Hj HV. assert (J : (j < n)%nat) by (rewrite <- L; apply nth_error_Some; congruence). apply c42_axis0_value; auto.
Qed.
(** so it is at most the probabilistic Sharpe ratio of the same call against 0 ... *)
Theorem c157_same_axis cdf ppf gamma n m ps b j p p0 : is_cdf cdf -> is_quantile ppf -> 0 <= gamma <= 1 -> deflated_axis0 cdf ppf gamma n m = Some (ps, b) ->
  nth_error ps j = Some (Some p) -> nth_error (psr_axis0 cdf 0 n m) j = Some (Some p0) -> 0 <= b /\ p <= p0.
Proof.
  intros HC HQ HG H Hp H0. unfold deflated_axis0 in H. destruct (all_some (sharpe_axis0 n m)) as [srs|] eqn:E; [|discriminate]. destruct (Nat.leb_spec (length srs) 1) as [|L1]; [discriminate|]. inversion H; subst ps b. clear H.
  set (b := dsr_benchmark ppf gamma srs) in *. assert (B : 0 <= b) by (apply c86_benchmark_nonneg; auto; lia). split; auto.
  assert (J : (j < n)%nat). { assert (K : (j < length (psr_axis0 cdf b n m))%nat) by (apply nth_error_Some; congruence). unfold psr_axis0, columns in K. now rewrite !map_length, seq_length in K. }
  rewrite psr_axis0_nth in Hp, H0 by auto. injection Hp as Hp. injection H0 as H0. unfold psr_with in *. destruct (sharpe_ratio _) as [s|]; [|discriminate]. set (r := psr_radicand _ _ _) in *. destruct (Rlt_dec r 0); [discriminate|].
  set (q := sqrt (INR (length m * n) - 1)) in *. assert (SQ : 0 <= q) by apply sqrt_pos.
  assert (LE : (s - b) * q <= (s - 0) * q) by (apply Rmult_le_compat_r; lra).
  destruct (Req_EM_T r 0).
  - repeat match goal with H : context [if ?d then _ else _] |- _ => destruct d end; try discriminate; inversion H0; inversion Hp; subst; lra.
  - inversion H0; inversion Hp. destruct HC as [_ C2]. assert (I : 0 < / sqrt r) by (apply Rinv_0_lt_compat; apply sqrt_lt_R0; lra).
    assert (Q : (s - b) * q / sqrt r <= (s - 0) * q / sqrt r) by (apply Rmult_le_compat_r; lra). destruct Q as [Q|Q]; [left; now apply C2|rewrite Q; lra].
Qed.
(** ... but compared with the probabilistic Sharpe ratio of the trial it is at most that exactly if the benchmark is large enough *)
Theorem c157_exact cdf ppf gamma n m ps b j s p p0 : is_cdf cdf -> deflated_axis0 cdf ppf gamma n m = Some (ps, b) ->
  let l := map (fun row => nth j row 0) m in sharpe_ratio l = Some s -> 0 < estimator_variance l s -> nth_error ps j = Some (Some p) -> psr cdf 0 l = Some p0 ->
  (p <= p0 <-> (s - b) * sqrt (INR (length m) * INR n - 1) <= s * sqrt (INR (length m) - 1)).
Proof.
  intros HC H l HS HV Hp H0. destruct (c157_value H) as (N2 & LP & srs & L & S & _ & V).
  assert (J : (j < n)%nat) by (rewrite <- LP; apply nth_error_Some; congruence). destruct (nth_error srs j) as [s'|] eqn:Ej; [|apply nth_error_None in Ej; lia]. pose proof (S _ _ Ej) as S'. fold l in S'. rewrite HS in S'. injection S' as <-.
  pose proof (V _ _ Ej HV) as V'. fold l in V'. rewrite Hp in V'. injection V' as ->. destruct (@c41_value cdf 0 l s HS) as (W & _). rewrite (W HV) in H0. injection H0 as <-.
  assert (LM : length l = length m) by apply map_length. rewrite LM, Rminus_0_r. destruct HC as [_ C2]. set (x := (s - b) * _). set (y := s * _). set (v := sqrt (estimator_variance l s)). assert (I : 0 < / v) by (apply Rinv_0_lt_compat; now apply sqrt_lt_R0).
  unfold Rdiv. split; intro K.
  - apply Rnot_lt_le. intro C. assert (D : y * / v < x * / v) by now apply Rmult_lt_compat_r. apply C2 in D. lra.
  - destruct K as [K| ->]; [|lra]. left. apply C2. now apply Rmult_lt_compat_r.
Qed.
(** REFUTED: two identical trials of four returns each; both get a deflated value above their probabilistic Sharpe ratio *)
Definition two_trials : list (list R) := [[0; 0]; [1; 1]; [0; 0]; [1; 1]].
Theorem c157_default_axis_refuted cdf ppf gamma : is_cdf cdf -> exists p p0,
  deflated_axis0 cdf ppf gamma 2 two_trials = Some ([Some p; Some p], 0) /\ psr cdf 0 [0; 1; 0; 1] = Some p0 /\ p0 < p.
Proof.
  intros [_ C2]. destruct ex01 as [E R]. set (r := psr_radicand _ _ _) in R.
  exists (cdf ((1 - 0) * sqrt (INR (4 * 2) - 1) / sqrt r)), (cdf ((1 - 0) * sqrt (INR 4 - 1) / sqrt r)).
  assert (W : forall k, psr_with cdf k 0 [0; 1; 0; 1] = Some (cdf ((1 - 0) * sqrt (INR k - 1) / sqrt r))). { intro k. unfold psr_with. rewrite E. fold r. destruct (Rlt_dec r 0); [lra|]. destruct (Req_EM_T r 0); [lra|]. reflexivity. }
  split; [|split].
  - unfold deflated_axis0, sharpe_axis0, columns. cbn [seq map]. change (column 0 two_trials) with [0; 1; 0; 1]. change (column 1 two_trials) with [0; 1; 0; 1]. rewrite E. cbn [all_some length Nat.leb].
    assert (B : dsr_benchmark ppf gamma [1; 1] = 0). { unfold dsr_benchmark. replace (np_var [1; 1]) with 0; [rewrite sqrt_0; ring|]. unfold np_var, moment, rmean. cbn. field. }
    cbv zeta. rewrite B. unfold psr_axis0, columns. cbn [seq map]. change (column 0 two_trials) with [0; 1; 0; 1]. change (column 1 two_trials) with [0; 1; 0; 1]. change (length two_trials * 2)%nat with (4 * 2)%nat. now rewrite W.
  - unfold psr. change (length [0; 1; 0; 1]) with 4%nat. apply W.
  - apply C2. unfold Rdiv. apply Rmult_lt_compat_r; [apply Rinv_0_lt_compat; now apply sqrt_lt_R0|]. rewrite !Rminus_0_r, !Rmult_1_l. apply sqrt_lt_1; cbn; lra.
Qed.
(** a single trial has no deflated Sharpe ratio *)
Theorem c157_one_trial cdf ppf gamma m : deflated_axis0 cdf ppf gamma 1 m = None /\ forall n, (length m <= 1)%nat -> deflated_axis1 cdf ppf gamma n m = None.
Proof.
  split; [|intros n H]; unfold deflated_axis0, deflated_axis1; destruct (all_some _) as [srs|] eqn:E; auto; apply all_some_map, (f_equal (@length _)) in E; unfold sharpe_axis0, sharpe_axis1, columns in E; rewrite !map_length in E; cbn [seq length] in E.
  - rewrite <- E. reflexivity.
  - now rewrite (proj2 (Nat.leb_le _ _)) by lia.
Qed.
Print Assumptions c157_value.
Print Assumptions c157_same_axis.
Print Assumptions c157_exact.
Print Assumptions c157_default_axis_refuted.
Print Assumptions c157_one_trial.
