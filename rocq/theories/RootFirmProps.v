(** C150: the asset values scipy's secant search finds for the structural model of default. *)
From Verif Require Import Py RNum Normal OptionModel OptionProofs OptionProps RootModel RootProps SysDefaultModel SysDefaultProofs SysDefaultProps.
Set Implicit Arguments.
Unset Strict Implicit.
Open Scope R_scope.

(** the normal density is at most its value at 0, which is below 1 *)
Lemma density_below_1 cdf : is_normal_cdf cdf -> exists c, 0 < c < 1 /\ forall x, derivable_pt_lim cdf x (c * bell x).
Proof.
  intro N. destruct (nc_derivative N) as (c & Hc & Hd). exists c. split; auto. split; auto.
  destruct (MVT_cor2 cdf (fun x => c * bell x) (-1) 1 ltac:(lra)) as (u & E & Hu); [intros; apply Hd|].
  pose proof (normal_lt_1 N 1). pose proof (nc_pos N (-1)). assert (B : 1 / 2 <= bell u). { unfold bell. pose proof (exp_ineq1_le (- (u * u) / 2)). nra. }
  nra.
Qed.
Lemma bell_le_1 x : bell x <= 1.
Proof. unfold bell. rewrite <- exp_0. destruct (Req_dec x 0) as [->|C]; [right; f_equal; field|]. left. apply exp_increasing. nra. Qed.
(** the equity value's slope in the asset value *)
Lemma cond_equity_derivative cdf c k r sigma T alpha beta x s : is_normal_cdf cdf -> (forall y, derivable_pt_lim cdf y (c * bell y)) -> 0 < k -> 0 < sigma -> 0 < T -> 0 < s ->
  let D := bsD (s * exp (alpha * T + beta * x)) (k * exp (- r * T)) (sigma * sqrt T) in
  derivable_pt_lim (fun s => bs cdf (s * exp (alpha * T + beta * x)) (k * exp (- r * T)) (sigma * sqrt T)
      + s * (1 - exp (alpha * T + beta * x)) * cdf (bsD (s * exp (alpha * T + beta * x)) (k * exp (- r * T)) (sigma * sqrt T))) s
    (cdf D + (1 - exp (alpha * T + beta * x)) * (c * bell D) / (sigma * sqrt T)).
Proof.
  intros N Hd Hk Hg HT Hs D. pose proof (sqrt_lt_R0 T HT) as Hq. assert (Hv : 0 < sigma * sqrt T) by now apply Rmult_lt_0_compat.
  set (g := exp (alpha * T + beta * x)) in *. set (B := k * exp (- r * T)) in *. set (v := sigma * sqrt T) in *.
  assert (Hg0 : 0 < g) by apply exp_pos. assert (HB : 0 < B) by (apply Rmult_lt_0_compat; auto; apply exp_pos). assert (Hsg : 0 < s * g) by now apply Rmult_lt_0_compat.
  pose proof (bs_scaled_derivative N Hg0 HB Hv Hs) as P1. fold D in P1.
  assert (M : derivable_pt_lim (fun s => s * g) s g). { pose proof (derivable_pt_lim_mult id (fun _ => g) s 1 0 (derivable_pt_lim_id s) (derivable_pt_lim_const g s)) as Q. unfold id, mult_fct in Q. replace (1 * g + s * 0) with g in Q by ring. exact Q. }
  assert (HD : derivable_pt_lim (fun A => bsD A B v) (s * g) (/ (s * g) * / v)).
  { unfold bsD. replace (/ (s * g) * / v) with ((/ (s * g) - 0) * / v + (ln (s * g) - ln B) * 0 + 0) by ring.
    apply (derivable_pt_lim_plus (fun A => (ln A - ln B) * / v) (fun _ => v / 2)); [|apply derivable_pt_lim_const].
    apply (derivable_pt_lim_mult (fun A => ln A - ln B) (fun _ => / v)); [|apply derivable_pt_lim_const].
    apply (derivable_pt_lim_minus ln (fun _ => ln B)); [now apply derivable_pt_lim_ln|apply derivable_pt_lim_const]. }
  pose proof (derivable_pt_lim_comp _ _ _ _ _ M HD) as C1. pose proof (derivable_pt_lim_comp _ cdf _ _ _ C1 (Hd _)) as C2.
  pose proof (derivable_pt_lim_mult id _ s 1 _ (derivable_pt_lim_id s) C2) as C3. pose proof (derivable_pt_lim_scal _ (1 - g) s _ C3) as C4. pose proof (derivable_pt_lim_plus _ _ s _ _ P1 C4) as C5.
  unfold id, comp, mult_fct, plus_fct, mult_real_fct in C5. cbv beta in C5. fold D in C5.
  match type of C5 with derivable_pt_lim _ _ ?l => replace l with (cdf D + (1 - g) * (c * bell D) / v) in C5 by (field; lra) end.
  intros eps He. destruct (C5 eps He) as (d & H). exists d. intros h Hh Hl. specialize (H h Hh Hl).
  match goal with |- Rabs ?A < _ => match type of H with Rabs ?B < _ => replace A with B; [exact H|] end end. field. split; [lra|exact Hh].
Qed.
(** the equity value moves at most [1 + |1 - e^drift| / volatility] times as much as the asset value *)
Definition sensitivity (alpha beta sigma T x : R) : R := 1 + Rabs (1 - exp (alpha * T + beta * x)) / (sigma * sqrt T).
Theorem c150_equity_moves cdf k r sigma T alpha beta x a b : is_normal_cdf cdf -> 0 < k -> 0 < sigma -> 0 < T -> 0 < a -> 0 < b ->
  Rabs (cond_equity_value cdf a k r sigma T alpha beta x - cond_equity_value cdf b k r sigma T alpha beta x) <= sensitivity alpha beta sigma T x * Rabs (a - b).
Proof.
  intros N Hk Hg HT. pose proof (sqrt_lt_R0 T HT) as Hq. assert (Hv : 0 < sigma * sqrt T) by now apply Rmult_lt_0_compat. destruct (density_below_1 N) as (c & Hc & Hd).
  assert (W : forall a b, 0 < a -> a < b -> Rabs (cond_equity_value cdf b k r sigma T alpha beta x - cond_equity_value cdf a k r sigma T alpha beta x) <= sensitivity alpha beta sigma T x * (b - a)).
  { clear a b. intros a b Ha Hab. destruct (@cond_as_bs cdf a k r sigma T alpha beta x Ha Hk Hg HT) as [_ ->]. destruct (@cond_as_bs cdf b k r sigma T alpha beta x ltac:(lra) Hk Hg HT) as [_ ->].
    destruct (slope_between Ha Hab (fun s Hs => @cond_equity_derivative cdf c k r sigma T alpha beta x s N Hd Hk Hg HT Hs)) as (u & Hu & E). rewrite E. rewrite Rabs_mult, (Rabs_pos_eq (b - a)) by lra. apply Rmult_le_compat_r; [lra|].
    unfold sensitivity. set (D := bsD (u * _) _ _). pose proof (nc_pos N D). pose proof (normal_lt_1 N D). pose proof (bell_pos D). pose proof (bell_le_1 D).
    eapply Rle_trans; [apply Rabs_triang|]. apply Rplus_le_compat; [rewrite Rabs_pos_eq; lra|].
    unfold Rdiv. rewrite !Rabs_mult. rewrite (Rabs_pos_eq (/ (sigma * sqrt T))) by (left; now apply Rinv_0_lt_compat). apply Rmult_le_compat_r; [left; now apply Rinv_0_lt_compat|].
    rewrite <- (Rmult_1_r (Rabs (1 - exp (alpha * T + beta * x)))) at 2. apply Rmult_le_compat_l; [apply Rabs_pos|]. rewrite <- Rabs_mult, Rabs_pos_eq by nra. nra. }
  intros Ha Hb. destruct (Rtotal_order a b) as [H|[->|H]].
  - rewrite Rabs_minus_sym, (Rabs_minus_sym a b), (Rabs_pos_eq (b - a)) by lra. now apply W.
  - unfold Rminus. rewrite !Rplus_opp_r, Rabs_R0. lra.
  - rewrite (Rabs_pos_eq (a - b)) by lra. now apply W.
Qed.
(** so what the search returns explains the equity value to within two cents times that factor *)
Lemma search_error cdf k r sigma T alpha beta x e x0 a : is_normal_cdf cdf -> 0 < k -> 0 < sigma -> 0 < T -> 0 < a ->
  implied_asset_price scipy_newton (fun s => cond_equity_value cdf s k r sigma T alpha beta x) e x0 = Ok a ->
  Rabs (cond_equity_value cdf a k r sigma T alpha beta x - e) <= sensitivity alpha beta sigma T x / 50.
Proof.
  intros N Hk Hg HT Ha H. unfold implied_asset_price, scipy_newton in H. apply (c150_small (L := sensitivity alpha beta sigma T x)) in H.
  - destruct H as [_ H]. replace (sensitivity alpha beta sigma T x / 50) with (2 * sensitivity alpha beta sigma T x * (1 / 100)) by field. apply H. unfold positive_part. destruct (Rlt_dec 0 a); [reflexivity|lra].
  - intros u w qu qw. unfold positive_part. destruct (Rlt_dec 0 u); [|discriminate]. destruct (Rlt_dec 0 w); [|discriminate]. intros [= <-] [= <-].
    match goal with |- Rabs ?X <= _ => replace X with (cond_equity_value cdf u k r sigma T alpha beta x - cond_equity_value cdf w k r sigma T alpha beta x) by ring end. now apply c150_equity_moves.
Qed.
Theorem c150_firm_value cdf q e b m r x a : is_normal_cdf cdf -> 0 < fp_sigma q -> 0 < m -> 0 < a -> row_asset cdf scipy_newton q (e, b, m, r, x) = Ok a ->
  Rabs (cond_equity_value cdf a (Rmax 1 b) r (fp_sigma q) m (fp_alpha q) (fp_beta q) (x * m) - e) <= sensitivity (fp_alpha q) (fp_beta q) (fp_sigma q) m (x * m) / 50.
Proof. intros N Hg Hm Ha H. cbn in H. apply search_error in H; auto. pose proof (Rmax_l 1 b). lra. Qed.
(** the fitted model: every asset value, for parameters within the fit's tolerance of the returned ones *)
Theorem c150_fit cdf d tol maxiter p rets values : is_normal_cdf cdf -> fit cdf scipy_newton d tol maxiter = Ok (p, (rets, values)) ->
  exists q, agree tol q p /\ length values = (length (fd_equity d) - 1)%nat /\ (0 < fp_sigma q -> forall i, (i < length (fd_equity d) - 1)%nat ->
    let k := Rmax 1 (nth i (fd_debt d) 0) in let m := nth i (fd_maturity d) 0 in let r := nth i (fd_rf d) 0 in let x := (fd_expected d - r * fd_interval d) * m in let a := nth i values 0 in
    0 < m -> 0 < a -> Rabs (cond_equity_value cdf a k r (fp_sigma q) m (fp_alpha q) (fp_beta q) x - nth i (fd_equity d) 0) <= sensitivity (fp_alpha q) (fp_beta q) (fp_sigma q) m x / 50).
Proof.
  intros N H. unfold fit in H. destruct (regress_firm_params (diff (map ln (fd_equity d))) _ _ _) as [p0|] eqn:E0; cbn [bind] in H; [|discriminate].
  destruct (c76_loop_converged H) as (n & q & Hk & HI & Hs & Hag & _). exists q. split; auto.
  unfold fit_step in Hs. destruct (mapM _ (rows d)) as [vals|] eqn:Ev; cbn [bind] in Hs; [|discriminate]. destruct (_ && _ && _) eqn:El; cbn [negb] in Hs; [|discriminate]. apply andb_prop in El. destruct El as [El El3]. apply andb_prop in El. destruct El as [El El2].
  destruct (regress_firm_params (zip_with _ _ _) _ _ _) as [p'|] eqn:Er; cbn [bind] in Hs; [|discriminate]. injection Hs as <- <- <-. apply Nat.eqb_eq in El. apply mapM_ok in Ev.
  assert (LR : length (rows d) = length vals) by now apply Forall2_length in Ev.
  split; [exact El|]. intros Hg i Hi k m r x a Hm Ha. assert (Hir : (i < length (rows d))%nat) by lia. pose proof (rows_val Hir) as HV.
  assert (HA : row_asset cdf scipy_newton q (nth i (rows d) (0, 0, 0, 0, 0)) = Ok a).
  { unfold a. clear - Ev Hir. revert i Hir. induction Ev as [|row v l l' Hv F IH]; intros [|i] Hi; cbn in *; try lia; auto. apply IH. lia. }
  rewrite HV in HA. exact (c150_firm_value N Hg Hm Ha HA).
Qed.
(** the default probability is that of an asset value which explains the equity value to the same precision *)
Theorem c150_predict cdf p e b m r mkt prob : is_normal_cdf cdf -> 0 < fp_sigma p -> 0 < m -> predict_default cdf scipy_newton p e b m r mkt = Ok prob ->
  exists a, prob = 1 - cdf (cond_d2 a (Rmax 1 b) r (fp_sigma p) m (fp_alpha p) (fp_beta p) (mkt - r * m)) /\
    (0 < a -> Rabs (cond_equity_value cdf a (Rmax 1 b) r (fp_sigma p) m (fp_alpha p) (fp_beta p) (mkt - r * m) - e) <= sensitivity (fp_alpha p) (fp_beta p) (fp_sigma p) m (mkt - r * m) / 50).
Proof.
  intros N Hg Hm H. unfold predict_default in H. destruct (implied_asset_price _ _ _ _) as [a|] eqn:E; cbn [bind] in H; [|discriminate]. injection H as <-. exists a. split; auto.
  intro Ha. apply search_error in E; auto. pose proof (Rmax_l 1 b). lra.
Qed.
(** without drift the search starts above the asset value: it ends above it too, and the default probability is understated *)
Lemma no_drift_pricing cdf s k r sigma T alpha beta x : alpha * T + beta * x = 0 -> cond_equity_value cdf s k r sigma T alpha beta x = cond_equity_value cdf s k r sigma T 0 0 0.
Proof.
  intro H. assert (E : cond_d1 s k r sigma T alpha beta x = cond_d1 s k r sigma T 0 0 0).
  { unfold cond_d1. f_equal. lra. }
  unfold cond_equity_value, cond_d2. now rewrite E.
Qed.
Theorem c150_no_drift cdf p s b m r mkt e : is_normal_cdf cdf -> 0 < fp_sigma p -> 0 < m -> 0 <= r -> 0 < s -> fp_alpha p * m + fp_beta p * (mkt - r * m) = 0 ->
  e = cond_equity_value cdf s (Rmax 1 b) r (fp_sigma p) m (fp_alpha p) (fp_beta p) (mkt - r * m) ->
  predict_default cdf scipy_newton p e b m r mkt = Err RuntimeError \/
  exists a, predict_default cdf scipy_newton p e b m r mkt = Ok (1 - cdf (cond_d2 a (Rmax 1 b) r (fp_sigma p) m (fp_alpha p) (fp_beta p) (mkt - r * m)))
    /\ s < a <= e + Rmax 1 b
    /\ 0 <= cond_equity_value cdf a (Rmax 1 b) r (fp_sigma p) m (fp_alpha p) (fp_beta p) (mkt - r * m) - e <= 1 / 100
    /\ 1 - cdf (cond_d2 a (Rmax 1 b) r (fp_sigma p) m (fp_alpha p) (fp_beta p) (mkt - r * m)) < 1 - cdf (cond_d2 s (Rmax 1 b) r (fp_sigma p) m (fp_alpha p) (fp_beta p) (mkt - r * m)).
Proof.
  intros N Hg Hm Hr Hs Hz ->. pose proof (sqrt_lt_R0 m Hm) as Hq. set (x := mkt - r * m) in *. set (k := Rmax 1 b). assert (Hk : 0 < k) by (pose proof (Rmax_l 1 b); unfold k; lra).
  set (al := fp_alpha p) in *. set (be := fp_beta p) in *. set (sg := fp_sigma p) in *.
  set (pricing := fun s' => cond_equity_value cdf s' k r sg m al be x).
  assert (HP : forall s', bsm_option_price cdf Call s' k r sg m None 0 false = Ok (pricing s')).
  { intro s'. unfold pricing. rewrite (no_drift_pricing _ _ _ _ _ Hz). unfold bsm_option_price, cond_equity_value, bsm_d2, cond_d2. f_equal. replace (cond_d1 s' k r sg m 0 0 0) with (bsm_d1 s' k r sg m 0).
    - rewrite Ropp_0, Rmult_0_l, exp_0. ring.
    - unfold bsm_d1, cond_d1. f_equal. ring. }
  assert (Hstart : s < pricing s + k).
  { destruct (@c72_bounds cdf s k r sg m None 0 false N Hs Hk Hg Hm (or_introl eq_refl)) as (c & pt & Ec & _ & Hc & _). rewrite HP in Ec. injection Ec as <-. cbn [net_spot carry] in Hc. rewrite Ropp_0, Rmult_0_l, exp_0 in Hc.
    pose proof (Rmax_r 0 (s * 1 - k * exp (- r * m))). assert (exp (- r * m) <= 1). { rewrite <- exp_0. destruct (Req_dec r 0) as [->|C]; [right; f_equal; ring|]. left. apply exp_increasing. nra. } nra. }
  unfold predict_default. fold k x al be sg. change (cond_equity_value cdf s k r sg m al be x) with (pricing s).
  destruct (@c150_asset_price cdf k r sg m 0 false pricing s (pricing s + k) N Hk Hg Hm HP ltac:(lra)) as [(E & _)|(a & E & Ha & Hlt & HV)]; unfold pricing at 1 in E; rewrite E; cbn [bind]; [now left|].
  right. exists a. split; auto. specialize (Hlt Hstart). split; [lra|]. split. { cbn [carry] in HV. rewrite Ropp_0, Rmult_0_l, exp_0 in HV. unfold pricing in HV |- *. lra. }
  assert (C : cdf (cond_d2 s k r sg m al be x) < cdf (cond_d2 a k r sg m al be x)); [|lra]. apply (normal_increasing N). unfold cond_d2, cond_d1. apply Rplus_lt_compat_r. unfold Rdiv. apply Rmult_lt_compat_r; [apply Rinv_0_lt_compat; now apply Rmult_lt_0_compat|].
  apply Rplus_lt_compat_r, Rplus_lt_compat_r. apply ln_increasing; [apply Rmult_lt_0_compat; auto; now apply Rinv_0_lt_compat|]. apply Rmult_lt_compat_r; [now apply Rinv_0_lt_compat|lra].
Qed.
(** a firm to which this applies *)
Example no_drift_firm : exists cdf p, is_normal_cdf cdf /\ 0 < fp_sigma p /\ fp_alpha p * 1 + fp_beta p * (1 / 20 - 1 / 50 * 1) = 0 /\ fp_beta p <> 0.
Proof.
  destruct normal_cdf_exists as (cdf & N). exists cdf, {| fp_alpha := - (3 / 100); fp_beta := 1; fp_sigma := 1 / 5 |}. cbn. split; auto. split; [lra|]. split; lra.
Qed.
Print Assumptions c150_firm_value.
Print Assumptions c150_fit.
Print Assumptions c150_predict.
Print Assumptions c150_no_drift.
