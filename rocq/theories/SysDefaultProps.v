(** C75, C76, C97-C99: default counts, the structural model's fit, its regression, its equity value and its default probability.
    All theorems use the axioms of the standard real numbers. *)
From Verif Require Import Py RNum Normal OptionModel OptionProofs SysDefaultModel SysDefaultProofs.
Set Implicit Arguments.
Unset Strict Implicit.
Open Scope R_scope.

(** ** C75 Number of defaults of independent firms *)
Fixpoint outcomes (n : nat) : list (list bool) := match n with O => [[]] | S n' => map (cons true) (outcomes n') ++ map (cons false) (outcomes n') end.
Fixpoint likelihood (ps : list R) (bs : list bool) : R := match ps, bs with p :: ps', b :: bs' => (if b then p else 1 - p) * likelihood ps' bs' | _, _ => 1 end.
Definition defaults (bs : list bool) : nat := count_occ Bool.bool_dec bs true.
(** [outcomes n] is every combination exactly once *)
Lemma outcomes_in n : forall bs, In bs (outcomes n) <-> length bs = n.
Proof.
  induction n as [|n IH]; intros bs; cbn [outcomes]. { split; [intros [<-|[]]; reflexivity|]. destruct bs; [now left|discriminate]. }
  rewrite in_app_iff, !in_map_iff. split.
  - intros [(x & <- & Hx)|(x & <- & Hx)]; apply IH in Hx; cbn; lia.
  - destruct bs as [|b bs]; [discriminate|]. intros [= H]. apply IH in H. destruct b; [left|right]; now exists bs.
Qed.
Lemma outcomes_nodup n : NoDup (outcomes n).
Proof.
  induction n as [|n IH]; cbn [outcomes]; [repeat constructor; easy|]. apply NoDup_app_intro.
  - apply FinFun.Injective_map_NoDup; auto. intros a b [= H]; auto.
  - apply FinFun.Injective_map_NoDup; auto. intros a b [= H]; auto.
  - intros x H1 H2. apply in_map_iff in H1, H2. destruct H1 as (y & <- & _), H2 as (z & H2 & _). discriminate.
Qed.
Lemma E_outcomes ps : forall g, E (map (fun p => [1 - p; p]) ps) g = rsum (map (fun bs => likelihood ps bs * g (defaults bs)) (outcomes (length ps))).
Proof.
  induction ps as [|p ps IH]; intros g. { cbn. ring. }
  cbn [map E W length outcomes]. rewrite !IH. rewrite map_app, rsum_app, !map_map.
  rewrite (@rsum_map_ext _ (fun bs => likelihood (p :: ps) (true :: bs) * g (defaults (true :: bs))) (fun bs => p * (likelihood ps bs * g (1 + defaults bs)%nat))) by (intros; unfold defaults; cbn; ring).
  rewrite (@rsum_map_ext _ (fun bs => likelihood (p :: ps) (false :: bs) * g (defaults (false :: bs))) (fun bs => (1 - p) * (likelihood ps bs * g (0 + defaults bs)%nat))) by (intros; unfold defaults; cbn; ring).
  rewrite !rsum_map_scale. ring.
Qed.
Lemma bernoulli_counts ps : ps <> [] -> exists v, get_default_count_probs (map (fun p => [1 - p; p]) ps) = Ok v /\ length v = S (length ps)
  /\ forall g, W v g = E (map (fun p => [1 - p; p]) ps) g.
Proof.
  intros Hne. set (vs := map (fun p => [1 - p; p]) ps). assert (Hv : nonempty_all vs) by (intros v Hv; apply in_map_iff in Hv; destruct Hv as (p & <- & _); discriminate).
  destruct (@merge_all_spec (length vs) vs Hv) as (v & Ev & HW & HL); [destruct ps; [congruence|discriminate]|lia|].
  exists v. unfold get_default_count_probs. rewrite Ev. split; auto. split; auto. rewrite HL. f_equal. unfold spare, vs. rewrite map_map. clear. induction ps as [|p ps IH]; [reflexivity|]. cbn [map length] in *. unfold list_sum in *. cbn [fold_right] in *. lia.
Qed.
Theorem c75_default_counts ps : ps <> [] -> exists v, get_default_count_probs (map (fun p => [1 - p; p]) ps) = Ok v /\ length v = S (length ps) /\
  forall m, nth m v 0 = rsum (map (likelihood ps) (filter (fun bs => (defaults bs =? m)%nat) (outcomes (length ps)))).
Proof.
  intros Hne. destruct (bernoulli_counts Hne) as (v & Ev & HL & HW). exists v. split; auto. split; auto. intros m.
  rewrite <- W_indicator, HW, E_outcomes. induction (outcomes (length ps)) as [|bs l IH]; cbn [map filter rsum]; auto. rewrite IH. destruct (defaults bs =? m)%nat; cbn [map rsum]; ring.
Qed.
Theorem c75_total ps v : get_default_count_probs (map (fun p => [1 - p; p]) ps) = Ok v -> rsum v = 1.
Proof.
  intros H. destruct ps as [|p0 ps0] eqn:Ep; [discriminate|]. rewrite <- Ep in *. assert (Hne : ps <> []) by (rewrite Ep; discriminate).
  destruct (bernoulli_counts Hne) as (v' & Ev & HL & HW). rewrite H in Ev. injection Ev as <-.
  assert (E1 : W v (fun _ => 1) = rsum v) by (clear; induction v as [|x v IH]; cbn; [reflexivity|]; rewrite IH; ring). rewrite <- E1, HW. clear.
  induction ps as [|p ps IH]; cbn; [reflexivity|]. rewrite IH. ring.
Qed.
Theorem c75_nonnegative ps v : (forall p, In p ps -> 0 <= p <= 1) -> get_default_count_probs (map (fun p => [1 - p; p]) ps) = Ok v -> forall x, In x v -> 0 <= x <= 1.
Proof.
  intros Hp H. assert (Hne : ps <> []) by (intros ->; discriminate). destruct (c75_default_counts Hne) as (v' & Ev & HL & Hn). rewrite H in Ev. injection Ev as <-.
  assert (Hpos : forall x, In x v -> 0 <= x).
  { intros x Hx. destruct (In_nth v x 0 Hx) as (m & _ & <-). rewrite Hn. apply rsum_nonneg. intros y Hy. apply in_map_iff in Hy. destruct Hy as (bs & <- & _).
    clear - Hp. revert bs. induction ps as [|p ps IH]; intros [|b bs]; cbn; try lra. assert (0 <= p <= 1) by (apply Hp; now left). apply Rmult_le_pos; [destruct b; lra|]. apply IH. intros q Hq. apply Hp. now right. }
  intros x Hx. split; auto. rewrite <- (c75_total H). now apply rsum_ge_elem.
Qed.
(** mean and variance of the count are those of a sum of independent indicators *)
Lemma E_moments ps : forall c, E (map (fun p => [1 - p; p]) ps) (fun t => INR t + c) = rsum ps + c /\
  E (map (fun p => [1 - p; p]) ps) (fun t => (INR t + c) * (INR t + c)) = rsum (map (fun p => p * (1 - p)) ps) + (rsum ps + c) * (rsum ps + c).
Proof.
  induction ps as [|p ps IH]; intros c. { cbn. split; ring. }
  cbn [map E W rsum]. destruct (IH c) as [A1 A2]. destruct (IH (c + 1)) as [B1 B2].
  rewrite (@E_ext _ (fun t => INR (0 + t) + c) (fun t => INR t + c)) by reflexivity. rewrite (@E_ext _ (fun t => INR (1 + t) + c) (fun t => INR t + (c + 1))) by (intros; rewrite plus_INR; cbn; ring).
  rewrite (@E_ext _ (fun t => (INR (0 + t) + c) * (INR (0 + t) + c)) (fun t => (INR t + c) * (INR t + c))) by reflexivity.
  rewrite (@E_ext _ (fun t => (INR (1 + t) + c) * (INR (1 + t) + c)) (fun t => (INR t + (c + 1)) * (INR t + (c + 1)))) by (intros; rewrite plus_INR; cbn; ring).
  rewrite A1, A2, B1, B2. split; ring.
Qed.
Theorem c75_mean_and_variance ps v : get_default_count_probs (map (fun p => [1 - p; p]) ps) = Ok v ->
  let mean := rsum (map (fun m => nth m v 0 * INR m) (seq 0 (length v))) in
  mean = rsum ps /\ rsum (map (fun m => nth m v 0 * (INR m - mean) * (INR m - mean)) (seq 0 (length v))) = rsum (map (fun p => p * (1 - p)) ps).
Proof.
  intros H mean. assert (Hne : ps <> []) by (intros ->; discriminate). destruct (bernoulli_counts Hne) as (v' & Ev & HL & HW). rewrite H in Ev. injection Ev as <-.
  assert (Hm : mean = rsum ps). { unfold mean. rewrite <- (W_seq v INR), HW. destruct (E_moments ps 0) as [M _]. rewrite (@E_ext _ (fun t => INR t + 0) INR) in M by (intros; ring). rewrite M. ring. }
  split; auto. rewrite (@rsum_map_ext _ _ (fun m => nth m v 0 * ((INR m + - mean) * (INR m + - mean)))) by (intros; ring).
  rewrite <- (W_seq v (fun m => (INR m + - mean) * (INR m + - mean))), HW. destruct (E_moments ps (- mean)) as [_ ->]. rewrite Hm. ring.
Qed.
Theorem c75_order_irrelevant ps qs : Permutation ps qs -> get_default_count_probs (map (fun p => [1 - p; p]) ps) = get_default_count_probs (map (fun p => [1 - p; p]) qs).
Proof.
  intros HP. destruct ps as [|p ps]. { apply Permutation_nil in HP. now subst. }
  assert (H1 : p :: ps <> []) by discriminate. assert (H2 : qs <> []) by (intros ->; apply Permutation_sym, Permutation_nil in HP; discriminate).
  destruct (bernoulli_counts H1) as (v & -> & L1 & W1). destruct (bernoulli_counts H2) as (w & -> & L2 & W2). f_equal. apply nth_ext with 0 0; [rewrite L1, L2; f_equal; now apply Permutation_length|].
  intros n _. rewrite <- !W_indicator, W1, W2. apply E_perm. now apply Permutation_map.
Qed.
Theorem c75_no_firms_raises : get_default_count_probs [] = Err IndexError. Proof. reflexivity. Qed.
Example c75_ex : get_default_count_probs (map (fun p => [1 - p; p]) [1 / 2; 1 / 2; 0]) = Ok [1 / 4; 1 / 2; 1 / 4; 0].
Proof.
  assert (H : [1 / 2; 1 / 2; 0] <> []) by discriminate. destruct (c75_default_counts H) as (v & -> & HL & Hn). f_equal. cbn in HL.
  destruct v as [|a [|b [|c [|d [|]]]]]; try discriminate. pose proof (Hn 0%nat) as E0. pose proof (Hn 1%nat) as E1. pose proof (Hn 2%nat) as E2. pose proof (Hn 3%nat) as E3.
  unfold defaults in *. cbn in E0, E1, E2, E3. subst. f_equal; [lra|]. f_equal; [lra|]. f_equal; [lra|]. f_equal; lra.
Qed.

(** ** C76 The fit loop *)
Definition agree (tol : R) (a b : firm_params) : Prop := Rabs (fp_alpha a - fp_alpha b) < tol /\ Rabs (fp_beta a - fp_beta b) < tol /\ Rabs (fp_sigma a - fp_sigma b) < tol.
Lemma approx_equal_agree a b tol : approx_equal a b tol = true <-> agree tol a b.
Proof. unfold approx_equal, agree, rltb. repeat destruct (Rlt_dec _ _); cbn; split; try easy; intros; try tauto; lra. Qed.
(** the sequence of parameter estimates, [k] steps from the first one *)
Inductive iterates (A : Type) (step : firm_params -> res (firm_params * A)) : nat -> firm_params -> firm_params -> Prop :=
| it_0 p : iterates step 0 p p
| it_S k p q r a : iterates step k p q -> step q = Ok (r, a) -> iterates step (S k) p r.
Lemma iterates_front A (step : firm_params -> res (firm_params * A)) k p q r a : step p = Ok (q, a) -> iterates step k q r -> iterates step (S k) p r.
Proof. intros H HI. revert H. induction HI as [q|k q q' r a' HI IH Hs]; intros H; [eapply it_S; [apply it_0|exact H]|eapply it_S; [apply IH; exact H|exact Hs]]. Qed.
(** a returned fit is the first iterate that agrees with its predecessor, reached within [n] steps; its other outputs come from that last step *)
Theorem c76_loop_converged A (step : firm_params -> res (firm_params * A)) tol n : forall p0 p out, fit_loop step tol n p0 = Ok (p, out) ->
  exists k q, (k < n)%nat /\ iterates step k p0 q /\ step q = Ok (p, out) /\ agree tol q p /\
    (forall i a b, (i < k)%nat -> iterates step i p0 a -> iterates step (S i) p0 b -> ~ agree tol a b).
Proof.
  assert (Hdet : forall i p a b, iterates step i p a -> iterates step i p b -> a = b).
  { intros i. induction i as [|i IH]; intros p a b Ha Hb; inversion Ha; inversion Hb; subst; auto. match goal with H1 : iterates step i p ?x, H2 : iterates step i p ?y |- _ => assert (x = y) by (eapply IH; eauto); subst end. congruence. }
  induction n as [|n IH]; intros p0 p out H; cbn in H; [discriminate|]. destruct (step p0) as [[q o]|e] eqn:Es; cbn in H; [|discriminate].
  destruct (approx_equal p0 q tol) eqn:Ea.
  - injection H as -> ->. exists 0%nat, p0. split; [lia|]. split; [constructor|]. split; auto. split; [now apply approx_equal_agree|]. intros i a b Hi. lia.
  - destruct (IH q p out H) as (k & r & Hk & HI & Hs & Hag & Hno). exists (S k), r. split; [lia|]. split; [eapply iterates_front; eauto|]. split; auto. split; auto.
    intros i a b Hi Ha Hb Hagr. destruct i as [|i].
    + inversion Ha; subst. inversion Hb as [|k' p' q' r' a' H0 H1]; subst. inversion H0; subst. rewrite Es in H1. injection H1 as -> ->. apply approx_equal_agree in Hagr. congruence.
    + assert (Hshift : forall j x, iterates step (S j) p0 x -> iterates step j q x).
      { intros j. induction j as [|j IHj]; intros x Hx; inversion Hx as [|k' p' q' r' a' H0 H1]; subst.
        - inversion H0; subst. rewrite Es in H1. injection H1 as -> ->. constructor.
        - eapply it_S; [apply IHj; exact H0|exact H1]. }
      apply (Hno i a b); auto. lia.
Qed.
(** it raises "failed to converge" exactly when none of the first [n] steps agrees (and none raises) *)
Theorem c76_loop_gives_up A (step : firm_params -> res (firm_params * A)) tol n p0 : (forall p, step p <> Err RuntimeError) ->
  (fit_loop step tol n p0 = Err RuntimeError <->
   (exists p, iterates step n p0 p) /\ (forall i a b, (i < n)%nat -> iterates step i p0 a -> iterates step (S i) p0 b -> ~ agree tol a b)).
Proof.
  intros Hstep. revert p0. induction n as [|n IH]; intros p0; cbn [fit_loop].
  - split; auto. intros _. split; [exists p0; constructor|]. intros i a b Hi. lia.
  - assert (Hshift : forall j q o x, step p0 = Ok (q, o) -> iterates step (S j) p0 x -> iterates step j q x).
    { intros j q o. induction j as [|j IHj]; intros x Hq Hx; inversion Hx as [|k' p' q' r' a' H0 H1]; subst.
      - inversion H0; subst. rewrite Hq in H1. injection H1 as -> ->. constructor.
      - eapply it_S; [apply IHj; [exact Hq|exact H0]|exact H1]. }
    assert (H1st : forall j x, iterates step (S j) p0 x -> exists q o, step p0 = Ok (q, o)).
    { intros j. induction j as [|j IHj]; intros x Hx; inversion Hx as [|k' p' q' r' a' H0 H1]; subst; [inversion H0; subst; eauto|eapply IHj; exact H0]. }
    destruct (step p0) as [[q o]|e] eqn:Es; cbn [bind fst].
    + destruct (approx_equal p0 q tol) eqn:Ea.
      * split; [discriminate|]. intros [_ Hno]. exfalso. apply (Hno 0%nat p0 q); [lia|constructor|eapply it_S; [constructor|exact Es]|now apply approx_equal_agree].
      * rewrite IH. split.
        -- intros [(p & Hp) Hno]. split; [exists p; eapply iterates_front; eauto|]. intros [|i] a b Hi Ha Hb Hag.
           ++ inversion Ha; subst. apply (Hshift _ _ _ _ eq_refl) in Hb. inversion Hb; subst. apply approx_equal_agree in Hag. congruence.
           ++ apply (Hno i a b); [lia|eapply Hshift; eauto|eapply Hshift; eauto|exact Hag].
        -- intros [(p & Hp) Hno]. split; [exists p; eapply Hshift; eauto|]. intros i a b Hi Ha Hb. apply (Hno (S i) a b); [lia|eapply iterates_front; eauto|eapply iterates_front; eauto].
    + split.
      * intros [= ->]. exfalso. now apply (Hstep p0).
      * intros [(p & Hp) _]. destruct (H1st _ _ Hp) as (q & o & Hq). congruence.
Qed.
(** the firm's fit: converged parameters, with asset values that explain the equity values under the last but one parameters *)
Theorem c76_fit_converges_or_raises cdf newton d tol maxiter p rets values : fit cdf newton d tol maxiter = Ok (p, (rets, values)) ->
  exists p0 k q, regress_firm_params (diff (map ln (fd_equity d))) (fd_market d) (fd_rf d) (fd_interval d) = Ok p0 /\ (k < maxiter)%nat /\
    iterates (fit_step cdf newton d) k p0 q /\ agree tol q p /\ regress_firm_params rets (fd_market d) (fd_rf d) (fd_interval d) = Ok p /\
    Forall2 (fun row a => row_asset cdf newton q row = Ok a) (rows d) values /\ length values = (length (fd_equity d) - 1)%nat /\
    length (fd_debt d) = length (fd_equity d) /\ length (fd_maturity d) = length (fd_equity d).
Proof.
  unfold fit. intros H. destruct (regress_firm_params (diff (map ln (fd_equity d))) _ _ _) as [p0|] eqn:E0; cbn [bind] in H; [|discriminate].
  destruct (c76_loop_converged H) as (k & q & Hk & HI & Hs & Hag & _). exists p0, k, q. split; auto. split; auto. split; auto. split; auto.
  unfold fit_step in Hs. destruct (mapM _ (rows d)) as [vals|] eqn:Ev; cbn [bind] in Hs; [|discriminate]. destruct (_ && _ && _) eqn:El; cbn [negb] in Hs; [|discriminate]. apply andb_prop in El. destruct El as [El El3]. apply andb_prop in El. destruct El as [El El2].
  destruct (regress_firm_params (zip_with _ _ _) _ _ _) as [p'|] eqn:Er; cbn [bind] in Hs; [|discriminate]. injection Hs as <- <- <-.
  split; [exact Er|]. split; [apply mapM_ok in Ev; exact Ev|]. split; [now apply Nat.eqb_eq|]. split; now apply Nat.eqb_eq.
Qed.
(** what a row of the fit is: the asset value at which Merton's equity value, with the debt floored at 1 as strike, is the observed equity *)
Theorem c76_asset_values_explain_equity cdf newton q e b m r x a : (forall f y z, newton f y = Ok z -> f z = 0) -> row_asset cdf newton q (e, b, m, r, x) = Ok a ->
  cond_equity_value cdf a (Rmax 1 b) r (fp_sigma q) m (fp_alpha q) (fp_beta q) (x * m) = e.
Proof. intros Hn H. cbn in H. apply Hn in H. lra. Qed.
Theorem c76_no_iterations_raises cdf newton d tol : forall r, fit cdf newton d tol 0 <> Ok r.
Proof. intros r. unfold fit. destruct (regress_firm_params _ _ _ _); cbn; discriminate. Qed.
Example c76_ex : exists q, fit_loop (fun p => Ok ({| fp_alpha := fp_alpha p / 2; fp_beta := 0; fp_sigma := 1 |}, tt)) (3 / 10) 5 {| fp_alpha := 1; fp_beta := 0; fp_sigma := 1 |} = Ok (q, tt) /\ fp_alpha q = 1 / 4.
Proof.
  eexists. split.
  - cbn [fit_loop bind fst]. unfold approx_equal, rltb. cbn [fp_alpha fp_beta fp_sigma].
    replace (1 - 1 / 2) with (/ 2) by field. rewrite (Rabs_right (/ 2)) by lra. destruct (Rlt_dec (/ 2) (3 / 10)); [lra|]. cbn [andb].
    replace (1 / 2 - 1 / 2 / 2) with (/ 4) by field. rewrite (Rabs_right (/ 4)) by lra. destruct (Rlt_dec (/ 4) (3 / 10)); [|lra].
    replace (0 - 0) with 0 by ring. replace (1 - 1) with 0 by ring. rewrite Rabs_R0. destruct (Rlt_dec 0 (3 / 10)); [|lra]. cbn [andb]. reflexivity.
  - cbn. field.
Qed.

(** ** C97 The conditional equity value *)
(** REFUTED as a call value: for a large enough alpha it is negative at some asset value, whatever the debt, rate, volatility and maturity, because the
    drift shifts d1 and d2 without growing the asset *)
Theorem c97_equity_value_negative_refuted cdf k r sigma T beta x : is_normal_cdf cdf -> 0 < k -> 0 < sigma -> 0 < T ->
  exists alpha s0, 0 < s0 /\ cond_equity_value cdf s0 k r sigma T alpha beta x < 0.
Proof.
  intros N Hk Hg HT. pose proof (sqrt_lt_R0 T HT) as Hq. set (s := sigma * sqrt T). assert (Hs : 0 < s) by now apply Rmult_lt_0_compat.
  set (h := cdf (- s)). assert (Hh : 0 < h) by apply (nc_pos N). set (delta := - (s * s / 2) - ln h).
  exists ((delta - beta * x) / T), (k * exp (- r * T) * h). pose proof (exp_pos (- r * T)) as He. assert (H0 : 0 < k * exp (- r * T) * h) by (repeat apply Rmult_lt_0_compat; auto). split; auto.
  assert (ET : sqrt T * sqrt T = T) by (apply sqrt_sqrt; lra).
  assert (E1 : cond_d1 (k * exp (- r * T) * h) k r sigma T ((delta - beta * x) / T) beta x = 0).
  { unfold cond_d1. replace (k * exp (- r * T) * h / k) with (exp (- r * T) * h) by (field; lra). rewrite ln_mult, ln_exp by auto.
    replace ((r + (delta - beta * x) / T + sigma * sigma / 2) * T) with (r * T + delta - beta * x + (sigma * sigma) * T / 2) by (field; lra). rewrite <- ET at 3.
    unfold delta, s. replace (- r * T + ln h + (r * T + (- (sigma * sqrt T * (sigma * sqrt T) / 2) - ln h) - beta * x + sigma * sigma * (sqrt T * sqrt T) / 2) + beta * x) with 0 by field. unfold Rdiv. ring. }
  unfold cond_equity_value, cond_d2. rewrite E1. rewrite Rminus_0_l. fold s. fold h. rewrite (normal_half N). assert (0 < k * exp (- r * T)) by now apply Rmult_lt_0_compat. nra.
Qed.
(** when the expected drift over the maturity (alpha T + beta x) is not positive, it is positive, below the asset value and increasing in it *)
Lemma cond_as_bs cdf s0 k r sigma T alpha beta x : 0 < s0 -> 0 < k -> 0 < sigma -> 0 < T ->
  cond_d1 s0 k r sigma T alpha beta x = bsD (s0 * exp (alpha * T + beta * x)) (k * exp (- r * T)) (sigma * sqrt T) /\
  cond_equity_value cdf s0 k r sigma T alpha beta x =
    bs cdf (s0 * exp (alpha * T + beta * x)) (k * exp (- r * T)) (sigma * sqrt T) + s0 * (1 - exp (alpha * T + beta * x)) * cdf (bsD (s0 * exp (alpha * T + beta * x)) (k * exp (- r * T)) (sigma * sqrt T)).
Proof.
  intros Hs Hk Hg HT. pose proof (sqrt_lt_R0 T HT) as Hq.
  assert (E1 : cond_d1 s0 k r sigma T alpha beta x = bsD (s0 * exp (alpha * T + beta * x)) (k * exp (- r * T)) (sigma * sqrt T)).
  { unfold cond_d1, bsD. rewrite !ln_mult by (auto; apply exp_pos). rewrite !ln_exp. unfold Rdiv at 1. unfold Rdiv at 1. rewrite ln_mult, ln_Rinv by (auto; now apply Rinv_0_lt_compat).
    assert (ET : T = sqrt T * sqrt T) by (symmetry; apply sqrt_sqrt; lra). set (w := sqrt T) in *. clearbody w. subst T. field. lra. }
  split; auto. unfold cond_equity_value, cond_d2, bs. rewrite !E1. ring.
Qed.
Theorem c97_equity_value_under_guard cdf s0 k r sigma T alpha beta x : is_normal_cdf cdf -> 0 < s0 -> 0 < k -> 0 < sigma -> 0 < T -> alpha * T + beta * x <= 0 ->
  0 < cond_equity_value cdf s0 k r sigma T alpha beta x < s0.
Proof.
  intros N Hs Hk Hg HT Hdrift. pose proof (sqrt_lt_R0 T HT) as Hq. assert (Hv : 0 < sigma * sqrt T) by now apply Rmult_lt_0_compat.
  destruct (@cond_as_bs cdf s0 k r sigma T alpha beta x Hs Hk Hg HT) as [E1 E2]. rewrite E2. set (g := exp (alpha * T + beta * x)) in *. set (B := k * exp (- r * T)) in *.
  assert (Hg0 : 0 < g) by apply exp_pos. assert (Hg1 : g <= 1) by (unfold g; rewrite <- exp_0; destruct Hdrift as [H|H]; [left; now apply exp_increasing|rewrite H; lra]).
  assert (HA : 0 < s0 * g) by now apply Rmult_lt_0_compat. assert (HB : 0 < B) by (apply Rmult_lt_0_compat; auto; apply exp_pos).
  pose proof (bs_positive N HA HB Hv). pose proof (@bs_lt_spot cdf N (s0 * g) B (sigma * sqrt T) HA HB). set (D := bsD (s0 * g) B (sigma * sqrt T)).
  pose proof (nc_pos N D). pose proof (normal_lt_1 N D). assert (0 <= s0 * (1 - g)) by (apply Rmult_le_pos; lra). split; nra.
Qed.
Theorem c97_equity_value_increasing cdf a b k r sigma T alpha beta x : is_normal_cdf cdf -> 0 < a -> a < b -> 0 < k -> 0 < sigma -> 0 < T -> alpha * T + beta * x <= 0 ->
  cond_equity_value cdf a k r sigma T alpha beta x < cond_equity_value cdf b k r sigma T alpha beta x.
Proof.
  intros N Ha Hab Hk Hg HT Hdrift. pose proof (sqrt_lt_R0 T HT) as Hq. assert (Hv : 0 < sigma * sqrt T) by now apply Rmult_lt_0_compat.
  destruct (@cond_as_bs cdf a k r sigma T alpha beta x Ha Hk Hg HT) as [_ ->]. destruct (@cond_as_bs cdf b k r sigma T alpha beta x ltac:(lra) Hk Hg HT) as [_ ->].
  set (g := exp (alpha * T + beta * x)) in *. set (B := k * exp (- r * T)) in *.
  assert (Hg0 : 0 < g) by apply exp_pos. assert (Hg1 : g <= 1) by (unfold g; rewrite <- exp_0; destruct Hdrift as [H|H]; [left; now apply exp_increasing|rewrite H; lra]).
  assert (HB : 0 < B) by (apply Rmult_lt_0_compat; auto; apply exp_pos). assert (HA : 0 < a * g) by now apply Rmult_lt_0_compat. assert (HAB : a * g < b * g) by now apply Rmult_lt_compat_r.
  pose proof (bs_spot_increasing N HA HAB HB Hv). assert (Hc : cdf (bsD (a * g) B (sigma * sqrt T)) <= cdf (bsD (b * g) B (sigma * sqrt T))) by (apply (normal_increasing_le N), bsD_mono; lra).
  pose proof (nc_pos N (bsD (a * g) B (sigma * sqrt T))).
  assert (a * (1 - g) * cdf (bsD (a * g) B (sigma * sqrt T)) <= b * (1 - g) * cdf (bsD (b * g) B (sigma * sqrt T))).
  { apply Rmult_le_compat; try lra; [apply Rmult_le_pos; lra|apply Rmult_le_compat_r; lra]. }
  lra.
Qed.
(** so under the same condition the asset value found for an equity value is the only one *)
Theorem c97_asset_value_unique cdf newton k r sigma T alpha beta x s0 x0 a : is_normal_cdf cdf -> 0 < k -> 0 < sigma -> 0 < T -> alpha * T + beta * x <= 0 ->
  (forall f y z, newton f y = Ok z -> f z = 0) -> 0 < s0 -> 0 < a ->
  implied_asset_price newton (fun s => cond_equity_value cdf s k r sigma T alpha beta x) (cond_equity_value cdf s0 k r sigma T alpha beta x) x0 = Ok a -> a = s0.
Proof.
  intros N Hk Hg HT Hdrift Hn Hs Ha H. apply Hn in H. destruct (Rtotal_order a s0) as [L|[L|L]]; auto; exfalso.
  - pose proof (@c97_equity_value_increasing cdf a s0 k r sigma T alpha beta x N Ha L Hk Hg HT Hdrift). lra.
  - pose proof (@c97_equity_value_increasing cdf s0 a k r sigma T alpha beta x N Hs L Hk Hg HT Hdrift). lra.
Qed.
(** without drift it is the Black-Scholes call *)
Theorem c97_no_drift_is_bsm cdf s0 k r sigma T : 0 < s0 -> 0 < k -> 0 < sigma -> 0 < T -> bsm_option_price cdf Call s0 k r sigma T None 0 false = Ok (cond_equity_value cdf s0 k r sigma T 0 0 0).
Proof.
  intros _ _ _ _. unfold bsm_option_price, cond_equity_value, bsm_d2, cond_d2. f_equal. replace (cond_d1 s0 k r sigma T 0 0 0) with (bsm_d1 s0 k r sigma T 0).
  - rewrite Ropp_0, Rmult_0_l, exp_0. ring.
  - unfold bsm_d1, cond_d1. f_equal. ring.
Qed.

(** ** C98 The factor regression *)
Lemma regress_eq A (l : list A) (fa fm fr : A -> R) dt : l <> [] ->
  let fy := fun a => fa a - fr a * dt in let fx := fun a => fm a - fr a * dt in
  let mx := rmean (map fx l) in let my := rmean (map fy l) in let sxx := rsum (map (fun a => (fx a - mx) * (fx a - mx)) l) in
  let b := rsum (map (fun a => (fy a - my) * (fx a - mx)) l) / sxx in let c := my - b * mx in
  sxx <> 0 ->
  regress_firm_params (map fa l) (map fm l) (map fr l) dt =
  Ok (let sg := pstd (map (fun a => fy a - (c + b * fx a)) l) / sqrt dt in {| fp_alpha := c / dt + sg * sg / 2; fp_beta := b; fp_sigma := sg |}).
Proof.
  intros Hl fy fx mx my sxx b c Hs. unfold regress_firm_params. rewrite !map_length, !Nat.eqb_refl. replace (length l =? 0)%nat with false by (destruct l; [congruence|reflexivity]). cbn [negb andb orb].
  rewrite !zip_with_map. unfold ols, ols_beta. rewrite zip_with_map, !map_map. fold fy fx my mx.
  change (rsum (map (fun x : A => (fm x - fr x * dt - mx) * (fm x - fr x * dt - mx)) l)) with sxx. destruct (Req_EM_T sxx 0); [contradiction|]. cbn [bind].
  rewrite zip_with_map. reflexivity.
Qed.
(** the coefficients minimise the squared errors of excess returns, intercept const = (alpha - sigma^2/2) dt *)
Theorem c98_least_squares A (l : list A) (fa fm fr : A -> R) dt p a' b' : l <> [] -> dt <> 0 ->
  regress_firm_params (map fa l) (map fm l) (map fr l) dt = Ok p ->
  let err := fun c b a => (fa a - fr a * dt) - (c + b * (fm a - fr a * dt)) in
  let c := (fp_alpha p - fp_sigma p * fp_sigma p / 2) * dt in
  rsum (map (fun a => err c (fp_beta p) a * err c (fp_beta p) a) l) <= rsum (map (fun a => err a' b' a * err a' b' a) l).
Proof.
  intros Hl Hdt H. set (fy := fun a => fa a - fr a * dt). set (fx := fun a => fm a - fr a * dt). set (mx := rmean (map fx l)). set (my := rmean (map fy l)).
  set (sxx := rsum (map (fun a => (fx a - mx) * (fx a - mx)) l)). destruct (Req_EM_T sxx 0) as [E0|E0].
  - unfold regress_firm_params in H. rewrite !map_length, !Nat.eqb_refl in H. replace (length l =? 0)%nat with false in H by (destruct l; [congruence|reflexivity]). cbn [negb andb orb] in H.
    rewrite !zip_with_map in H. unfold ols in H. rewrite !map_map in H. fold fx in H. fold mx in H. change (rsum (map (fun x : A => (fm x - fr x * dt - mx) * (fm x - fr x * dt - mx)) l)) with sxx in H. destruct (Req_EM_T sxx 0); [|contradiction].
    destruct (Req_EM_T mx 0) as [Em|]; [|discriminate]. cbn [bind] in H. injection H as <-. cbn [fp_alpha fp_beta fp_sigma]. fold fy. fold my.
    set (sg := pstd _ / sqrt dt). cbv zeta. replace ((my / dt + sg * sg / 2 - sg * sg / 2) * dt) with my by (field; exact Hdt).
    assert (Hx0 : forall a, In a l -> fx a = 0).
    { intros a Ha. assert (Hz : (fx a - mx) * (fx a - mx) = 0).
      { apply (@rsum_zero_all (map (fun a => (fx a - mx) * (fx a - mx)) l)); [intros y Hy; apply in_map_iff in Hy; destruct Hy as (z & <- & _); apply Rle_0_sqr|exact E0|]. apply in_map_iff. now exists a. }
      apply Rmult_integral in Hz. rewrite Em in Hz. lra. }
    apply (@sse_split _ fy fx l (fun a => fy a - my) my 0 a' b').
    + intros a Ha. ring.
    + exact (@sum_centered A fy fx l Hl fy).
    + apply rsum_map_0. intros a Ha. rewrite (Hx0 a Ha). ring.
  - set (b := rsum (map (fun a => (fy a - my) * (fx a - mx)) l) / sxx).
    assert (HE : regress_firm_params (map fa l) (map fm l) (map fr l) dt = Ok (let sg := pstd (map (fun a => fy a - (my - b * mx + b * fx a)) l) / sqrt dt in {| fp_alpha := (my - b * mx) / dt + sg * sg / 2; fp_beta := b; fp_sigma := sg |})) by exact (@regress_eq A l fa fm fr dt Hl E0).
    rewrite HE in H. injection H as <-. cbn [fp_alpha fp_beta fp_sigma]. set (sg := pstd _ / sqrt dt). cbv zeta. replace (((my - b * mx) / dt + sg * sg / 2 - sg * sg / 2) * dt) with (my - b * mx) by (field; exact Hdt).
    apply (@sse_split _ fy fx l (fun a => fy a - (my - b * mx + b * fx a)) (my - b * mx) b a' b').
    + reflexivity.
    + exact (@ols_resid_sum A fy fx l Hl).
    + exact (@ols_resid_orth A fy fx l Hl E0).
Qed.
(** data generated by the factor model with centred noise uncorrelated with the market gives back the model's parameters *)
Theorem c98_recovers_parameters A (l : list A) (fm fr eps : A -> R) dt alpha beta sigma : l <> [] -> 0 < dt -> 0 <= sigma ->
  rsum (map eps l) = 0 -> rsum (map (fun a => eps a * (fm a - fr a * dt)) l) = 0 -> rsum (map (fun a => eps a * eps a) l) = INR (length l) * (sigma * sigma * dt) ->
  (exists a b, In a l /\ In b l /\ fm a - fr a * dt <> fm b - fr b * dt) ->
  regress_firm_params (map (fun a => fr a * dt + (alpha - sigma * sigma / 2) * dt + beta * (fm a - fr a * dt) + eps a) l) (map fm l) (map fr l) dt =
  Ok {| fp_alpha := alpha; fp_beta := beta; fp_sigma := sigma |}.
Proof.
  intros Hl Hdt Hsg H1 H2 H3 (a0 & b0 & Ha0 & Hb0 & Hne). set (fx := fun a => fm a - fr a * dt) in *. set (c0 := (alpha - sigma * sigma / 2) * dt).
  set (fa := fun a => fr a * dt + c0 + beta * fx a + eps a). set (fy := fun a => fa a - fr a * dt). set (mx := rmean (map fx l)). set (my := rmean (map fy l)).
  assert (Hn : INR (length l) <> 0) by (apply not_0_INR; destruct l; [congruence|discriminate]).
  set (sxx := rsum (map (fun a => (fx a - mx) * (fx a - mx)) l)).
  assert (Hs : sxx <> 0).
  { intros E0. apply Hne. assert (Hz : forall a, In a l -> fx a = mx).
    { intros a Ha. assert (Hz : (fx a - mx) * (fx a - mx) = 0).
      { apply (@rsum_zero_all (map (fun a => (fx a - mx) * (fx a - mx)) l)); [intros y Hy; apply in_map_iff in Hy; destruct Hy as (z & <- & _); apply Rle_0_sqr|exact E0|]. apply in_map_iff. now exists a. }
      apply Rmult_integral in Hz. lra. }
    change (fx a0 = fx b0). rewrite !Hz by assumption. reflexivity. }
  assert (Emy : my = c0 + beta * mx).
  { unfold my, mx, rmean. rewrite !map_length. rewrite (@rsum_map_ext _ fy (fun a => (c0 + beta * fx a) + eps a)) by (intros; unfold fy, fa; ring).
    rewrite (@rsum_map_add _ (fun a => c0 + beta * fx a) eps), (@rsum_map_add _ (fun _ => c0) (fun a => beta * fx a)), rsum_map_scale, rsum_map_const, H1. field. exact Hn. }
  assert (Eb : rsum (map (fun a => (fy a - my) * (fx a - mx)) l) / sxx = beta).
  { rewrite (@rsum_map_ext _ _ (fun a => beta * ((fx a - mx) * (fx a - mx)) + (eps a * fx a - mx * eps a))) by (intros; unfold fy, fa; rewrite Emy; ring).
    rewrite (@rsum_map_add _ (fun a => beta * ((fx a - mx) * (fx a - mx))) (fun a => eps a * fx a - mx * eps a)), rsum_map_scale, (@rsum_map_sub _ (fun a => eps a * fx a) (fun a => mx * eps a)), rsum_map_scale, H1.
    assert (H2' : rsum (map (fun a => eps a * fx a) l) = 0) by exact H2. rewrite H2'. fold sxx. field. exact Hs. }
  change (regress_firm_params (map fa l) (map fm l) (map fr l) dt = Ok {| fp_alpha := alpha; fp_beta := beta; fp_sigma := sigma |}).
  assert (HE : regress_firm_params (map fa l) (map fm l) (map fr l) dt = Ok (let sg := pstd (map (fun a => fy a - (my - (rsum (map (fun a => (fy a - my) * (fx a - mx)) l) / sxx) * mx + (rsum (map (fun a => (fy a - my) * (fx a - mx)) l) / sxx) * fx a)) l) / sqrt dt in
    {| fp_alpha := (my - (rsum (map (fun a => (fy a - my) * (fx a - mx)) l) / sxx) * mx) / dt + sg * sg / 2; fp_beta := (rsum (map (fun a => (fy a - my) * (fx a - mx)) l) / sxx); fp_sigma := sg |})) by exact (@regress_eq A l fa fm fr dt Hl Hs).
  rewrite HE, Eb. replace (my - beta * mx) with c0 by (rewrite Emy; ring).
  rewrite (@map_ext_in _ _ (fun a => fy a - (c0 + beta * fx a)) eps) by (intros; unfold fy, fa; ring).
  assert (Ep : pstd (map eps l) = sigma * sqrt dt).
  { unfold pstd, rmean. rewrite !map_length, map_map, H1. unfold Rdiv. rewrite Rmult_0_l. rewrite (@rsum_map_ext _ _ (fun a => eps a * eps a)) by (intros; ring). rewrite H3.
    replace (INR (length l) * (sigma * sigma * dt) * / INR (length l)) with (sigma * sigma * dt) by (field; exact Hn). rewrite sqrt_mult by (try lra; apply Rle_0_sqr). rewrite sqrt_square by exact Hsg. reflexivity. }
  rewrite Ep. cbv zeta. pose proof (sqrt_lt_R0 dt Hdt) as Hq. replace (sigma * sqrt dt / sqrt dt) with sigma by (field; lra). f_equal. f_equal. unfold c0. field. lra.
Qed.
Theorem c98_constant_market_raises A (l : list A) (fa fm fr : A -> R) dt c : l <> [] -> c <> 0 -> (forall a, In a l -> fm a - fr a * dt = c) ->
  regress_firm_params (map fa l) (map fm l) (map fr l) dt = Err IndexError.
Proof.
  intros Hl Hc Hx. unfold regress_firm_params. rewrite !map_length, !Nat.eqb_refl. replace (length l =? 0)%nat with false by (destruct l; [congruence|reflexivity]). cbn [negb andb orb].
  rewrite !zip_with_map. unfold ols. assert (Em : rmean (map (fun a => fm a - fr a * dt) l) = c) by (rewrite (@rmean_map_ext _ _ (fun _ => c)) by exact Hx; now apply rmean_map_const).
  rewrite !map_map, Em. rewrite (@rsum_map_0 A) by (intros a Ha; rewrite (Hx a Ha); ring). destruct (Req_EM_T 0 0); [|congruence]. destruct (Req_EM_T c 0); [contradiction|reflexivity].
Qed.
Theorem c98_unusable_series rets market rf dt : rets = [] \/ length rets <> length rf \/ length market <> length rf -> regress_firm_params rets market rf dt = Err ValueError.
Proof.
  intro H. unfold regress_firm_params. destruct (Nat.eqb_spec (length rets) (length rf)) as [E1|E1]; [|reflexivity].
  destruct (Nat.eqb_spec (length market) (length rf)) as [E2|E2]; [|reflexivity]. destruct H as [->|[H|H]]; [reflexivity| |]; contradiction.
Qed.
Print Assumptions c98_unusable_series.
Theorem c98_sigma_nonnegative rets market rf dt p : regress_firm_params rets market rf dt = Ok p -> 0 < dt -> 0 <= fp_sigma p.
Proof.
  unfold regress_firm_params. destruct (_ || _); [discriminate|]. destruct (ols _ _) as [[c b]|]; cbn [bind]; [|discriminate]. intros [= <-] Hdt. cbn [fp_sigma].
  apply Rmult_le_pos; [apply sqrt_pos|left; apply Rinv_0_lt_compat; now apply sqrt_lt_R0].
Qed.
Example c98_ex : regress_firm_params (map (fun a => 0 * 1 + (1 / 2 - 1 * 1 / 2) * 1 + 2 * (fst a - 0 * 1) + snd a) [(1, 1); (1, -1); (-1, 1); (-1, -1)]) (map fst [(1, 1); (1, -1); (-1, 1); (-1, -1)]) (map (fun _ => 0) [(1, 1); (1, -1); (-1, 1); (-1, -1)]) 1
  = Ok {| fp_alpha := 1 / 2; fp_beta := 2; fp_sigma := 1 |}.
Proof. apply c98_recovers_parameters; try discriminate; try lra; try (cbn; ring). exists (1, 1), (-1, 1). cbn. repeat split; auto. lra. Qed.

(** ** C99 The default probability *)
Theorem c99_is_probability cdf newton p e b m r mk pr : is_normal_cdf cdf -> predict_default cdf newton p e b m r mk = Ok pr -> 0 < pr < 1.
Proof.
  intros N. unfold predict_default. destruct (implied_asset_price _ _ _ _) as [a|]; cbn [bind]; [|discriminate]. intros [= <-].
  match goal with |- 0 < 1 - cdf ?z < 1 => pose proof (nc_pos N z); pose proof (normal_lt_1 N z) end. lra.
Qed.
(** it is the model probability that the asset, lognormal with drift r + alpha - sigma^2/2 and shift beta x, ends below the debt:
    cdf of the standardised distance, at the asset value found for the equity *)
Theorem c99_default_event cdf newton p e b m r mk pr : is_normal_cdf cdf -> 0 < m -> 0 < fp_sigma p -> predict_default cdf newton p e b m r mk = Ok pr ->
  exists a, implied_asset_price newton (fun s0 => cond_equity_value cdf s0 (Rmax 1 b) r (fp_sigma p) m (fp_alpha p) (fp_beta p) (mk - r * m)) e (e + Rmax 1 b) = Ok a /\
   (0 < a -> pr = cdf ((ln (Rmax 1 b) - (ln a + (r + fp_alpha p - fp_sigma p * fp_sigma p / 2) * m + fp_beta p * (mk - r * m))) / (fp_sigma p * sqrt m))).
Proof.
  intros N Hm Hsg. unfold predict_default. destruct (implied_asset_price _ _ _ _) as [a|] eqn:Ea; cbn [bind]; [|discriminate]. intros [= <-]. exists a. split; auto. intros Ha.
  rewrite <- (nc_symmetry N). f_equal. unfold cond_d2, cond_d1. pose proof (Rmax_l 1 b). set (K := Rmax 1 b) in *. pose proof (sqrt_lt_R0 m Hm).
  unfold Rdiv at 2. rewrite ln_mult, ln_Rinv by (try apply Rinv_0_lt_compat; lra). assert (Em : m = sqrt m * sqrt m) by (symmetry; apply sqrt_sqrt; lra). set (w := sqrt m) in *. clearbody w. subst m. field. lra.
Qed.
(** more assets, less default; more debt, more default (for given parameters) *)
Theorem c99_monotone cdf a1 a2 k1 k2 r sigma m alpha beta x : is_normal_cdf cdf -> 0 < sigma -> 0 < m -> 0 < a1 -> 0 < k1 -> a1 <= a2 -> k2 <= k1 -> 0 < k2 -> a1 < a2 \/ k2 < k1 ->
  1 - cdf (cond_d2 a2 k2 r sigma m alpha beta x) < 1 - cdf (cond_d2 a1 k1 r sigma m alpha beta x).
Proof.
  intros N Hs Hm Ha Hk Hle1 Hle2 Hk2 Hlt. pose proof (sqrt_lt_R0 m Hm). assert (Hv : 0 < sigma * sqrt m) by now apply Rmult_lt_0_compat.
  assert (Hln : ln (a1 / k1) < ln (a2 / k2)).
  { apply ln_increasing; [now apply Rdiv_lt_0_compat|]. apply Rmult_lt_reg_r with (k1 * k2); [now apply Rmult_lt_0_compat|]. replace (a1 / k1 * (k1 * k2)) with (a1 * k2) by (field; lra). replace (a2 / k2 * (k1 * k2)) with (a2 * k1) by (field; lra). destruct Hlt; nra. }
  assert (cond_d2 a1 k1 r sigma m alpha beta x < cond_d2 a2 k2 r sigma m alpha beta x).
  { unfold cond_d2, cond_d1. apply Rplus_lt_compat_r. apply Rmult_lt_compat_r; [now apply Rinv_0_lt_compat|]. lra. }
  pose proof (normal_increasing N H0). lra.
Qed.
(** REFUTED: the documented annualised market return is not turned into the return over the debt's maturity; whatever asset value is found, the probability is
    not the one conditioned on an excess return of maturity * (market_ret - rate) unless the maturity is one year *)
Theorem c99_annualised_return_refuted cdf newton p e b m r mk pr : is_normal_cdf cdf -> 0 < m -> m <> 1 -> mk <> 0 -> 0 < fp_sigma p -> fp_beta p <> 0 ->
  predict_default cdf newton p e b m r mk = Ok pr ->
  exists a, implied_asset_price newton (fun s0 => cond_equity_value cdf s0 (Rmax 1 b) r (fp_sigma p) m (fp_alpha p) (fp_beta p) (mk - r * m)) e (e + Rmax 1 b) = Ok a /\
    pr <> 1 - cdf (cond_d2 a (Rmax 1 b) r (fp_sigma p) m (fp_alpha p) (fp_beta p) (m * (mk - r))).
Proof.
  intros N Hm Hm1 Hmk Hsg Hb. unfold predict_default. destruct (implied_asset_price _ _ _ _) as [a|] eqn:Ea; cbn [bind]; [|discriminate]. intros [= <-]. exists a. split; auto.
  intros E0. assert (E1 : cond_d2 a (Rmax 1 b) r (fp_sigma p) m (fp_alpha p) (fp_beta p) (mk - r * m) = cond_d2 a (Rmax 1 b) r (fp_sigma p) m (fp_alpha p) (fp_beta p) (m * (mk - r))).
  { match goal with |- ?u = ?v => destruct (Rtotal_order u v) as [L|[L|L]]; auto; apply (normal_increasing N) in L; lra end. }
  unfold cond_d2, cond_d1 in E1. pose proof (sqrt_lt_R0 m Hm). assert (Hv : 0 < fp_sigma p * sqrt m) by now apply Rmult_lt_0_compat.
  apply Rplus_eq_reg_r in E1. unfold Rdiv in E1 at 1 3. apply Rmult_eq_reg_r in E1; [|apply Rinv_neq_0_compat; lra]. apply Rplus_eq_reg_l in E1. apply Rmult_eq_reg_l in E1; auto.
  assert ((m - 1) * mk = 0) by lra. apply Rmult_integral in H0. destruct H0; lra.
Qed.
Theorem c99_one_year cdf newton p e b r mk pr : predict_default cdf newton p e b 1 r mk = Ok pr ->
  exists a, implied_asset_price newton (fun s0 => cond_equity_value cdf s0 (Rmax 1 b) r (fp_sigma p) 1 (fp_alpha p) (fp_beta p) (1 * (mk - r))) e (e + Rmax 1 b) = Ok a /\
    pr = 1 - cdf (cond_d2 a (Rmax 1 b) r (fp_sigma p) 1 (fp_alpha p) (fp_beta p) (1 * (mk - r))).
Proof.
  unfold predict_default. replace (mk - r * 1) with (1 * (mk - r)) by ring. destruct (implied_asset_price _ _ _ _) as [a|] eqn:Ea; cbn [bind]; [|discriminate]. intros [= <-]. now exists a.
Qed.
(** ** The whole computation *)
Theorem c75_systematic cdf newton tol maxiter firms interval market_ret counts probs : is_normal_cdf cdf ->
  get_systematic_default_probs cdf newton tol maxiter firms interval market_ret = Ok (counts, probs) ->
  firms <> [] /\ length probs = length firms /\ (forall p, In p probs -> 0 < p < 1) /\ length counts = S (length firms) /\ rsum counts = 1 /\
  (forall m, nth m counts 0 = rsum (map (likelihood probs) (filter (fun bs => (defaults bs =? m)%nat) (outcomes (length firms))))).
Proof.
  intros N. unfold get_systematic_default_probs. destruct (mapM _ firms) as [models|] eqn:Em; cbn [bind]; [|discriminate].
  destruct (mapM _ (combine firms models)) as [ps|] eqn:Ep; cbn [bind]; [|discriminate]. destruct (get_default_count_probs _) as [cs|] eqn:Ec; cbn [bind]; [|discriminate]. intros [= <- <-].
  apply mapM_ok in Em, Ep. assert (L1 : length firms = length models) by (clear - Em; induction Em; cbn; congruence). assert (L2 : length ps = length firms) by (transitivity (length (combine firms models)); [clear - Ep; induction Ep; cbn; congruence|rewrite combine_length; lia]).
  assert (Hne : ps <> []) by (intros ->; discriminate). assert (Hf : firms <> []) by (intros ->; destruct ps; [congruence|discriminate]). destruct (c75_default_counts Hne) as (v & Ev & HL & Hn). rewrite Ec in Ev. injection Ev as <-.
  split; auto. split; auto. split; [|split; [rewrite HL, L2; reflexivity|split; [exact (c75_total Ec)|rewrite <- L2; exact Hn]]].
  intros p Hp. clear - N Ep Hp. induction Ep as [|fm q la lb Hq F IH]; [easy|]. destruct Hp as [<-|Hp]; auto. destruct fm as [[t [[[e b] m] r]] mdl]. cbn in Hq. eapply c99_is_probability; eauto.
Qed.
Print Assumptions c75_default_counts.
Print Assumptions c75_total.
Print Assumptions c75_nonnegative.
Print Assumptions c75_mean_and_variance.
Print Assumptions c75_order_irrelevant.
Print Assumptions c75_no_firms_raises.
Print Assumptions c76_loop_converged.
Print Assumptions c76_loop_gives_up.
Print Assumptions c76_fit_converges_or_raises.
Print Assumptions c76_asset_values_explain_equity.
Print Assumptions c76_no_iterations_raises.
Print Assumptions c97_equity_value_negative_refuted.
Print Assumptions c97_equity_value_under_guard.
Print Assumptions c97_equity_value_increasing.
Print Assumptions c97_asset_value_unique.
Print Assumptions c97_no_drift_is_bsm.
Print Assumptions c98_least_squares.
Print Assumptions c98_recovers_parameters.
Print Assumptions c98_constant_market_raises.
Print Assumptions c98_sigma_nonnegative.
Print Assumptions c99_is_probability.
Print Assumptions c99_default_event.
Print Assumptions c99_monotone.
Print Assumptions c99_annualised_return_refuted.
Print Assumptions c99_one_year.
Print Assumptions c75_systematic.

(** ** Values, written out without the model's helpers *)
Lemma nth_combine_lt A B (a : list A) (b : list B) i da db : (i < length a)%nat -> (i < length b)%nat -> nth i (combine a b) (da, db) = (nth i a da, nth i b db).
Proof. revert b i. induction a as [|x a IH]; intros [|y b] [|i] Ha Hb; cbn in *; auto; try lia. apply IH; lia. Qed.
Lemma nth_zip_with A B C (f : A -> B -> C) a b i da db dc : (i < length a)%nat -> (i < length b)%nat -> nth i (zip_with f a b) dc = f (nth i a da) (nth i b db).
Proof.
  intros Ha Hb. unfold zip_with. rewrite nth_indep with (d' := f (fst (da, db)) (snd (da, db))) by (rewrite map_length, combine_length; lia).
  rewrite (map_nth (fun p => f (fst p) (snd p))), nth_combine_lt by auto. reflexivity.
Qed.
Lemma zip_with_length A B C (f : A -> B -> C) a b : length (zip_with f a b) = Nat.min (length a) (length b).
Proof. unfold zip_with. now rewrite map_length, combine_length. Qed.
Lemma diff_cons2 x y l : diff (x :: y :: l) = (y - x) :: diff (y :: l). Proof. reflexivity. Qed.
Lemma diff_len l : length (diff l) = (length l - 1)%nat.
Proof. induction l as [|x [|y l] IH]; auto. rewrite diff_cons2. cbn [length] in *. lia. Qed.
Lemma diff_val l : forall i, (S i < length l)%nat -> nth i (diff l) 0 = nth (S i) l 0 - nth i l 0.
Proof. induction l as [|x [|y l] IH]; intros i Hi; cbn in Hi; try lia. rewrite diff_cons2. destruct i as [|i]; auto. cbn [nth]. rewrite IH by (cbn; lia). reflexivity. Qed.
Lemma rows_len d : length (rows d) = Nat.min (length (fd_equity d)) (Nat.min (length (fd_debt d)) (Nat.min (length (fd_maturity d)) (length (fd_rf d)))).
Proof. unfold rows. now rewrite map_length, !combine_length. Qed.
Lemma rows_val d i : (i < length (rows d))%nat ->
  nth i (rows d) (0, 0, 0, 0, 0) = (nth i (fd_equity d) 0, nth i (fd_debt d) 0, nth i (fd_maturity d) 0, nth i (fd_rf d) 0, fd_expected d - nth i (fd_rf d) 0 * fd_interval d).
Proof.
  intro Hi. rewrite rows_len in Hi. unfold rows.
  set (F := fun x : R * (R * (R * R)) => let '(e, (b, (m, r))) := x in (e, b, m, r, fd_expected d - r * fd_interval d)).
  rewrite nth_indep with (d' := F (0, (0, (0, 0)))) by (rewrite map_length, !combine_length; lia).
  rewrite map_nth. rewrite !nth_combine_lt by (rewrite ?combine_length; lia). reflexivity.
Qed.
(** Merton's conditional d1: drift rate + alpha + sigma^2/2 over the maturity, shifted by beta times the market's excess return *)
Definition distance (q : firm_params) (k r m x a : R) : R := (ln (a / k) + (r + fp_alpha q + fp_sigma q ^ 2 / 2) * m + fp_beta q * x) / (fp_sigma q * sqrt m).
(** one iteration: the returned asset returns are the equity returns over the option's elasticity; exact roots explain the equity values *)
Lemma step_values cdf newton d q p rets values : fit_step cdf newton d q = Ok (p, (rets, values)) ->
  length rets = (length (fd_equity d) - 1)%nat /\ length values = (length (fd_equity d) - 1)%nat /\
  forall i, (i < length (fd_equity d) - 1)%nat ->
    let e := fun j => nth j (fd_equity d) 0 in let k := Rmax 1 (nth i (fd_debt d) 0) in let m := nth i (fd_maturity d) 0 in let r := nth i (fd_rf d) 0 in
    let x := (fd_expected d - r * fd_interval d) * m in let a := nth i values 0 in
    ((forall f y z, newton f y = Ok z -> f z = 0) -> a * cdf (distance q k r m x a) - k * exp (- r * m) * cdf (distance q k r m x a - fp_sigma q * sqrt m) = e i) /\
    nth i rets 0 = (ln (e (S i)) - ln (e i)) / (cdf (distance q k r m x a) * a / e i).
Proof.
  intro Hs.
  unfold fit_step in Hs. destruct (mapM _ (rows d)) as [vals|] eqn:Ev; cbn [bind] in Hs; [|discriminate]. destruct (_ && _ && _) eqn:El; cbn [negb] in Hs; [|discriminate]. apply andb_prop in El. destruct El as [El El3]. apply andb_prop in El. destruct El as [El El2].
  destruct (regress_firm_params (zip_with _ _ _) _ _ _) as [p'|] eqn:Er; cbn [bind] in Hs; [|discriminate]. injection Hs as <- <- <-. apply Nat.eqb_eq in El. apply mapM_ok in Ev.
  assert (LR : length (rows d) = length vals) by now apply Forall2_length in Ev.
  split; [rewrite zip_with_length, diff_len, map_length, combine_length; lia|]. split; [exact El|].
  intros i Hi e k m r x a. assert (Hir : (i < length (rows d))%nat) by lia. pose proof (rows_val Hir) as HV. assert (HA : row_asset cdf newton q (nth i (rows d) (0, 0, 0, 0, 0)) = Ok a).
  { unfold a. clear - Ev Hir. revert i Hir. induction Ev as [|row v l l' Hv F IH]; intros [|i] Hi; cbn in *; try lia; auto. apply IH. lia. }
  assert (D : forall s, cond_d1 s k r (fp_sigma q) m (fp_alpha q) (fp_beta q) x = distance q k r m x s) by (intro s; unfold cond_d1, distance; replace (fp_sigma q ^ 2) with (fp_sigma q * fp_sigma q) by ring; reflexivity).
  split.
  - intro Hn. rewrite HV in HA. pose proof (c76_asset_values_explain_equity Hn HA) as HE. fold m r x k in HE. unfold cond_equity_value, cond_d2 in HE. rewrite D in HE. exact HE.
  - rewrite (@nth_zip_with _ _ _ _ _ _ i 0 ((0, 0, 0, 0, 0), 0)) by (rewrite ?diff_len, ?map_length, ?combine_length; lia).
    rewrite nth_combine_lt by lia. cbn [fst snd]. rewrite HV. unfold row_delta, row_equity. fold a m r x k. rewrite D.
    assert (LN : forall j, (j < length (fd_equity d))%nat -> nth j (map ln (fd_equity d)) 0 = ln (e j)) by (intros j Hj; rewrite nth_indep with (d' := ln 0) by (rewrite map_length; lia); now rewrite map_nth).
    rewrite diff_val by (rewrite map_length; lia). rewrite !LN by lia. reflexivity.
Qed.
Theorem c76_fit_values cdf newton d tol maxiter p rets values : fit cdf newton d tol maxiter = Ok (p, (rets, values)) ->
  exists q, agree tol q p /\ length rets = (length (fd_equity d) - 1)%nat /\ length values = (length (fd_equity d) - 1)%nat /\
  forall i, (i < length (fd_equity d) - 1)%nat ->
    let e := fun j => nth j (fd_equity d) 0 in let k := Rmax 1 (nth i (fd_debt d) 0) in let m := nth i (fd_maturity d) 0 in let r := nth i (fd_rf d) 0 in
    let x := (fd_expected d - r * fd_interval d) * m in let a := nth i values 0 in
    ((forall f y z, newton f y = Ok z -> f z = 0) -> a * cdf (distance q k r m x a) - k * exp (- r * m) * cdf (distance q k r m x a - fp_sigma q * sqrt m) = e i) /\
    nth i rets 0 = (ln (e (S i)) - ln (e i)) / (cdf (distance q k r m x a) * a / e i).
Proof.
  intro H. unfold fit in H. destruct (regress_firm_params (diff (map ln (fd_equity d))) _ _ _) as [p0|] eqn:E0; cbn [bind] in H; [|discriminate].
  destruct (c76_loop_converged H) as (n & q & Hk & HI & Hs & Hag & _). exists q. split; auto. exact (step_values Hs).
Qed.
Print Assumptions c76_fit_values.

(** ** C159 The expected market return of the fit *)
Lemma distance_excess cdf q k r m x x' a : is_normal_cdf cdf -> 0 < fp_sigma q -> fp_beta q <> 0 -> 0 < m -> x <> x' -> cdf (distance q k r m x a) <> cdf (distance q k r m x' a).
Proof.
  intros N Hg Hb Hm Hx E. assert (E1 : distance q k r m x a = distance q k r m x' a).
  { destruct (Rtotal_order (distance q k r m x a) (distance q k r m x' a)) as [L|[L|L]]; auto; apply (normal_increasing N) in L; lra. }
  unfold distance in E1. pose proof (sqrt_lt_R0 m Hm). assert (Hv : 0 < fp_sigma q * sqrt m) by now apply Rmult_lt_0_compat.
  apply Rmult_eq_reg_r in E1; [|apply Rinv_neq_0_compat; lra]. apply Rplus_eq_reg_l in E1. now apply Rmult_eq_reg_l in E1.
Qed.
(** REFUTED: the riskless rate subtracted from the annualised expected market return is the one earned over an interval, so the excess return over the debt's maturity is
    not maturity * (expected - rate).  Whenever the two differ, the asset returns of an iteration are not those of the documented model at the asset values found *)
Theorem c159_step_refuted cdf newton d q p rets values i : is_normal_cdf cdf -> fit_step cdf newton d q = Ok (p, (rets, values)) -> (i < length (fd_equity d) - 1)%nat ->
  let e := fun j => nth j (fd_equity d) 0 in let k := Rmax 1 (nth i (fd_debt d) 0) in let m := nth i (fd_maturity d) 0 in let r := nth i (fd_rf d) 0 in let a := nth i values 0 in
  0 < fp_sigma q -> fp_beta q <> 0 -> 0 < m -> r <> 0 -> fd_interval d <> 1 -> 0 < e i -> 0 < e (S i) -> e (S i) <> e i -> a <> 0 ->
  nth i rets 0 <> (ln (e (S i)) - ln (e i)) / (cdf (distance q k r m (m * (fd_expected d - r)) a) * a / e i).
Proof.
  intros N Hs Hi e k m r a Hg Hb Hm Hr Hdt He He' Hne Ha. destruct (step_values Hs) as (_ & _ & HV). destruct (HV i Hi) as [_ EV]. cbv zeta in EV.
  change (nth i rets 0 = (ln (e (S i)) - ln (e i)) / (cdf (distance q k r m ((fd_expected d - r * fd_interval d) * m) a) * a / e i)) in EV. rewrite EV. clear EV.
  assert (HX : (fd_expected d - r * fd_interval d) * m <> m * (fd_expected d - r)).
  { intro E. assert (E1 : (m * r) * (1 - fd_interval d) = 0) by lra. apply Rmult_integral in E1. destruct E1 as [E1|E1]; [apply Rmult_integral in E1; lra|lra]. }
  pose proof (@distance_excess cdf q k r m _ _ a N Hg Hb Hm HX) as HD. revert HD. pose proof (nc_pos N (distance q k r m ((fd_expected d - r * fd_interval d) * m) a)). pose proof (nc_pos N (distance q k r m (m * (fd_expected d - r)) a)).
  set (u := cdf (distance q k r m ((fd_expected d - r * fd_interval d) * m) a)) in *. set (v := cdf (distance q k r m (m * (fd_expected d - r)) a)) in *. clearbody u v. intros HD E.
  assert (HL : ln (e (S i)) - ln (e i) <> 0) by (intro E1; apply Hne, ln_inv; auto; lra). set (y := ln (e (S i)) - ln (e i)) in *. clearbody y.
  apply HD. assert (E2 : y * (e i / a) * / u = y * (e i / a) * / v) by (transitivity (y / (u * a / e i)); [field; repeat split; lra|]; rewrite E; field; repeat split; lra).
  apply Rmult_eq_reg_l in E2; [rewrite <- (Rinv_inv u), <- (Rinv_inv v); now f_equal|]. intro E1. apply Rmult_integral in E1. destruct E1 as [E1|E1]; [lra|]. unfold Rdiv in E1. apply Rmult_integral in E1. destruct E1 as [E1|E1]; [lra|]. revert E1. now apply Rinv_neq_0_compat.
Qed.
Theorem c159_fit_refuted cdf newton d tol maxiter p rets values : is_normal_cdf cdf -> fit cdf newton d tol maxiter = Ok (p, (rets, values)) ->
  tol <= fp_sigma p -> tol <= Rabs (fp_beta p) -> fd_interval d <> 1 -> (forall e, In e (fd_equity d) -> 0 < e) ->
  exists q, agree tol q p /\ forall i, (i < length (fd_equity d) - 1)%nat ->
  let e := fun j => nth j (fd_equity d) 0 in let k := Rmax 1 (nth i (fd_debt d) 0) in let m := nth i (fd_maturity d) 0 in let r := nth i (fd_rf d) 0 in let a := nth i values 0 in
  0 < m -> r <> 0 -> e (S i) <> e i -> a <> 0 -> nth i rets 0 <> (ln (e (S i)) - ln (e i)) / (cdf (distance q k r m (m * (fd_expected d - r)) a) * a / e i).
Proof.
  intros N H Hg Hb Hdt He. unfold fit in H. destruct (regress_firm_params (diff (map ln (fd_equity d))) _ _ _) as [p0|] eqn:E0; cbn [bind] in H; [|discriminate].
  destruct (c76_loop_converged H) as (n & q & Hk & HI & Hs & Hag & _). exists q. split; auto. intros i Hi e k m r a Hm Hr Hne Ha.
  destruct Hag as (A1 & A2 & A3). apply (c159_step_refuted N Hs); auto.
  - revert A3. unfold Rabs. destruct (Rcase_abs _); lra.
  - intro Z. rewrite Z in A2. replace (0 - fp_beta p) with (- fp_beta p) in A2 by ring. rewrite Rabs_Ropp in A2. lra.
  - apply He, nth_In. lia.
  - apply He, nth_In. lia.
Qed.
(** with data a year apart the two agree *)
Theorem c159_yearly_data cdf newton d tol maxiter p rets values : fit cdf newton d tol maxiter = Ok (p, (rets, values)) -> fd_interval d = 1 ->
  exists q, agree tol q p /\ forall i, (i < length (fd_equity d) - 1)%nat ->
  let e := fun j => nth j (fd_equity d) 0 in let k := Rmax 1 (nth i (fd_debt d) 0) in let m := nth i (fd_maturity d) 0 in let r := nth i (fd_rf d) 0 in let a := nth i values 0 in
  nth i rets 0 = (ln (e (S i)) - ln (e i)) / (cdf (distance q k r m (m * (fd_expected d - r)) a) * a / e i).
Proof.
  intros H Hdt. destruct (c76_fit_values H) as (q & Hag & _ & _ & HV). exists q. split; auto. intros i Hi e k m r a. destruct (HV i Hi) as [_ E]. cbv zeta in E. rewrite Hdt, Rmult_1_r in E. fold r m in E. rewrite (Rmult_comm (fd_expected d - r) m) in E. exact E.
Qed.
Example c159_ex : let d := {| fd_equity := [1; 2; 4]; fd_debt := [3; 3; 3]; fd_maturity := [1; 1; 1]; fd_rf := [1; 1]; fd_market := [0; 1]; fd_interval := 2; fd_expected := 0 |} in
  exists p rets, fit_step (fun _ => 1 / 2) (fun _ x0 => Ok x0) d {| fp_alpha := 0; fp_beta := 1; fp_sigma := 1 |} = Ok (p, (rets, [1 + 3; 2 + 3])).
Proof.
  intro d. unfold fit_step, rows, d. cbn [fd_equity fd_market fd_rf fd_interval fd_debt fd_maturity fd_expected combine map mapM row_asset fp_alpha fp_beta fp_sigma implied_asset_price bind length Nat.sub Nat.eqb andb negb].
  match goal with |- context [regress_firm_params (?z : list R) _ _ _] => set (y := z) end.
  assert (Ly : length y = 2%nat) by reflexivity. clearbody y. unfold regress_firm_params. rewrite Ly. cbn [length Nat.eqb andb orb negb].
  unfold ols at 1. destruct (Req_EM_T _ 0) as [E|_]; [exfalso; revert E; unfold zip_with, rmean; cbn; lra|]. cbn [bind]. do 2 eexists. reflexivity.
Qed.
Print Assumptions c159_step_refuted.
Print Assumptions c159_fit_refuted.
Print Assumptions c159_yearly_data.
(** the data of a firm: equity is the market capitalisation, debt the short-term plus half the long-term debt, due in one year, at the rates but the last;
    the market is the given mix of the log returns of the two indexes *)
Theorem c76_firm_data t dt mu w : let d := firm_model_data t dt mu w in let n := length (ft_cap t) in
  length (ft_short t) = n -> length (ft_long t) = n -> length (ft_yield t) = n -> length (ft_equities_index t) = n -> length (ft_bonds_index t) = n ->
  fd_equity d = ft_cap t /\ fd_interval d = dt /\ fd_expected d = mu /\ length (fd_debt d) = n /\ length (fd_maturity d) = n /\ length (fd_rf d) = (n - 1)%nat /\ length (fd_market d) = (n - 1)%nat /\
  (forall i, (i < n)%nat -> nth i (fd_debt d) 0 = nth i (ft_short t) 0 + nth i (ft_long t) 0 / 2 /\ nth i (fd_maturity d) 0 = 1) /\
  forall i, (S i < n)%nat -> nth i (fd_rf d) 0 = nth i (ft_yield t) 0 /\
    nth i (fd_market d) 0 = w * (ln (nth (S i) (ft_equities_index t) 0) - ln (nth i (ft_equities_index t) 0)) + (1 - w) * (ln (nth (S i) (ft_bonds_index t) 0) - ln (nth i (ft_bonds_index t) 0)).
Proof.
  intros d n H1 H2 H3 H4 H5. assert (RL : forall l : list R, length (removelast l) = (length l - 1)%nat) by (intro l; rewrite removelast_firstn_len, firstn_length; lia).
  split; [reflexivity|]. split; [reflexivity|]. split; [reflexivity|]. cbn [firm_model_data fd_debt fd_maturity fd_rf fd_market d].
  split; [rewrite zip_with_length; lia|]. split; [apply repeat_length|]. split; [rewrite RL; lia|]. split; [rewrite zip_with_length, !diff_len, !map_length; lia|]. split.
  - intros i Hi. split; [rewrite (@nth_zip_with _ _ _ _ _ _ _ 0 0) by lia; reflexivity|]. apply (repeat_spec (length (ft_cap t))). apply nth_In. rewrite repeat_length. exact Hi.
  - intros i Hi. split; [rewrite removelast_firstn_len; clear - Hi H3; assert (HH : (i < pred (length (ft_yield t)))%nat) by lia; revert HH; generalize (pred (length (ft_yield t))); clear; revert i; induction (ft_yield t) as [|y l IH]; intros i [|k] Hk; try lia; [now destruct i|destruct i as [|i]; cbn; auto; apply IH; lia]|].
    rewrite (@nth_zip_with _ _ _ _ _ _ _ 0 0) by (rewrite diff_len, map_length; lia).
    assert (LN : forall l j, (j < length l)%nat -> nth j (map ln l) 0 = ln (nth j l 0)) by (intros l j Hj; rewrite nth_indep with (d' := ln 0) by (rewrite map_length; lia); now rewrite map_nth).
    rewrite !diff_val by (rewrite map_length; lia). rewrite !LN by lia. reflexivity.
Qed.
Print Assumptions c76_firm_data.
(** every firm's probability comes from a model fitted on that firm's own table (81% equities) and its own latest data *)
Theorem c75_systematic_firms cdf newton tol maxiter firms interval market_ret counts probs : get_systematic_default_probs cdf newton tol maxiter firms interval market_ret = Ok (counts, probs) ->
  Forall2 (fun f pr => exists p out, fit cdf newton (firm_model_data (fst f) interval market_ret (81 / 100)) tol maxiter = Ok (p, out) /\
    let '(e, b, m, r) := snd f in predict_default cdf newton p e b m r market_ret = Ok pr) firms probs.
Proof.
  unfold get_systematic_default_probs. destruct (mapM _ firms) as [models|] eqn:Em; cbn [bind]; [|discriminate].
  destruct (mapM _ (combine firms models)) as [ps|] eqn:Ep; cbn [bind]; [|discriminate]. destruct (get_default_count_probs _) as [cs|]; cbn [bind]; [|discriminate]. intros [= _ <-].
  apply mapM_ok in Em, Ep. revert ps Ep. induction Em as [|f [p out] fs ms Hf F IH]; intros ps Ep; cbn in Ep; inversion Ep; subst; constructor; auto. exists p, out. split; auto. destruct f as [t [[[e b] m] r]]. assumption.
Qed.
Print Assumptions c75_systematic_firms.
(** C97: the equity value written out *)
Theorem c97_value cdf s0 k r sigma T alpha beta x : 0 < s0 -> 0 < k -> 0 < sigma -> 0 < T ->
  cond_equity_value cdf s0 k r sigma T alpha beta x =
    s0 * cdf ((ln s0 - ln k + (r + alpha) * T + beta * x) / (sigma * sqrt T) + sigma * sqrt T / 2) - k * exp (- (r * T)) * cdf ((ln s0 - ln k + (r + alpha) * T + beta * x) / (sigma * sqrt T) - sigma * sqrt T / 2).
Proof.
  intros Hs Hk Hg HT. unfold cond_equity_value, cond_d2, cond_d1. pose proof (sqrt_lt_R0 T HT) as HR. assert (ET : T = sqrt T * sqrt T) by (symmetry; apply sqrt_sqrt; lra).
  assert (EL : ln (s0 / k) = ln s0 - ln k) by (unfold Rdiv; rewrite ln_mult, ln_Rinv by (try apply Rinv_0_lt_compat; lra); ring). rewrite EL. replace (- r * T) with (- (r * T)) by ring. set (ER := exp (- (r * T))). clearbody ER. set (w := sqrt T) in *. clearbody w. subst T. f_equal; f_equal; f_equal; field; lra.
Qed.
Print Assumptions c97_value.
Example c76_fit_ex : exists newton : (R -> R) -> R -> res R, (forall f y z, newton f y = Ok z -> f z = 0) /\
  fit (fun _ => 1) newton {| fd_equity := [1; 1]; fd_debt := [3; 3]; fd_maturity := [1; 1]; fd_rf := [0]; fd_market := [0]; fd_interval := 1; fd_expected := 0 |} 1 1 = Ok ({| fp_alpha := 0; fp_beta := 0; fp_sigma := 0 |}, ([0], [4])).
Proof.
  exists (fun f y => if Req_EM_T (f y) 0 then Ok y else Err RuntimeError). split.
  - intros f y z H. destruct (Req_EM_T (f y) 0); [injection H as <-; auto|discriminate].
  - assert (R0 : regress_firm_params [0] [0] [0] 1 = Ok {| fp_alpha := 0; fp_beta := 0; fp_sigma := 0 |}).
    { unfold regress_firm_params, ols, pstd, zip_with, rmean. cbn. destruct (Req_EM_T _ 0) as [_|C]; [|exfalso; apply C; field]. destruct (Req_EM_T _ 0) as [_|C]; [|exfalso; apply C; field]. cbn [bind].
      match goal with |- context [sqrt ?x / sqrt 1] => replace x with 0 by field end. rewrite sqrt_0, sqrt_1. repeat f_equal; field. }
    unfold fit. cbn [fd_equity fd_market fd_rf fd_interval map diff]. replace (ln 1 - ln 1) with 0 by ring. rewrite R0. cbn [bind fit_loop]. unfold fit_step, rows. cbn [fd_equity fd_market fd_rf fd_interval fd_debt fd_maturity fd_expected combine map mapM row_asset fp_alpha fp_beta fp_sigma].
    unfold implied_asset_price, cond_equity_value. destruct (Req_EM_T _ 0) as [_|C]; [|exfalso; apply C; rewrite (Rmax_right 1 3) by lra; replace (- 0 * 1) with 0 by ring; rewrite exp_0; ring].
    cbn [bind length Nat.eqb Nat.sub andb negb combine map diff zip_with fst snd row_delta row_equity]. unfold zip_with. cbn [map diff combine fst snd row_delta row_equity].
    replace ((ln 1 - ln 1) / (1 * (1 + 3) / 1)) with 0 by field. rewrite R0. cbn [bind fst]. unfold approx_equal, rltb. cbn [fp_alpha fp_beta fp_sigma]. replace (0 - 0) with 0 by ring. rewrite Rabs_R0. destruct (Rlt_dec 0 1); [|lra]. cbn [andb]. repeat f_equal; lra.
Qed.
