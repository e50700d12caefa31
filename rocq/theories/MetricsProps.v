(** Properties C34-C39: bet timings, holding period, time weighted return, concentration, drawdowns. *)
From Verif Require Import Py MetricsModel MetricsSpec MetricsProofs.
Set Implicit Arguments.
Unset Strict Implicit.
Open Scope Qc_scope.

(** C34 *)
Theorem c34_bet_timings_under_guard : forall ps, times_increase ps -> (forall t, nth_error ps 0 <> Some (t, 0)) ->
  StronglySorted Z.lt (position_timings ps) /\
  forall t, In t (position_timings ps) <-> exists i, closes ps i t \/ flips ps i t.
Proof.
  intros ps HT H0. split.
  - apply sorted_nodup_strict; [apply zsort_sorted|]. unfold position_timings.
    apply (Permutation_NoDup (zsort_perm _)). apply NoDup_nodup.
  - intro t. rewrite (@timings_In ps t HT). split; [intros [H|H]; auto; exfalso; now apply (H0 t)|auto].
Qed.
Print Assumptions c34_bet_timings_under_guard.
Theorem c34_bet_timings_refuted : exists ps t, times_increase ps /\ In t (position_timings ps) /\
  ~ exists i, closes ps i t \/ flips ps i t.
Proof.
  exists [(0%Z, 0); (1%Z, 1)], 0%Z. split; [repeat constructor|]. split; [vm_compute; auto|].
  intros [i [H|H]]; destruct H as [p0 [t0 [p [H1 [H2 _]]]]]; destruct i as [|[|i]]; cbn in H1, H2; try discriminate; destruct i; discriminate.
Qed.
Print Assumptions c34_bet_timings_refuted.
(** Without the guard the only additional time is that of the first row, when its position is 0. *)
Theorem c34_bet_timings_exact : forall ps t, times_increase ps ->
  (In t (position_timings ps) <-> nth_error ps 0 = Some (t, 0) \/ exists i, closes ps i t \/ flips ps i t).
Proof. intros. now apply timings_In. Qed.
Print Assumptions c34_bet_timings_exact.
Definition ex_positions : list (Z * Qc) := [(0%Z, 1); (1%Z, 2); (2%Z, 0); (3%Z, 0); (4%Z, -1); (5%Z, 3); (6%Z, 1)].
Example c34_ex : position_timings ex_positions = [2; 5]%Z /\ times_increase ex_positions /\ (forall t, nth_error ex_positions 0 <> Some (t, 0)).
Proof. split; [vm_compute; reflexivity|]. split; [repeat constructor|]. intros t H. discriminate H. Qed.

(** C35 *)
Lemma closed_qty_nonneg p0 p : 0 <= closed_qty p0 p.
Proof. unfold closed_qty. destruct (qlt (p0 * p) 0); [apply qabs_nonneg|apply qmax_l]. Qed.
Lemma total_closed_nonneg l : 0 <= total_closed l.
Proof.
  induction l as [|a [|b l] IH]; try apply Qcle_refl. change (total_closed (a :: b :: l)) with (closed_qty (snd a) (snd b) + total_closed (b :: l)).
  pose proof (@closed_qty_nonneg (snd a) (snd b)). qlra.
Qed.
Lemma loop_start ps a rest : ps = a :: rest -> times_increase ps -> forall E hp, hp_loop (fst a) (0, []) a rest = (E, hp) ->
  let l := last rest a in
  hp_sum hp + qabs (snd l) * (days (fst a) (fst l) - E) = exposure ns_per_day ps /\ hp_w hp = total_closed ps /\
  0 <= E <= days (fst a) (fst l) /\ hp_within (days (fst a) (fst l)) hp.
Proof.
  intros -> HT E hp H. destruct a as [t p]. cbn [fst] in *.
  destruct (@loop_exposure t rest 0 [] t p (Z.le_refl t) HT) with (E' := E) (hp' := hp) as [A [B [C D]]]; auto.
  - rewrite days_refl. split; apply Qcle_refl.
  - intros r [].
  - cbn zeta in *. rewrite days_refl in A. unfold hp_sum, hp_w in *. cbn [map qsum] in A, B. split; [rewrite A; ring|]. split; [rewrite B; ring|]. auto.
Qed.

(** The average holding period times the closed quantity is the time integral of the absolute position, less the
    quantity still open times its (non-negative) average age. *)
Theorem c35_holding_period : forall a rest hp, times_increase (a :: rest) -> holding_period (a :: rest) = Ok (Some hp) ->
  exists age, let l := last rest a in
  let duration := qz (fst l - fst a) / ns_per_day in
  0 <= age <= duration /\
  hp * total_closed (a :: rest) = exposure ns_per_day (a :: rest) - qabs (snd l) * age /\
  0 < total_closed (a :: rest) /\ 0 <= hp <= duration.
Proof.
  intros a rest hp HT H. unfold holding_period in H. destruct (hp_loop (fst a) (0, []) a rest) as [E l] eqn:EL. cbn [snd] in H.
  destruct (@loop_start _ a rest eq_refl HT E l EL) as [A [B [C D]]]. cbn zeta in *. fold (hp_w l) in H. fold (hp_sum l) in H.
  destruct (qlt 0 (hp_w l)) eqn:Q; [|discriminate]. apply qlt_iff in Q. inversion H as [H']. clear H.
  exists (days (fst a) (fst (last rest a)) - E). fold (days (fst a) (fst (last rest a))). set (d := days _ _) in *. clearbody d.
  split; [split; qlra|]. split; [|split].
  - rewrite <- B, <- A. rewrite Qcdiv_mul_cancel by now apply Qc_pos_neq. ring.
  - now rewrite <- B.
  - assert (S0 : 0 <= hp_sum l /\ hp_sum l <= d * hp_w l).
    { unfold hp_sum, hp_w. split.
      - apply qsum_nonneg. intros x Hx. apply in_map_iff in Hx. destruct Hx as [r [<- Hr]]. destruct (D r Hr) as [[? ?] ?]. now apply Qcmul_nonneg.
      - change (map snd l) with (map (fun r : Qc * Qc => snd r) l). rewrite <- (@qsum_map_scale _ (fun r : Qc * Qc => snd r) d l). apply qsum_map_le. intros r Hr. destruct (D r Hr) as [[? ?] ?]. qnra. }
    split; [apply Qcdiv_nonneg; tauto|apply Qcdiv_le_iff; tauto].
Qed.
Print Assumptions c35_holding_period.
(** Exact when the book ends flat. *)
Theorem c35_flat_at_end : forall a rest hp, times_increase (a :: rest) -> holding_period (a :: rest) = Ok (Some hp) -> snd (last rest a) = 0 ->
  hp = exposure ns_per_day (a :: rest) / total_closed (a :: rest).
Proof.
  intros a rest hp HT H L. destruct (c35_holding_period HT H) as [age [_ [A [B _]]]]. rewrite L in A. change (qabs 0) with 0 in A.
  apply Qc_pos_neq in B. apply (@Qcmul_cancel_r _ _ _ B). rewrite Qcdiv_mul_cancel, A by auto. ring.
Qed.
Print Assumptions c35_flat_at_end.
Theorem c35_scale_invariant : forall c ps, c <> 0 -> holding_period (map (fun r => (fst r, c * snd r)) ps) = holding_period ps.
Proof. intros. now apply holding_period_scale. Qed.
Print Assumptions c35_scale_invariant.
(** None exactly when no step reduced, closed or flipped the position. *)
Theorem c35_none_iff : forall ps, times_increase ps ->
  (holding_period ps = Ok None <-> ps <> [] /\ forall i t0 p0 t p, nth_error ps i = Some (t0, p0) -> nth_error ps (S i) = Some (t, p) ->
     qabs p0 <= qabs p /\ 0 <= p0 * p).
Proof.
  intros ps HT. destruct ps as [|a rest]; [split; [discriminate|intros [C _]; congruence]|].
  assert (W : holding_period (a :: rest) = Ok None <-> total_closed (a :: rest) = 0).
  { unfold holding_period. destruct (hp_loop (fst a) (0, []) a rest) as [E l] eqn:EL. cbn [snd].
    destruct (@loop_start _ a rest eq_refl HT E l EL) as [_ [B _]]. fold (hp_w l). rewrite B. pose proof (@total_closed_nonneg (a :: rest)) as N.
    destruct (qlt 0 (total_closed (a :: rest))) eqn:Q.
    - apply qlt_iff in Q. split; [discriminate|]. intro C. rewrite C in Q. now apply Qclt_irrefl in Q.
    - apply qlt_false in Q. split; auto. intros _. now apply Qcle_antisym. }
  rewrite W. clear W HT. revert a. induction rest as [|b rest IH]; intro a.
  - cbn. split; auto. intros _. split; [discriminate|]. intros [|i] t0 p0 t p H1 H2; cbn in H2; [discriminate|destruct i; discriminate].
  - change (total_closed (a :: b :: rest)) with (closed_qty (snd a) (snd b) + total_closed (b :: rest)).
    pose proof (@closed_qty_nonneg (snd a) (snd b)) as N1. pose proof (@total_closed_nonneg (b :: rest)) as N2.
    assert (CQ : closed_qty (snd a) (snd b) = 0 <-> qabs (snd a) <= qabs (snd b) /\ 0 <= snd a * snd b).
    { unfold closed_qty. destruct (qlt (snd a * snd b) 0) eqn:Q.
      - apply qlt_iff in Q. split; [|intros [_ C]; exfalso; qlra]. intro C. apply -> qabs_0 in C. rewrite C, Qcmult_0_l in Q. now apply Qclt_irrefl in Q.
      - apply qlt_false in Q. unfold qmax. destruct (qle 0 (qabs (snd a) - qabs (snd b))) eqn:Q1.
        + apply qle_iff in Q1. split; [intro C; split; auto; qlra|intros [C _]; apply Qcle_antisym; qlra].
        + apply qle_false in Q1. split; [intros _; split; auto; qlra|auto]. }
    split.
    + intro H. assert (closed_qty (snd a) (snd b) = 0 /\ total_closed (b :: rest) = 0) as [Z1 Z2] by (split; qlra).
      split; [discriminate|]. intros [|i] t0 p0 t p H1 H2.
      * cbn in H1, H2. inversion H1; inversion H2; subst. now apply CQ.
      * apply (proj2 (proj1 (IH b) Z2) i t0 p0 t p); auto.
    + intros [_ H]. assert (Z1 : closed_qty (snd a) (snd b) = 0) by (apply CQ; destruct a as [ta pa], b as [tb pb]; apply (H 0%nat ta pa tb pb); auto).
      assert (Z2 : total_closed (b :: rest) = 0) by (apply IH; split; [discriminate|]; intros i t0 p0 t p H1 H2; apply (H (S i) t0 p0 t p); auto).
      rewrite Z1, Z2. ring.
Qed.
Print Assumptions c35_none_iff.
Definition day : Z := 86400000000000.
Definition ex_hp : list (Z * Qc) := [(0%Z, 2); (day, 4); ((3 * day)%Z, 1); ((4 * day)%Z, -2); ((6 * day)%Z, 0)].
Example c35_ex : times_increase ex_hp /\ match holding_period ex_hp with Ok (Some h) => this h = (5 # 2)%Q | _ => False end /\
  this (total_closed ex_hp) = (6 # 1)%Q /\ this (exposure ns_per_day ex_hp) = 15%Q.
Proof. split; [repeat constructor|]. split; [vm_compute; reflexivity|]. split; vm_compute; reflexivity. Qed.

(** C36 *)
Theorem c36_time_weighted_return : forall v cf steps, solvent (portfolio v cf steps) ->
  time_weighted_return (portfolio v cf steps) = Some (growth (map fst steps) - 1).
Proof.
  intros v cf steps H. pose proof (twr_portfolio H) as T. destruct (portfolio_cons v cf steps) as [rows E]. rewrite E in *. cbn [tl] in T.
  unfold time_weighted_return. now rewrite T, growth_prod.
Qed.
Print Assumptions c36_time_weighted_return.
(** of no rows the return is 0; of one row too *)
Theorem c36_no_rows : time_weighted_return [] = Some 0 /\ forall r, time_weighted_return [r] = Some 0.
Proof. split; [|intro r]; cbn; f_equal; qlra. Qed.
Print Assumptions c36_no_rows.
(** hence deposits, withdrawals and the initial balance do not matter *)
Theorem c36_cash_flows_irrelevant : forall v cf steps v' cf' steps', solvent (portfolio v cf steps) -> solvent (portfolio v' cf' steps') ->
  map fst steps = map fst steps' -> time_weighted_return (portfolio v cf steps) = time_weighted_return (portfolio v' cf' steps').
Proof. intros. rewrite !c36_time_weighted_return by auto. congruence. Qed.
Print Assumptions c36_cash_flows_irrelevant.
(** every table whose balances after cash flows are not zero is such a portfolio *)
Theorem c36_every_table : forall rows v cf, solvent ((v, cf) :: rows) -> exists steps, (v, cf) :: rows = portfolio v cf steps.
Proof.
  induction rows as [|[v' cf'] rows IH]; intros v cf H; [exists []; reflexivity|]. destruct H as [H1 H2].
  destruct (IH v' cf' H2) as [steps E]. exists ((v' / (v + cf) - 1, cf') :: steps). cbn [portfolio].
  replace ((v + cf) * (1 + (v' / (v + cf) - 1))) with v' by (now field). congruence.
Qed.
Print Assumptions c36_every_table.
Example c36_ex : solvent (portfolio 100 50 [(q 1 10, -20); (q 1 5, 0)]) /\
  match time_weighted_return (portfolio 100 50 [(q 1 10, -20); (q 1 5, 0)]) with Some x => this x = (8 # 25)%Q | None => False end.
Proof. split; [|vm_compute; reflexivity]. repeat split; intro H; apply Qceq_this in H; vm_compute in H; discriminate. Qed.

(** C37 *)
Section C37.
Definition dispersion (l : list Qc) : Qc :=
  qsum (map (fun r => (r / qsum l - 1 / qn (length l)) * (r / qsum l - 1 / qn (length l))) l).
Definition concentration_index (l : list Qc) (h : option Qc) : Prop :=
  exists x, h = Some x /\ 0 <= x <= 1 /\ (x = 0 <-> all_equal l) /\ (x = 1 <-> single_bet l) /\
  x * (1 - 1 / qn (length l)) = dispersion l.
Lemma get_hhi_index l : (2 <= length l)%nat -> qsum l <> 0 -> (forall x, In x l -> 0 <= x / qsum l) -> concentration_index l (get_hhi l).
Proof.
  intros Hn Hs Hw. exists ((qsum (map (fun x => x * x) (map (fun r => r / qsum l) l)) - 1 / qn (length l)) / (1 - 1 / qn (length l))).
  pose proof (denom_pos Hn) as D. pose proof (w_var Hn Hs) as V. pose proof (hhi_le1 Hs Hw) as L1.
  pose proof (hhi_zero Hn Hs) as Z. pose proof (hhi_one Hs Hw) as O. pose proof (hhi_value Hn Hs) as HV. split; auto. clear HV.
  set (S2 := qsum (map (fun x => x * x) (map (fun r => r / qsum l) l))) in *. set (m := 1 / qn (length l)) in *.
  assert (V' : dispersion l = S2 - m) by (rewrite V; unfold dispersion; now rewrite map_map).
  assert (N : 0 <= S2 - m) by (rewrite V; apply qsum_nonneg; intros x Hx; apply in_map_iff in Hx; destruct Hx as [y [<- _]]; apply sq_nonneg).
  assert (D' : 1 - m <> 0) by now apply Qc_pos_neq.
  split; [split|split; [|split]].
  - now apply Qcdiv_nonneg.
  - apply Qcdiv_le_iff; auto. clear - L1. clearbody S2 m. qlra.
  - rewrite <- Z. split; [intro E; now apply Qcdiv_0 in E|intros ->; unfold Qcdiv; ring].
  - rewrite <- O. split; intro E.
    + assert (S2 - m = 1 - m) by (rewrite <- (Qcdiv_mul_cancel (S2 - m) D'), E; ring). clear - H. clearbody S2 m. qlra.
    + rewrite E. now field.
  - rewrite V'. now apply Qcdiv_mul_cancel.
Qed.
End C37.
Theorem c37_concentration_under_guard : forall returns, (3 <= length returns)%nat ->
  let (p, n) := hhi_concentration returns in
  ((2 <= length (gains returns))%nat -> qsum (gains returns) <> 0 -> concentration_index (gains returns) p) /\
  ((2 <= length (losses returns))%nat -> concentration_index (losses returns) n).
Proof.
  intros l H. unfold hhi_concentration. assert (E : (length l <=? 2)%nat = false) by (apply Nat.leb_gt; lia). rewrite E. fold (gains l). fold (losses l). split.
  - intros H2 Hs. destruct (gains l) as [|a g] eqn:G; [cbn in H2; lia|]. rewrite <- G in *. apply get_hhi_index; auto.
    intros x Hx. apply Qcdiv_nonneg.
    + apply filter_In in Hx. now apply qle_iff.
    + assert (N : 0 <= qsum (gains l)) by (apply qsum_nonneg; intros y Hy; apply filter_In in Hy; now apply qle_iff).
      apply Qcle_lt_or_eq in N. destruct N as [N|N]; auto. congruence.
  - intros H2. destruct (losses l) as [|a g] eqn:G; [cbn in H2; lia|]. rewrite <- G in *.
    assert (N : qsum (losses l) < 0) by (apply qsum_neg; [rewrite G; discriminate|]; intros y Hy; apply filter_In in Hy; now apply qlt_iff).
    apply get_hhi_index; auto.
    + intro C. rewrite C in N. now apply Qclt_irrefl in N.
    + intros x Hx. apply Qcdiv_neg_nonneg; auto. apply filter_In in Hx. apply Qclt_le_weak. now apply qlt_iff.
Qed.
Print Assumptions c37_concentration_under_guard.
(** Fewer than two bets of a sign, or fewer than three in all: no number. *)
Theorem c37_too_few : forall returns,
  ((length returns < 3)%nat \/ (length (gains returns) < 2)%nat -> fst (hhi_concentration returns) = None) /\
  ((length returns < 3)%nat \/ (length (losses returns) < 2)%nat -> snd (hhi_concentration returns) = None).
Proof.
  assert (G1 : forall l, (length l < 2)%nat -> match l with [] => None | _ => get_hhi l end = None).
  { intros [|a [|b l]] H; [auto| |cbn in H; lia]. unfold get_hhi. cbn [length]. change (qeq (1 - 1 / qn 1) 0) with true. reflexivity. }
  intro l. unfold hhi_concentration. fold (gains l). fold (losses l). destruct (length l <=? 2)%nat eqn:E; [auto|]. apply Nat.leb_gt in E.
  split; intros [H|H]; try lia; cbn [fst snd]; now apply G1.
Qed.
Print Assumptions c37_too_few.
(** The corner where the claim fails: gains that are all zero. *)
Theorem c37_zero_gains_refuted : exists returns x, (2 <= length (gains returns))%nat /\ fst (hhi_concentration returns) = Some x /\ x < 0.
Proof. exists [0; 0; -1], (-1). split; [vm_compute; lia|]. split; [|reflexivity]. vm_compute. f_equal. now apply Qc_is_canon. Qed.
Print Assumptions c37_zero_gains_refuted.
Theorem c37_scale_order : forall returns c returns', 0 < c -> Permutation (map (fun r => c * r) returns) returns' ->
  hhi_concentration returns' = hhi_concentration returns.
Proof.
  intros l c l' Hc P. assert (C0 : c <> 0) by now apply Qc_pos_neq. transitivity (hhi_concentration (map (fun r => c * r) l)).
  - unfold hhi_concentration. rewrite (Permutation_length P). destruct (length l' <=? 2)%nat; auto.
    assert (M : forall a b : list Qc, Permutation a b -> match b with [] => None | _ => get_hhi b end = match a with [] => None | _ => get_hhi a end).
    { intros a b PP. destruct a, b; auto; try (apply Permutation_length in PP; discriminate). symmetry. now apply get_hhi_perm. }
    f_equal; apply M, Permutation_filter, P.
  - unfold hhi_concentration. rewrite map_length. destruct (length l <=? 2)%nat; auto.
    rewrite !filter_scale.
    + assert (M : forall a : list Qc, match map (fun r => c * r) a with [] => None | _ => get_hhi (map (fun r => c * r) a) end = match a with [] => None | _ => get_hhi a end).
      { intros a. pose proof (@get_hhi_scale c a C0) as G. destruct a; auto. }
      f_equal; apply M.
    + intro x. destruct (qlt x 0) eqn:E; [apply qlt_iff in E; apply qlt_iff; qnra|apply qlt_false in E; apply qlt_false; qnra].
    + intro x. destruct (qle 0 x) eqn:E; [apply qle_iff in E; apply qle_iff; qnra|apply qle_false in E; apply qle_false; qnra].
Qed.
Print Assumptions c37_scale_order.
Example c37_ex : let (p, n) := hhi_concentration [1; 3; -2; -2; 0] in
  match p, n with Some a, Some b => this a = (7 # 16)%Q /\ this b = 0%Q | _, _ => False end.
Proof. vm_compute. auto. Qed.

(** C38: each reported drawdown belongs to a new high whose stretch (until the next new high) has a loss, and is the
    depth of that stretch; every such high is reported, once, in order of time. *)
Theorem c38_drawdowns : forall rets, times_increase rets ->
  (forall t d, In (t, d) (drawdowns_dollars rets) <->
     exists i h m, nth_error rets i = Some (t, h) /\ new_high (map snd rets) i /\ low_until_next_high (map snd rets) i m /\ m < h /\ d = h - m) /\
  (forall t f, In (t, f) (drawdowns rets) <->
     exists i h m, nth_error rets i = Some (t, h) /\ new_high (map snd rets) i /\ low_until_next_high (map snd rets) i m /\ m < h /\
       f = (if qeq h 0 then None else Some (1 - m / h))) /\
  StronglySorted Z.lt (map fst (drawdowns_dollars rets)) /\ map fst (drawdowns rets) = map fst (drawdowns_dollars rets).
Proof.
  intros rets HT. split; [|split; [|split]].
  - intros t d. unfold drawdowns_dollars. rewrite in_map_iff. split.
    + intros [[t' h m] [E H]]. cbn in E. inversion E; subst. apply (dd_rows_In t h m HT) in H. destruct H as [i [A [B [C D]]]]. exists i, h, m. auto.
    + intros [i [h [m [A [B [C [D ->]]]]]]]. exists {| dd_time := t; dd_hwm := h; dd_min := m |}. split; auto. apply dd_rows_In; eauto.
  - intros t d. unfold drawdowns. rewrite in_map_iff. split.
    + intros [[t' h m] [E H]]. cbn in E. inversion E; subst. apply (dd_rows_In t h m HT) in H. destruct H as [i [A [B [C D]]]]. exists i, h, m. auto.
    + intros [i [h [m [A [B [C [D ->]]]]]]]. exists {| dd_time := t; dd_hwm := h; dd_min := m |}. split; auto. apply dd_rows_In; eauto.
  - unfold drawdowns_dollars. rewrite map_map. now apply dd_rows_sorted.
  - unfold drawdowns_dollars, drawdowns. now rewrite !map_map.
Qed.
Print Assumptions c38_drawdowns.
(** The largest drawdown is the largest loss from a value to a later one. *)
Theorem c38_max_drawdown : forall rets, times_increase rets ->
  (forall i j x y, (i <= j)%nat -> nth_error (map snd rets) i = Some x -> nth_error (map snd rets) j = Some y -> y < x ->
     exists t d, In (t, d) (drawdowns_dollars rets) /\ x - y <= d) /\
  (forall t d, In (t, d) (drawdowns_dollars rets) -> 0 < d /\
     exists i j x y, (i <= j)%nat /\ nth_error (map snd rets) i = Some x /\ nth_error (map snd rets) j = Some y /\ d = x - y).
Proof.
  intros rets HT. destruct (c38_drawdowns HT) as [H _]. split.
  - intros i j x y L Hi Hj XY. destruct (@last_high (map snd rets) j) as [k [HN HB]]; [apply nth_error_Some; congruence|].
    assert (HN' := HN). destruct HN' as [h [Hk _]]. rewrite nth_error_map in Hk. destruct (nth_error rets k) as [[t h']|] eqn:ER; [|discriminate].
    cbn in Hk. inversion Hk; subst h'. assert (Hk' : nth_error (map snd rets) k = Some h) by now rewrite nth_error_map, ER.
    assert (XH : x <= h) by (apply (stretch_max Hk' HN HB L Hi)).
    pose proof (group_min_spec Hk' HN) as GM. set (m := group_min _ _ _) in GM. clearbody m.
    assert (MY : m <= y) by (apply (proj2 GM j); auto).
    exists t, (h - m). split; [|qlra]. apply H. exists k, h, m. repeat split; auto; try apply GM. qlra.
  - intros t d HI. apply H in HI. destruct HI as [i [h [m [A [B [[[j [[LJ _] HJ]] _] [D ->]]]]]]]. split; [qlra|].
    exists i, j, h, m. repeat split; auto; [lia|]. now rewrite nth_error_map, A.
Qed.
Print Assumptions c38_max_drawdown.
Theorem c38_fractions : forall rets, times_increase rets -> (forall r, In r rets -> 0 < snd r) ->
  forall t f, In (t, f) (drawdowns rets) -> exists x, f = Some x /\ 0 < x < 1.
Proof.
  intros rets HT HP t f H. destruct (c38_drawdowns HT) as [_ [H' _]]. apply H' in H. destruct H as [i [h [m [A [B [[[j [_ HJ]] _] [D ->]]]]]]].
  assert (Hh : 0 < h) by (apply (HP (t, h)); eapply nth_error_In; eauto).
  assert (Hm : 0 < m). { apply nth_error_In, in_map_iff in HJ. destruct HJ as [r [<- Hr]]. auto. }
  destruct (qeq h 0) eqn:E; [apply qeq_iff in E; subst; now apply Qclt_irrefl in Hh|]. exists (1 - m / h). split; auto.
  assert (m / h < 1) by (apply Qcdiv_lt_iff; auto; qlra). assert (0 < m / h) by now apply Qcdiv_pos. split; qlra.
Qed.
Print Assumptions c38_fractions.
Definition ex_path : list (Z * Qc) := combine (map (fun d => (d * day)%Z) [0; 1; 2; 3; 4; 5; 6]%Z) [2; 1; 3; 4; 5; 1; 6].
Example c38_ex : times_increase ex_path /\ map (fun p => (fst p / day, this (snd p)))%Z (drawdowns_dollars ex_path) = [(0%Z, 1%Q); (4%Z, 4%Q)] /\
  map (fun p => (fst p / day, option_map this (snd p)))%Z (drawdowns ex_path) = [(0%Z, Some (1 # 2)%Q); (4%Z, Some (4 # 5)%Q)].
Proof. split; [repeat constructor|]. split; vm_compute; reflexivity. Qed.

(** C39: time under water.  Recovery of the high at [i] is at [j]: the next new high. *)
Definition next_high (v : list Qc) (i j : nat) : Prop := (i < j)%nat /\ new_high v j /\ forall k, (i < k < j)%nat -> ~ new_high v k.
Theorem c39_time_under_water_refuted : exists rets t d, times_increase rets /\ In (t, d) (time_under_water rets) /\
  exists i h j tj y, nth_error rets i = Some (t, h) /\ nth_error rets j = Some (tj, y) /\ next_high (map snd rets) i j /\ d <> qz (tj - t) / ns_per_day.
Proof.
  exists ex_path, 0%Z, (qz (4 * day) / ns_per_day). split; [repeat constructor|]. split; [vm_compute; auto|].
  exists 0%nat, 2, 2%nat, (2 * day)%Z, 3. split; [reflexivity|]. split; [reflexivity|]. split.
  - split; [lia|]. split.
    + exists 3. split; auto. intros [|[|j]] y L H; [| |lia]; cbn in H; inversion H; subst; reflexivity.
    + intros k L [x [Hx H]]. assert (k = 1%nat) by lia. subst k. cbn in Hx. inversion Hx; subst x.
      specialize (H 0%nat 2). assert (C : (2 : Qc) < 1) by (apply H; auto; lia). discriminate C.
  - intro H. apply Qceq_this in H. vm_compute in H. discriminate.
Qed.
Print Assumptions c39_time_under_water_refuted.
(** What holds always: it never understates the time to recovery. *)
Lemma tuw_rows rets t d : times_increase rets -> In (t, d) (time_under_water rets) ->
  exists i j h tj y m m', nth_error rets i = Some (t, h) /\ new_high (map snd rets) i /\ low_until_next_high (map snd rets) i m /\ m < h /\
    nth_error rets j = Some (tj, y) /\ new_high (map snd rets) j /\ low_until_next_high (map snd rets) j m' /\ m' < y /\
    (i < j)%nat /\ d = qz (tj - t) / ns_per_day /\
    forall k z tk l, (i < k < j)%nat -> nth_error rets k = Some (tk, z) -> new_high (map snd rets) k -> low_until_next_high (map snd rets) k l -> z <= l.
Proof.
  intros HT H. apply under_water_In in H. destruct H as [n [tj [H1 [H2 E]]]].
  rewrite nth_error_map in H1, H2. destruct (nth_error (dd_rows rets) n) as [[t1 h m]|] eqn:E1; [|discriminate].
  destruct (nth_error (dd_rows rets) (S n)) as [[t2 y m']|] eqn:E2; [|discriminate]. cbn in H1, H2. inversion H1; inversion H2; subst t1 t2. clear H1 H2.
  assert (I1 := nth_error_In _ _ E1). assert (I2 := nth_error_In _ _ E2). apply (dd_rows_In t h m HT) in I1. apply (dd_rows_In tj y m' HT) in I2.
  destruct I1 as [i [A1 [A2 [A3 A4]]]]. destruct I2 as [j [B1 [B2 [B3 B4]]]]. exists i, j, h, tj, y, m, m'.
  assert (SS := dd_rows_sorted HT).
  assert (T1 : nth_error (map dd_time (dd_rows rets)) n = Some t) by now rewrite nth_error_map, E1.
  assert (T2 : nth_error (map dd_time (dd_rows rets)) (S n) = Some tj) by now rewrite nth_error_map, E2.
  assert (LT : (t < tj)%Z) by (apply (@ssorted_nth_lt (map dd_time (dd_rows rets)) n (S n) t tj); auto).
  assert (TI : forall a b ta va tb vb, nth_error rets a = Some (ta, va) -> nth_error rets b = Some (tb, vb) -> (ta < tb)%Z -> (a < b)%nat).
  { intros a b ta va tb vb Ha Hb L. destruct (Nat.lt_ge_cases a b) as [C|C]; auto. exfalso.
    assert (Xa : nth_error (map fst rets) a = Some ta) by now rewrite nth_error_map, Ha.
    assert (Xb : nth_error (map fst rets) b = Some tb) by now rewrite nth_error_map, Hb.
    pose proof (@sorted_nth_le (map fst rets) b a tb ta (zssorted_sorted HT) Xb Xa C). lia. }
  assert (TI' : forall a b ta va tb vb, nth_error rets a = Some (ta, va) -> nth_error rets b = Some (tb, vb) -> (a < b)%nat -> (ta < tb)%Z).
  { intros a b ta va tb vb Ha Hb L.
    assert (Xa : nth_error (map fst rets) a = Some ta) by now rewrite nth_error_map, Ha.
    assert (Xb : nth_error (map fst rets) b = Some tb) by now rewrite nth_error_map, Hb.
    exact (@ssorted_nth_lt (map fst rets) a b ta tb HT Xa Xb L). }
  repeat (split; [solve [auto | eapply TI; eauto]|]).
  intros k z tk l Lk Hk HN HL. destruct (Qclt_le_dec l z) as [C|C]; auto. exfalso.
  assert (IK : In {| dd_time := tk; dd_hwm := z; dd_min := l |} (dd_rows rets)) by (apply dd_rows_In; eauto).
  apply In_nth_error in IK. destruct IK as [o Ho]. assert (TO : nth_error (map dd_time (dd_rows rets)) o = Some tk) by now rewrite nth_error_map, Ho.
  assert (t < tk)%Z by (eapply TI'; [exact A1|exact Hk|lia]). assert (tk < tj)%Z by (eapply TI'; [exact Hk|exact B1|lia]).
  destruct (Nat.lt_ge_cases n o) as [D|D].
  - pose proof (@sorted_nth_le (map dd_time (dd_rows rets)) (S n) o tj tk (zssorted_sorted SS) T2 TO D). lia.
  - pose proof (@sorted_nth_le (map dd_time (dd_rows rets)) o n tk t (zssorted_sorted SS) TO T1 D). lia.
Qed.
Theorem c39_never_understated : forall rets t d, times_increase rets -> In (t, d) (time_under_water rets) ->
  exists i h, nth_error rets i = Some (t, h) /\
  forall j tj y, nth_error rets j = Some (tj, y) -> next_high (map snd rets) i j -> qz (tj - t) / ns_per_day <= d.
Proof.
  intros rets t d HT H. destruct (tuw_rows HT H) as [i [j [h [tj [y [m [m' [A [_ [_ [_ [B [C [_ [_ [L [-> _]]]]]]]]]]]]]]]]].
  exists i, h. split; auto. intros j' tj' y' Hj' [L' [N' HX]]. assert (J : (j' <= j)%nat).
  { destruct (Nat.le_gt_cases j' j) as [X|X]; auto. exfalso. apply (HX j); auto. }
  assert (Xa : nth_error (map fst rets) j' = Some tj') by now rewrite nth_error_map, Hj'.
  assert (Xb : nth_error (map fst rets) j = Some tj) by now rewrite nth_error_map, B.
  pose proof (@sorted_nth_le (map fst rets) j' j tj' tj (zssorted_sorted HT) Xa Xb J).
  apply Qcdiv_le_iff; [apply ns_per_day_pos|]. rewrite Qcdiv_mul_cancel by discriminate. apply qz_le. lia.
Qed.
Print Assumptions c39_never_understated.
(** It is exact when every new high that is followed by another one is followed by a loss first. *)
Definition every_high_lost (v : list Qc) : Prop :=
  forall i j, new_high v i -> next_high v i j -> exists k x y, (i < k < j)%nat /\ nth_error v i = Some x /\ nth_error v k = Some y /\ y < x.
Theorem c39_time_under_water_under_guard : forall rets t d, times_increase rets -> every_high_lost (map snd rets) -> In (t, d) (time_under_water rets) ->
  exists i h j tj y, nth_error rets i = Some (t, h) /\ nth_error rets j = Some (tj, y) /\ new_high (map snd rets) i /\ next_high (map snd rets) i j /\
    d = qz (tj - t) / ns_per_day.
Proof.
  intros rets t d HT HG H. destruct (tuw_rows HT H) as [i [j [h [tj [y [m [m' [A [A2 [_ [_ [B [C [_ [_ [L [-> HK]]]]]]]]]]]]]]]]].
  exists i, h, j, tj, y. split; [exact A|split; [exact B|split; [exact A2|split; [|reflexivity]]]]. split; [auto|split; [auto|]].
  intros k Lk Nk. set (v := map snd rets) in *.
  (* the next high after k exists, so k is followed by a loss and reported *)
  assert (NX : forall n k0, (j - k0 <= n)%nat -> (k0 < j)%nat -> exists j0, next_high v k0 j0).
  { induction n as [|n IH]; intros k0 Ln Lk0; [lia|]. destruct (new_high_dec v (S k0)) as [N|N].
    - exists (S k0). split; [lia|]. split; auto. intros; lia.
    - destruct (Nat.eq_dec (S k0) j) as [QE|NE]; [rewrite QE in N; contradiction|]. destruct (IH (S k0)) as [j0 [J1 [J2 J3]]]; [lia|lia|]. exists j0. split; [lia|]. split; auto.
      intros k1 Lk1. destruct (Nat.eq_dec k1 (S k0)) as [->|NE1]; auto. apply J3. lia. }
  destruct (NX (j - k)%nat k) as [j0 HJ]; [lia|lia|]. destruct (HG k j0 Nk HJ) as [k1 [x [z [L1 [X1 [X2 X3]]]]]].
  assert (X1' := X1). unfold v in X1'. rewrite nth_error_map in X1'. destruct (nth_error rets k) as [[tk x']|] eqn:EK; [|discriminate]. cbn in X1'. inversion X1'; subst x'.
  pose proof (group_min_spec X1 Nk) as GM. assert (Q : x <= group_min (expanding_max v) v x) by (eapply HK; eauto).
  assert (Q2 : group_min (expanding_max v) v x <= z).
  { apply (proj2 GM k1); auto. split; [split; [lia|apply nth_error_Some; congruence]|]. intros k2 L2. apply (proj2 (proj2 HJ)). lia. }
  qlra.
Qed.
Print Assumptions c39_time_under_water_under_guard.
(** and then every high that is followed by two drawdown highs ... is reported: nothing is lost but the final stretch *)
Theorem c39_complete : forall rets i j t h tj y x z k k', times_increase rets -> nth_error rets i = Some (t, h) -> nth_error rets j = Some (tj, y) ->
  new_high (map snd rets) i -> next_high (map snd rets) i j ->
  (* a loss between the two highs, and a loss after the second *)
  (i < k < j)%nat -> nth_error (map snd rets) k = Some x -> x < h ->
  before_next_high (map snd rets) j k' -> nth_error (map snd rets) k' = Some z -> z < y ->
  In (t, qz (tj - t) / ns_per_day) (time_under_water rets).
Proof.
  intros rets i j t h tj y x z k k' HT Hi Hj Ni [Lij [Nj HX]] Lk Hk XH Bk' Hk' ZY. set (v := map snd rets) in *.
  assert (Vi : nth_error v i = Some h) by (unfold v; now rewrite nth_error_map, Hi).
  assert (Vj : nth_error v j = Some y) by (unfold v; now rewrite nth_error_map, Hj).
  pose proof (group_min_spec Vi Ni) as G1. pose proof (group_min_spec Vj Nj) as G2.
  assert (M1 : group_min (expanding_max v) v h <= x).
  { apply (proj2 G1 k); auto. split; [split; [lia|apply nth_error_Some; congruence]|]. intros k2 L2. apply HX. lia. }
  assert (M2 : group_min (expanding_max v) v y <= z) by (apply (proj2 G2 k'); auto).
  assert (I1 : In {| dd_time := t; dd_hwm := h; dd_min := group_min (expanding_max v) v h |} (dd_rows rets)).
  { apply dd_rows_In; auto. exists i. repeat split; auto; try apply G1. qlra. }
  assert (I2 : In {| dd_time := tj; dd_hwm := y; dd_min := group_min (expanding_max v) v y |} (dd_rows rets)).
  { apply dd_rows_In; auto. exists j. repeat split; auto; try apply G2. qlra. }
  assert (SS := dd_rows_sorted HT). apply In_nth_error in I1. apply In_nth_error in I2. destruct I1 as [n I1]. destruct I2 as [n' I2].
  assert (T1 : nth_error (map dd_time (dd_rows rets)) n = Some t) by now rewrite nth_error_map, I1.
  assert (T2 : nth_error (map dd_time (dd_rows rets)) n' = Some tj) by now rewrite nth_error_map, I2.
  assert (TI' : forall a b ta va tb vb, nth_error rets a = Some (ta, va) -> nth_error rets b = Some (tb, vb) -> (a < b)%nat -> (ta < tb)%Z).
  { intros a b ta va tb vb Ha Hb L.
    assert (Xa : nth_error (map fst rets) a = Some ta) by now rewrite nth_error_map, Ha.
    assert (Xb : nth_error (map fst rets) b = Some tb) by now rewrite nth_error_map, Hb.
    exact (@ssorted_nth_lt (map fst rets) a b ta tb HT Xa Xb L). }
  assert (LT : (t < tj)%Z) by (eapply TI'; eauto).
  assert (N1 : (n < n')%nat). { destruct (Nat.lt_ge_cases n n') as [C|C]; auto. pose proof (@sorted_nth_le _ n' n tj t (zssorted_sorted SS) T2 T1 C). lia. }
  apply under_water_In. exists n, tj. split; auto. split; auto. destruct (Nat.eq_dec n' (S n)) as [->|NE]; auto. exfalso.
  destruct (nth_error (dd_rows rets) (S n)) as [[tm hm mm]|] eqn:E; [|apply nth_error_None in E; assert (n' < length (dd_rows rets))%nat by (apply nth_error_Some; congruence); lia].
  assert (TM : nth_error (map dd_time (dd_rows rets)) (S n) = Some tm) by now rewrite nth_error_map, E.
  assert (t < tm)%Z by (apply (@ssorted_nth_lt _ n (S n) t tm SS T1 TM); lia). assert (tm < tj)%Z by (apply (@ssorted_nth_lt _ (S n) n' tm tj SS TM T2); lia).
  apply nth_error_In in E. apply (dd_rows_In tm hm mm HT) in E. destruct E as [o [O1 [O2 _]]]. apply (HX o); auto. split.
  - destruct (Nat.lt_ge_cases i o) as [C|C]; auto. exfalso. destruct (Nat.eq_dec o i) as [->|NO]; [assert (tm = t) by congruence; lia|].
    assert (tm < t)%Z by (eapply TI'; [exact O1|exact Hi|lia]). lia.
  - destruct (Nat.lt_ge_cases o j) as [C|C]; auto. exfalso. destruct (Nat.eq_dec o j) as [->|NO]; [assert (tm = tj) by congruence; lia|].
    assert (tj < tm)%Z by (eapply TI'; [exact Hj|exact O1|lia]). lia.
Qed.
Print Assumptions c39_complete.
Definition ex_path2 : list (Z * Qc) := combine (map (fun d => (d * day)%Z) [0; 1; 2; 3; 4; 5; 6]%Z) [2; 1; 1; 4; 3; 5; 4].
Example c39_ex : times_increase ex_path2 /\ map (fun p => (fst p / day, this (snd p)))%Z (time_under_water ex_path2) = [(0%Z, 3%Q); (3%Z, 2%Q)].
Proof. split; [repeat constructor|vm_compute; reflexivity]. Qed.
