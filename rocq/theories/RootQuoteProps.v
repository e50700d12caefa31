(** C149: option quotes and the prices rebuilt from their implied volatilities, with scipy's root finder. *)
From Verif Require Import Py RNum Normal OptionModel OptionProofs OptionProps RootModel RootProps RootFirmProps KDEModel KDEProps.
Set Implicit Arguments.
Unset Strict Implicit.
Open Scope R_scope.

(** an option price moves at most [s sqrt t] times as much as the volatility *)
Lemma bs_vol_moves cdf A B v1 v2 : is_normal_cdf cdf -> 0 < A -> 0 < B -> 0 < v1 -> v1 < v2 -> 0 < bs cdf A B v2 - bs cdf A B v1 <= A * (v2 - v1).
Proof.
  intros N HA HB H1 H2. destruct (density_below_1 N) as (c & Hc & Hd). destruct (bs_vol_derivative N) as (c' & Hc' & Hd').
  assert (E : c' = c).
  { assert (U : derivable_pt_lim (fun s => bs cdf 1 1 s) 2 (c' * (1 * bell (bsD 1 1 2)))) by (apply Hd'; lra).
    assert (D1 : derivable_pt_lim (fun s => bsD 1 1 s) 2 (/ 2)).
    { intros eps He. exists (mkposreal 1 Rlt_0_1). intros h Hh Hl. cbn in Hl. apply Rabs_def2 in Hl. match goal with |- Rabs ?X < _ => replace X with 0 end; [now rewrite Rabs_R0|]. unfold bsD. field. split; lra. }
    assert (D2 : derivable_pt_lim (fun s => bsD 1 1 s - s) 2 (/ 2 - 1)) by (apply (derivable_pt_lim_minus (fun s => bsD 1 1 s) id); auto; apply derivable_pt_lim_id).
    pose proof (derivable_pt_lim_comp (fun s => bsD 1 1 s) cdf 2 _ _ D1 (Hd _)) as C1. pose proof (derivable_pt_lim_comp (fun s => bsD 1 1 s - s) cdf 2 _ _ D2 (Hd _)) as C2.
    pose proof (derivable_pt_lim_minus _ _ 2 _ _ C1 C2) as M. unfold comp, minus_fct in M.
    assert (U' : derivable_pt_lim (fun x => cdf (bsD 1 1 x) - cdf (bsD 1 1 x - x)) 2 (c' * (1 * bell (bsD 1 1 2)))).
    { intros eps He. destruct (U eps He) as (d & H). exists d. intros h Hh Hl. specialize (H h Hh Hl). match goal with |- Rabs ?X < _ => match type of H with Rabs ?Y < _ => replace X with Y; [exact H|] end end. unfold bs. field. exact Hh. }
    pose proof (uniqueness_limite _ _ _ _ M U') as Q. pose proof (@bell_identity 1 1 2 Rlt_0_1 Rlt_0_1 ltac:(lra)) as Id. pose proof (bell_pos (bsD 1 1 2)). rewrite !Rmult_1_l in Id. rewrite <- Id in Q. nra. }
  subst c'. destruct (MVT_cor2 (fun s => bs cdf A B s) (fun s => c * (A * bell (bsD A B s))) v1 v2 H2) as (u & EQ & Hu); [intros; apply Hd'; lra|]. cbv beta in EQ. rewrite EQ.
  pose proof (bell_pos (bsD A B u)). pose proof (bell_le_1 (bsD A B u)). assert (0 < A * bell (bsD A B u) <= A) by (split; nra). assert (0 < c * (A * bell (bsD A B u)) <= A) by (split; nra). split; nra.
Qed.
Theorem c149_vega cdf ty s k r t v1 v2 : is_normal_cdf cdf -> 0 < s -> 0 < k -> 0 < t -> 0 < v1 -> 0 < v2 ->
  Rabs (bsm_value cdf ty s k r v1 t - bsm_value cdf ty s k r v2 t) <= s * sqrt t * Rabs (v1 - v2).
Proof.
  intros N Hs Hk Ht. pose proof (sqrt_lt_R0 t Ht) as Hq.
  assert (W : forall v1 v2, 0 < v1 -> v1 < v2 -> Rabs (bsm_value cdf ty s k r v2 t - bsm_value cdf ty s k r v1 t) <= s * sqrt t * (v2 - v1)).
  { clear v1 v2. intros v1 v2 H1 H2. unfold bsm_value. rewrite !(@bsm_as_bs cdf ty s k r _ t None 0 false) by (cbn; auto; lra). cbn [net_spot carry]. rewrite Ropp_0, Rmult_0_l, exp_0, Rmult_1_r.
    set (B := k * exp (- r * t)). assert (HB : 0 < B) by (apply Rmult_lt_0_compat; auto; apply exp_pos).
    assert (M : 0 < v1 * sqrt t /\ v1 * sqrt t < v2 * sqrt t) by (split; [now apply Rmult_lt_0_compat|now apply Rmult_lt_compat_r]). destruct M as [M1 M2].
    pose proof (@bs_vol_moves cdf s B _ _ N Hs HB M1 M2) as V. pose proof (bs_parity N s B M1) as P1. pose proof (bs_parity N s B (Rlt_trans _ _ _ M1 M2)) as P2.
    destruct ty; rewrite Rabs_pos_eq; lra. }
  intros H1 H2. destruct (Rtotal_order v1 v2) as [H|[->|H]].
  - rewrite Rabs_minus_sym, (Rabs_minus_sym v1 v2), (Rabs_pos_eq (v2 - v1)) by lra. now apply W.
  - unfold Rminus. rewrite !Rplus_opp_r, Rabs_R0. lra.
  - rewrite (Rabs_pos_eq (v1 - v2)) by lra. now apply W.
Qed.
(** a quote that survives the search is repriced to eleven digits of the spot times the square root of the time *)
Theorem c149_repriced cdf ty s k r t p x : is_normal_cdf cdf -> 0 < s -> 0 < k -> 0 < t ->
  implied_volatility scipy_brentq (fun sigma => bsm_value cdf ty s k r sigma t) p (1 / 100) 1 = Ok x ->
  1 / 100 <= x <= 1 /\ Rabs (bsm_value cdf ty s k r x t - p) <= s * sqrt t * (201 / 10 ^ 14).
Proof.
  intros N Hs Hk Ht H. unfold implied_volatility in H. destruct (@c149_brentq (fun v => bsm_value cdf ty s k r v t - p) (1 / 100) 1 (2 / 10 ^ 12) (4 / 2 ^ 52) 100 ltac:(lra) ltac:(lra) ltac:(lra)) as [H1 H2].
  unfold scipy_brentq in H. destruct (Rlt_dec 0 ((bsm_value cdf ty s k r (1 / 100) t - p) * (bsm_value cdf ty s k r 1 t - p))) as [C|C]; [rewrite H1 in H by exact C; discriminate|].
  destruct (H2 ltac:(lra)) as [(E & _)|(x' & E & I & _ & Z)]; rewrite H in E; [discriminate|]. injection E as <-. split; auto. pose proof (sqrt_lt_R0 t Ht) as Hq.
  destruct Z as (z & Iz & Ez & B). { intros y Hy. apply (@pricing_continuous cdf ty s k r t None 0 false (fun v => bsm_value cdf ty s k r v t)); auto; lra. }
  replace p with (bsm_value cdf ty s k r z t) by lra. eapply Rle_trans; [apply c149_vega; auto; lra|]. apply Rmult_le_compat_l; [apply Rlt_le; now apply Rmult_lt_0_compat|]. rewrite (Rabs_pos_eq x) in B by lra.
  assert (4 / 2 ^ 52 * x <= 4 / 2 ^ 52 * 1) by (apply Rmult_le_compat_l; lra). lra.
Qed.
(** so the curve drawn through the implied volatilities passes that close to every quote *)
Theorem c149_quotes cdf spline q ks t r s ty pts k p : is_normal_cdf cdf -> 0 < s -> 0 < t -> 0 < k -> through_points spline ->
  price_points cdf scipy_brentq spline q ks t r true (Some s) ty = Ok pts -> In (k, p) q -> In k ks -> exists p', In (k, p') pts /\ Rabs (p' - p) <= s * sqrt t * (201 / 10 ^ 14).
Proof.
  intros N Hs Ht Hk HS. unfold price_points. cbn [bind]. destruct (mapM _ q) as [iv|] eqn:EM; [|discriminate]. cbn [bind]. destruct (spline (map fst q) iv) as [c|] eqn:ES; [|discriminate]. cbn [bind]. intros [= <-] Hq HK.
  apply In_nth_error in Hq. destruct Hq as [i Hi]. apply mapM_ok in EM.
  assert (G : exists v, nth_error iv i = Some v /\ implied_volatility scipy_brentq (fun sigma => bsm_value cdf ty s k r sigma t) p (1 / 100) 1 = Ok v).
  { clear -EM Hi. revert i Hi. induction EM as [|o v q iv Ho EM IH]; intros i Hi; [destruct i; discriminate|]. destruct i as [|i]; [injection Hi as ->; exists v; auto|]. apply (IH i). exact Hi. }
  destruct G as (v & Hv & E). destruct (c149_repriced N Hs Hk Ht E) as [_ B].
  exists (bsm_value cdf ty s k r v t). split; auto. apply in_map_iff. exists k. split; auto. f_equal. now rewrite (HS _ _ _ ES i k v); [| now rewrite nth_error_map, Hi|exact Hv].
Qed.
Print Assumptions c149_vega.
Print Assumptions c149_repriced.
Print Assumptions c149_quotes.
