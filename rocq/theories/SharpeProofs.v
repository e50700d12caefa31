(** Lemmas for SharpeProps. *)
From Verif Require Import Py RNum SharpeModel.
Set Implicit Arguments.
Unset Strict Implicit.
Open Scope R_scope.

Lemma moment_scale k c l : moment k (map (fun x => c * x) l) = c ^ k * moment k l.
Proof.
  unfold moment. rewrite map_map. replace (rmean (map (fun x => c * x) l)) with (c * rmean l).
  - rewrite <- rmean_map_scale. apply rmean_map_ext. intros x _. rewrite <- Rpow_mult_distr. f_equal. ring.
  - rewrite <- (map_id l) at 1. now rewrite <- rmean_map_scale.
Qed.
Lemma moment2_nonneg l : 0 <= moment 2 l.
Proof.
  destruct l as [|a l]; [unfold moment, rmean; cbn; lra|]. unfold moment. apply rmean_nonneg; [discriminate|].
  intros x Hx. apply in_map_iff in Hx. destruct Hx as [y [<- _]]. apply pow2_ge_0.
Qed.
Lemma rmean_scale c l : rmean (map (fun x => c * x) l) = c * rmean l.
Proof. rewrite (@rmean_map_scale _ (fun x => x) c l). now rewrite map_id. Qed.
Lemma np_std_scale c l : np_std (map (fun x => c * x) l) = Rabs c * np_std l.
Proof.
  unfold np_std, np_var. rewrite moment_scale, sqrt_mult_alt by apply pow2_ge_0. f_equal.
  rewrite <- Rsqr_pow2. apply sqrt_Rsqr_abs.
Qed.
Lemma std_zero l : np_std l = 0 <-> moment 2 l = 0.
Proof. unfold np_std, np_var. split; [apply sqrt_eq_0, moment2_nonneg|intros ->; apply sqrt_0]. Qed.

(** Pearson: the raw kurtosis is at least the squared skewness plus one *)
Section Pearson.
Variable l : list R.
Hypothesis V : 0 < moment 2 l.
Lemma nonempty : l <> [].
Proof. intro E. rewrite E in V. unfold moment, rmean in V. cbn in V. unfold Rdiv in V. rewrite Rmult_0_l in V. lra. Qed.
Let mu := rmean l.
Let m2 := moment 2 l.
Let m3 := moment 3 l.
Let m4 := moment 4 l.
Lemma centred : rmean (map (fun x => x - mu) l) = 0.
Proof.
  rewrite (@rmean_map_sub _ (fun x => x) (fun _ => mu)), map_id, rmean_map_const by apply nonempty. unfold mu. ring.
Qed.
Lemma mean_quartic a b : rmean (map (fun x => ((x - mu) ^ 2 - a * (x - mu) - b) ^ 2) l) = m4 + a ^ 2 * m2 + b ^ 2 - 2 * a * m3 - 2 * b * m2.
Proof.
  rewrite (@rmean_map_ext _ _ (fun x => ((x - mu) ^ 4 + (a ^ 2 * (x - mu) ^ 2 + (b ^ 2 + ((-2 * a) * (x - mu) ^ 3 + ((-2 * b) * (x - mu) ^ 2 + (2 * a * b) * (x - mu))))))) l)
    by (intros; ring).
  rewrite (@rmean_map_add _ (fun x => (x - mu) ^ 4)), (@rmean_map_add _ (fun x => a ^ 2 * (x - mu) ^ 2)), (@rmean_map_add _ (fun _ => b ^ 2)),
    (@rmean_map_add _ (fun x => (-2 * a) * (x - mu) ^ 3)), (@rmean_map_add _ (fun x => (-2 * b) * (x - mu) ^ 2)).
  rewrite !rmean_map_scale, centred, rmean_map_const by apply nonempty. fold (moment 4 l). unfold m4, m2, m3, moment. fold mu. ring.
Qed.
Lemma pearson : (m3 / (m2 * sqrt m2)) ^ 2 + 1 <= m4 / m2 ^ 2.
Proof.
  assert (P : 0 <= m4 + (m3 / m2) ^ 2 * m2 + m2 ^ 2 - 2 * (m3 / m2) * m3 - 2 * m2 * m2).
  { rewrite <- mean_quartic. apply rmean_nonneg; [intro E; apply nonempty; now apply map_eq_nil in E|].
    intros y Hy. apply in_map_iff in Hy. destruct Hy as [z [<- _]]. apply pow2_ge_0. }
  fold m2 in V. assert (S2 : sqrt m2 ^ 2 = m2) by (rewrite <- Rsqr_pow2; apply Rsqr_sqrt; lra).
  assert (Q : (m3 / (m2 * sqrt m2)) ^ 2 = m3 ^ 2 / m2 ^ 3).
  { assert (0 < sqrt m2) by now apply sqrt_lt_R0. unfold Rdiv. rewrite Rpow_mult_distr, pow_inv, Rpow_mult_distr, S2. f_equal. f_equal. ring. }
  rewrite Q. assert (D : 0 < m2 ^ 3) by now apply pow_lt. apply Rmult_le_reg_r with (m2 ^ 3); auto.
  replace ((m3 ^ 2 / m2 ^ 3 + 1) * m2 ^ 3) with (m3 ^ 2 + m2 ^ 3) by (field; lra).
  replace (m4 / m2 ^ 2 * m2 ^ 3) with (m4 * m2) by (field; lra).
  assert (P' : 0 <= (m4 + (m3 / m2) ^ 2 * m2 + m2 ^ 2 - 2 * (m3 / m2) * m3 - 2 * m2 * m2) * m2) by (apply Rmult_le_pos; lra).
  replace ((m4 + (m3 / m2) ^ 2 * m2 + m2 ^ 2 - 2 * (m3 / m2) * m3 - 2 * m2 * m2) * m2) with (m4 * m2 - m3 ^ 2 - m2 ^ 3) in P' by (field; lra). lra.
Qed.
End Pearson.

Lemma var_pos_iff l : 0 < moment 2 l <-> exists x y, In x l /\ In y l /\ x <> y.
Proof.
  pose proof (moment2_nonneg l) as N. split.
  - intro V. destruct l as [|a l]; [exfalso; unfold moment, rmean in V; cbn in V; unfold Rdiv in V; rewrite Rmult_0_l in V; lra|].
    destruct (Exists_dec (fun y => a <> y) l) as [D|D].
    + intro y. destruct (Req_EM_T a y); [right|left]; auto.
    + apply Exists_exists in D. destruct D as [y [H1 H2]]. exists a, y. repeat split; auto; [now left|now right].
    + exfalso. assert (E : forall y, In y (a :: l) -> y = a).
      { intros y [<-|Hy]; auto. destruct (Req_EM_T a y) as [Q|Q]; auto. exfalso. apply D. apply Exists_exists. eauto. }
      assert (M : rmean (a :: l) = a).
      { rewrite <- (map_id (a :: l)). rewrite (@rmean_map_ext _ (fun x => x) (fun _ => a)) by auto. apply rmean_map_const. discriminate. }
      unfold moment in V. rewrite M in V. rewrite (@rmean_map_ext _ (fun x => (x - a) ^ 2) (fun _ => 0)) in V by (intros x Hx; rewrite (E x Hx); ring).
      rewrite rmean_map_const in V by discriminate. lra.
  - intros [x [y [Hx [Hy XY]]]]. destruct N as [N|N]; auto. exfalso. symmetry in N. unfold moment, rmean in N. rewrite map_length in N.
    assert (NE : l <> []) by (intros ->; contradiction). assert (L := INR_length_pos NE).
    assert (Z : rsum (map (fun x => (x - rsum l / INR (length l)) ^ 2) l) = 0).
    { apply Rmult_eq_reg_r with (/ INR (length l)); [rewrite Rmult_0_l; exact N|]. apply Rgt_not_eq. now apply Rinv_0_lt_compat. }
    assert (A : forall z, In z l -> z = rsum l / INR (length l)).
    { intros z Hz. assert (Q : (z - rsum l / INR (length l)) ^ 2 = 0).
      { apply (@rsum_zero_all (map (fun x => (x - rsum l / INR (length l)) ^ 2) l)); auto.
        - intros u Hu. apply in_map_iff in Hu. destruct Hu as [w [<- _]]. apply pow2_ge_0.
        - apply in_map_iff. eauto. }
      assert (Q' : z - rsum l / INR (length l) = 0) by (destruct (Req_dec (z - rsum l / INR (length l)) 0) as [?|C]; auto; exfalso; apply (pow_nonzero _ 2 C Q)).
      lra. }
    apply XY. rewrite (A x Hx), (A y Hy). reflexivity.
Qed.
Lemma sharpe_defined l : (exists x y, In x l /\ In y l /\ x <> y) -> sharpe_ratio l = Some (rmean l / np_std l) /\ 0 < np_std l.
Proof.
  intro H. apply var_pos_iff in H. assert (0 < np_std l) by (unfold np_std, np_var; now apply sqrt_lt_R0). split; auto.
  unfold sharpe_ratio. destruct (Req_EM_T (np_std l) 0); [lra|auto].
Qed.
Lemma sharpe_undefined l : ~ (exists x y, In x l /\ In y l /\ x <> y) -> sharpe_ratio l = None.
Proof.
  intro H. unfold sharpe_ratio. destruct (Req_EM_T (np_std l) 0) as [E|E]; auto. exfalso. apply H. apply var_pos_iff.
  destruct (moment2_nonneg l) as [C|C]; auto. exfalso. apply E. now apply std_zero.
Qed.
