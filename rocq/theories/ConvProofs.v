(** Estimates for the convergence of the binomial tree: the normalised put as a function of the log moneyness [w] and the standard deviation [s]. *)
From Verif Require Import Py RNum Normal OptionModel OptionProofs.
Set Implicit Arguments.
Unset Strict Implicit.
Open Scope R_scope.

Lemma dlim_eq f x l l' : derivable_pt_lim f x l -> l = l' -> derivable_pt_lim f x l'. Proof. now intros H <-. Qed.
Lemma dlim_ext f f' x l : (forall y, f y = f' y) -> derivable_pt_lim f x l -> derivable_pt_lim f' x l.
Proof. intros E H eps He. destruct (H eps He) as [d Hd]. exists d. intros h Hh Hl. rewrite <- !E. auto. Qed.
Lemma dlin k x : derivable_pt_lim (fun y => y * k) x k.
Proof. eapply dlim_eq; [apply (derivable_pt_lim_mult id (fun _ => k)); [apply derivable_pt_lim_id|apply derivable_pt_lim_const]|unfold id; ring]. Qed.
(** mean value theorem between points in any order *)
Lemma mvt f f' a b : (forall x, Rmin a b <= x <= Rmax a b -> derivable_pt_lim f x (f' x)) -> exists c, Rmin a b <= c <= Rmax a b /\ f b - f a = f' c * (b - a).
Proof.
  intros H. destruct (Rtotal_order a b) as [L|[->|L]].
  - destruct (MVT_cor2 f f' a b L) as (c & E & Hc); [intros c Hc; apply H; rewrite Rmin_left, Rmax_right; lra|]. exists c. split; auto. rewrite Rmin_left, Rmax_right; lra.
  - exists b. rewrite Rmin_left, Rmax_left by lra. split; [lra|ring].
  - destruct (MVT_cor2 f f' b a L) as (c & E & Hc); [intros c Hc; apply H; rewrite Rmin_right, Rmax_left; lra|]. exists c. split; [rewrite Rmin_right, Rmax_left; lra|lra].
Qed.
Lemma between x h c : Rmin x (x + h) <= c <= Rmax x (x + h) -> Rabs (c - x) <= Rabs h.
Proof. intros H. unfold Rmin, Rmax in H. destruct (Rle_dec x (x + h)); apply Rabs_le; [rewrite Rabs_right by lra|rewrite Rabs_left by lra]; lra. Qed.
(** Taylor's formula with crude constants *)
Lemma taylor1 f f1 x h K : (forall y, Rabs (y - x) <= Rabs h -> derivable_pt_lim f y (f1 y) /\ Rabs (f1 y) <= K) -> Rabs (f (x + h) - f x) <= K * Rabs h.
Proof.
  intros H. destruct (@mvt f f1 x (x + h)) as (c & Hc & E); [intros y Hy; apply H; now apply between|]. apply between in Hc. rewrite E, Rabs_mult. replace (x + h - x) with h by ring.
  apply Rmult_le_compat_r; [apply Rabs_pos|]. now apply H.
Qed.
Lemma taylor2 f f1 f2 x h K : (forall y, Rabs (y - x) <= Rabs h -> derivable_pt_lim f y (f1 y) /\ derivable_pt_lim f1 y (f2 y) /\ Rabs (f2 y) <= K) ->
  Rabs (f (x + h) - f x - h * f1 x) <= K * Rabs h ^ 2.
Proof.
  intros H. replace (f (x + h) - f x - h * f1 x) with ((fun y => f y - y * f1 x) (x + h) - (fun y => f y - y * f1 x) x) by ring.
  replace (K * Rabs h ^ 2) with ((K * Rabs h) * Rabs h) by ring. apply (@taylor1 (fun y => f y - y * f1 x) (fun y => f1 y - f1 x)). intros y Hy. split.
  - apply (derivable_pt_lim_minus f (fun y => y * f1 x)); [now apply H|apply dlin].
  - replace y with (x + (y - x)) by ring. eapply Rle_trans; [apply (@taylor1 f1 f2 x (y - x) K)|].
    + intros z Hz. destruct (H z ltac:(lra)) as (_ & A & B). auto.
    + apply Rmult_le_compat_l; auto. destruct (H x) as (_ & _ & B); [rewrite Rminus_eq_0, Rabs_R0; apply Rabs_pos|]. pose proof (Rabs_pos (f2 x)). lra.
Qed.
Lemma taylor3 f f1 f2 f3 x h K : (forall y, Rabs (y - x) <= Rabs h -> derivable_pt_lim f y (f1 y) /\ derivable_pt_lim f1 y (f2 y) /\ derivable_pt_lim f2 y (f3 y) /\ Rabs (f3 y) <= K) ->
  Rabs (f (x + h) - f x - h * f1 x - h ^ 2 / 2 * f2 x) <= K * Rabs h ^ 3.
Proof.
  intros H. replace (f (x + h) - f x - h * f1 x - h ^ 2 / 2 * f2 x) with ((fun y => f y - y * f1 x - (y - x) ^ 2 / 2 * f2 x) (x + h) - (fun y => f y - y * f1 x - (y - x) ^ 2 / 2 * f2 x) x) by (cbv beta; field).
  replace (K * Rabs h ^ 3) with ((K * Rabs h ^ 2) * Rabs h) by ring. apply (@taylor1 (fun y => f y - y * f1 x - (y - x) ^ 2 / 2 * f2 x) (fun y => f1 y - f1 x - (y - x) * f2 x)). intros y Hy. split.
  - apply (derivable_pt_lim_minus (fun y => f y - y * f1 x) (fun y => (y - x) ^ 2 / 2 * f2 x)); [apply (derivable_pt_lim_minus f (fun y => y * f1 x)); [now apply H|apply dlin]|].
    apply (@dlim_ext (fun y => (y - x) * (y - x) * (f2 x / 2))); [intros; field|]. apply dlim_eq with (((1 - 0) * (y - x) + (y - x) * (1 - 0)) * (f2 x / 2) + (y - x) * (y - x) * 0); [|field].
      apply (derivable_pt_lim_mult (fun y => (y - x) * (y - x)) (fun _ => f2 x / 2)); [|apply derivable_pt_lim_const].
      apply (derivable_pt_lim_mult (fun y => y - x) (fun y => y - x)); (apply (derivable_pt_lim_minus id (fun _ => x)); [apply derivable_pt_lim_id|apply (derivable_pt_lim_const x)]).
  - replace (f1 y - f1 x - (y - x) * f2 x) with (f1 (x + (y - x)) - f1 x - (y - x) * f2 x) by (do 3 f_equal; ring). eapply Rle_trans; [apply (@taylor2 f1 f2 f3 x (y - x) K)|].
    + intros z Hz. destruct (H z ltac:(lra)) as (_ & A & B & C). auto.
    + apply Rmult_le_compat_l; [|apply pow_incr; split; auto; apply Rabs_pos]. destruct (H x) as (_ & _ & _ & B); [rewrite Rminus_eq_0, Rabs_R0; apply Rabs_pos|]. pose proof (Rabs_pos (f3 x)). lra.
Qed.

(** ** the exponential near 0 *)
Lemma dexp x : derivable_pt_lim exp x (exp x). Proof. apply derivable_pt_lim_exp. Qed.
Lemma dexp_opp x : derivable_pt_lim (fun x => exp (- x)) x (- exp (- x)).
Proof. eapply dlim_eq; [apply (derivable_pt_lim_comp (fun x => - x) exp); [apply (derivable_pt_lim_opp id); apply derivable_pt_lim_id|apply dexp]|ring]. Qed.
Lemma dexp_sum a b x : derivable_pt_lim (fun x => a * exp x + b * exp (- x)) x (a * exp x + - b * exp (- x)).
Proof. eapply dlim_eq; [apply (derivable_pt_lim_plus (fun x => a * exp x) (fun x => b * exp (- x))); [apply (derivable_pt_lim_scal exp), dexp|apply (derivable_pt_lim_scal (fun x => exp (- x))), dexp_opp]|ring]. Qed.
Lemma exp_near y : Rabs y <= 1 -> 0 < exp y <= 3.
Proof.
  intros H. split; [apply exp_pos|]. apply Rle_trans with (exp 1); [|apply exp_le_3]. destruct (Rle_lt_or_eq_dec y 1) as [L|E]; [pose proof (Rle_abs y); lra|left; now apply exp_increasing|rewrite E; apply Rle_refl].
Qed.
Lemma exp_first x : Rabs x <= 1 -> Rabs (exp x - 1 - x) <= 3 * x ^ 2.
Proof.
  intros H. replace (exp x - 1 - x) with (exp (0 + x) - exp 0 - x * exp 0) by (rewrite exp_0, Rplus_0_l; ring). rewrite <- (pow2_abs x). apply (@taylor2 exp exp exp). intros y Hy. rewrite Rminus_0_r in Hy.
  split; [apply dexp|]. split; [apply dexp|]. pose proof (exp_near (Rle_trans _ _ _ Hy H)). rewrite Rabs_right; lra.
Qed.
Lemma sinh_near h : 0 <= h <= 1 -> Rabs (exp h - exp (- h) - 2 * h) <= 6 * h ^ 3.
Proof.
  intros H. pose (f := fun a b x => a * exp x + b * exp (- x)).
  replace (exp h - exp (- h) - 2 * h) with (f 1 (-1) (0 + h) - f 1 (-1) 0 - h * f 1 1 0 - h ^ 2 / 2 * f 1 (-1) 0) by (unfold f; rewrite Rplus_0_l, Ropp_0, exp_0; field).
  replace (h ^ 3) with (Rabs h ^ 3) by (rewrite Rabs_right; lra). apply (@taylor3 (f 1 (-1)) (f 1 1) (f 1 (-1)) (f 1 1)). intros y Hy. rewrite Rminus_0_r, (Rabs_right h) in Hy by lra.
  repeat split; try (unfold f; eapply dlim_eq; [apply dexp_sum|]; ring). unfold f. pose proof (@exp_near y ltac:(lra)). pose proof (@exp_near (- y) ltac:(rewrite Rabs_Ropp; lra)). rewrite Rabs_right; lra.
Qed.
Lemma cosh_near h : 0 <= h <= 1 -> Rabs (exp h + exp (- h) - 2 - h ^ 2) <= 6 * h ^ 4.
Proof.
  intros H. pose (f := fun a b x => a * exp x + b * exp (- x)).
  replace (exp h + exp (- h) - 2 - h ^ 2) with (f 1 1 (0 + h) - f 1 1 0 - h * f 1 (-1) 0 - h ^ 2 / 2 * f 1 1 0) by (unfold f; rewrite Rplus_0_l, Ropp_0, exp_0; field).
  replace (6 * h ^ 4) with ((6 * h) * Rabs h ^ 3) by (rewrite Rabs_right by lra; ring). apply (@taylor3 (f 1 1) (f 1 (-1)) (f 1 1) (f 1 (-1))). intros y Hy. rewrite Rminus_0_r, (Rabs_right h) in Hy by lra.
  repeat split; try (unfold f; eapply dlim_eq; [apply dexp_sum|]; ring). replace (f 1 (-1) y) with (f 1 (-1) (0 + y) - f 1 (-1) 0) by (unfold f; rewrite Rplus_0_l, Ropp_0, exp_0; ring).
  apply Rle_trans with (6 * Rabs y); [|lra]. apply (@taylor1 (f 1 (-1)) (f 1 1)). intros z Hz. rewrite Rminus_0_r in Hz. split; [unfold f; eapply dlim_eq; [apply dexp_sum|]; ring|].
  unfold f. pose proof (@exp_near z ltac:(lra)). pose proof (@exp_near (- z) ltac:(rewrite Rabs_Ropp; lra)). rewrite Rabs_right; lra.
Qed.
(** the drift of one step: twice the probability less one, times the step *)
Lemma drift_step b h dt sigma : 0 < h <= 1 -> h ^ 2 = sigma ^ 2 * dt -> 0 < dt -> Rabs (b * dt) <= 1 ->
  let p := (exp (b * dt) - exp (- h)) / (exp h - exp (- h)) in let m := b - sigma ^ 2 / 2 in
  Rabs ((2 * p - 1) * h - m * dt) <= (3 * b ^ 2 + 3 * sigma ^ 4 + 3 * Rabs m * sigma ^ 2) * dt ^ 2.
Proof.
  intros Hh E Hdt Hb p m. set (S := exp h - exp (- h)). assert (HS : 2 * h <= S).
  { unfold S. destruct (@mvt (fun x => exp x - exp (- x)) (fun x => exp x - - exp (- x)) 0 h) as (c & Hc & Ec).
    { intros x _. apply derivable_pt_lim_minus; [apply dexp|apply dexp_opp]. } rewrite Rmin_left, Rmax_right in Hc by lra. cbv beta in Ec. rewrite Ropp_0, exp_0 in Ec. replace (exp h - exp (- h)) with ((exp c - - exp (- c)) * (h - 0)) by lra.
    assert (2 <= exp c + exp (- c)); [|nra]. rewrite exp_Ropp. pose proof (exp_pos c). assert (1 <= exp c) by (pose proof (exp_ineq1_le c); lra). apply Rmult_le_reg_r with (exp c); auto. replace ((exp c + / exp c) * exp c) with (exp c * exp c + 1) by (field; lra). nra. }
  assert (EP : (2 * p - 1) * h - m * dt = (h * (2 * (exp (b * dt) - 1 - b * dt) - (exp h + exp (- h) - 2 - h ^ 2)) - m * dt * (S - 2 * h)) / S).
  { unfold p. fold S. apply Rmult_eq_reg_r with S; [|lra]. unfold Rdiv. rewrite (Rmult_assoc _ (/ S) S), Rinv_l, Rmult_1_r by lra.
    replace (((2 * ((exp (b * dt) - exp (- h)) * / S) - 1) * h - m * dt) * S) with ((2 * (exp (b * dt) - exp (- h)) * (/ S * S) - S) * h - m * dt * S) by ring. rewrite Rinv_l by lra. rewrite E. unfold S, m. field. }
  pose proof (exp_first Hb) as B1. pose proof (@cosh_near h ltac:(lra)) as B2. pose proof (@sinh_near h ltac:(lra)) as B3. fold S in B3.
  rewrite EP. unfold Rdiv. rewrite Rabs_mult, (Rabs_right (/ S)) by (apply Rle_ge; left; apply Rinv_0_lt_compat; lra). apply Rmult_le_reg_r with S; [lra|]. rewrite Rmult_assoc, Rinv_l, Rmult_1_r by lra.
  set (e1 := exp (b * dt) - 1 - b * dt) in *. set (e2 := exp h + exp (- h) - 2 - h ^ 2) in *. set (e3 := S - 2 * h) in *.
  apply Rle_trans with (h * (2 * (3 * (b * dt) ^ 2) + 6 * h ^ 4) + Rabs m * dt * (6 * h ^ 3)).
  - replace (h * (2 * e1 - e2) - m * dt * e3) with (h * (2 * e1) + (- (h * e2) + - (m * dt * e3))) by ring. eapply Rle_trans; [apply Rabs_triang|]. eapply Rle_trans; [apply Rplus_le_compat_l, Rabs_triang|].
    rewrite !Rabs_Ropp, !Rabs_mult, (Rabs_right h), (Rabs_right dt), (Rabs_right 2) by lra. assert (0 <= Rabs m * dt) by (apply Rmult_le_pos; [apply Rabs_pos|lra]).
    assert (h * (2 * Rabs e1) <= h * (2 * (3 * (b * dt) ^ 2))) by (apply Rmult_le_compat_l; lra). assert (h * Rabs e2 <= h * (6 * h ^ 4)) by (apply Rmult_le_compat_l; lra). assert (Rabs m * dt * Rabs e3 <= Rabs m * dt * (6 * h ^ 3)) by (apply Rmult_le_compat_l; lra). lra.
  - replace (h * (2 * (3 * (b * dt) ^ 2) + 6 * h ^ 4) + Rabs m * dt * (6 * h ^ 3)) with ((3 * b ^ 2 * dt ^ 2 + 3 * (h ^ 2) ^ 2 + 3 * Rabs m * dt * h ^ 2) * (2 * h)) by ring. rewrite E.
    replace ((3 * b ^ 2 * dt ^ 2 + 3 * (sigma ^ 2 * dt) ^ 2 + 3 * Rabs m * dt * (sigma ^ 2 * dt))) with ((3 * b ^ 2 + 3 * sigma ^ 4 + 3 * Rabs m * sigma ^ 2) * dt ^ 2) by ring.
    apply Rmult_le_compat_l; auto. apply Rmult_le_pos; [|apply pow2_ge_0]. pose proof (pow2_ge_0 b). pose proof (pow2_ge_0 (sigma ^ 2)). pose proof (pow2_ge_0 sigma). pose proof (Rabs_pos m). replace (sigma ^ 4) with ((sigma ^ 2) ^ 2) by ring. assert (0 <= Rabs m * sigma ^ 2) by (apply Rmult_le_pos; auto). lra.
Qed.

(** ** the bell curve *)
Lemma bell_bound x : bell x * (1 + x * x / 2) <= 1.
Proof.
  unfold bell. replace (- (x * x) / 2) with (- (x * x / 2)) by field. rewrite exp_Ropp. pose proof (exp_ineq1_le (x * x / 2)). pose proof (exp_pos (x * x / 2)).
  apply Rmult_le_reg_l with (exp (x * x / 2)); auto. rewrite <- Rmult_assoc, Rinv_r by lra. lra.
Qed.
Lemma bell_le_1 x : bell x <= 1. Proof. pose proof (bell_bound x). pose proof (bell_pos x). assert (0 <= x * x) by apply Rle_0_sqr. nra. Qed.
Lemma bell_abs x : Rabs x * bell x <= 1.
Proof.
  pose proof (bell_bound x). pose proof (bell_pos x). assert (Rabs x <= 1 + x * x / 2).
  { replace (x * x) with (Rabs x * Rabs x) by (rewrite <- Rabs_mult; apply Rabs_right, Rle_ge, Rle_0_sqr). pose proof (Rle_0_sqr (Rabs x - 1)). unfold Rsqr in *. nra. }
  nra.
Qed.
Lemma bell_sqr x : x * x * bell x <= 2. Proof. pose proof (bell_bound x). pose proof (bell_pos x). nra. Qed.
Lemma dbell x : derivable_pt_lim bell x (- x * bell x).
Proof.
  unfold bell. eapply dlim_eq.
  - apply (derivable_pt_lim_comp (fun x => - (x * x) / 2) exp); [|apply dexp]. apply (@dlim_ext (fun x => - / 2 * (x * x))); [intros; field|]. apply (derivable_pt_lim_scal (fun x => x * x)). apply (derivable_pt_lim_mult id id); apply derivable_pt_lim_id.
  - unfold id. field.
Qed.

Section Put.
  Variables (cdf : R -> R) (c : R).
  Hypothesis N : is_normal_cdf cdf.
  Hypothesis Hc : 0 < c.
  Hypothesis Hd : forall x, derivable_pt_lim cdf x (c * bell x).
  (** the part of the put lost to the underlying, the put, and the density *)
  Definition pG (w s : R) : R := exp (- w + s * s / 2) * cdf (w * / s - s).
  Definition pF (w s : R) : R := cdf (w * / s) - pG w s.
  Definition pg (w s : R) : R := c * bell (w * / s) * / s.
  Lemma pbell w s : s <> 0 -> exp (- w + s * s / 2) * bell (w * / s - s) = bell (w * / s).
  Proof. intros Hs. unfold bell. rewrite <- exp_plus. f_equal. field. exact Hs. Qed.
  Lemma pF_bs w s : 0 < s -> pF w s = bs cdf 1 (exp (- w + s * s / 2)) s.
  Proof.
    intros Hs. unfold pF, pG, bs, bsD. rewrite ln_1, ln_exp, Rmult_1_l. replace ((0 - (- w + s * s / 2)) * / s + s / 2) with (w * / s) by (field; lra). reflexivity.
  Qed.
  Lemma pG_pos w s : 0 < pG w s. Proof. apply Rmult_lt_0_compat; [apply exp_pos|apply (nc_pos N)]. Qed.
  Lemma pG_lt_1 w s : 0 < s -> pG w s < 1.
  Proof. intros Hs. pose proof (bs_positive N Rlt_0_1 (exp_pos (- w + s * s / 2)) Hs) as H. rewrite <- pF_bs in H by auto. unfold pF in H. pose proof (normal_lt_1 N (w * / s)). lra. Qed.
  Lemma pg_pos w s : 0 < s -> 0 < pg w s.
  Proof. intros Hs. unfold pg. pose proof (bell_pos (w * / s)). pose proof (Rinv_0_lt_compat _ Hs). apply Rmult_lt_0_compat; auto. now apply Rmult_lt_0_compat. Qed.
  Lemma dscale k w : derivable_pt_lim (fun w => w * k) w k. Proof. apply dlin. Qed.
  Lemma dcdf_w s w : derivable_pt_lim (fun w => cdf (w * / s)) w (c * bell (w * / s) * / s).
  Proof. apply (derivable_pt_lim_comp (fun w => w * / s) cdf); [apply dlin|apply Hd]. Qed.
  Lemma dG_w s w : 0 < s -> derivable_pt_lim (fun w => pG w s) w (pg w s - pG w s).
  Proof.
    intros Hs. unfold pG. eapply dlim_eq.
    - apply (derivable_pt_lim_mult (fun w => exp (- w + s * s / 2)) (fun w => cdf (w * / s - s))).
      + apply (derivable_pt_lim_comp (fun w => - w + s * s / 2) exp); [|apply dexp]. apply (derivable_pt_lim_plus (fun w => - w) (fun _ => s * s / 2)); [apply (derivable_pt_lim_opp id), derivable_pt_lim_id|apply derivable_pt_lim_const].
      + apply (derivable_pt_lim_comp (fun w => w * / s - s) cdf); [|apply Hd]. apply (derivable_pt_lim_minus (fun w => w * / s) (fun _ => s)); [apply dlin|apply derivable_pt_lim_const].
    - cbv beta. unfold pg. rewrite <- (@pbell w s) by lra. ring.
  Qed.
  Lemma dF_w s w : 0 < s -> derivable_pt_lim (fun w => pF w s) w (pG w s).
  Proof. intros Hs. unfold pF. eapply dlim_eq; [apply (derivable_pt_lim_minus (fun w => cdf (w * / s)) (fun w => pG w s)); [apply dcdf_w|now apply dG_w]|unfold pg; ring]. Qed.
  Lemma dg_w s w : 0 < s -> derivable_pt_lim (fun w => pg w s) w (- (w * / s) * / s * pg w s).
  Proof.
    intros Hs. unfold pg. apply (@dlim_ext (fun w => (c * / s) * bell (w * / s))); [intros; ring|]. eapply dlim_eq; [apply (derivable_pt_lim_scal (fun w => bell (w * / s))); apply (derivable_pt_lim_comp (fun w => w * / s) bell); [apply dlin|apply dbell]|ring].
  Qed.
  Lemma dinv s : 0 < s -> derivable_pt_lim (fun s => / s) s (- / (s * s)).
  Proof. intros Hs. apply (@dlim_ext (fun s => 1 / s)); [intros; unfold Rdiv; ring|]. eapply dlim_eq; [apply (derivable_pt_lim_div (fun _ => 1) id); [apply (derivable_pt_lim_const 1)|apply derivable_pt_lim_id|unfold id; lra]|unfold id, Rsqr; field; lra]. Qed.
  Lemma dratio_s s w : 0 < s -> derivable_pt_lim (fun s => w * / s) s (- (w * / s) * / s).
  Proof. intros Hs. eapply dlim_eq; [apply (derivable_pt_lim_scal (fun s => / s)); now apply dinv|field; lra]. Qed.
  Lemma dG_s s w : 0 < s -> derivable_pt_lim (fun s => pG w s) s (s * pG w s - c * bell (w * / s) * (w * / s * / s + 1)).
  Proof.
    intros Hs. unfold pG. eapply dlim_eq.
    - apply (derivable_pt_lim_mult (fun s => exp (- w + s * s / 2)) (fun s => cdf (w * / s - s))).
      + apply (derivable_pt_lim_comp (fun s => - w + s * s / 2) exp); [|apply dexp]. apply (derivable_pt_lim_plus (fun _ => - w) (fun s => s * s / 2)); [apply derivable_pt_lim_const|].
        apply (@dlim_ext (fun s => / 2 * (s * s))); [intros; field|]. apply (derivable_pt_lim_scal (fun s => s * s)). apply (derivable_pt_lim_mult id id); apply derivable_pt_lim_id.
      + apply (derivable_pt_lim_comp (fun s => w * / s - s) cdf); [|apply Hd]. apply (derivable_pt_lim_minus (fun s => w * / s) id); [now apply dratio_s|apply derivable_pt_lim_id].
    - cbv beta. unfold id. rewrite <- (@pbell w s) by lra. field. lra.
  Qed.
  Lemma dF_s s w : 0 < s -> derivable_pt_lim (fun s => pF w s) s (s * (pg w s - pG w s)).
  Proof.
    intros Hs. unfold pF. eapply dlim_eq; [apply (derivable_pt_lim_minus (fun s => cdf (w * / s)) (fun s => pG w s)); [|now apply dG_s]|].
    - apply (derivable_pt_lim_comp (fun s => w * / s) cdf); [now apply dratio_s|apply Hd].
    - unfold pg. field. lra.
  Qed.
  Lemma dg_s s w : 0 < s -> derivable_pt_lim (fun s => pg w s) s (c * bell (w * / s) * (w * / s * (w * / s) - 1) * (/ s * / s)).
  Proof.
    intros Hs. unfold pg. eapply dlim_eq; [apply (derivable_pt_lim_mult (fun s => c * bell (w * / s)) (fun s => / s)); [|now apply dinv]|].
    - apply (derivable_pt_lim_scal (fun s => bell (w * / s))). apply (derivable_pt_lim_comp (fun s => w * / s) bell); [now apply dratio_s|apply dbell].
    - cbv beta. field. lra.
  Qed.
  (** bounds away from zero variance *)
  Section Bounds.
    Variables t M : R.
    Hypothesis Ht : 0 < t.
    Let i := / t.
    Lemma inv_bound s : t <= s -> 0 < / s <= i.
    Proof. intros Hs. split; [apply Rinv_0_lt_compat; lra|now apply Rinv_le_contravar]. Qed.
    Lemma pg_bound w s : t <= s -> pg w s <= c * i.
    Proof. intros Hs. unfold pg. pose proof (inv_bound Hs). pose proof (bell_le_1 (w * / s)). pose proof (bell_pos (w * / s)). rewrite Rmult_assoc. apply Rmult_le_compat_l; nra. Qed.
    Lemma gG_bound w s : t <= s -> Rabs (pg w s - pG w s) <= c * i + 1.
    Proof. intros Hs. pose proof (@pg_bound w s Hs). pose proof (@pg_pos w s ltac:(lra)). pose proof (pG_pos w s). pose proof (@pG_lt_1 w s ltac:(lra)). apply Rabs_le. assert (0 < c * i) by lra. lra. Qed.
    Lemma dg_w_bound w s : t <= s -> Rabs (- (w * / s) * / s * pg w s) <= c * i ^ 2.
    Proof.
      intros Hs. unfold pg. replace (- (w * / s) * / s * (c * bell (w * / s) * / s)) with (- (c * (w * / s * bell (w * / s)) * (/ s * / s))) by ring. rewrite Rabs_Ropp, !Rabs_mult.
      pose proof (inv_bound Hs) as Hi. rewrite (Rabs_right c), (Rabs_right (/ s)), (Rabs_right (bell _)) by (try pose proof (bell_pos (w * / s)); lra). pose proof (bell_abs (w * / s)). rewrite Rmult_assoc. apply Rmult_le_compat_l; [lra|].
      rewrite Rabs_mult in *. rewrite (Rabs_right (/ s)) in * by lra. assert (/ s * / s <= i ^ 2) by nra. assert (0 <= / s * / s) by nra. assert (0 <= Rabs w * / s * bell (w * / s)) by (pose proof (Rabs_pos w); pose proof (bell_pos (w * / s)); apply Rmult_le_pos; [apply Rmult_le_pos|]; lra). nra.
    Qed.
    Lemma dgG_w_bound w s : t <= s -> Rabs (- (w * / s) * / s * pg w s - (pg w s - pG w s)) <= c * i ^ 2 + c * i + 1.
    Proof. intros Hs. eapply Rle_trans; [apply Rabs_triang|]. rewrite Rabs_Ropp. pose proof (@dg_w_bound w s Hs). pose proof (@gG_bound w s Hs). lra. Qed.
    Lemma dgG_s_bound w s : t <= s -> s <= M -> Rabs (c * bell (w * / s) * (w * / s * (w * / s) - 1) * (/ s * / s) - (s * pG w s - c * bell (w * / s) * (w * / s * / s + 1))) <= 3 * c * i ^ 2 + M + c * i + c.
    Proof.
      intros Hs HM. set (x := w * / s). pose proof (inv_bound Hs) as Hi. pose proof (bell_pos x) as B0. pose proof (bell_le_1 x) as B1. pose proof (bell_abs x) as B2. pose proof (bell_sqr x) as B3. pose proof (pG_pos w s). pose proof (@pG_lt_1 w s ltac:(lra)).
      assert (I2 : 0 <= / s * / s <= i ^ 2) by nra.
      assert (A1 : Rabs (c * bell x * (x * x - 1) * (/ s * / s)) <= 3 * c * i ^ 2).
      { rewrite Rabs_mult, (Rabs_right (/ s * / s)) by lra. assert (Rabs (c * bell x * (x * x - 1)) <= 3 * c). { replace (c * bell x * (x * x - 1)) with (c * (x * x * bell x - bell x)) by ring. rewrite Rabs_mult, (Rabs_right c) by lra. assert (0 <= x * x * bell x) by (apply Rmult_le_pos; [apply Rle_0_sqr|lra]). assert (Rabs (x * x * bell x - bell x) <= 3) by (apply Rabs_le; lra). nra. }
        pose proof (Rabs_pos (c * bell x * (x * x - 1))). nra. }
      assert (A2 : Rabs (s * pG w s) <= M) by (rewrite Rabs_right by nra; nra).
      assert (A3 : Rabs (c * bell x * (x * / s + 1)) <= c * i + c).
      { replace (c * bell x * (x * / s + 1)) with (c * (x * bell x * / s + bell x)) by ring. rewrite Rabs_mult, (Rabs_right c) by lra. assert (Rabs (x * bell x * / s + bell x) <= i + 1); [|nra]. eapply Rle_trans; [apply Rabs_triang|]. rewrite !Rabs_mult, (Rabs_right (bell x)), (Rabs_right (/ s)) by lra.
        assert (0 <= Rabs x * bell x) by (pose proof (Rabs_pos x); apply Rmult_le_pos; lra). nra. }
      unfold Rminus at 1. eapply Rle_trans; [apply Rabs_triang|]. rewrite Rabs_Ropp. unfold Rminus at 2. eapply Rle_trans; [apply Rplus_le_compat_l, Rabs_triang|]. rewrite Rabs_Ropp. lra.
    Qed.
    (** one step of the tree follows the put up to the power 3/2 of the time step *)
    Lemma one_step b sigma : 0 < sigma -> exists C, 0 <= C /\ forall y, 0 < y <= 1 -> sigma * y <= 1 -> Rabs b * y ^ 2 <= 1 ->
      let h := sigma * y in let p := (exp (b * y ^ 2) - exp (- h)) / (exp h - exp (- h)) in 0 <= p <= 1 -> forall w s s', t <= s -> s <= s' -> s' <= M -> s' ^ 2 = s ^ 2 + h ^ 2 ->
      Rabs (p * pF (w - h) s + (1 - p) * pF (w + h) s - pF (w - (b - sigma ^ 2 / 2) * y ^ 2) s') <= C * y ^ 3.
    Proof.
      intros Hg. set (m := b - sigma ^ 2 / 2). set (K := c * i ^ 2 + c * i + 1). set (K2 := 3 * c * i ^ 2 + Rabs M + c * i + c).
      assert (Hi : 0 < i) by (apply Rinv_0_lt_compat; auto). assert (HK : 0 < K) by (unfold K; assert (0 < c * i) by nra; assert (0 < c * i ^ 2) by nra; lra). assert (HK2 : 0 < K2) by (unfold K2; pose proof (Rabs_pos M); assert (0 < c * i) by nra; assert (0 < c * i ^ 2) by nra; lra).
      set (C1 := 3 * b ^ 2 + 3 * sigma ^ 4 + 3 * Rabs m * sigma ^ 2).
      exists (C1 + K * sigma ^ 3 + K * m ^ 2 + K * (sigma ^ 4 * i ^ 2) + sigma ^ 2 * (K * Rabs m + K2 * (sigma ^ 2 * i))).
      assert (HC1 : 0 <= C1). { unfold C1. pose proof (pow2_ge_0 b). assert (0 < sigma ^ 4) by now apply pow_lt. assert (0 < sigma ^ 2) by now apply pow_lt. pose proof (Rabs_pos m). assert (0 <= Rabs m * sigma ^ 2) by (apply Rmult_le_pos; lra). lra. }
      assert (Hs2 : 0 < sigma ^ 2) by now apply pow_lt. assert (Hs3 : 0 < sigma ^ 3) by now apply pow_lt. assert (Hs4 : 0 < sigma ^ 4) by now apply pow_lt. assert (Hi2 : 0 < i ^ 2) by now apply pow_lt. pose proof (Rabs_pos m) as Hm. pose proof (pow2_ge_0 m) as Hm2.
      assert (Q1 : 0 <= K * sigma ^ 3) by (apply Rmult_le_pos; lra). assert (Q2 : 0 <= K * m ^ 2) by (apply Rmult_le_pos; lra). assert (Q3 : 0 <= sigma ^ 4 * i ^ 2) by (apply Rmult_le_pos; lra). assert (Q4 : 0 <= K * (sigma ^ 4 * i ^ 2)) by (apply Rmult_le_pos; lra).
      assert (Q5 : 0 <= K * Rabs m) by (apply Rmult_le_pos; lra). assert (Q6 : 0 <= sigma ^ 2 * i) by (apply Rmult_le_pos; lra). assert (Q7 : 0 <= K2 * (sigma ^ 2 * i)) by (apply Rmult_le_pos; lra). assert (Q8 : 0 <= sigma ^ 2 * (K * Rabs m + K2 * (sigma ^ 2 * i))) by (apply Rmult_le_pos; lra).
      split; [lra|].
      intros y Hy Hh Hb h p Hp w s s' Hs Hss HM E. assert (H0 : 0 < h) by (unfold h; nra). assert (H1 : 0 < h <= 1) by (unfold h in *; lra). set (dl := m * y ^ 2). assert (Hs0 : 0 < s) by lra.
      assert (y2 : 0 < y ^ 2) by (apply pow_lt; lra).
      (* the two neighbours *)
      assert (T3 : forall e, Rabs e = h -> Rabs (pF (w + e) s - pF w s - e * pG w s - e ^ 2 / 2 * (pg w s - pG w s)) <= K * h ^ 3).
      { intros e He. rewrite <- He. apply (@taylor3 (fun w => pF w s) (fun w => pG w s) (fun w => pg w s - pG w s) (fun w => - (w * / s) * / s * pg w s - (pg w s - pG w s))). intros z _.
        split; [now apply dF_w|]. split; [now apply dG_w|]. split; [|now apply dgG_w_bound]. apply (derivable_pt_lim_minus (fun w => pg w s) (fun w => pG w s)); [now apply dg_w|now apply dG_w]. }
      pose proof (T3 h (Rabs_right h ltac:(lra))) as Tu. pose proof (T3 (- h) ltac:(rewrite Rabs_Ropp; apply Rabs_right; lra)) as Td. replace (w + - h) with (w - h) in Td by ring.
      (* the drift *)
      assert (T2 : Rabs (pF (w + - dl) s - pF w s - - dl * pG w s) <= K * Rabs (- dl) ^ 2).
      { apply (@taylor2 (fun w => pF w s) (fun w => pG w s) (fun w => pg w s - pG w s)). intros z _. split; [now apply dF_w|]. split; [now apply dG_w|]. pose proof (@gG_bound z s Hs). unfold K. assert (0 < c * i ^ 2) by nra. lra. }
      replace (w + - dl) with (w - dl) in T2 by ring. rewrite pow2_abs in T2.
      (* the variance *)
      set (q := s' - s). assert (Hq0 : 0 <= q) by (unfold q; lra). assert (Eq : h ^ 2 = q * (s' + s)) by (unfold q; lra || nra).
      assert (Hq : q <= h ^ 2 * i). { apply Rmult_le_reg_r with t; auto. unfold i. rewrite Rmult_assoc, Rinv_l, Rmult_1_r by lra. rewrite Eq. apply Rmult_le_compat_l; lra. }
      destruct (@mvt (fun s => pF (w - dl) s) (fun s => s * (pg (w - dl) s - pG (w - dl) s)) s s') as (x & Hx & Ex). { rewrite Rmin_left, Rmax_right by lra. intros z Hz. apply dF_s. lra. } rewrite Rmin_left, Rmax_right in Hx by lra. cbv beta in Ex. fold q in Ex.
      set (A := fun w s => pg w s - pG w s) in *.
      assert (V1 : Rabs (A (w - dl) x - A (w - dl) s) <= K2 * q).
      { destruct (@mvt (fun s => A (w - dl) s) (fun s => c * bell ((w - dl) * / s) * ((w - dl) * / s * ((w - dl) * / s) - 1) * (/ s * / s) - (s * pG (w - dl) s - c * bell ((w - dl) * / s) * ((w - dl) * / s * / s + 1))) s x) as (z & Hz & Ez).
        { rewrite Rmin_left, Rmax_right by lra. intros z Hz. apply (derivable_pt_lim_minus (fun s => pg (w - dl) s) (fun s => pG (w - dl) s)); [apply dg_s; lra|apply dG_s; lra]. }
        rewrite Rmin_left, Rmax_right in Hz by lra. cbv beta in Ez. rewrite Ez, Rabs_mult, (Rabs_right (x - s)) by lra. apply Rmult_le_compat; [apply Rabs_pos|lra| |unfold q; lra]. eapply Rle_trans; [apply dgG_s_bound; lra|]. unfold K2. pose proof (Rle_abs M). lra. }
      assert (V2 : Rabs (A (w - dl) s - A w s) <= K * Rabs dl).
      { replace (w - dl) with (w + - dl) by ring. rewrite <- (Rabs_Ropp dl). apply (@taylor1 (fun w => A w s) (fun w => - (w * / s) * / s * pg w s - (pg w s - pG w s))). intros z _. split; [|now apply dgG_w_bound].
        apply (derivable_pt_lim_minus (fun w => pg w s) (fun w => pG w s)); [now apply dg_w|now apply dG_w]. }
      assert (V3 : Rabs (A (w - dl) x) <= K) by (unfold A; eapply Rle_trans; [apply gG_bound; lra|unfold K; assert (0 < c * i ^ 2) by nra; lra]).
      assert (V4 : Rabs (x * q - h ^ 2 / 2) <= q ^ 2). { rewrite Eq. unfold q in *. apply Rabs_le. nra. }
      assert (B1 : Rabs (pF (w - dl) s' - pF (w - dl) s - h ^ 2 / 2 * A w s) <= K * (h ^ 2 * i) ^ 2 + h ^ 2 * (K * Rabs dl + K2 * (h ^ 2 * i))).
      { rewrite Ex. change (pg (w - dl) x - pG (w - dl) x) with (A (w - dl) x). replace (x * A (w - dl) x * q - h ^ 2 / 2 * A w s) with ((x * q - h ^ 2 / 2) * A (w - dl) x + h ^ 2 / 2 * ((A (w - dl) x - A (w - dl) s) + (A (w - dl) s - A w s))) by ring.
        eapply Rle_trans; [apply Rabs_triang|]. apply Rplus_le_compat.
        - rewrite Rabs_mult, (Rmult_comm K). apply Rmult_le_compat; auto using Rabs_pos. eapply Rle_trans; [exact V4|]. apply pow_incr. lra.
        - rewrite Rabs_mult. assert (0 < h ^ 2) by (apply pow_lt; auto). apply Rmult_le_compat; auto using Rabs_pos; [rewrite Rabs_right; lra|]. eapply Rle_trans; [apply Rabs_triang|]. assert (K2 * q <= K2 * (h ^ 2 * i)) by (apply Rmult_le_compat_l; lra). lra. }
      pose proof (@drift_step b h (y ^ 2) sigma H1 ltac:(unfold h; ring) y2 ltac:(rewrite Rabs_mult, (Rabs_right (y ^ 2)) by lra; exact Hb)) as Dr. cbv zeta in Dr. fold p m C1 dl in Dr.
      (* assembling *)
      change (pg w s - pG w s) with (A w s) in Tu, Td.
      set (U := pF (w + h) s - pF w s - h * pG w s - h ^ 2 / 2 * A w s) in *. set (D := pF (w - h) s - pF w s - - h * pG w s - (- h) ^ 2 / 2 * A w s) in *. set (Y := pF (w - dl) s - pF w s - - dl * pG w s) in *. set (Z := pF (w - dl) s' - pF (w - dl) s - h ^ 2 / 2 * A w s) in *.
      replace (p * pF (w - h) s + (1 - p) * pF (w + h) s - pF (w - dl) s') with (p * D + (1 - p) * U - Y - Z - ((2 * p - 1) * h - dl) * pG w s) by (unfold D, U, Y, Z; generalize (A w s) (pG w s) (pF (w - h) s) (pF (w + h) s) (pF (w - dl) s') (pF (w - dl) s) (pF w s); intros; clear; field).
      pose proof (pG_pos w s) as G0. pose proof (@pG_lt_1 w s Hs0) as G1.
      assert (Bd : Rabs (((2 * p - 1) * h - dl) * pG w s) <= C1 * (y ^ 2) ^ 2). { rewrite Rabs_mult, (Rabs_right (pG w s)) by lra. pose proof (Rabs_pos ((2 * p - 1) * h - dl)). nra. }
      assert (Bp : Rabs (p * D + (1 - p) * U) <= K * h ^ 3). { eapply Rle_trans; [apply Rabs_triang|]. rewrite !Rabs_mult, (Rabs_right p), (Rabs_right (1 - p)) by lra. assert (p * Rabs D <= p * (K * h ^ 3)) by (apply Rmult_le_compat_l; lra). assert ((1 - p) * Rabs U <= (1 - p) * (K * h ^ 3)) by (apply Rmult_le_compat_l; lra). lra. }
      apply Rle_trans with (K * h ^ 3 + K * dl ^ 2 + (K * (h ^ 2 * i) ^ 2 + h ^ 2 * (K * Rabs dl + K2 * (h ^ 2 * i))) + C1 * (y ^ 2) ^ 2).
      { replace (- dl) with (-1 * dl) in T2 by ring. replace ((-1 * dl) ^ 2) with (dl ^ 2) in T2 by ring.
        unfold Rminus at 1. eapply Rle_trans; [apply Rabs_triang|]. rewrite Rabs_Ropp. apply Rplus_le_compat; [|exact Bd]. unfold Rminus at 1. eapply Rle_trans; [apply Rabs_triang|]. rewrite Rabs_Ropp. apply Rplus_le_compat; [|exact B1].
        unfold Rminus at 1. eapply Rle_trans; [apply Rabs_triang|]. rewrite Rabs_Ropp. apply Rplus_le_compat; [exact Bp|]. unfold Y. replace (- (-1 * dl) * pG w s) with (- (- dl) * pG w s) by ring. replace (-1 * dl) with (- dl) in T2 by ring. exact T2. }
      unfold dl, h. rewrite Rabs_mult, (Rabs_right (y ^ 2)) by lra.
      replace (K * (sigma * y) ^ 3 + K * (m * y ^ 2) ^ 2 + (K * ((sigma * y) ^ 2 * i) ^ 2 + (sigma * y) ^ 2 * (K * (Rabs m * y ^ 2) + K2 * ((sigma * y) ^ 2 * i))) + C1 * (y ^ 2) ^ 2)
        with ((C1 * y + K * sigma ^ 3 + K * m ^ 2 * y + K * (sigma ^ 4 * i ^ 2) * y + sigma ^ 2 * (K * Rabs m + K2 * (sigma ^ 2 * i)) * y) * y ^ 3) by ring.
      apply Rmult_le_compat_r; [apply pow_le; lra|].
      assert (P : forall a, 0 <= a -> a * y <= a) by (intros a Ha; nra).
      pose proof (P _ HC1). pose proof (P _ Q2). pose proof (P _ Q4). pose proof (P _ Q8). lra.
    Qed.
  End Bounds.
  (** the put at a small standard deviation is near its payoff *)
  Definition hockey (w : R) : R := Rmax 0 (1 - exp (- w)).
  Lemma exp_small s : 0 < s <= 1 -> 0 <= exp (s * s / 2) - 1 <= 2 * s ^ 2.
  Proof.
    intros Hs. assert (0 <= s * s / 2 <= 1) by nra. split; [pose proof (exp_ineq1_le (s * s / 2)); lra|]. pose proof (@exp_first (s * s / 2) ltac:(rewrite Rabs_right; lra)) as H0. pose proof (Rle_abs (exp (s * s / 2) - 1 - s * s / 2)). nra.
  Qed.
  Lemma pF_at_0 s : 0 < s -> pF 0 s <= c * s.
  Proof.
    intros Hs. unfold pF, pG. rewrite Rmult_0_l, Rminus_0_l, Ropp_0, Rplus_0_l. assert (1 <= exp (s * s / 2)) by (pose proof (exp_ineq1_le (s * s / 2)); nra). pose proof (nc_pos N (- s)).
    destruct (@mvt cdf (fun x => c * bell x) (- s) 0) as (x & _ & E); [auto|]. pose proof (bell_le_1 x). pose proof (bell_pos x). assert (cdf 0 - cdf (- s) <= c * s) by (rewrite E; rewrite Rmult_assoc; apply Rmult_le_compat_l; [lra|]; nra). nra.
  Qed.
  Lemma pF_mono s w w' : 0 < s -> w <= w' -> pF w s <= pF w' s.
  Proof.
    intros Hs Hw. destruct (@mvt (fun w => pF w s) (fun w => pG w s) w w') as (x & _ & E); [intros; now apply dF_w|]. cbv beta in E. pose proof (pG_pos x s). nra.
  Qed.
  Lemma pF_pos w s : 0 < s -> 0 < pF w s. Proof. intros Hs. rewrite pF_bs by auto. apply (bs_positive N); auto using exp_pos. lra. Qed.
  Lemma pF_parity w s : 0 < s -> pF w s - bs cdf (exp (- w + s * s / 2)) 1 s = 1 - exp (- w + s * s / 2).
  Proof. intros Hs. rewrite pF_bs by auto. now apply (bs_parity N). Qed.
  Lemma pF_hockey w s : 0 < s <= 1 -> Rabs (pF w s - hockey w) <= c * s + 2 * s ^ 2.
  Proof.
    intros Hs. pose proof (exp_small Hs) as He. pose proof (pF_at_0 (proj1 Hs)) as H0. pose proof (@pF_pos w s (proj1 Hs)) as Hp. unfold hockey. assert (Hcs : 0 < c * s) by nra.
    destruct (Rle_lt_dec w 0) as [Hw|Hw].
    - assert (1 <= exp (- w)) by (pose proof (exp_ineq1_le (- w)); lra). rewrite Rmax_left by lra. pose proof (@pF_mono s w 0 (proj1 Hs) Hw). pose proof (pow2_ge_0 s). rewrite Rabs_right; lra.
    - assert (Hw1 : exp (- w) < 1) by (rewrite <- exp_0; apply exp_increasing; lra). rewrite Rmax_right by lra. pose proof (@pF_parity w s (proj1 Hs)) as E. pose proof (@pF_parity 0 s (proj1 Hs)) as E0. rewrite Ropp_0, Rplus_0_l in E0.
      assert (Hm : bs cdf (exp (- w + s * s / 2)) 1 s < bs cdf (exp (s * s / 2)) 1 s) by (apply (bs_spot_increasing N); try apply exp_pos; try lra; apply exp_increasing; lra).
      pose proof (bs_positive N (exp_pos (- w + s * s / 2)) Rlt_0_1 (proj1 Hs)) as Hb. rewrite exp_plus in *. pose proof (exp_pos (- w)). assert (0 <= exp (- w) * (exp (s * s / 2) - 1) <= exp (s * s / 2) - 1) by nra. apply Rabs_le. lra.
  Qed.
  Lemma pF_deviation w s s' M : 0 < s -> s <= s' -> s' <= M -> Rabs (pF w s' - pF w s) <= (c + M) * (s' - s).
  Proof.
    intros Hs Hl HM. destruct (@mvt (fun s => pF w s) (fun s => s * (pg w s - pG w s)) s s') as (x & Hx & E). { rewrite Rmin_left, Rmax_right by lra. intros x Hx. apply dF_s. lra. } rewrite Rmin_left, Rmax_right in Hx by lra. cbv beta in E. rewrite E, Rabs_mult, (Rabs_right (s' - s)) by lra.
    apply Rmult_le_compat_r; [lra|]. unfold pg. replace (x * (c * bell (w * / x) * / x - pG w x)) with (c * bell (w * / x) - x * pG w x) by (field; lra). pose proof (bell_pos (w * / x)). pose proof (bell_le_1 (w * / x)). pose proof (pG_pos w x). pose proof (@pG_lt_1 w x ltac:(lra)). apply Rabs_le. nra.
  Qed.
  (** ** the tree *)
  Definition walk (p h : R) (n : nat) (w : R) : R := binomial_expectation p n (fun l => hockey (w - (2 * INR l - INR n) * h)).
  Lemma binomial_expectation_ext p n g g' : (forall l, (l <= n)%nat -> g l = g' l) -> binomial_expectation p n g = binomial_expectation p n g'.
  Proof. intros H. unfold binomial_expectation. apply rsum_ext_in. intros l Hl. apply in_seq in Hl. rewrite H by lia. reflexivity. Qed.
  Lemma walk_S p h n w : walk p h (S n) w = p * walk p h n (w - h) + (1 - p) * walk p h n (w + h).
  Proof.
    unfold walk. rewrite binomial_expectation_S. f_equal; f_equal; apply binomial_expectation_ext; intros l _; f_equal; rewrite !S_INR; ring.
  Qed.
  Lemma walk_close b sigma t M : 0 < sigma -> 0 < t <= 1 -> exists C, 0 <= C /\ forall y, 0 < y <= 1 -> sigma * y <= 1 -> Rabs b * y ^ 2 <= 1 ->
    let h := sigma * y in let p := (exp (b * y ^ 2) - exp (- h)) / (exp h - exp (- h)) in 0 <= p <= 1 -> forall n w, sqrt (t ^ 2 + INR n * h ^ 2) <= M ->
    Rabs (walk p h n w - pF (w - INR n * ((b - sigma ^ 2 / 2) * y ^ 2)) (sqrt (t ^ 2 + INR n * h ^ 2))) <= c * t + 2 * t ^ 2 + INR n * (C * y ^ 3).
  Proof.
    intros Hg Ht. destruct (@one_step t M (proj1 Ht) b sigma Hg) as (C & HC & H). exists C. split; auto. intros y Hy H1 H2 h p Hp. specialize (H y Hy H1 H2 Hp). cbv zeta in H. fold h p in H. set (dl := (b - sigma ^ 2 / 2) * y ^ 2) in *.
    assert (Hh : 0 < h ^ 2) by (apply pow_lt; unfold h; nra). assert (Ht2 : 0 < t ^ 2) by (apply pow_lt; lra).
    induction n as [|n IH]; intros w HM.
    - cbn [INR] in *. rewrite !Rmult_0_l, !Rplus_0_r, Rminus_0_r in *. replace (sqrt (t ^ 2)) with t by (rewrite <- Rsqr_pow2, sqrt_Rsqr; lra). unfold walk, binomial_expectation. cbn [seq map rsum fold_right binomial pow INR Nat.sub]. rewrite Rmult_0_r, Rminus_0_r, Rmult_0_l, Rminus_0_r.
      replace (1 * 1 * 1 * hockey w + 0) with (hockey w) by ring. rewrite Rabs_minus_sym. now apply pF_hockey.
    - assert (HI : 0 <= INR n) by apply pos_INR. assert (HS : INR n * h ^ 2 <= INR (S n) * h ^ 2) by (rewrite S_INR; nra). assert (H0 : 0 <= INR n * h ^ 2) by (apply Rmult_le_pos; lra).
      assert (L1 : t <= sqrt (t ^ 2 + INR n * h ^ 2)) by (rewrite <- (sqrt_Rsqr t) at 1 by lra; rewrite Rsqr_pow2; apply sqrt_le_1_alt; lra). assert (L2 : sqrt (t ^ 2 + INR n * h ^ 2) <= sqrt (t ^ 2 + INR (S n) * h ^ 2)) by (apply sqrt_le_1_alt; lra).
      rewrite walk_S. pose proof (IH (w - h) ltac:(lra)) as I1. pose proof (IH (w + h) ltac:(lra)) as I2. set (s := sqrt (t ^ 2 + INR n * h ^ 2)) in *. set (s' := sqrt (t ^ 2 + INR (S n) * h ^ 2)) in *.
      assert (E : s' ^ 2 = s ^ 2 + h ^ 2) by (unfold s, s'; rewrite !pow2_sqrt by lra; rewrite S_INR; ring).
      pose proof (H (w - INR n * dl) s s' L1 L2 HM E) as I3. replace (w - h - INR n * dl) with (w - INR n * dl - h) in I1 by ring. replace (w + h - INR n * dl) with (w - INR n * dl + h) in I2 by ring. replace (w - INR (S n) * dl) with (w - INR n * dl - dl) by (rewrite S_INR; ring).
      set (x := w - INR n * dl) in *. set (e := c * t + 2 * t ^ 2 + INR n * (C * y ^ 3)) in *.
      replace (p * walk p h n (w - h) + (1 - p) * walk p h n (w + h) - pF (x - dl) s') with (p * (walk p h n (w - h) - pF (x - h) s) + (1 - p) * (walk p h n (w + h) - pF (x + h) s) + (p * pF (x - h) s + (1 - p) * pF (x + h) s - pF (x - dl) s')) by ring.
      eapply Rle_trans; [apply Rabs_triang|]. apply Rle_trans with (e + C * y ^ 3); [|unfold e; rewrite S_INR; lra]. apply Rplus_le_compat; [|exact I3]. eapply Rle_trans; [apply Rabs_triang|]. rewrite !Rabs_mult, (Rabs_right p), (Rabs_right (1 - p)) by lra.
      assert (p * Rabs (walk p h n (w - h) - pF (x - h) s) <= p * e) by (apply Rmult_le_compat_l; lra). assert ((1 - p) * Rabs (walk p h n (w + h) - pF (x + h) s) <= (1 - p) * e) by (apply Rmult_le_compat_l; lra). lra.
  Qed.
End Put.
