(** The standard normal distribution function, characterised by its derivative, symmetry and limit at minus infinity;
    such a function exists (the integral of the bell curve, normalised). *)
From Coq Require Export Reals Lra.
From Coq Require Import Lia Classical_Prop.
Set Implicit Arguments.
Unset Strict Implicit.
Open Scope R_scope.

Definition bell (x : R) : R := exp (- (x * x) / 2).
Record is_normal_cdf (cdf : R -> R) : Prop := {
  nc_derivative : exists c, 0 < c /\ forall x, derivable_pt_lim cdf x (c * bell x);
  nc_symmetry : forall x, cdf (- x) = 1 - cdf x;
  nc_pos : forall x, 0 < cdf x;
  nc_limit : forall eps, 0 < eps -> exists x, cdf x < eps }.

Lemma bell_pos x : 0 < bell x. Proof. apply exp_pos. Qed.
Lemma bell_even x : bell (- x) = bell x. Proof. unfold bell. f_equal. field. Qed.
Lemma strictly_increasing_of_derivative f f' : (forall x, derivable_pt_lim f x (f' x)) -> (forall x, 0 < f' x) -> forall a b, a < b -> f a < f b.
Proof.
  intros Hd Hp a b Hab. destruct (MVT_cor2 f f' a b Hab (fun c _ => Hd c)) as (c & E & _). pose proof (Hp c). nra.
Qed.
Section Cdf.
  Variable cdf : R -> R.
  Hypothesis H : is_normal_cdf cdf.
  Lemma normal_increasing a b : a < b -> cdf a < cdf b.
  Proof. destruct (nc_derivative H) as (c & Hc & Hd). apply (strictly_increasing_of_derivative Hd). intro x. pose proof (bell_pos x). nra. Qed.
  Lemma normal_increasing_le a b : a <= b -> cdf a <= cdf b.
  Proof. intros [Hl| ->]; [left; now apply normal_increasing|lra]. Qed.
  Lemma normal_lt_1 x : cdf x < 1.
  Proof. pose proof (nc_symmetry H x). pose proof (nc_pos H (- x)). lra. Qed.
  Lemma normal_half : cdf 0 = / 2.
  Proof. pose proof (nc_symmetry H 0) as E. rewrite Ropp_0 in E. lra. Qed.
End Cdf.

(** ** Existence *)
Lemma bell_continuous x : continuity_pt bell x.
Proof. apply derivable_continuous_pt. unfold bell. reg. Qed.
Lemma bell_integrable a b : Riemann_integrable bell a b.
Proof.
  destruct (Rle_lt_dec a b) as [Hl|Hl].
  - apply continuity_implies_RiemannInt; auto. intros; apply bell_continuous.
  - apply RiemannInt_P1. apply continuity_implies_RiemannInt; [lra|]. intros; apply bell_continuous.
Qed.
Definition area (x : R) : R := RiemannInt (bell_integrable 0 x).
Lemma area_derivative x : derivable_pt_lim area x (bell x).
Proof.
  set (M := Rabs x + 1). assert (Hx : - M < x < M). { unfold M. pose proof (Rabs_pos x). destruct (@Rabs_def2 x (Rabs x + 1)); lra. }
  assert (h : - M <= M) by lra. assert (C0 : forall y, - M <= y <= M -> continuity_pt bell y) by (intros; apply bell_continuous).
  assert (Hd : derivable_pt_lim (primitive h (FTC_P1 h C0)) x (bell x)) by (apply RiemannInt_P28; lra).
  assert (E : forall y, - M <= y <= M -> area y = primitive h (FTC_P1 h C0) y - primitive h (FTC_P1 h C0) 0).
  { intros y Hy. unfold area, primitive. assert (HM : - M <= 0 <= M) by (unfold M in *; pose proof (Rabs_pos x); lra).
    destruct (Rle_dec (- M) y) as [h1|]; [|lra]. destruct (Rle_dec y M) as [h2|]; [|lra]. destruct (Rle_dec (- M) 0) as [h3|]; [|lra]. destruct (Rle_dec 0 M) as [h4|]; [|lra].
    pose proof (RiemannInt_P26 (FTC_P1 h C0 h3 h4) (bell_integrable 0 y) (FTC_P1 h C0 h1 h2)) as Ch. rewrite <- Ch. ring. }
  intros eps He. destruct (Hd eps He) as [delta Hdel].
  assert (Hmin : 0 < Rmin delta (Rmin (M - x) (x + M))) by (repeat apply Rmin_pos; try lra; apply cond_pos).
  exists (mkposreal _ Hmin). intros k Hk0 Hk. cbn in Hk.
  assert (Hk1 : Rabs k < delta) by (eapply Rlt_le_trans; [exact Hk|apply Rmin_l]).
  assert (Hk2 : Rabs k < Rmin (M - x) (x + M)) by (eapply Rlt_le_trans; [exact Hk|apply Rmin_r]).
  assert (Hk3 : Rabs k < M - x) by (eapply Rlt_le_trans; [exact Hk2|apply Rmin_l]). assert (Hk4 : Rabs k < x + M) by (eapply Rlt_le_trans; [exact Hk2|apply Rmin_r]).
  apply Rabs_def2 in Hk3. apply Rabs_def2 in Hk4. rewrite !E by lra.
  replace (primitive h (FTC_P1 h C0) (x + k) - primitive h (FTC_P1 h C0) 0 - (primitive h (FTC_P1 h C0) x - primitive h (FTC_P1 h C0) 0)) with (primitive h (FTC_P1 h C0) (x + k) - primitive h (FTC_P1 h C0) x) by ring.
  now apply Hdel.
Qed.
Lemma area_0 : area 0 = 0. Proof. apply RiemannInt_P9. Qed.
Lemma area_increasing a b : a < b -> area a < area b.
Proof. apply (strictly_increasing_of_derivative area_derivative bell_pos). Qed.
Lemma constant_of_derivative f : (forall x, derivable_pt_lim f x 0) -> forall a b, f a = f b.
Proof.
  intros Hd. assert (G : forall a b, a < b -> f a = f b). { intros a b Hab. destruct (MVT_cor2 f (fun _ => 0) a b Hab (fun c _ => Hd c)) as (c & E & _). lra. }
  intros a b. destruct (Rtotal_order a b) as [Hl|[->|Hl]]; auto. symmetry. auto.
Qed.
Lemma derivable_pt_lim_mirror f x l : derivable_pt_lim f (- x) l -> derivable_pt_lim (fun y => f (- y)) x (- l).
Proof.
  intro Hd. replace (- l) with (l * -1) by ring. apply (derivable_pt_lim_comp (fun y => - y) f); [|exact Hd].
  apply (derivable_pt_lim_opp id x 1). apply derivable_pt_lim_id.
Qed.
Lemma area_odd x : area (- x) = - area x.
Proof.
  assert (Hc : area x + area (- x) = area 0 + area (- 0)).
  { apply (@constant_of_derivative (fun y => area y + area (- y))). intro y. replace 0 with (bell y + - bell y) by ring.
    apply (derivable_pt_lim_plus area (fun z => area (- z))); [apply area_derivative|]. rewrite <- (bell_even y). apply derivable_pt_lim_mirror. apply area_derivative. }
  rewrite Ropp_0, area_0 in Hc. lra.
Qed.
Lemma area_bounded x : area x <= exp (/ 2).
Proof.
  destruct (Rle_lt_dec x 0) as [Hx|Hx].
  - assert (area x <= 0) by (destruct Hx as [Hx| ->]; [apply area_increasing in Hx; rewrite area_0 in Hx; lra|rewrite area_0; lra]). pose proof (exp_pos (/ 2)). lra.
  - (* area - (- exp(1/2 - x)) has a non-positive derivative *)
    assert (Hd : forall y, derivable_pt_lim (fun y => area y + exp (/ 2 - y)) y (bell y + - exp (/ 2 - y))).
    { intro y. apply (derivable_pt_lim_plus area (fun y => exp (/ 2 - y))); [apply area_derivative|].
      replace (- exp (/ 2 - y)) with (exp (/ 2 - y) * -1) by ring. apply (derivable_pt_lim_comp (fun y => / 2 - y) exp); [|apply derivable_pt_lim_exp].
      replace (-1) with (0 - 1) by ring. apply (derivable_pt_lim_minus (fun _ => / 2) id); [apply derivable_pt_lim_const|apply derivable_pt_lim_id]. }
    destruct (MVT_cor2 _ _ 0 x Hx (fun c _ => Hd c)) as (c & E & Hc). rewrite area_0 in E. replace (/ 2 - 0) with (/ 2) in E by ring.
    assert (Hb : bell c <= exp (/ 2 - c)). { unfold bell. assert (- (c * c) / 2 <= / 2 - c) by (pose proof (Rle_0_sqr (c - 1)) as Hq; unfold Rsqr in Hq; lra). destruct H as [H|H]; [left; now apply exp_increasing|rewrite H; lra]. }
    pose proof (exp_pos (/ 2 - x)). nra.
Qed.
Theorem normal_cdf_exists : exists cdf, is_normal_cdf cdf.
Proof.
  destruct (completeness (fun y => exists x, y = area x)) as [L [Hub Hlub]].
  - exists (exp (/ 2)). intros y [x ->]. apply area_bounded.
  - exists (area 0), 0. reflexivity.
  - assert (Hlt : forall x, area x < L). { intro x. apply Rlt_le_trans with (area (x + 1)); [apply area_increasing; lra|]. apply Hub. eauto. }
    assert (HL : 0 < L) by (rewrite <- area_0; apply Hlt).
    assert (Hgt : forall x, - L < area x). { intro x. pose proof (Hlt (- x)). rewrite area_odd in H. lra. }
    exists (fun x => / 2 + / (2 * L) * area x). assert (Hc : 0 < / (2 * L)) by (apply Rinv_0_lt_compat; lra). assert (HcL : / (2 * L) * L = / 2) by (field; lra). split.
    + exists (/ (2 * L)). split; auto. intro x. replace (/ (2 * L) * bell x) with (0 + / (2 * L) * bell x) by ring.
      apply (derivable_pt_lim_plus (fun _ => / 2) (fun x => / (2 * L) * area x)); [apply derivable_pt_lim_const|]. apply (derivable_pt_lim_scal area). apply area_derivative.
    + intro x. rewrite area_odd. field. lra.
    + intro x. specialize (Hgt x). nra.
    + intros eps He.
      assert (Hex : exists x, L - 2 * L * eps < area x).
      { apply Classical_Prop.NNPP. intro Hno. assert (L <= L - 2 * L * eps); [|nra]. apply Hlub. intros y [x ->]. apply Rnot_lt_le. intro Hx. apply Hno. eauto. }
      destruct Hex as [x Hx]. exists (- x). rewrite area_odd. replace eps with (/ (2 * L) * (2 * L * eps)) by (field; lra). nra.
Qed.
Print Assumptions normal_cdf_exists.
