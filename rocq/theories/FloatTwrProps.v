(** C179: the time-weighted return in binary64. *)
From Coq Require Import ZArith List Bool Reals Lra Lia Permutation.
From Flocq Require Import Core BinarySingleNaN.
From Verif Require Import Py Float64 FloatBarsModel FloatBarsProofs FloatPosProofs FloatStatProps FloatWeightProps FloatTwrModel.
Import ListNotations.
Set Implicit Arguments.
Unset Strict Implicit.
Open Scope R_scope.

(** ** products in any order *)
Fixpoint peval (t : sum_tree) : f64 := match t with SZero => fz 1 | SLeaf x => x | SNode l r => fmul (peval l) (peval r) end.
Fixpoint nodes (t : sum_tree) : nat := match t with SZero | SLeaf _ => 0 | SNode l r => S (nodes l + nodes r) end.
Definition is_prod (prod : list f64 -> f64) : Prop := forall l, exists t, prod l = peval t /\ Permutation (leaves t) l /\ (nodes t <= length l)%nat.
Lemma left_prod_tree l acc : peval (left_tree acc l) = fold_left fmul l (peval acc) /\ leaves (left_tree acc l) = leaves acc ++ l /\ (nodes (left_tree acc l) = nodes acc + length l)%nat.
Proof.
  revert acc. induction l as [|x l IH]; intro acc; cbn [left_tree fold_left length]; [rewrite app_nil_r; auto|]. destruct (IH (SNode acc (SLeaf x))) as (A & B & C). rewrite A, B, C. cbn [peval leaves nodes]. rewrite <- app_assoc. split; auto. split; auto. lia.
Qed.
Theorem c179_left_product : is_prod fprod_left.
Proof. intro l. exists (left_tree SZero l). destruct (left_prod_tree l SZero) as (A & B & C). rewrite A, B, C. repeat split; auto. Qed.
Print Assumptions c179_left_product.
Definition rprod (l : list R) : R := fold_right Rmult 1 l.
Lemma rprod_app a b : rprod (a ++ b) = rprod a * rprod b.
Proof. induction a as [|x a IH]; cbn [app rprod fold_right]; [fold (rprod b); ring|]. fold (rprod (a ++ b)) (rprod a). rewrite IH. ring. Qed.
Lemma rprod_perm a b : Permutation a b -> rprod a = rprod b.
Proof. unfold rprod. induction 1; cbn [fold_right] in *; auto; [now rewrite IHPermutation|ring|congruence]. Qed.
Definition up (l : list R) : R := rprod (map (Rmax 1) l).
Definition down (l : list R) : R := rprod (map (Rmin 1) l).
Lemma up_app a b : up (a ++ b) = up a * up b. Proof. unfold up. rewrite map_app. apply rprod_app. Qed.
Lemma down_app a b : down (a ++ b) = down a * down b. Proof. unfold down. rewrite map_app. apply rprod_app. Qed.
Lemma up_ge l : 1 <= up l.
Proof. unfold up. induction l as [|x l IH]; cbn [map rprod fold_right]; [lra|]. fold (rprod (map (Rmax 1) l)). pose proof (Rmax_l 1 x). rewrite <- (Rmult_1_l 1) at 1. apply Rmult_le_compat; lra. Qed.
Lemma down_le l : (forall x, In x l -> 0 < x) -> 0 < down l <= 1 /\ down l <= rprod l <= up l.
Proof.
  unfold up, down. induction l as [|x l IH]; intro H; cbn [map rprod fold_right]; [lra|]. fold (rprod (map (Rmax 1) l)) (rprod (map (Rmin 1) l)) (rprod l). destruct IH as ([A1 A2] & A3 & A4); [intros y Hy; apply H; now right|]. assert (X : 0 < x) by (apply H; now left).
  pose proof (Rmin_l 1 x). pose proof (Rmin_r 1 x). pose proof (Rmax_r 1 x). assert (0 < Rmin 1 x) by (apply Rmin_glb_lt; lra). repeat split.
  - now apply Rmult_lt_0_compat.
  - apply Rle_trans with (1 * 1); [apply Rmult_le_compat; lra|lra].
  - apply Rmult_le_compat; lra.
  - apply Rmult_le_compat; lra.
Qed.
Lemma peval_bounds t : (forall x, In x (leaves t) -> fin x /\ 0 < fv x) -> up (map fv (leaves t)) <= bpow radix2 600 -> bpow radix2 (-600) <= down (map fv (leaves t)) -> (1 + u64) ^ nodes t <= 2 -> / 2 <= (1 - u64) ^ nodes t ->
  fin (peval t) /\ rprod (map fv (leaves t)) * (1 - u64) ^ nodes t <= fv (peval t) <= rprod (map fv (leaves t)) * (1 + u64) ^ nodes t.
Proof.
  pose proof u64_pos as U0. pose proof u64_small as U1. induction t as [|x|l IHl r IHr]; cbn [leaves peval nodes]; intros A U D N1 N2.
  - destruct (@fz_spec 1) as [F V]; [lia|]. split; auto. cbn [map rprod fold_right pow]. rewrite V. lra.
  - split; [apply A; now left|]. cbn [map rprod fold_right pow]. lra.
  - rewrite map_app in *. rewrite up_app in U. rewrite down_app in D. rewrite rprod_app.
    assert (Al : forall x, In x (leaves l) -> fin x /\ 0 < fv x) by (intros x Hx; apply A, in_or_app; now left). assert (Ar : forall x, In x (leaves r) -> fin x /\ 0 < fv x) by (intros x Hx; apply A, in_or_app; now right).
    assert (Pl : forall y, In y (map fv (leaves l)) -> 0 < y) by (intros y Hy; apply in_map_iff in Hy; destruct Hy as (x & <- & Hx); now apply Al). assert (Pr : forall y, In y (map fv (leaves r)) -> 0 < y) by (intros y Hy; apply in_map_iff in Hy; destruct Hy as (x & <- & Hx); now apply Ar).
    pose proof (up_ge (map fv (leaves l))) as Ul. pose proof (up_ge (map fv (leaves r))) as Ur. destruct (down_le Pl) as ([Dl1 Dl2] & Dl3 & Dl4). destruct (down_le Pr) as ([Dr1 Dr2] & Dr3 & Dr4). set (ul := up (map fv (leaves l))) in *. set (ur := up (map fv (leaves r))) in *. set (dl := down (map fv (leaves l))) in *. set (dr := down (map fv (leaves r))) in *.
    assert (M1 : ul <= ul * ur) by (rewrite <- (Rmult_1_r ul) at 1; apply Rmult_le_compat_l; lra). assert (M2 : ur <= ul * ur) by (rewrite <- (Rmult_1_l ur) at 1; apply Rmult_le_compat_r; lra). assert (M3 : dl * dr <= dl) by (rewrite <- (Rmult_1_r dl) at 2; apply Rmult_le_compat_l; lra). assert (M4 : dl * dr <= dr) by (rewrite <- (Rmult_1_l dr) at 2; apply Rmult_le_compat_r; lra).
    cbn [pow] in *. rewrite !pow_add in *. pose proof (pow_hi_ge_1 (nodes l)) as Hl. pose proof (pow_hi_ge_1 (nodes r)) as Hr. pose proof (pow_lo_le_1 (nodes l)) as Ll. pose proof (pow_lo_le_1 (nodes r)) as Lr. pose proof (pow_lo_pos (nodes l)) as Ll0. pose proof (pow_lo_pos (nodes r)) as Lr0. set (hl := (1 + u64) ^ nodes l) in *. set (hr := (1 + u64) ^ nodes r) in *. set (ll := (1 - u64) ^ nodes l) in *. set (lr := (1 - u64) ^ nodes r) in *.
    assert (Q1 : hl <= hl * hr) by (rewrite <- (Rmult_1_r hl) at 1; apply Rmult_le_compat_l; lra). assert (Q2 : hr <= hl * hr) by (rewrite <- (Rmult_1_l hr) at 1; apply Rmult_le_compat_r; lra). assert (Q3 : hl * hr <= (1 + u64) * (hl * hr)) by (rewrite <- (Rmult_1_l (hl * hr)) at 1; apply Rmult_le_compat_r; [apply Rmult_le_pos; lra|lra]).
    assert (Q4 : ll * lr <= ll) by (rewrite <- (Rmult_1_r ll) at 2; apply Rmult_le_compat_l; lra). assert (Q5 : ll * lr <= lr) by (rewrite <- (Rmult_1_l lr) at 2; apply Rmult_le_compat_r; lra). assert (Q6 : (1 - u64) * (ll * lr) <= ll * lr) by (rewrite <- (Rmult_1_l (ll * lr)) at 2; apply Rmult_le_compat_r; [apply Rmult_le_pos; lra|lra]).
    destruct IHl as (Fl & Bl1 & Bl2); auto; try lra. destruct IHr as (Fr & Br1 & Br2); auto; try lra. set (x := fv (peval l)) in *. set (y := fv (peval r)) in *. set (pl := rprod (map fv (leaves l))) in *. set (pr := rprod (map fv (leaves r))) in *.
    assert (X0 : 0 <= pl * ll) by (apply Rmult_le_pos; lra). assert (Y0 : 0 <= pr * lr) by (apply Rmult_le_pos; lra).
    assert (XY : pl * pr * (ll * lr) <= x * y <= pl * pr * (hl * hr)) by (split; [replace (pl * pr * (ll * lr)) with (pl * ll * (pr * lr)) by ring|replace (pl * pr * (hl * hr)) with (pl * hl * (pr * hr)) by ring]; apply Rmult_le_compat; lra).
    assert (PP : bpow radix2 (-600) <= pl * pr <= bpow radix2 600) by (split; [apply Rle_trans with (1 := D); apply Rmult_le_compat; lra|apply Rle_trans with (2 := U); apply Rmult_le_compat; lra]). pose proof (bpow_gt_0 radix2 (-600)) as P6.
    assert (RG : bpow radix2 (-601) <= x * y <= bpow radix2 601). { split; [apply Rle_trans with (2 := proj1 XY); change (-601)%Z with (-600 + -1)%Z; rewrite bpow_plus; change (bpow radix2 (-1)) with (/ 2); apply Rmult_le_compat; lra|apply Rle_trans with (1 := proj2 XY); change 601%Z with (600 + 1)%Z; rewrite bpow_plus; change (bpow radix2 1) with 2; apply Rmult_le_compat; lra]. }
    pose proof (bpow_gt_0 radix2 (-601)) as P7. destruct (@fmul_spec (peval l) (peval r) Fl Fr) as [F V]; [rewrite Rabs_pos_eq by (fold x y; lra); apply Rle_trans with (1 := proj2 RG), bpow_le; lia|]. fold x y in V. destruct (@rel_rnd (x * y)) as (e & He & E); [apply Rle_trans with (2 := proj1 RG), bpow_le; lia|]. apply Rabs_le_inv in He. split; auto. rewrite V, E.
    replace (pl * pr * ((1 - u64) * (ll * lr))) with (pl * pr * (ll * lr) * (1 - u64)) by ring. replace (pl * pr * ((1 + u64) * (hl * hr))) with (pl * pr * (hl * hr) * (1 + u64)) by ring. assert (0 <= pl * pr * (ll * lr)) by (repeat apply Rmult_le_pos; lra). split; apply Rmult_le_compat; lra.
Qed.

(** all growth factors one: the product is one; one of them zero: the product is zero *)
Lemma peval_ones t : (forall x, In x (leaves t) -> fin x /\ fv x = 1) -> fin (peval t) /\ fv (peval t) = 1.
Proof.
  induction t as [|x|l IHl r IHr]; cbn [leaves peval]; intro A; [apply fz_spec; lia|apply A; now left|]. destruct IHl as [Fl Vl]; [intros x Hx; apply A, in_or_app; now left|]. destruct IHr as [Fr Vr]; [intros x Hx; apply A, in_or_app; now right|].
  destruct (@fmul_spec (peval l) (peval r) Fl Fr) as [F V]; [rewrite Vl, Vr, Rmult_1_l, Rabs_pos_eq by lra; change 1 with (bpow radix2 0); apply bpow_le; lia|]. split; auto. rewrite V, Vl, Vr, Rmult_1_l. apply rnd64_1.
Qed.
Lemma rnd_up x m : 1 <= m -> 0 <= x <= m -> m <= bpow radix2 1000 -> 0 <= rnd64 x <= m * (1 + u64).
Proof.
  intros M X B. split; [rewrite <- rnd64_0; apply rnd64_mono; lra|]. apply Rle_trans with (rnd64 m); [apply rnd64_mono; lra|]. destruct (@rel_rnd m) as (e & He & E); [apply Rle_trans with (2 := M); change 1 with (bpow radix2 0); apply bpow_le; lia|]. apply Rabs_le_inv in He. rewrite E. apply Rmult_le_compat_l; lra.
Qed.
Lemma peval_zero t : (forall x, In x (leaves t) -> fin x /\ 0 <= fv x) -> up (map fv (leaves t)) <= bpow radix2 600 -> (1 + u64) ^ nodes t <= 2 -> fin (peval t) /\ 0 <= fv (peval t) <= up (map fv (leaves t)) * (1 + u64) ^ nodes t /\ ((exists x, In x (leaves t) /\ fv x = 0) -> fv (peval t) = 0).
Proof.
  pose proof u64_pos as U0. pose proof u64_small as U1. induction t as [|x|l IHl r IHr]; cbn [leaves peval nodes]; intros A U N1.
  - destruct (@fz_spec 1) as [F V]; [lia|]. split; auto. unfold up. cbn [map rprod fold_right pow]. rewrite V. split; [lra|]. intros (x & [] & _).
  - destruct (A x) as [F P]; [now left|]. split; auto. unfold up. cbn [map rprod fold_right pow]. pose proof (Rmax_r 1 (fv x)). split; [lra|]. intros (y & [<-|[]] & E). auto.
  - rewrite map_app in *. rewrite up_app in *. pose proof (up_ge (map fv (leaves l))) as Ul. pose proof (up_ge (map fv (leaves r))) as Ur. set (ul := up (map fv (leaves l))) in *. set (ur := up (map fv (leaves r))) in *. cbn [pow] in *. rewrite !pow_add in *. pose proof (pow_hi_ge_1 (nodes l)) as Hl. pose proof (pow_hi_ge_1 (nodes r)) as Hr. set (hl := (1 + u64) ^ nodes l) in *. set (hr := (1 + u64) ^ nodes r) in *.
    assert (M1 : ul <= ul * ur) by (rewrite <- (Rmult_1_r ul) at 1; apply Rmult_le_compat_l; lra). assert (M2 : ur <= ul * ur) by (rewrite <- (Rmult_1_l ur) at 1; apply Rmult_le_compat_r; lra).
    assert (Q1 : hl <= hl * hr) by (rewrite <- (Rmult_1_r hl) at 1; apply Rmult_le_compat_l; lra). assert (Q2 : hr <= hl * hr) by (rewrite <- (Rmult_1_l hr) at 1; apply Rmult_le_compat_r; lra). assert (Q3 : hl * hr <= (1 + u64) * (hl * hr)) by (rewrite <- (Rmult_1_l (hl * hr)) at 1; apply Rmult_le_compat_r; [apply Rmult_le_pos; lra|lra]).
    destruct IHl as (Fl & Bl & Zl); try lra; [intros x Hx; apply A, in_or_app; now left|]. destruct IHr as (Fr & Br & Zr); try lra; [intros x Hx; apply A, in_or_app; now right|]. set (x := fv (peval l)) in *. set (y := fv (peval r)) in *.
    assert (XY : 0 <= x * y <= ul * ur * (hl * hr)) by (split; [apply Rmult_le_pos; lra|]; replace (ul * ur * (hl * hr)) with (ul * hl * (ur * hr)) by ring; apply Rmult_le_compat; lra).
    assert (M5 : 1 <= ul * ur * (hl * hr)) by (rewrite <- (Rmult_1_l 1); apply Rmult_le_compat; lra). assert (B5 : ul * ur * (hl * hr) <= bpow radix2 601) by (change 601%Z with (600 + 1)%Z; rewrite bpow_plus; change (bpow radix2 1) with 2; apply Rmult_le_compat; lra).
    assert (B6 : bpow radix2 601 <= bpow radix2 1000) by (apply bpow_le; lia). destruct (@fmul_spec (peval l) (peval r) Fl Fr) as [F V]; [rewrite Rabs_pos_eq by (fold x y; lra); fold x y; apply Rle_trans with (bpow radix2 1000); [lra|apply bpow_le; lia]|]. fold x y in V. split; auto. rewrite V. split.
    + replace (ul * ur * ((1 + u64) * (hl * hr))) with (ul * ur * (hl * hr) * (1 + u64)) by ring. apply rnd_up; lra.
    + intros (z & Hz & E). apply in_app_or in Hz. destruct Hz as [Hz|Hz]; [rewrite (Zl (ex_intro _ z (conj Hz E))), Rmult_0_l|rewrite (Zr (ex_intro _ z (conj Hz E))), Rmult_0_r]; apply rnd64_0.
Qed.

(** ** one period *)
Definition period (row : f64 * f64) (value : f64) : Prop := fin (fst row) /\ fin (snd row) /\ fin value /\ 0 < fv (fst row) + fv (snd row) <= bpow radix2 1000.
Definition factor (row : f64 * f64) (value : f64) : R := fv value / (fv (fst row) + fv (snd row)).
Lemma balance_spec row value : period row value -> let bb := fadd (fst row) (snd row) in fin bb /\ exists e, Rabs e <= u64 /\ fv bb = (fv (fst row) + fv (snd row)) * (1 + e) /\ 0 < fv bb <= 2 * bpow radix2 1000.
Proof.
  intros (F1 & F2 & F3 & B) bb. pose proof u64_small as U1. pose proof u64_pos as U0. destruct (@fadd_spec (fst row) (snd row) F1 F2) as [F V]; [rewrite Rabs_pos_eq by lra; apply Rle_trans with (bpow radix2 1000); [lra|apply bpow_le; lia]|]. split; auto.
  destruct (@add_error (fv (fst row)) (fv (snd row)) (fv_format _) (fv_format _)) as (e & He & E). exists e. split; auto. unfold bb. rewrite V, E. split; auto. apply Rabs_le_inv in He. split; [apply Rmult_lt_0_compat; lra|]. rewrite Rmult_comm. apply Rmult_le_compat; lra.
Qed.
Lemma growth_same row value : period row value -> fv value = fv (fadd (fst row) (snd row)) -> fin (fgrowth row value) /\ fv (fgrowth row value) = 1.
Proof.
  intros P E. destruct (balance_spec P) as (Fb & e & He & Vb & Bb). destruct P as (F1 & F2 & F3 & B). unfold fgrowth. cbv zeta. set (bb := fadd (fst row) (snd row)) in *. assert (BG : forall x, x = 0 \/ x = 1 -> Rabs x <= big) by (intros x [->| ->]; rewrite Rabs_pos_eq by lra; [apply bpow_ge_0|change 1 with (bpow radix2 0); apply bpow_le; lia]).
  destruct (@fsub_spec value bb F3 Fb) as [Fd Vd]; [apply BG; left; lra|]. rewrite E, Rminus_diag_eq, rnd64_0 in Vd by auto. destruct (@fdiv_spec (fsub value bb) bb Fd) as [Fq Vq]; [lra|apply BG; left; rewrite Vd; unfold Rdiv; ring|]. rewrite Vd in Vq. unfold Rdiv in Vq. rewrite Rmult_0_l, rnd64_0 in Vq.
  destruct (@fz_spec 1) as [G1 V1]; [lia|]. destruct (@fadd_spec (fz 1) (fdiv (fsub value bb) bb) G1 Fq) as [F V]; [apply BG; right; rewrite V1, Vq; ring|]. split; auto. rewrite V, V1, Vq, Rplus_0_r. apply rnd64_1.
Qed.
Lemma growth_loss row value : period row value -> fv value = 0 -> fin (fgrowth row value) /\ fv (fgrowth row value) = 0.
Proof.
  intros P E. destruct (balance_spec P) as (Fb & e & He & Vb & Bb). destruct P as (F1 & F2 & F3 & B). unfold fgrowth. cbv zeta. set (bb := fadd (fst row) (snd row)) in *.
  assert (B2 : 2 * bpow radix2 1000 <= big) by (change 2 with (bpow radix2 1); rewrite <- bpow_plus; apply bpow_le; lia). assert (B1 : Rabs (-1) <= big) by (rewrite Rabs_left by lra; apply Rle_trans with (bpow radix2 0); [cbn; lra|apply bpow_le; lia]).
  destruct (@fsub_spec value bb F3 Fb) as [Fd Vd]; [rewrite E, Rminus_0_l, Rabs_Ropp, Rabs_pos_eq; lra|]. rewrite E, Rminus_0_l, rnd64_opp, rnd64_fv in Vd. assert (Q : - fv bb / fv bb = -1) by (field; lra). destruct (@fdiv_spec (fsub value bb) bb Fd) as [Fq Vq]; [lra|rewrite Vd, Q; auto|]. rewrite Vd, Q in Vq. replace (-1) with (- (1)) in Vq by ring. rewrite rnd64_opp, rnd64_1 in Vq.
  destruct (@fz_spec 1) as [G1 V1]; [lia|]. destruct (@fadd_spec (fz 1) (fdiv (fsub value bb) bb) G1 Fq) as [F V]; [rewrite V1, Vq; replace (1 + - (1)) with 0 by ring; rewrite Rabs_R0; apply bpow_ge_0|]. split; auto. rewrite V, V1, Vq. replace (1 + - (1)) with 0 by ring. apply rnd64_0.
Qed.
(** a factor between a half and two is computed to eight roundings *)
Lemma growth_near row value : period row value -> / 2 <= factor row value <= 2 -> fin (fgrowth row value) /\ exists n, Rabs n <= 8 * u64 /\ fv (fgrowth row value) = factor row value * (1 + n).
Proof.
  intros P G. destruct (balance_spec P) as (Fb & e1 & H1 & Vb & Bb). destruct P as (F1 & F2 & F3 & B). unfold fgrowth. cbv zeta. set (bb := fadd (fst row) (snd row)) in *. unfold factor in *. set (B0 := fv (fst row) + fv (snd row)) in *. set (g := fv value / B0) in *. pose proof u64_pos as U0. pose proof u64_small as U1. pose proof (Rabs_le_inv _ _ H1) as H1'.
  assert (B2 : 8 * bpow radix2 1000 <= big) by (change 8 with (bpow radix2 3); rewrite <- bpow_plus; apply bpow_le; lia). assert (B3 : 8 <= big) by (change 8 with (bpow radix2 3); apply bpow_le; lia). assert (VG : fv value = g * B0) by (unfold g; field; lra).
  pose proof (@inv1 u64 1 e1 ltac:(lra) ltac:(lra) ltac:(lra) ltac:(lra) ltac:(lra)) as HW. set (w := / (1 + e1) - 1) in *. pose proof (Rabs_le_inv _ _ HW) as HW'. assert (X : fv value / fv bb = g * (1 + w)) by (unfold w; rewrite VG, Vb; field; lra). set (x := g * (1 + w)) in *.
  assert (GW : Rabs (g * w) <= 4 * u64) by (rewrite Rabs_mult, (Rabs_pos_eq g) by lra; replace (4 * u64) with (2 * (2 * u64)) by ring; apply Rmult_le_compat; try lra; apply Rabs_pos). pose proof (Rabs_le_inv _ _ GW) as GW'. assert (XB : / 4 <= x <= 3) by (unfold x; lra).
  assert (VP : 0 <= fv value <= 2 * bpow radix2 1000) by (rewrite VG; split; [apply Rmult_le_pos; lra|apply Rmult_le_compat; lra]).
  destruct (@fsub_spec value bb F3 Fb) as [Fd Vd]; [apply Rabs_le; lra|]. destruct (@add_error (fv value) (- fv bb) (fv_format _) ltac:(apply generic_format_opp, fv_format)) as (e2 & H2 & E2). change (fv value + - fv bb) with (fv value - fv bb) in E2. rewrite E2 in Vd. pose proof (Rabs_le_inv _ _ H2) as H2'.
  assert (DQ : fv (fsub value bb) / fv bb = (x - 1) * (1 + e2)) by (rewrite Vd, <- X; field; lra). assert (DB : Rabs ((x - 1) * (1 + e2)) <= 4) by (rewrite Rabs_mult; replace 4 with (2 * 2) by ring; apply Rmult_le_compat; try apply Rabs_pos; apply Rabs_le; lra).
  destruct (@fdiv_spec (fsub value bb) bb Fd) as [Fq Vq]; [lra|rewrite DQ; lra|]. rewrite DQ in Vq. destruct (rnd_error_any ((x - 1) * (1 + e2))) as (e3 & h & H3 & Hh & E3). rewrite E3 in Vq. set (q := fdiv (fsub value bb) bb) in *. pose proof (Rabs_le_inv _ _ H3) as H3'. pose proof tiny_le as TL.
  destruct (@fz_spec 1) as [G1 V1]; [lia|]. assert (HZ : Rabs ((1 + e2) * (1 + e3) - 1) <= 3 * u64) by (replace 3 with (1 + 1 + 1) by ring; apply mul1; try lra; rewrite Rmult_1_l; auto). set (z := (1 + e2) * (1 + e3) - 1) in *. assert (VQ : fv q = (x - 1) * (1 + z) + h) by (rewrite Vq; unfold z; ring).
  assert (XZ : Rabs ((x - 1) * z) <= 2 * (3 * u64)) by (rewrite Rabs_mult; apply Rmult_le_compat; try apply Rabs_pos; auto; apply Rabs_le; lra). pose proof (Rabs_le_inv _ _ XZ) as XZ'. pose proof (Rabs_le_inv _ _ Hh) as Hh'.
  destruct (@fadd_spec (fz 1) q G1 Fq) as [F V]; [rewrite V1, VQ; apply Rabs_le; lra|]. split; auto. destruct (@add_error (fv (fz 1)) (fv q) (fv_format _) (fv_format _)) as (e4 & H4 & E4). rewrite E4, V1, VQ in V.
  set (n' := w + ((x - 1) * z + h) / g). exists ((1 + n') * (1 + e4) - 1). assert (K : 1 + ((x - 1) * (1 + z) + h) = g * (1 + n')) by (unfold n'; replace (g * (1 + (w + ((x - 1) * z + h) / g))) with (g * (1 + w) + ((x - 1) * z + h)) by (field; lra); fold x; ring). split; [|rewrite V, K; ring].
  assert (HN : Rabs n' <= 6 * u64).
  { assert (XG : Rabs ((x - 1) / g) <= 1 + 2 * u64). { unfold Rdiv. rewrite Rabs_mult, (Rabs_pos_eq (/ g)) by (apply Rlt_le, Rinv_0_lt_compat; lra). apply Rmult_le_reg_r with g; [lra|]. rewrite Rmult_assoc, Rinv_l, Rmult_1_r by lra. assert (GU : Rabs (g * w) <= 2 * u64 * g) by (rewrite Rabs_mult, (Rabs_pos_eq g), Rmult_comm by lra; apply Rmult_le_compat_r; lra). apply Rabs_le_inv in GU. unfold x. apply Rabs_le. lra. }
    assert (HG : Rabs (h / g) <= / 512 * u64). { unfold Rdiv. rewrite Rabs_mult. replace (/ 512 * u64) with (/ 1024 * u64 * 2) by field. apply Rmult_le_compat; try apply Rabs_pos; [lra|]. rewrite Rabs_pos_eq by (apply Rlt_le, Rinv_0_lt_compat; lra). rewrite <- (Rinv_involutive 2) by lra. apply Rinv_le; lra. }
    unfold n'. replace (w + ((x - 1) * z + h) / g) with (w + (x - 1) / g * z + h / g) by (field; lra). assert (XZG : Rabs ((x - 1) / g * z) <= (1 + 2 * u64) * (3 * u64)) by (rewrite Rabs_mult; apply Rmult_le_compat; try apply Rabs_pos; auto). assert (UU : 6 * (u64 * u64) <= / 128 * u64) by (replace (/ 128 * u64) with (6 * (/ 768 * u64)) by field; apply Rmult_le_compat_l; [lra|]; apply Rmult_le_compat_r; lra).
    apply Rabs_le_inv in XZG, HG. apply Rabs_le. lra. }
  replace 8 with (6 + 1 + 1) by ring. apply mul1; try lra. 
Qed.

(** ** the return *)
Definition steps (rows : list (f64 * f64)) : list ((f64 * f64) * f64) := combine rows (tl (map fst rows)).
Definition solvent (rows : list (f64 * f64)) : Prop := forall s, In s (steps rows) -> period (fst s) (snd s).
Definition factors (rows : list (f64 * f64)) : list R := map (fun s => factor (fst s) (snd s)) (steps rows).
Lemma no_nan l : (forall x : f64, In x l -> fin x) -> filter (fun x : f64 => negb (is_nan x)) l = l.
Proof. induction l as [|x l IH]; intro H; cbn; auto. assert (F : fin x) by (apply H; now left). destruct x; try discriminate F; cbn; f_equal; apply IH; intros y Hy; apply H; now right. Qed.
(** nothing gained or lost but the cash flows: the return is zero to the last bit *)
Theorem c179_unchanged prod rows : is_prod prod -> solvent rows -> (forall s, In s (steps rows) -> fv (snd s) = fv (fadd (fst (fst s)) (snd (fst s)))) -> fin (ftime_weighted_return prod rows) /\ fv (ftime_weighted_return prod rows) = 0.
Proof.
  intros IP SO E. unfold ftime_weighted_return. cbv zeta. fold (steps rows). set (l := map (fun p => fgrowth (fst p) (snd p)) (steps rows)). assert (A : forall x, In x l -> fin x /\ fv x = 1) by (intros x Hx; apply in_map_iff in Hx; destruct Hx as (s & <- & Hs); apply growth_same; auto).
  rewrite no_nan by (intros x Hx; now apply A). destruct (IP l) as (t & Et & Pt & _). rewrite Et. destruct (@peval_ones t) as [F V]; [intros x Hx; apply A; now apply (Permutation_in _ Pt)|]. destruct (@fz_spec 1) as [F1 V1]; [lia|].
  destruct (@fsub_spec (peval t) (fz 1) F F1) as [G W]; [rewrite V, V1, Rminus_diag_eq, Rabs_R0 by auto; apply bpow_ge_0|]. split; auto. rewrite W, V, V1, Rminus_diag_eq by auto. apply rnd64_0.
Qed.
Print Assumptions c179_unchanged.
Lemma bern x n : 0 <= x <= 1 -> 1 - INR n * x <= (1 - x) ^ n.
Proof.
  intro X. induction n as [|n IH]; [cbn; lra|]. rewrite S_INR. cbn [pow]. apply Rle_trans with ((1 - x) * (1 - INR n * x)); [|apply Rmult_le_compat_l; lra]. pose proof (pos_INR n). assert (0 <= x * (INR n * x)) by (repeat apply Rmult_le_pos; lra). lra.
Qed.
Lemma bern_up x n : 0 <= x -> x < 1 -> INR n * x <= / 2 -> (1 + x) ^ n <= 1 + 2 * (INR n * x).
Proof.
  intros X0 X1 H. pose proof (@bern x n ltac:(lra)) as L. set (y := INR n * x) in *. assert (Y : 0 <= y) by (apply Rmult_le_pos; [apply pos_INR|lra]). assert (P : (1 + x) ^ n * (1 - x) ^ n <= 1) by (rewrite <- Rpow_mult_distr; apply Rle_trans with (1 ^ n); [apply pow_incr; split; [apply Rmult_le_pos; lra|]; assert (0 <= x * x) by (apply Rmult_le_pos; lra); lra|rewrite pow1; lra]).
  assert (Q : 0 < (1 + x) ^ n) by (apply pow_lt; lra). assert (R1 : (1 + x) ^ n * (1 - y) <= 1) by (apply Rle_trans with (2 := P); apply Rmult_le_compat_l; lra). apply Rmult_le_reg_r with (1 - y); [lra|]. apply Rle_trans with (1 := R1). assert (0 <= y * (1 - 2 * y)) by (apply Rmult_le_pos; lra). lra.
Qed.
Lemma near_prod c l gs : 0 <= c < 1 -> Forall2 (fun f g => 0 < g /\ g * (1 - c) <= f <= g * (1 + c)) l gs ->
  rprod gs * (1 - c) ^ length gs <= rprod l <= rprod gs * (1 + c) ^ length gs /\ up l <= up gs * (1 + c) ^ length gs /\ down gs * (1 - c) ^ length gs <= down l.
Proof.
  intros C. unfold up, down. induction 1 as [|f g l gs (G & A1 & A2) H IH]; cbn [map rprod fold_right length pow]; [lra|]. fold (rprod (map (Rmax 1) l)) (rprod (map (Rmin 1) l)) (rprod l) (rprod (map (Rmax 1) gs)) (rprod (map (Rmin 1) gs)) (rprod gs). destruct IH as ([I1 I2] & I3 & I4).
  assert (PG : forall y, In y gs -> 0 < y) by (clear -H; induction H as [|? ? ? ? [? _]]; intros z Hz; destruct Hz; [now subst|auto]). destruct (down_le PG) as ([D1 D2] & D3 & D4). pose proof (up_ge gs) as U. unfold up, down in *. assert (L0 : 0 < (1 - c) ^ length gs) by (apply pow_lt; lra). assert (H0 : 0 < (1 + c) ^ length gs) by (apply pow_lt; lra). assert (F0 : 0 < f) by (apply Rlt_le_trans with (2 := A1), Rmult_lt_0_compat; lra).
  set (lo := (1 - c) ^ length gs) in *. set (hi := (1 + c) ^ length gs) in *. set (ul := rprod (map (Rmax 1) l)) in *. set (dl := rprod (map (Rmin 1) l)) in *. set (ug := rprod (map (Rmax 1) gs)) in *. set (dg := rprod (map (Rmin 1) gs)) in *. set (pl := rprod l) in *. set (pg := rprod gs) in *.
  assert (Z1 : 0 <= pg * lo) by (apply Rmult_le_pos; lra). assert (Z2 : 0 <= g * (1 - c)) by (apply Rmult_le_pos; lra). assert (Z3 : 0 <= dg * lo) by (apply Rmult_le_pos; lra). assert (U1 : 1 <= ul) by apply up_ge.
  assert (MX : 0 <= Rmax 1 f <= Rmax 1 g * (1 + c)). { pose proof (Rmax_l 1 f). split; [lra|]. pose proof (Rmax_l 1 g). pose proof (Rmax_r 1 g). apply Rmax_lub; [rewrite <- (Rmult_1_r 1) at 1; apply Rmult_le_compat; lra|apply Rle_trans with (1 := A2), Rmult_le_compat_r; lra]. }
  assert (MN : 0 <= Rmin 1 g * (1 - c) <= Rmin 1 f). { assert (0 < Rmin 1 g) by (apply Rmin_glb_lt; lra). pose proof (Rmin_l 1 g). pose proof (Rmin_r 1 g). split; [apply Rmult_le_pos; lra|]. apply Rmin_glb; [apply Rle_trans with (1 * 1); [apply Rmult_le_compat; lra|lra]|apply Rle_trans with (2 := A1), Rmult_le_compat_r; lra]. }
  split; [split|split].
  - replace (g * pg * ((1 - c) * lo)) with (g * (1 - c) * (pg * lo)) by ring. apply Rmult_le_compat; lra.
  - replace (g * pg * ((1 + c) * hi)) with (g * (1 + c) * (pg * hi)) by ring. apply Rmult_le_compat; lra.
  - replace (Rmax 1 g * ug * ((1 + c) * hi)) with (Rmax 1 g * (1 + c) * (ug * hi)) by ring. apply Rmult_le_compat; lra.
  - replace (Rmin 1 g * dg * ((1 - c) * lo)) with (Rmin 1 g * (1 - c) * (dg * lo)) by ring. apply Rmult_le_compat; lra.
Qed.
Lemma up_perm a b : Permutation a b -> up a = up b. Proof. intro H. apply rprod_perm. now apply Permutation_map. Qed.
Lemma down_perm a b : Permutation a b -> down a = down b. Proof. intro H. apply rprod_perm. now apply Permutation_map. Qed.
(** periods that at most halve or double the portfolio: the return is the product of the exact factors, less one, but for 24 roundings a period *)
Theorem c179_return prod rows : is_prod prod -> solvent rows -> (Z.of_nat (length (factors rows)) <= 2 ^ 48)%Z -> (forall g, In g (factors rows) -> / 2 <= g <= 2) -> up (factors rows) <= bpow radix2 500 -> bpow radix2 (-500) <= down (factors rows) ->
  fin (ftime_weighted_return prod rows) /\ Rabs (fv (ftime_weighted_return prod rows) - (rprod (factors rows) - 1)) <= 24 * INR (length (factors rows)) * u64 * (1 + rprod (factors rows)).
Proof.
  intros IP SO LN GB UB DB. pose proof u64_pos as U0. pose proof u64_small as U1. assert (LS : length (steps rows) = length (factors rows)) by (unfold factors; now rewrite map_length). set (gs := factors rows) in *. set (n := length gs) in *. set (l := map (fun p => fgrowth (fst p) (snd p)) (steps rows)).
  assert (F2 : Forall2 (fun f g => 0 < g /\ g * (1 - 8 * u64) <= f <= g * (1 + 8 * u64)) (map fv l) gs /\ forall x, In x l -> fin x /\ 0 < fv x).
  { unfold l, gs, factors, solvent in *. clear -SO GB U0 U1. induction (steps rows) as [|s ss IH]; [split; [constructor|intros x []]|]. destruct IH as [I1 I2]; [intros x Hx; apply SO; now right|intros g Hg; apply GB; now right|]. cbn [map] in *. assert (G : / 2 <= factor (fst s) (snd s) <= 2) by (apply GB; now left).
    destruct (@growth_near (fst s) (snd s)) as (F & e & He & V); [apply SO; now left|auto|]. apply Rabs_le_inv in He. set (g := factor (fst s) (snd s)) in *. assert (B : g * (1 - 8 * u64) <= fv (fgrowth (fst s) (snd s)) <= g * (1 + 8 * u64)) by (rewrite V; split; apply Rmult_le_compat_l; lra). split.
    - constructor; auto. split; [lra|exact B].
    - intros x [<-|Hx]; auto. split; auto. apply Rlt_le_trans with (2 := proj1 B), Rmult_lt_0_compat; lra. }
  destruct F2 as [F2 A]. destruct (@near_prod (8 * u64) _ _ ltac:(lra) F2) as ([N1 N2] & N3 & N4). fold n in N1, N2, N3, N4.
  assert (NU : INR n * u64 <= bpow radix2 (-5)) by (rewrite u53; replace (bpow radix2 (-5)) with (bpow radix2 48 * bpow radix2 (-53)) by (rewrite <- bpow_plus; reflexivity); apply Rmult_le_compat_r; [apply bpow_ge_0|]; rewrite INR_IZR_INZ; change (bpow radix2 48) with (IZR (2 ^ 48)); now apply IZR_le). change (bpow radix2 (-5)) with (/ 32) in NU. pose proof (pos_INR n) as NP. assert (NU0 : 0 <= INR n * u64) by (apply Rmult_le_pos; lra).
  pose proof (@bern (10 * u64) n ltac:(lra)) as BL. pose proof (@bern_up (10 * u64) n ltac:(lra) ltac:(lra) ltac:(lra)) as BU. set (t := INR n * u64) in *. replace (INR n * (10 * u64)) with (10 * t) in * by (unfold t; ring).
  assert (HI : forall k, 0 <= k <= 10 -> (1 + k * u64) ^ n <= (1 + 10 * u64) ^ n) by (intros k K; apply pow_incr; assert (0 <= k * u64 <= 10 * u64) by (split; [apply Rmult_le_pos|apply Rmult_le_compat_r]; lra); lra). assert (LO : forall k, 0 <= k <= 10 -> (1 - 10 * u64) ^ n <= (1 - k * u64) ^ n) by (intros k K; apply pow_incr; assert (0 <= k * u64 <= 10 * u64) by (split; [apply Rmult_le_pos|apply Rmult_le_compat_r]; lra); lra).
  pose proof (HI 8 ltac:(lra)) as H8. pose proof (LO 8 ltac:(lra)) as L8. pose proof (HI 1 ltac:(lra)) as H1. pose proof (LO 1 ltac:(lra)) as L1. rewrite Rmult_1_l in H1, L1. assert (UU : 0 <= u64 * u64 <= / 1024 * u64) by (split; [apply Rmult_le_pos; lra|apply Rmult_le_compat_r; lra]).
  assert (HH : (1 + 8 * u64) ^ n * (1 + u64) ^ n <= 1 + 20 * t) by (rewrite <- Rpow_mult_distr; apply Rle_trans with ((1 + 10 * u64) ^ n); [apply pow_incr; split; [apply Rmult_le_pos; lra|lra]|lra]).
  assert (LL : 1 - 10 * t <= (1 - 8 * u64) ^ n * (1 - u64) ^ n) by (rewrite <- Rpow_mult_distr; apply Rle_trans with ((1 - 10 * u64) ^ n); [lra|apply pow_incr; lra]).
  assert (PG : forall y, In y gs -> 0 < y) by (intros y Hy; apply GB in Hy; lra). destruct (down_le PG) as ([D1 D2] & D3 & D4). pose proof (up_ge gs) as UG. set (G := rprod gs) in *.
  destruct (IP l) as (tr & Et & Pt & Nt). assert (Ll : length l = n) by (unfold l; rewrite map_length; exact LS). rewrite Ll in Nt. assert (PM : Permutation (map fv (leaves tr)) (map fv l)) by now apply Permutation_map.
  destruct (@peval_bounds tr) as (Fp & B1 & B2).
  - intros x Hx. apply A. now apply (Permutation_in _ Pt).
  - rewrite (up_perm PM). apply Rle_trans with (1 := N3). apply Rle_trans with (bpow radix2 500 * 2); [apply Rmult_le_compat; try lra; apply pow_le; lra|]. change 2 with (bpow radix2 1). rewrite <- bpow_plus. apply bpow_le. lia.
  - rewrite (down_perm PM). apply Rle_trans with (2 := N4). apply Rle_trans with (bpow radix2 (-500) * / 2); [change (/ 2) with (bpow radix2 (-1)); rewrite <- bpow_plus; apply bpow_le; lia|]. pose proof (bpow_gt_0 radix2 (-500)). apply Rmult_le_compat; lra.
  - apply Rle_trans with (1 := pow_hi_mono Nt). lra.
  - apply Rle_trans with (2 := pow_lo_mono Nt). lra.
  - rewrite (rprod_perm PM) in B1, B2. unfold ftime_weighted_return. cbv zeta. fold (steps rows). fold l. rewrite no_nan by (intros x Hx; now apply A). rewrite Et. set (P := fv (peval tr)) in *.
    assert (PLO : G * (1 - 10 * t) <= P). { apply Rle_trans with (2 := B1). apply Rle_trans with (G * ((1 - 8 * u64) ^ n * (1 - u64) ^ n)); [apply Rmult_le_compat_l; lra|]. rewrite <- Rmult_assoc. pose proof (pow_lo_mono Nt). pose proof (pow_lo_pos n). apply Rmult_le_compat; try lra. apply Rmult_le_pos; [lra|apply pow_le; lra]. }
    assert (PHI : P <= G * (1 + 20 * t)). { apply Rle_trans with (1 := B2). apply Rle_trans with (G * ((1 + 8 * u64) ^ n * (1 + u64) ^ n)); [|apply Rmult_le_compat_l; lra]. rewrite <- Rmult_assoc. pose proof (pow_hi_mono Nt). pose proof (pow_hi_pos (nodes tr)). apply Rmult_le_compat; try lra. apply Rle_trans with (2 := N1), Rmult_le_pos; [lra|apply pow_le; lra]. }
    assert (GT : 0 <= G * t <= / 32 * G) by (split; [apply Rmult_le_pos; lra|rewrite Rmult_comm; apply Rmult_le_compat_r; lra]). assert (PB : 0 <= P <= 2 * G) by lra. assert (GBG : 2 * G + 1 <= bpow radix2 502) by (apply Rle_trans with (bpow radix2 500 * 4); [lra|change 4 with (bpow radix2 2); rewrite <- bpow_plus; apply Rle_refl]). assert (BB : bpow radix2 502 <= big) by (apply bpow_le; lia).
    destruct (@fz_spec 1) as [F1 V1]; [lia|]. destruct (@fsub_spec (peval tr) (fz 1) Fp F1) as [F V]; [rewrite V1; fold P; apply Rabs_le; lra|]. split; auto. fold P in V. destruct (@add_error P (- fv (fz 1)) (fv_format _) ltac:(apply generic_format_opp, fv_format)) as (e & He & E). change (P + - fv (fz 1)) with (P - fv (fz 1)) in E. rewrite V, E, V1.
    destruct (Nat.eq_dec n 0) as [N0|N0].
    + assert (T0 : t = 0) by (unfold t; rewrite N0; cbn; ring). rewrite T0 in *. assert (G1 : G = 1) by (unfold G; destruct gs; [reflexivity|discriminate N0]). assert (P1 : P = 1) by lra. rewrite P1, G1. replace ((1 - 1) * (1 + e) - (1 - 1)) with 0 by ring. rewrite Rabs_R0. apply Rmult_le_pos; [|lra]. unfold t in T0. lra.
    + assert (UT : u64 <= t) by (unfold t; rewrite <- (Rmult_1_l u64) at 1; apply Rmult_le_compat_r; [lra|]; change 1 with (INR 1); apply le_INR; lia). replace ((P - 1) * (1 + e) - (G - 1)) with (P - G + (P - 1) * e) by ring.
      assert (PE : Rabs ((P - 1) * e) <= (2 * G + 1) * t) by (rewrite Rabs_mult; apply Rmult_le_compat; try apply Rabs_pos; [apply Rabs_le; lra|lra]). apply Rabs_le_inv in PE. rewrite (Rmult_assoc 24). fold t. apply Rabs_le. lra.
Qed.
Print Assumptions c179_return.
(** the value of the portfolio once zero: the return is -1 to the last bit *)
Lemma near_up c l gs : 0 <= c -> Forall2 (fun f g => f <= g * (1 + c) /\ 0 <= g) l gs -> up l <= up gs * (1 + c) ^ length gs.
Proof.
  intros C. unfold up. induction 1 as [|f g l gs (A1 & A2) H IH]; cbn [map rprod fold_right length pow]; [lra|]. fold (rprod (map (Rmax 1) l)) (rprod (map (Rmax 1) gs)). pose proof (up_ge l) as U. unfold up in U. replace (Rmax 1 g * rprod (map (Rmax 1) gs) * ((1 + c) * (1 + c) ^ length gs)) with (Rmax 1 g * (1 + c) * (rprod (map (Rmax 1) gs) * (1 + c) ^ length gs)) by ring.
  pose proof (Rmax_l 1 f). pose proof (Rmax_l 1 g). pose proof (Rmax_r 1 g). apply Rmult_le_compat; try lra. apply Rmax_lub; [rewrite <- (Rmult_1_r 1) at 1; apply Rmult_le_compat; lra|apply Rle_trans with (1 := A1), Rmult_le_compat_r; lra].
Qed.
Theorem c179_total_loss prod rows : is_prod prod -> solvent rows -> (Z.of_nat (length (factors rows)) <= 2 ^ 48)%Z -> (forall s, In s (steps rows) -> fv (snd s) = 0 \/ / 2 <= factor (fst s) (snd s) <= 2) -> (exists s, In s (steps rows) /\ fv (snd s) = 0) -> up (factors rows) <= bpow radix2 500 ->
  fin (ftime_weighted_return prod rows) /\ fv (ftime_weighted_return prod rows) = -1.
Proof.
  intros IP SO LN GB (s0 & Hs0 & Z0) UB. pose proof u64_pos as U0. pose proof u64_small as U1. assert (LS : length (steps rows) = length (factors rows)) by (unfold factors; now rewrite map_length). set (gs := factors rows) in *. set (n := length gs) in *. set (l := map (fun p => fgrowth (fst p) (snd p)) (steps rows)).
  assert (F2 : Forall2 (fun f g => f <= g * (1 + 8 * u64) /\ 0 <= g) (map fv l) gs /\ forall x, In x l -> fin x /\ 0 <= fv x).
  { unfold l, gs, factors, solvent in *. clear -SO GB U0 U1. induction (steps rows) as [|s ss IH]; [split; [constructor|intros x []]|]. destruct IH as [I1 I2]; [intros x Hx; apply SO; now right|intros g Hg; apply GB; now right|]. cbn [map] in *. assert (P : period (fst s) (snd s)) by (apply SO; now left). destruct (GB s (or_introl eq_refl)) as [E|G].
    - destruct (growth_loss P E) as [F V]. assert (FE : factor (fst s) (snd s) = 0) by (unfold factor, Rdiv; rewrite E; ring). split; [constructor; auto; rewrite FE, V; lra|]. intros x [<-|Hx]; auto. split; auto. lra.
    - destruct (growth_near P G) as (F & e & He & V). apply Rabs_le_inv in He. set (g := factor (fst s) (snd s)) in *. assert (B : 0 <= fv (fgrowth (fst s) (snd s)) <= g * (1 + 8 * u64)) by (rewrite V; split; [apply Rmult_le_pos; lra|apply Rmult_le_compat_l; lra]). split; [constructor; auto; lra|]. intros x [<-|Hx]; auto. split; auto. lra. }
  destruct F2 as [F2 A]. pose proof (@near_up (8 * u64) _ _ ltac:(lra) F2) as N3. fold n in N3.
  assert (NU : INR n * u64 <= bpow radix2 (-5)) by (rewrite u53; replace (bpow radix2 (-5)) with (bpow radix2 48 * bpow radix2 (-53)) by (rewrite <- bpow_plus; reflexivity); apply Rmult_le_compat_r; [apply bpow_ge_0|]; rewrite INR_IZR_INZ; change (bpow radix2 48) with (IZR (2 ^ 48)); now apply IZR_le). change (bpow radix2 (-5)) with (/ 32) in NU.
  pose proof (@bern_up (8 * u64) n ltac:(lra) ltac:(lra) ltac:(lra)) as BU. pose proof (@bern_up u64 n ltac:(lra) ltac:(lra) ltac:(lra)) as BV. destruct (IP l) as (tr & Et & Pt & Nt). assert (Ll : length l = n) by (unfold l; rewrite map_length; exact LS). rewrite Ll in Nt. assert (PM : Permutation (map fv (leaves tr)) (map fv l)) by now apply Permutation_map. pose proof (up_ge gs) as UG.
  destruct (@peval_zero tr) as (Fp & _ & PZ).
  - intros x Hx. apply A. now apply (Permutation_in _ Pt).
  - rewrite (up_perm PM). apply Rle_trans with (1 := N3). apply Rle_trans with (bpow radix2 500 * 2); [apply Rmult_le_compat; try lra; apply pow_le; lra|]. change 2 with (bpow radix2 1). rewrite <- bpow_plus. apply bpow_le. lia.
  - apply Rle_trans with (1 := pow_hi_mono Nt). lra.
  - assert (P0 : fv (peval tr) = 0) by (apply PZ; exists (fgrowth (fst s0) (snd s0)); split; [apply (Permutation_in _ (Permutation_sym Pt)); apply in_map_iff; exists s0; auto|apply growth_loss; auto]).
    unfold ftime_weighted_return. cbv zeta. fold (steps rows). fold l. rewrite no_nan by (intros x Hx; now apply A). rewrite Et. destruct (@fz_spec 1) as [F1 V1]; [lia|]. destruct (@fsub_spec (peval tr) (fz 1) Fp F1) as [F V]; [rewrite V1, P0, Rminus_0_l, Rabs_Ropp, Rabs_R1; change 1 with (bpow radix2 0); apply bpow_le; lia|]. split; auto. rewrite V, V1, P0, Rminus_0_l, rnd64_opp, rnd64_1. lra.
Qed.
Print Assumptions c179_total_loss.
(** from 100 with 50 added to 165, 35 withdrawn, to 195: a tenth, then a half, computed as 0.65 but for the last digits *)
Example c179_example : let rows := [(fz 100, fz 50); (fz 165, fz (-35)); (fz 195, fz 0)] in factors rows = [165 / 150; 195 / 130] /\ solvent rows /\ flt (ff 5854679515581644 (-53)) (ftime_weighted_return fprod_left rows) = true /\ flt (ftime_weighted_return fprod_left rows) (ff 5854679515581647 (-53)) = true.
Proof.
  cbv zeta. assert (V : forall m, (Z.abs m <= 2 ^ 53)%Z -> fin (fz m) /\ fv (fz m) = IZR m) by (intros m H; apply fz_spec; lia). split; [|split; [|split; vm_compute; reflexivity]].
  - unfold factors, steps, factor. cbn [map combine tl fst snd]. rewrite !(fun m H => proj2 (V m H)) by (cbn; lia). f_equal; [f_equal; lra|]. f_equal. f_equal. lra.
  - assert (B : 1000 <= bpow radix2 1000) by (apply Rle_trans with (bpow radix2 10); [cbn; lra|apply bpow_le; lia]). intros s Hs. unfold steps in Hs. cbn [map combine tl fst snd] in Hs. destruct Hs as [<-|[<-|[]]]; unfold period; cbn [fst snd]; (split; [apply V; cbn; lia|split; [apply V; cbn; lia|split; [apply V; cbn; lia|rewrite !(fun m H => proj2 (V m H)) by (cbn; lia); lra]]]).
Qed.
