(** C139: runs bars in binary64. *)
From Coq Require Import ZArith QArith Qcanon Qreals Reals Lra Lia List Bool Permutation.
From Flocq Require Import Core BinarySingleNaN.
From Verif Require Import Py Num RNum Float64 FloatBarsModel FloatBarsProofs FloatBarsProps FloatHRPProofs FloatRetModel FloatRetProps FloatSeriesModel FloatSeriesProofs FloatSeriesProps FloatCusumProps FloatEwmaProps.
From Verif Require Import SeriesModel SeriesSpec SeriesProofs BarsModel BarsSpec BarsProofs InfoBarsProofs RunsBarsProofs InfoBarsProps InfoTraceProps FloatInfoModel FloatInfoSpec FloatInfoProofs FloatInfoProps FloatTickBarsProps FloatRunsModel FloatRunsSpec FloatRunsProofs.
Import ListNotations.
Set Implicit Arguments.
Unset Strict Implicit.
Open Scope R_scope.

(** Whatever the rows - also with infinities and NaN: either the bars cut up the stream, each at the first tick where the compared floats allow it, or the call fails;
    it fails exactly if the first bar closes at a tick up to which, the first row aside, no buy or no sell was seen. *)
Theorem c139_first_close P bv p eb es : bv <> [] ->
  let thr0 := fmul (fz (Z.of_nat (fm_E_T_init P))) (if flt (fmul p eb) (fmul (fsub (fz 1) p) es) then fmul (fsub (fz 1) p) es else fmul p eb) in
  let trig := fruns_trigger P thr0 bv in let reached := fruns_size_reached P bv in
  (forall ends sizes, fruns_sizes P bv p eb es = Some (ends, sizes) ->
     ends_at_first_close trig reached (length bv) ends /\ list_sum (bar_lengths 0 ends) = length bv /\
     ((Z.of_nat (length bv) <= 2 ^ 53)%Z -> Forall2 (fun x T => fin x /\ fv x = INR T) sizes (bar_lengths 0 ends))) /\
  (fruns_sizes P bv p eb es = None <->
     exists i, (i < length bv)%nat /\ may_close trig reached [] i /\ (forall j, (j < i)%nat -> ~ may_close trig reached [] j) /\ (fbuys_upto bv i = [] \/ fsells_upto bv i = [])).
Proof.
  intros H thr0 trig reached.
  assert (OS : ffirst_one_sided P p eb es bv <-> exists i, (i < length bv)%nat /\ may_close trig reached [] i /\ (forall j, (j < i)%nat -> ~ may_close trig reached [] j) /\ (fbuys_upto bv i = [] \/ fsells_upto bv i = [])).
  { split; intros (i & A & B & C & D); exists i; (split; [auto|]); (split; [auto|]); (split; [auto|]).
    - unfold fboth_sides in D. destruct (fbuys_upto bv i); auto. destruct (fsells_upto bv i); auto. exfalso. apply D. split; discriminate.
    - intros [D1 D2]. tauto. }
  destruct (@fruns_sizes_ok P p eb es bv H) as [(ends & E & C & I & NO)|[E O]]; rewrite E; split.
  - intros ends' sizes' E'. assert (EE : ends' = ends) by congruence. assert (ES : sizes' = map (fun T => fz (Z.of_nat T)) (bar_lengths 0 ends)) by congruence. subst ends' sizes'. split; [exact C|]. split; [rewrite (incr_lengths I); lia|].
    intro L. destruct (incr_bounds I) as (_ & B & _). clear - L B. induction (bar_lengths 0 ends) as [|T l IH]; cbn [map]; [constructor|]. constructor; [|apply IH; intros; apply B; now right].
    destruct (@fz_spec (Z.of_nat T)) as [F V]; [specialize (B T (or_introl eq_refl)); lia|]. split; auto. rewrite V. symmetry. apply INR_IZR_INZ.
  - split; [discriminate|]. intro C'. apply OS in C'. contradiction.
  - discriminate.
  - split; auto. intros _. now apply OS.
Qed.
Print Assumptions c139_first_close.

(** ** errors *)
Lemma float_rational x : fin x -> exists q, qr q = fv x.
Proof.
  destruct x as [s|s| |s m e He]; try (unfold fin; cbn [is_finite]; discriminate); intros _; [exists 0%Qc; apply qr_0|]. change (fv (B754_finite s m e He)) with (IZR (cond_Zopp s (Zpos m)) * bpow radix2 e). generalize (cond_Zopp s (Zpos m)) as z. intro z.
  destruct (Z_le_gt_dec 0 e) as [P|P].
  - exists (qz (z * Zpower radix2 e)). rewrite qr_z, mult_IZR, IZR_Zpower by auto. reflexivity.
  - exists (qz z / qz (Zpower radix2 (- e)))%Qc. assert (D : qr (qz (Zpower radix2 (- e))) = bpow radix2 (- e)) by (rewrite qr_z; apply IZR_Zpower; lia). pose proof (bpow_gt_0 radix2 (- e)) as B.
    rewrite qr_div, D, qr_z; [rewrite bpow_opp; field; apply Rgt_not_eq, bpow_gt_0|]. intro C. rewrite C, qr_0 in D. lra.
Qed.
Lemma mean_shift span B xs ys : (1 <= span)%Z -> xs <> [] -> 0 <= B -> Forall2 (fun x y => Rabs (qr x - qr y) <= B) xs ys ->
  Rabs (qr (exp_weighted_mean (ewma_ratio span) xs) - qr (exp_weighted_mean (ewma_ratio span) ys)) <= B.
Proof.
  intros Hs Hx HB F. pose proof (Forall2_length F) as L. assert (Hy : ys <> []) by (intro C; rewrite C in L; destruct xs; [auto|discriminate]).
  destruct (@alpha_range span Hs) as [A1 A2]. rewrite ratio_alpha. assert (R0 : (0 <= 1 - ewma_alpha span)%Qc) by (clear - A2; qlra). rewrite !qr_exp_mean by auto. rewrite <- L.
  apply qr_le in R0. rewrite qr_0 in R0. set (d := qr (1 - ewma_alpha span)%Qc) in *. clearbody d. pose proof (@ew_weight_ge1 d (length xs - 1) R0) as W.
  assert (NB : forall j, Rabs (nth j (map qr xs) 0 - nth j (map qr ys) 0) <= B).
  { clear - F HB. induction F as [|x y l1 l2 H F IH]; intros [|j]; cbn [map nth]; auto; rewrite Rminus_diag_eq, Rabs_R0 by auto; lra. }
  assert (S : forall i, Rabs (ew_sum d (map qr xs) i - ew_sum d (map qr ys) i) <= B * ew_weight d i).
  { induction i as [|i IH]; [rewrite !ew_sum_0; unfold ew_weight; cbn; specialize (NB 0%nat); lra|]. rewrite !ew_sum_S, ew_weight_S'.
    replace (d * ew_sum d (map qr xs) i + nth (S i) (map qr xs) 0 - (d * ew_sum d (map qr ys) i + nth (S i) (map qr ys) 0)) with (d * (ew_sum d (map qr xs) i - ew_sum d (map qr ys) i) + (nth (S i) (map qr xs) 0 - nth (S i) (map qr ys) 0)) by ring.
    apply Rle_trans with (1 := Rabs_triang _ _). rewrite Rabs_mult, (Rabs_pos_eq d) by lra. specialize (NB (S i)). nra. }
  specialize (S (length xs - 1)%nat). unfold Rdiv. rewrite <- Rmult_minus_distr_r, Rabs_mult, Rabs_inv, (Rabs_right (ew_weight d (length xs - 1))) by lra. apply Rmult_le_reg_r with (ew_weight d (length xs - 1)); [lra|]. rewrite Rmult_assoc, Rinv_l, Rmult_1_r by lra. exact S.
Qed.
(** a number of [0, 1] known up to D *)
Definition near_share (D : R) (x : f64) (q : Qc) : Prop := fin x /\ 0 <= fv x <= 1 /\ 0 <= qr q <= 1 /\ Rabs (fv x - qr q) <= D.
Lemma fewma_share_error span D series xs : (1 <= span < 2 ^ 53)%Z -> series <> [] -> INR (length series) <= bpow radix2 20 -> 0 <= D -> Forall2 (near_share D) series xs ->
  fin (fewma_last series span) /\ Rabs (fv (fewma_last series span) - qr (exp_weighted_mean (ewma_ratio span) xs)) <= 13 * INR (length series) ^ 2 * u64 + D /\ 0 <= qr (exp_weighted_mean (ewma_ratio span) xs) <= 1.
Proof.
  intros Hs Hne HL HD F. assert (E : exists zs, Forall2 (same_value 1) series zs /\ Forall2 (fun z x => Rabs (qr z - qr x) <= D) zs xs).
  { clear - F. induction F as [|x q l1 l2 (Fx & B & _ & H) F (zs & I1 & I2)]; [exists []; split; constructor|]. destruct (float_rational Fx) as [z Ez]. exists (z :: zs). split; constructor; auto; [|now rewrite Ez].
    split; auto. rewrite Ez. split; auto. rewrite Rabs_right; lra. }
  destruct E as (zs & F1 & F2). assert (HM : bpow radix2 (-1000) <= 1 <= bpow radix2 900) by (change 1 with (bpow radix2 0); split; apply bpow_le; lia).
  destruct (@fewma_last_error span 1 series zs Hs HM Hne HL F1) as [Ff B]. pose proof (Forall2_length F1) as L1. assert (Hz : zs <> []) by (intro C; rewrite C in L1; destruct series; [auto|discriminate]).
  pose proof (@mean_shift span D zs xs ltac:(lia) Hz HD F2) as B2. split; auto. split.
  - replace (fv (fewma_last series span) - qr (exp_weighted_mean (ewma_ratio span) xs)) with ((fv (fewma_last series span) - qr (exp_weighted_mean (ewma_ratio span) zs)) + (qr (exp_weighted_mean (ewma_ratio span) zs) - qr (exp_weighted_mean (ewma_ratio span) xs))) by ring.
    apply Rle_trans with (1 := Rabs_triang _ _). lra.
  - pose proof (Forall2_length F) as L. assert (Hx : xs <> []) by (intro C; rewrite C in L; destruct series; [auto|discriminate]). destruct (@alpha_range span ltac:(lia)) as [A1 A2]. rewrite ratio_alpha. assert (R0 : (0 <= 1 - ewma_alpha span)%Qc) by (clear - A2; qlra).
    destruct (@exp_weighted_mean_bounds (1 - ewma_alpha span)%Qc 0%Qc 1%Qc xs R0 Hx) as [P1 P2].
    + intros x Hx'. clear - F Hx'. induction F as [|y q l1 l2 (_ & _ & B & _) F IH]; [destruct Hx'|]. destruct Hx' as [<-|Hx']; auto. rewrite !qr_le, qr_0, qr_1. lra.
    + apply qr_le in P1, P2. rewrite qr_0 in P1. rewrite qr_1 in P2. auto.
Qed.
(** products of numbers known up to ka and kb units of [c] *)
Lemma times_error c A B ka kb x y X Y : u64 <= c <= bpow radix2 (-21) -> 0 <= A -> 0 <= B -> bpow radix2 (-1000) <= A * B <= bpow radix2 1000 -> 0 <= ka <= 100 -> 0 <= kb <= 100 -> fin x -> fin y ->
  Rabs X <= A -> Rabs Y <= B -> Rabs (fv x - X) <= ka * c * A -> Rabs (fv y - Y) <= kb * c * B -> fin (fmul x y) /\ Rabs (fv (fmul x y) - X * Y) <= (ka + kb + 3) * c * (A * B).
Proof.
  intros Hc A0 B0 HAB Ha Hb Fx Fy BX BY Ex Ey. pose proof u64_pos as U. assert (C21 : bpow radix2 (-21) = / 2097152) by (cbn; lra). rewrite C21 in Hc. set (x' := fv x) in *. set (y' := fv y) in *.
  assert (KB : 0 <= kb * c <= / 10000) by nra. assert (KA : 0 <= ka * c <= / 10000) by nra. pose proof (bpow_gt_0 radix2 (-1000)) as P0.
  assert (By : Rabs y' <= B * (1 + kb * c)). { replace y' with ((y' - Y) + Y) by ring. apply Rle_trans with (1 := Rabs_triang _ _). lra. }
  assert (Bx : Rabs x' <= A * (1 + ka * c)). { replace x' with ((x' - X) + X) by ring. apply Rle_trans with (1 := Rabs_triang _ _). lra. }
  assert (P2 : Rabs (x' * y' - X * Y) <= (A * B) * (ka * c + kb * c + (ka * c) * (kb * c))).
  { replace (x' * y' - X * Y) with ((x' - X) * y' + X * (y' - Y)) by ring. apply Rle_trans with (1 := Rabs_triang _ _). rewrite !Rabs_mult.
    assert (Rabs (x' - X) * Rabs y' <= (ka * c * A) * (B * (1 + kb * c))) by (apply Rmult_le_compat; auto using Rabs_pos). assert (Rabs X * Rabs (y' - Y) <= A * (kb * c * B)) by (apply Rmult_le_compat; auto using Rabs_pos). lra. }
  assert (P1 : Rabs (x' * y') <= (A * B) * (11 / 10)). { rewrite Rabs_mult. apply Rle_trans with ((A * (1 + ka * c)) * (B * (1 + kb * c))); [apply Rmult_le_compat; auto using Rabs_pos|]. replace ((A * (1 + ka * c)) * (B * (1 + kb * c))) with ((A * B) * ((1 + ka * c) * (1 + kb * c))) by ring. apply Rmult_le_compat_l; [lra|]. nra. }
  destruct (@fmul_spec x y Fx Fy) as [F V].
  { fold x' y'. apply Rle_trans with (1 := P1). apply Rle_trans with (bpow radix2 1000 * bpow radix2 1); [apply Rmult_le_compat; try lra; cbn; lra|]. rewrite <- bpow_plus. apply bpow_le. lia. }
  split; auto. fold x' y' in V. rewrite V. replace (rnd64 (x' * y') - X * Y) with ((rnd64 (x' * y') - x' * y') + (x' * y' - X * Y)) by ring. apply Rle_trans with (1 := Rabs_triang _ _).
  pose proof (rnd_abs_err (x' * y')) as RE. assert (E : eta64 <= c * (A * B)). { apply Rle_trans with (1 := eta_u). apply Rmult_le_compat; lra. }
  assert (UP : u64 * Rabs (x' * y') <= c * ((A * B) * (11 / 10))) by (apply Rmult_le_compat; try lra; apply Rabs_pos).
  assert (Q : (ka * c) * (kb * c) <= / 100 * c). { replace (ka * c * (kb * c)) with ((ka * (kb * c)) * c) by ring. apply Rmult_le_compat_r; [lra|]. nra. }
  assert (Q2 : (A * B) * (ka * c + kb * c + (ka * c) * (kb * c)) <= (A * B) * (ka * c + kb * c + / 100 * c)) by (apply Rmult_le_compat_l; lra).
  assert (AC : 0 <= c * (A * B)) by (apply Rmult_le_pos; lra). lra.
Qed.
Lemma fmax_value a b : fin a -> fin b -> fin (if flt a b then b else a) /\ fv (if flt a b then b else a) = Rmax (fv a) (fv b).
Proof.
  intros Fa Fb. pose proof (flt_spec Fa Fb) as S. destruct (flt a b).
  - split; auto. symmetry. apply Rmax_right. pose proof (proj1 S eq_refl). lra.
  - split; auto. symmetry. apply Rmax_left. destruct (Rlt_le_dec (fv a) (fv b)) as [C|C]; auto. apply S in C. discriminate.
Qed.
Lemma qr_max a b : qr (qmax a b) = Rmax (qr a) (qr b).
Proof. unfold qmax. destruct (qle a b) eqn:E; [apply qle_iff in E; apply qr_le in E; symmetry; now apply Rmax_right|]. symmetry. apply Rmax_left. assert (H : ~ (a <= b)%Qc) by (rewrite <- qle_iff; congruence). rewrite qr_le in H. lra. Qed.
Lemma Rmax_error a b A B D : Rabs (a - A) <= D -> Rabs (b - B) <= D -> Rabs (Rmax a b - Rmax A B) <= D.
Proof. intros H1 H2. apply Rabs_le_inv in H1, H2. apply Rabs_le. unfold Rmax. destruct (Rle_dec a b), (Rle_dec A B); lra. Qed.
Lemma Rmax_abs a b D : Rabs a <= D -> Rabs b <= D -> Rabs (Rmax a b) <= D.
Proof. intros. unfold Rmax. destruct (Rle_dec a b); auto. Qed.
(** the threshold from its four averages *)
Lemma threshold_parts c N M ft fp feb fes T p eb es : u64 <= c <= bpow radix2 (-21) -> 1 <= N <= bpow radix2 16 -> bpow radix2 (-1000) <= M <= bpow radix2 900 -> fin ft -> fin fp -> fin feb -> fin fes ->
  Rabs T <= N -> 0 <= p <= 1 -> Rabs eb <= M -> Rabs es <= M -> Rabs (fv ft - T) <= 13 * c * N -> Rabs (fv fp - p) <= 15 * c -> Rabs (fv feb - eb) <= 13 * c * M -> Rabs (fv fes - es) <= 13 * c * M ->
  fin (fmul ft (if flt (fmul fp feb) (fmul (fsub (fz 1) fp) fes) then fmul (fsub (fz 1) fp) fes else fmul fp feb)) /\
  Rabs (fv (fmul ft (if flt (fmul fp feb) (fmul (fsub (fz 1) fp) fes) then fmul (fsub (fz 1) fp) fes else fmul fp feb)) - T * Rmax (p * eb) ((1 - p) * es)) <= 50 * c * (N * M).
Proof.
  intros Hc HN HM Ft Fp Feb Fes BT Bp Beb Bes Et Ep Eeb Ees. pose proof u64_pos as U. assert (C21 : bpow radix2 (-21) = / 2097152) by (cbn; lra). pose proof (bpow_gt_0 radix2 (-1000)) as P0.
  assert (M1 : bpow radix2 (-1000) <= 1 * M <= bpow radix2 1000) by (rewrite Rmult_1_l; split; [lra|]; apply Rle_trans with (1 := proj2 HM); apply bpow_le; lia).
  assert (M2 : bpow radix2 (-1000) <= N * M <= bpow radix2 1000). { split; [nra|]. apply Rle_trans with (bpow radix2 16 * bpow radix2 900); [apply Rmult_le_compat; lra|]. rewrite <- bpow_plus. apply bpow_le. lia. }
  assert (O : fin (fz 1) /\ fv (fz 1) = 1) by (apply (@fz_spec 1); lia). destruct O as [F1 V1].
  assert (Bfp : Rabs (1 - fv fp) <= 11 / 10). { replace (1 - fv fp) with ((1 - p) - (fv fp - p)) by ring. unfold Rminus at 1. apply Rle_trans with (1 := Rabs_triang _ _). rewrite Rabs_Ropp, (Rabs_right (1 - p)) by lra. rewrite C21 in Hc. lra. }
  destruct (@fsub_spec (fz 1) fp F1 Fp) as [Fs Vs]; [rewrite V1; apply Rle_trans with (1 := Bfp); apply Rle_trans with (bpow radix2 1); [cbn; lra|apply bpow_le; lia]|]. rewrite V1 in Vs.
  assert (Es : Rabs (fv (fsub (fz 1) fp) - (1 - p)) <= 18 * c * 1).
  { rewrite Vs. replace (rnd64 (1 - fv fp) - (1 - p)) with ((rnd64 (1 - fv fp) - (1 - fv fp)) - (fv fp - p)) by ring. unfold Rminus at 1. apply Rle_trans with (1 := Rabs_triang _ _). rewrite Rabs_Ropp.
    pose proof (rnd_abs_err (1 - fv fp)) as RE. pose proof eta_le_u as EU. assert (u64 * Rabs (1 - fv fp) <= u64 * (11 / 10)) by (apply Rmult_le_compat_l; lra). lra. }
  assert (Pp : Rabs p <= 1) by (rewrite Rabs_right; lra). assert (Pq : Rabs (1 - p) <= 1) by (rewrite Rabs_right; lra).
  destruct (@times_error c 1 M 15 13 fp feb p eb Hc) as [Fa Ea]; auto; try lra.
  destruct (@times_error c 1 M 18 13 (fsub (fz 1) fp) fes (1 - p) es Hc) as [Fb Eb]; auto; try lra.
  destruct (fmax_value Fa Fb) as [Fm Vm]. set (mx := if flt (fmul fp feb) (fmul (fsub (fz 1) fp) fes) then fmul (fsub (fz 1) fp) fes else fmul fp feb) in *. clearbody mx.
  assert (CM : 0 <= c * M) by (apply Rmult_le_pos; lra).
  assert (Em : Rabs (fv mx - Rmax (p * eb) ((1 - p) * es)) <= 34 * c * M) by (rewrite Vm; apply Rmax_error; lra).
  assert (Bm : Rabs (Rmax (p * eb) ((1 - p) * es)) <= M). { apply Rmax_abs; rewrite Rabs_mult; pose proof (Rabs_pos eb); pose proof (Rabs_pos es); pose proof (Rabs_pos p); pose proof (Rabs_pos (1 - p)); nra. }
  destruct (@times_error c N M 13 34 ft mx T (Rmax (p * eb) ((1 - p) * es)) Hc) as [Fr Er]; auto; try lra. split; auto. lra.
Qed.

(** ** against the exact bars *)
(** the same direction and the same amount *)
Definition same_row (M : R) (f : f64 * f64) (q : Qc * Qc) : Prop := whole_value 1 (fst f) (fst q) /\ same_value M (snd f) (snd q).
Lemma side_same f q : whole_value 1 f q -> fle (fz 0) f = qle 0 q /\ flt f (fz 0) = negb (qle 0 q).
Proof.
  intros (z & F & V & -> & B). destruct fz0 as [F0 V0]. assert (A : fle (fz 0) f = qle 0 (qz z)) by (apply bool_iff; rewrite (fle_spec F0 F), qle_iff, V0, V, qr_le, qr_0, qr_z; tauto).
  split; auto. rewrite <- A. pose proof (fle_spec F0 F) as S1. pose proof (flt_spec F F0) as S2. destruct (fle (fz 0) f), (flt f (fz 0)); auto; exfalso; [pose proof (proj1 S1 eq_refl); pose proof (proj1 S2 eq_refl); lra|].
  destruct (Rlt_le_dec (fv f) (fv (fz 0))) as [C|C]; [apply S2 in C|apply S1 in C]; discriminate.
Qed.
Lemma Forall2_map_both A B C D (R : A -> B -> Prop) (S : C -> D -> Prop) (f : A -> C) (g : B -> D) l1 l2 : Forall2 R l1 l2 -> (forall x y, R x y -> S (f x) (g y)) -> Forall2 S (map f l1) (map g l2).
Proof. intros H HS. induction H; cbn [map]; constructor; auto. Qed.
Lemma Forall2_filter_both A B (R : A -> B -> Prop) (f : A -> bool) (g : B -> bool) l1 l2 : Forall2 R l1 l2 -> (forall x y, R x y -> f x = g y) -> Forall2 R (filter f l1) (filter g l2).
Proof. intros H HS. induction H as [|x y l1 l2 H F IH]; cbn [filter]; [constructor|]. rewrite (HS x y H). destruct (g y); auto. Qed.
Lemma Forall2_tl A B (R : A -> B -> Prop) l1 l2 : Forall2 R l1 l2 -> Forall2 R (tl l1) (tl l2).
Proof. intros []; cbn [tl]; [constructor|auto]. Qed.
Lemma same_zero M : 0 <= M -> same_value M (fz 0) 0%Qc.
Proof. intro H. destruct fz0 as [F V]. split; auto. rewrite V, qr_0, Rabs_R0. auto. Qed.
Section CompareRuns.
  Variables (N : nat) (M : R) (fbv : list (f64 * f64)) (bv : list (Qc * Qc)) (ET Ts : nat) (bs : Z).
  Hypothesis HN : 1 <= INR N <= bpow radix2 16.
  Hypothesis HM : bpow radix2 (-1000) <= M <= bpow radix2 900.
  Hypothesis HF : Forall2 (same_row M) fbv bv.
  Hypothesis HL : (length fbv <= N)%nat.
  Hypothesis HTs : (Z.of_nat Ts < 2 ^ 53)%Z.
  Hypothesis Hbs : (1 <= bs)%Z.
  Lemma M_pos : 0 <= M.
  Proof. pose proof (bpow_gt_0 radix2 (-1000)). lra. Qed.
  Lemma snd_same : Forall2 (same_value M) (map snd fbv) (map snd bv).
  Proof. apply (Forall2_map_both HF). intros x y [_ H]. exact H. Qed.
  Lemma buy_same : Forall2 (same_value M) (fbuy_amounts fbv) (buy_amounts bv).
  Proof. apply (Forall2_map_both HF). intros x y [H1 H2]. rewrite (proj1 (side_same H1)). destruct (qle 0 (fst y)); auto using same_zero, M_pos. Qed.
  Lemma sell_same : Forall2 (same_value M) (fsell_amounts fbv) (sell_amounts bv).
  Proof. apply (Forall2_map_both HF). intros x y [H1 H2]. rewrite (proj2 (side_same H1)). destruct (qle 0 (fst y)); cbn [negb]; auto using same_zero, M_pos. Qed.
  Lemma buys_upto_same i : Forall2 (same_value M) (fbuys_upto fbv i) (buys_upto bv i).
  Proof. unfold fbuys_upto, buys_upto. refine (Forall2_map_both (R := same_row M) _ _); [|intros x y [_ H]; exact H]. apply Forall2_filter_both; [apply Forall2_tl, Forall2_firstn, HF|]. intros x y [H _]. apply (side_same H). Qed.
  Lemma sells_upto_same i : Forall2 (same_value M) (fsells_upto fbv i) (sells_upto bv i).
  Proof. unfold fsells_upto, sells_upto. refine (Forall2_map_both (R := same_row M) _ _); [|intros x y [_ H]; exact H]. apply Forall2_filter_both; [apply Forall2_tl, Forall2_firstn, HF|]. intros x y [H _]. apply (side_same H). Qed.
  Lemma both_same i : fboth_sides fbv i <-> both_sides bv i.
  Proof.
    unfold fboth_sides, both_sides. destruct (buys_upto_same i), (sells_upto_same i); split; intros [A B]; split; try congruence; discriminate.
  Qed.
  (** counts are 0 or 1 *)
  Definition count_value (x : f64) (q : Qc) : Prop := whole_value 1 x q /\ 0 <= qr q <= 1.
  Lemma counts_same : Forall2 count_value (fbuy_counts fbv) (buy_counts bv).
  Proof.
    destruct fz0 as [F0 V0]. assert (O : fin (fz 1) /\ fv (fz 1) = 1) by (apply (@fz_spec 1); lia). destruct O as [F1 V1].
    assert (Z0 : count_value (fz 0) 0%Qc) by (split; [exists 0%Z; repeat split; auto; lia|rewrite qr_0; lra]). assert (Z1 : count_value (fz 1) 1%Qc) by (split; [exists 1%Z; repeat split; auto; lia|rewrite qr_1; lra]).
    unfold fbuy_counts, buy_counts. destruct HF as [|x y l1 l2 [H1 H2] F]; [constructor|]. constructor.
    - rewrite (proj1 (side_same H1)). destruct (qle 0 (fst y)) eqn:E; auto. split; auto. apply qle_iff, qr_le in E. rewrite qr_0 in E. destruct H1 as (z & _ & _ & EQ & B). rewrite EQ, qr_z in *. split; auto. apply (IZR_le z 1). lia.
    - apply (Forall2_map_both F). intros a b [A1 A2]. rewrite (proj1 (side_same A1)). destruct (qle 0 (fst b)); auto.
  Qed.
  Lemma count_sum_bounds k l1 l2 : Forall2 count_value l1 l2 -> 0 <= qr (qsum (firstn k l2)) <= INR k.
  Proof.
    revert l1 l2. induction k as [|k IH]; intros l1 l2 F; [cbn [firstn qsum]; rewrite qr_0; cbn; lra|]. rewrite S_INR. destruct F as [|x y l1 l2 [_ B] F]; [cbn [firstn qsum]; rewrite qr_0; pose proof (pos_INR k); lra|]. cbn [firstn qsum]. rewrite qr_add. specialize (IH _ _ F). lra.
  Qed.
  Lemma share_near s e : (s <= e < length fbv)%nat -> near_share (2 * u64) (fdiv (fbar_sum (fbuy_counts fbv) s e) (fz (Z.of_nat (S e - s)))) (range_sum (buy_counts bv) s e / qn (S e - s))%Qc.
  Proof.
    intro H. assert (W : Forall2 (whole_value 1) (fbuy_counts fbv) (buy_counts bv)) by (pose proof counts_same as CS; clear - CS; induction CS as [|x y l1 l2 [A _] F IH]; constructor; auto).
    assert (LC : length (fbuy_counts fbv) = length fbv) by (unfold fbuy_counts; destruct fbv; cbn; now rewrite ?map_length). assert (L53 : (Z.of_nat (length fbv) < 2 ^ 53)%Z) by (apply (@N53 N HN); exact HL).
    destruct (@bar_sum_whole 1 _ _ s e W) as [Fs Vs]; [lia|rewrite LC; lia|]. destruct (@fz_spec (Z.of_nat (S e - s))) as [Fn Vn]; [lia|]. rewrite <- INR_IZR_INZ in Vn.
    assert (N0 : 0 < INR (S e - s)) by (apply lt_0_INR; lia). assert (B : 0 <= qr (range_sum (buy_counts bv) s e) <= INR (S e - s)) by (unfold range_sum; apply (count_sum_bounds (S e - s) (Forall2_skipn s counts_same))).
    assert (QN : qn (S e - s) <> 0%Qc) by (intro C; apply (f_equal qr) in C; rewrite qr_n, qr_0 in C; lra).
    assert (Q : qr (range_sum (buy_counts bv) s e / qn (S e - s))%Qc = qr (range_sum (buy_counts bv) s e) / INR (S e - s)) by (rewrite qr_div, qr_n; auto).
    set (X := qr (range_sum (buy_counts bv) s e)) in *. assert (BX : 0 <= X / INR (S e - s) <= 1). { split; [apply Rmult_le_pos; [lra|]; left; now apply Rinv_0_lt_compat|]. apply Rmult_le_reg_r with (INR (S e - s)); auto. unfold Rdiv. rewrite Rmult_assoc, Rinv_l by lra. lra. }
    assert (AX : Rabs (X / INR (S e - s)) <= 1) by (rewrite Rabs_right; lra).
    destruct (@fdiv_spec (fbar_sum (fbuy_counts fbv) s e) (fz (Z.of_nat (S e - s))) Fs) as [Fd Vd]; [rewrite Vn; lra|rewrite Vs, Vn; apply Rle_trans with (1 := AX); change 1 with (bpow radix2 0); apply bpow_le; lia|].
    rewrite Vs, Vn in Vd. split; auto. rewrite Vd, Q. split; [split; [rewrite <- rnd64_0; apply rnd64_mono; lra|rewrite <- rnd64_1; apply rnd64_mono; lra]|]. split; auto. apply Rle_trans with (1 := rnd_abs_err _). pose proof u64_pos. pose proof eta_le_u.
    assert (u64 * Rabs (X / INR (S e - s)) <= u64 * 1) by (apply Rmult_le_compat_l; lra). lra.
  Qed.
  Lemma shares_near ends k : forall s, incr_from (length fbv) s ends -> Forall2 (near_share (2 * u64)) (fbuy_shares fbv s (firstn k ends)) (buy_shares bv s (firstn k ends)).
  Proof.
    revert k. induction ends as [|e ends IH]; intros [|k] s H; try constructor; inversion_clear H as [|? ? ? H1 H2 H3].
    - apply share_near. lia.
    - apply IH. exact H3.
  Qed.
  Lemma c_range : u64 <= INR N ^ 2 * u64 <= bpow radix2 (-21).
  Proof.
    pose proof u64_pos as U. assert (Q1 : 1 <= INR N ^ 2) by (replace 1 with (1 ^ 2) by ring; apply pow_incr; lra). split; [rewrite <- (Rmult_1_l u64) at 1; apply Rmult_le_compat_r; lra|]. assert (Q : INR N ^ 2 <= bpow radix2 16 ^ 2) by (apply pow_incr; lra). apply Rle_trans with (bpow radix2 16 ^ 2 * u64); [apply Rmult_le_compat_r; lra|]. unfold ulp64. change (bpow radix2 16) with 65536. cbn. lra.
  Qed.
  Lemma runs_threshold_error fthr0 thr0 fmin fmax ends k : incr_from (length fbv) 0 ends -> (k < length ends)%nat -> firstn k ends <> [] -> both_sides bv (last (firstn k ends) 0%nat) ->
    exists t, runs_bar_threshold Ts bs thr0 bv (firstn k ends) = Some t /\ fin (fruns_bar_threshold (FImbParams fmin fmax ET Ts bs) fthr0 fbv (firstn k ends)) /\
      Rabs (fv (fruns_bar_threshold (FImbParams fmin fmax ET Ts bs) fthr0 fbv (firstn k ends)) - qr t) <= 50 * INR N ^ 3 * u64 * M.
  Proof.
    intros I Hk HNE BS. pose proof u64_pos as U. destruct (incr_bounds I) as (LE & BL & BE). pose proof (@shares_near ends k 0 I) as SH. set (hist := firstn k ends) in *. assert (LH : (length hist <= N)%nat) by (unfold hist; rewrite firstn_length; lia).
    assert (HT : forall T, In T (bar_lengths 0 hist) -> (1 <= T <= N)%nat). { unfold hist. rewrite bar_lengths_firstn. intros T HT. assert (IN : In T (bar_lengths 0 ends)) by (rewrite <- (firstn_skipn k (bar_lengths 0 ends)); apply in_or_app; now left). specialize (BL T IN). lia. }
    set (i := last hist 0%nat) in *. assert (Hi : (i < length fbv)%nat). { apply BE. rewrite <- (firstn_skipn k ends). apply in_or_app. left. now apply last_in. }
    set (ts := if (Ts =? 0)%nat then length hist else Ts). assert (Hts : (1 <= Z.of_nat ts < 2 ^ 53)%Z). { unfold ts. destruct (Nat.eqb_spec Ts 0); [|lia]. split; [destruct hist; [congruence|cbn; lia]|]. now apply (@N53 N HN). }
    assert (ALT : forall l, (length l <= N)%nat -> l <> [] -> forall qs, Forall2 (same_value M) l qs -> let sp := Z.min (Z.of_nat (length l)) bs in
      fin (fewma_last l sp) /\ Rabs (fv (fewma_last l sp) - qr (exp_weighted_mean (ewma_ratio sp) qs)) <= 13 * (INR N ^ 2 * u64) * M /\ Rabs (qr (exp_weighted_mean (ewma_ratio sp) qs)) <= M).
    { intros l Ll Nl qs Fl sp. assert (L1 : (1 <= length l)%nat) by (destruct l; [congruence|cbn; lia]). assert (Z.of_nat (length l) < 2 ^ 53)%Z by now apply (@N53 N HN). assert (Hsp : (1 <= sp < 2 ^ 53)%Z) by (unfold sp; lia).
      destruct (@fewma_last_error sp M l qs Hsp HM Nl) as [Fw Ew]; [apply Rle_trans with (2 := N20 HN); now apply le_INR|exact Fl|]. split; auto. split.
      - apply Rle_trans with (1 := Ew). apply Rmult_le_compat_r; [apply M_pos|]. rewrite Rmult_assoc. apply Rmult_le_compat_l; [lra|]. apply Rmult_le_compat_r; [lra|]. apply pow_incr. split; [apply pos_INR|now apply le_INR].
      - apply exact_mean_bound; [lia|apply M_pos|intro C; rewrite C in Fl; inversion Fl; congruence|]. intros q Hq. clear - Fl Hq. induction Fl as [|x y l1 l2 (_ & _ & B) F IH]; [destruct Hq|]. destruct Hq as [<-|Hq]; auto. }
    assert (UL : forall (f : f64 * f64 -> bool), (length (map snd (filter f (tl (firstn (S i) fbv)))) <= N)%nat).
    { intro f. rewrite map_length. apply Nat.le_trans with (length (tl (firstn (S i) fbv))); [clear; induction (tl (firstn (S i) fbv)) as [|x l IH]; cbn [filter length]; [lia|]; destruct (f x); cbn [length]; lia|]. clear - HL. pose proof (firstn_length (S i) fbv). destruct (firstn (S i) fbv); cbn [tl length] in *; lia. }
    assert (FB : fboth_sides fbv i) by now apply both_same. destruct FB as [NB NS].
    destruct (@ALT (fbuys_upto fbv i) (UL _) NB _ (buys_upto_same i)) as (Fb & Eb & Bb). destruct (@ALT (fsells_upto fbv i) (UL _) NS _ (sells_upto_same i)) as (Fs & Es & Bs').
    assert (LBu : length (fbuys_upto fbv i) = length (buys_upto bv i)) by apply (Forall2_length (buys_upto_same i)). assert (LSe : length (fsells_upto fbv i) = length (sells_upto bv i)) by apply (Forall2_length (sells_upto_same i)).
    assert (BLN : bar_lengths 0 hist <> []) by (destruct hist; [congruence|discriminate]). assert (LB : length (bar_lengths 0 hist) = length hist) by apply bar_lengths_length.
    assert (F2T : Forall2 (same_value (INR N)) (map (fun T => fz (Z.of_nat T)) (bar_lengths 0 hist)) (map qn (bar_lengths 0 hist))).
    { clear - HT HN. induction (bar_lengths 0 hist) as [|T l IH]; cbn [map]; [constructor|]. constructor; [|apply IH; intros; apply HT; now right]. specialize (HT T (or_introl eq_refl)).
      destruct (@fz_spec (Z.of_nat T)) as [F V]; [assert (Z.of_nat T < 2 ^ 53)%Z by (apply (@N53 N HN); lia); lia|]. split; auto. rewrite V, qr_n, <- INR_IZR_INZ. split; auto. rewrite Rabs_right by (apply Rle_ge, pos_INR). apply le_INR. lia. }
    assert (NBD : bpow radix2 (-1000) <= INR N <= bpow radix2 900). { split; [apply Rle_trans with (bpow radix2 0); [apply bpow_le; lia|cbn [bpow]; lra]|apply Rle_trans with (1 := proj2 HN); apply bpow_le; lia]. }
    assert (N1 : map (fun T => fz (Z.of_nat T)) (bar_lengths 0 hist) <> []) by (destruct (bar_lengths 0 hist); [congruence|discriminate]).
    assert (N2 : INR (length (map (fun T => fz (Z.of_nat T)) (bar_lengths 0 hist))) <= bpow radix2 20) by (rewrite map_length, LB; apply Rle_trans with (2 := N20 HN); now apply le_INR).
    destruct (@fewma_last_error (Z.of_nat ts) (INR N) _ _ Hts NBD N1 N2 F2T) as [FT ET']. rewrite map_length, LB in ET'.
    assert (SQ : INR (length hist) ^ 2 <= INR N ^ 2) by (apply pow_incr; split; [apply pos_INR|now apply le_INR]).
    assert (LSH : length (fbuy_shares fbv 0 hist) = length hist) by apply fbuy_shares_length. assert (NSH : fbuy_shares fbv 0 hist <> []) by (intro C; rewrite C in LSH; destruct hist; [congruence|discriminate]).
    destruct (@fewma_share_error (Z.of_nat ts) (2 * u64) _ (buy_shares bv 0 hist) Hts NSH) as (FP & EP & BP); [rewrite LSH; apply Rle_trans with (2 := N20 HN); now apply le_INR|lra|exact SH|]. rewrite LSH in EP.
    assert (EX : exists h0 h1, hist = h0 :: h1) by (destruct hist as [|h0 h1]; [congruence|eauto]). destruct EX as (h0 & h1 & EH).
    eexists. split; [unfold runs_bar_threshold; rewrite EH; rewrite <- EH; reflexivity|].
    replace (fruns_bar_threshold (FImbParams fmin fmax ET Ts bs) fthr0 fbv hist) with (let p := fewma_last (fbuy_shares fbv 0 hist) (Z.of_nat ts) in
        let buy := fmul p (fewma_last (fbuys_upto fbv i) (Z.min (Z.of_nat (length (fbuys_upto fbv i))) bs)) in
        let sell := fmul (fsub (fz 1) p) (fewma_last (fsells_upto fbv i) (Z.min (Z.of_nat (length (fsells_upto fbv i))) bs)) in
        fmul (fewma_last (map (fun T => fz (Z.of_nat T)) (bar_lengths 0 hist)) (Z.of_nat ts)) (if flt buy sell then sell else buy)) by (unfold fruns_bar_threshold; rewrite EH; rewrite <- EH; reflexivity).
    cbv zeta. fold i ts. rewrite qr_mul, qr_max, !qr_mul, qr_sub, qr_1. rewrite <- LBu, <- LSe.
    replace (50 * INR N ^ 3 * u64 * M) with (50 * (INR N ^ 2 * u64) * (INR N * M)) by ring. assert (SU : INR (length hist) ^ 2 * u64 <= INR N ^ 2 * u64) by (apply Rmult_le_compat_r; lra). pose proof c_range as CR.
    apply threshold_parts; auto.
    - apply exact_mean_bound; [lia|lra|destruct (bar_lengths 0 hist); [congruence|discriminate]|]. intros q Hq. apply in_map_iff in Hq. destruct Hq as (T & <- & IT). rewrite qr_n, Rabs_right by (apply Rle_ge, pos_INR). apply le_INR. now apply HT.
    - apply Rle_trans with (1 := ET'). apply Rmult_le_compat_r; lra.
    - lra.
  Qed.
  (** the same decisions *)
  Variables (min : Qc) (max : option Qc) (fmin fmax : f64) (eps : R) (p eb es : option Qc) (fp feb fes : f64).
  Let thr0 := runs_threshold (qn ET) p eb es.
  Let fthr0 := fruns_threshold (fz (Z.of_nat ET)) fp feb fes.
  Let P := ImbParams min max ET Ts bs.
  Let FP := FImbParams fmin fmax ET Ts bs.
  Definition near_threshold (ft : f64) (t : option Qc) : Prop := match t with Some t => fin ft /\ Rabs (fv ft - qr t) <= 50 * INR N ^ 3 * bpow radix2 (-53) * M | None => forall x, fle ft x = false end.
  Hypothesis BUY : forall s i, fin (fbar_sum (fbuy_amounts fbv) s i) /\ Rabs (fv (fbar_sum (fbuy_amounts fbv) s i) - qr (range_sum (buy_amounts bv) s i)) <= eps.
  Hypothesis SELL : forall s i, fin (fbar_sum (fsell_amounts fbv) s i) /\ Rabs (fv (fbar_sum (fsell_amounts fbv) s i) - qr (range_sum (sell_amounts bv) s i)) <= eps.
  Hypothesis SMIN : forall s i, flt (fbar_sum (map snd fbv) s i) fmin = qlt (range_sum (map snd bv) s i) min.
  Hypothesis SMAX : forall s i, fle fmax (fbar_sum (map snd fbv) s i) = ge_max (range_sum (map snd bv) s i) max.
  Hypothesis THR0 : near_threshold fthr0 thr0.
  Lemma reached_agree s i : runs_size_reached min bv s i <-> fruns_size_reached FP fbv s i.
  Proof. unfold runs_size_reached, fruns_size_reached. cbn [fm_min FP]. rewrite SMIN, qlt_false. reflexivity. Qed.
  Lemma trigger_agree hist s i : near_threshold (fruns_bar_threshold FP fthr0 fbv hist) (runs_bar_threshold Ts bs thr0 bv hist) ->
    (forall t, runs_bar_threshold Ts bs thr0 bv hist = Some t -> eps + 50 * INR N ^ 3 * bpow radix2 (-53) * M < Rabs (qr (qmax (range_sum (buy_amounts bv) s i) (range_sum (sell_amounts bv) s i)) - qr t)) ->
    (runs_trigger Ts bs thr0 max bv hist s i <-> fruns_trigger FP fthr0 fbv hist s i).
  Proof.
    intros NT MG. unfold runs_trigger, fruns_trigger. cbn [fm_max FP]. rewrite SMAX.
    assert (A : (exists t, runs_bar_threshold Ts bs thr0 bv hist = Some t /\ ((t <= range_sum (buy_amounts bv) s i)%Qc \/ (t <= range_sum (sell_amounts bv) s i)%Qc)) <-> fle (fruns_bar_threshold FP fthr0 fbv hist) (frun fbv s i) = true).
    { destruct (runs_bar_threshold Ts bs thr0 bv hist) as [t|]; cbn [near_threshold] in NT.
      - destruct NT as [Ft Et]. specialize (MG t eq_refl). rewrite qr_max in MG. destruct (BUY s i) as [Fb Eb]. destruct (SELL s i) as [Fs Es]. destruct (fmax_value Fb Fs) as [Fm Vm]. fold (frun fbv s i) in Fm, Vm.
        rewrite (fle_spec Ft Fm), Vm. pose proof (Rmax_error Eb Es) as ME. set (a := Rmax (fv (fbar_sum (fbuy_amounts fbv) s i)) (fv (fbar_sum (fsell_amounts fbv) s i))) in *. clearbody a.
        transitivity (qr t <= Rmax (qr (range_sum (buy_amounts bv) s i)) (qr (range_sum (sell_amounts bv) s i))).
        + split.
          * intros (t' & E & H). assert (t' = t) by congruence. subst t'. rewrite !qr_le in H. unfold Rmax. destruct (Rle_dec _ _); lra.
          * intro H. exists t. split; auto. rewrite !qr_le. unfold Rmax in H. destruct (Rle_dec _ _); lra.
        + set (b := Rmax (qr (range_sum (buy_amounts bv) s i)) (qr (range_sum (sell_amounts bv) s i))) in *. clearbody b. set (g := 50 * INR N ^ 3 * bpow radix2 (-53) * M) in *. clearbody g.
          apply Rabs_le_inv in Et, ME. unfold Rabs in MG. destruct (Rcase_abs (b - qr t)); split; intro; lra.
      - rewrite NT. split; [intros (t & E & _); discriminate|discriminate]. }
    rewrite A. unfold ge_max, amounts. destruct max as [m|]; split; (intros [H|H]; [now left|right]).
    + destruct H as (m0 & E0 & L0). injection E0 as <-. now apply qle_iff.
    + exists m. split; auto. now apply qle_iff.
    + destruct H as (m0 & E0 & _). discriminate.
    + discriminate.
  Qed.
  Lemma may_close_agree (t1 t2 : list nat -> nat -> nat -> Prop) (b1 b2 : nat -> nat -> Prop) hist x i : (forall j, (Nat.max 1 (next_start hist) <= j <= x)%nat -> (t1 hist (next_start hist) j <-> t2 hist (next_start hist) j) /\ (b1 (next_start hist) j <-> b2 (next_start hist) j)) ->
    (i <= x)%nat -> (may_close t1 b1 hist i <-> may_close t2 b2 hist i).
  Proof.
    clear. intros H Hi. unfold may_close. split; intros (M1 & M2 & j & M3 & M4); (split; [exact M1|]; split; [apply (H i); [lia|exact M2]|]; exists j; split; [exact M3|]; apply (H j); [lia|exact M4]).
  Qed.
  Lemma both_dec i : both_sides bv i \/ ~ both_sides bv i.
  Proof. unfold both_sides. destruct (buys_upto bv i), (sells_upto bv i); try (left; split; discriminate); right; intros [? ?]; congruence. Qed.
  Lemma runs_same_bars ends sizes thetas thrs : compute_runs_bar_sizes P bv p eb es = Ok ((ends, sizes), (thetas, thrs)) ->
    (forall i theta t, (1 <= i)%nat -> nth_error thetas i = Some theta -> nth_error thrs i = Some (Some t) -> eps + 50 * INR N ^ 3 * bpow radix2 (-53) * M < Rabs (qr theta - qr t)) ->
    exists fsizes, fruns_sizes FP fbv fp feb fes = Some (ends, fsizes) /\ Forall2 (fun x q => fin x /\ fv x = qr q) fsizes sizes.
  Proof.
    intros EX MARGIN. pose proof (Forall2_length HF) as LL. assert (NE : bv <> []) by (intro C; rewrite C in EX; discriminate). assert (FNE : fbv <> []) by (intro C; apply NE; rewrite C in LL; destruct bv; [auto|discriminate]).
    destruct (@compute_runs_ok P p eb es bv Hbs NE) as [(ends' & sizes' & dbg & E' & C & I & ES)|[E' _]]; [|congruence]. rewrite EX in E'. assert (ends' = ends /\ sizes' = sizes) as [-> ->] by (split; congruence). clear E' dbg.
    assert (NO : ~ first_close_one_sided P p eb es bv) by (intro O; apply (@compute_runs_error P p eb es bv Hbs NE) in O; congruence).
    destruct (@c124_runs_trace P bv p eb es ends sizes thetas thrs Hbs EX) as (_ & _ & TR). destruct (incr_bounds I) as (LE & BL & BE). cbn [im_T_span im_b_span im_max im_min P] in C.
    pose proof C as (N0 & LAST & A).
    assert (BOTH1 : forall x, nth_error ends 0 = Some x -> may_close (runs_trigger Ts bs thr0 max bv) (runs_size_reached min bv) [] x -> both_sides bv x).
    { intros x Ex Mx. destruct (both_dec x) as [B|B]; auto. exfalso. apply NO. destruct (A 0%nat x Ex) as (_ & A2 & A3 & _). exists x. split; [exact A3|]. split; [exact Mx|]. split; auto. }
    assert (BOTHL : forall k, (k < length ends)%nat -> firstn k ends <> [] -> both_sides bv (last (firstn k ends) 0%nat)).
    { intros k Hk HNE. destruct ends as [|e0 es0] eqn:EE; [cbn in Hk; lia|]. destruct k as [|k]; [exfalso; apply HNE; reflexivity|]. destruct (A 0%nat e0 eq_refl) as (_ & _ & _ & [M0|[C0 _]]); [|cbn [length] in *; lia].
      apply (both_sides_later P p eb es (i := e0)); [|now apply BOTH1]. inversion I as [|? ? ? _ _ I2]; subst. cbn [firstn]. pose proof (@last_in (e0 :: firstn k es0) 0%nat ltac:(discriminate)) as [EL|IN]; [rewrite <- EL; lia|].
      assert (SUB : forall y, In y (firstn k es0) -> In y es0) by (intros y Hy; rewrite <- (firstn_skipn k es0); apply in_or_app; now left). pose proof (incr_ge I2 (SUB _ IN)). lia. }
    assert (G : forall k x i, nth_error ends k = Some x -> (Nat.max 1 (next_start (firstn k ends)) <= i <= x)%nat ->
      (runs_trigger Ts bs thr0 max bv (firstn k ends) (next_start (firstn k ends)) i <-> fruns_trigger FP fthr0 fbv (firstn k ends) (next_start (firstn k ends)) i) /\
      (runs_size_reached min bv (next_start (firstn k ends)) i <-> fruns_size_reached FP fbv (next_start (firstn k ends)) i)).
    { intros k x i Ek Hi. split; [|apply reached_agree]. assert (LK : (k < length ends)%nat) by (apply nth_error_Some; congruence). destruct (TR k x i Ek) as [T1 T2]; [lia|]. cbn [im_T_span im_b_span im_E_T_init P] in T2.
      assert (TE : match p, eb, es with Some p, Some eb, Some es => Some (qn ET * qmax (p * eb) ((1 - p) * es))%Qc | Some p, Some eb, None => Some (qn ET * (p * eb))%Qc | _, _, _ => None end = thr0).
      { unfold thr0, runs_threshold, omul, py_max. destruct p as [p1|], eb as [e1|], es as [s1|]; auto. rewrite <- qmax_py_eq. unfold qmax_py. now destruct (qlt (p1 * e1) ((1 - p1) * s1)). }
      rewrite TE in T2. assert (NT : near_threshold (fruns_bar_threshold FP fthr0 fbv (firstn k ends)) (runs_bar_threshold Ts bs thr0 bv (firstn k ends))).
      { destruct (firstn k ends) as [|h0 h1] eqn:EH; [exact THR0|]. rewrite <- EH. assert (HNE : firstn k ends <> []) by (rewrite EH; discriminate).
        assert (I' : incr_from (length fbv) 0 ends) by now rewrite LL.
        destruct (@runs_threshold_error fthr0 thr0 fmin fmax ends k I' LK HNE (BOTHL k LK HNE)) as (t & -> & Ft & Et). split; auto. }
      apply trigger_agree; auto. intros t Et. rewrite Et in T2. apply (@MARGIN i _ _ ltac:(lia) T1 T2). }
    assert (FC2 : ends_at_first_close (fruns_trigger FP fthr0 fbv) (fruns_size_reached FP fbv) (length fbv) ends) by (rewrite LL; refine (first_close_transfer C _); exact G).
    destruct (@fruns_sizes_ok FP fp feb fes fbv FNE) as [(fends & FE & FC & FI & _)|[FE (i & F & Mi & Li & Bi)]].
    - assert (EQ : fends = ends) by exact (first_close_unique FC FC2). subst fends. eexists. split; [exact FE|]. rewrite ES. clear - BL HL LL HN. assert (B2 : forall T, In T (bar_lengths 0 ends) -> (T <= N)%nat) by (intros T HT; specialize (BL T HT); lia). clear BL.
      induction (bar_lengths 0 ends) as [|T l IH]; cbn [map]; [constructor|]. constructor; [|apply IH; intros; apply B2; now right].
      destruct (@fz_spec (Z.of_nat T)) as [Fz Vz]; [assert (Z.of_nat T < 2 ^ 53)%Z by (apply (@N53 N HN); apply B2; now left); lia|]. split; auto. now rewrite Vz, qr_n, <- INR_IZR_INZ.
    - exfalso. change (fruns_threshold (fz (Z.of_nat (fm_E_T_init FP))) fp feb fes) with fthr0 in F, Mi. destruct ends as [|e0 es0] eqn:EE; [discriminate|]. destruct FC2 as (_ & _ & A'). destruct (A' 0%nat e0 eq_refl) as (_ & B2 & B3 & B4).
      assert (EQ : e0 = i). { destruct (lt_eq_lt_dec e0 i) as [[H|H]|H]; auto; exfalso; [|exact (B3 i H Mi)]. destruct B4 as [B4|[_ B4]]; [exact (F e0 H B4)|lia]. } subst i.
      apply Bi. apply both_same. apply BOTH1; auto. apply (may_close_agree (x := e0) (i := e0)) with (2 := Nat.le_refl e0) (3 := Mi). intros j Hj. exact (G 0%nat e0 j eq_refl Hj).
  Qed.
  (** the same exception *)
  Lemma runs_same_error : bv <> [] -> compute_runs_bar_sizes P bv p eb es = Err IndexError ->
    (forall i t, (1 <= i < length bv)%nat -> thr0 = Some t -> eps + 50 * INR N ^ 3 * bpow radix2 (-53) * M < Rabs (qr (qmax (range_sum (buy_amounts bv) 0 i) (range_sum (sell_amounts bv) 0 i)) - qr t)) ->
    fruns_sizes FP fbv fp feb fes = None.
  Proof.
    intros NE EX MARGIN. pose proof (Forall2_length HF) as LL. assert (FNE : fbv <> []) by (intro C; apply NE; rewrite C in LL; destruct bv; [auto|discriminate]).
    apply (@compute_runs_error P p eb es bv Hbs NE) in EX. destruct EX as (i & F & Mi & Li & Bi). cbn [im_T_span im_b_span im_max im_min im_E_T_init P] in F, Mi. fold thr0 in F, Mi.
    assert (AG : forall j, (j < length bv)%nat -> (may_close (runs_trigger Ts bs thr0 max bv) (runs_size_reached min bv) [] j <-> may_close (fruns_trigger FP fthr0 fbv) (fruns_size_reached FP fbv) [] j)).
    { intros j Hj. apply (may_close_agree (x := j)); [|lia]. intros j' Hj'. cbn [next_start] in *. split; [|apply reached_agree]. apply trigger_agree; [exact THR0|]. intros t Et. apply MARGIN; [lia|exact Et]. }
    destruct (@fruns_sizes_ok FP fp feb fes fbv FNE) as [(fends & FE & FC & FI & NO)|[FE _]]; [|exact FE]. exfalso. apply NO. exists i. change (fruns_threshold (fz (Z.of_nat (fm_E_T_init FP))) fp feb fes) with fthr0.
    split; [intros j Hj C; apply (F j Hj); apply AG; [lia|exact C]|]. split; [apply AG; auto|]. split; [lia|]. now rewrite both_same.
  Qed.
End CompareRuns.

Lemma fbar_nonneg l s i : (forall x, In x l -> 0 <= fv x) -> fin (fbar_sum l s i) -> 0 <= fv (fbar_sum l s i).
Proof.
  intro HX. unfold fbar_sum. assert (IN : forall x, In x (firstn (S i - s) (skipn s l)) -> 0 <= fv x).
  { intros x Hx. apply HX. rewrite <- (firstn_skipn s l). apply in_or_app. right. rewrite <- (firstn_skipn (S i - s) (skipn s l)). apply in_or_app. now left. }
  destruct fz0 as [F0 V0]. destruct (firstn (S i - s) (skipn s l)) as [|x r]; [intros _; rewrite V0; lra|]. intro H. pose proof (IN x (or_introl eq_refl)) as PX. apply fold_nonneg; auto; [intros; apply IN; now right|].
  destruct (s =? 0)%nat; auto. assert (G : forall l acc, fin (fold_left fadd l acc) -> fin acc) by (clear; intro l; induction l as [|x k IH]; intros acc H; [exact H|]; apply IH in H; apply fadd_finite in H; tauto).
  destruct (fadd_finite (G _ _ H)) as (_ & _ & ->). rewrite <- rnd64_0. apply rnd64_mono. lra.
Qed.
Lemma range_nonneg l s i : (forall x, In x l -> (0 <= x)%Qc) -> (0 <= range_sum l s i)%Qc.
Proof.
  intro HX. unfold range_sum. apply qsum_nonneg. intros x Hx. apply HX. rewrite <- (firstn_skipn s l). apply in_or_app. right. rewrite <- (firstn_skipn (S i - s) (skipn s l)). apply in_or_app. now left.
Qed.
(** Where the exact runs stay away from the exact thresholds, and the sizes of bars from their limits, the float bars are the exact bars *)
Lemma given_threshold N M ET fp feb fes p eb es : 1 <= INR N <= bpow radix2 16 -> bpow radix2 (-1000) <= M <= bpow radix2 900 -> (ET <= N)%nat -> fin fp -> fin feb -> fin fes ->
  0 <= qr p <= 1 -> Rabs (qr eb) <= M -> Rabs (qr es) <= M -> Rabs (fv fp - qr p) <= 15 * INR N ^ 2 * bpow radix2 (-53) -> Rabs (fv feb - qr eb) <= 13 * INR N ^ 2 * bpow radix2 (-53) * M -> Rabs (fv fes - qr es) <= 13 * INR N ^ 2 * bpow radix2 (-53) * M ->
  near_threshold N M (fruns_threshold (fz (Z.of_nat ET)) fp feb fes) (runs_threshold (qn ET) (Some p) (Some eb) (Some es)).
Proof.
  intros HN HM HET Fp Feb Fes Bp Beb Bes Ep Eeb Ees. change (bpow radix2 (-53)) with u64 in *. pose proof u64_pos as U. destruct (@fz_spec (Z.of_nat ET)) as [F V]; [pose proof (@N53 N HN ET HET); lia|]. rewrite <- INR_IZR_INZ in V.
  assert (T : runs_threshold (qn ET) (Some p) (Some eb) (Some es) = Some (qn ET * qmax (p * eb) ((1 - p) * es))%Qc) by (unfold runs_threshold, omul, py_max; rewrite <- qmax_py_eq; unfold qmax_py; now destruct (qlt (p * eb) ((1 - p) * es))).
  rewrite T. cbn [near_threshold]. rewrite qr_mul, qr_max, !qr_mul, qr_sub, qr_1, qr_n. change (bpow radix2 (-53)) with u64. replace (50 * INR N ^ 3 * u64 * M) with (50 * (INR N ^ 2 * u64) * (INR N * M)) by ring.
  pose proof (c_range HN) as CR. pose proof (bpow_gt_0 radix2 (-1000)) as B0. apply threshold_parts; auto; try lra.
  - rewrite Rabs_right by (apply Rle_ge, pos_INR). now apply le_INR.
  - rewrite V, Rminus_diag_eq, Rabs_R0 by auto. apply Rmult_le_pos; lra.
Qed.
Theorem c139_same_bars N M fbv bv ET Ts bs fp p feb eb fes es fmin min fmax max : 1 <= INR N <= bpow radix2 16 -> bpow radix2 (-1000) <= M <= bpow radix2 900 ->
  Forall2 (same_row M) fbv bv -> (length fbv <= N)%nat -> (ET <= N)%nat -> (Z.of_nat Ts < 2 ^ 53)%Z -> (1 <= bs)%Z -> fin fp -> fin feb -> fin fes -> 0 <= qr p <= 1 -> Rabs (qr eb) <= M -> Rabs (qr es) <= M ->
  Rabs (fv fp - qr p) <= 15 * INR N ^ 2 * bpow radix2 (-53) -> Rabs (fv feb - qr eb) <= 13 * INR N ^ 2 * bpow radix2 (-53) * M -> Rabs (fv fes - qr es) <= 13 * INR N ^ 2 * bpow radix2 (-53) * M ->
  fin fmin -> fv fmin = qr min -> same_limit fmax max ->
  (((min <= 0)%Qc /\ forall r, In r bv -> (0 <= snd r)%Qc) \/ forall s i, 2 * INR N ^ 2 * bpow radix2 (-53) * M < Rabs (qr (range_sum (map snd bv) s i) - qr min)) ->
  (forall s i m, max = Some m -> 2 * INR N ^ 2 * bpow radix2 (-53) * M < Rabs (qr (range_sum (map snd bv) s i) - qr m)) ->
  (forall ends sizes thetas thrs, compute_runs_bar_sizes (ImbParams min max ET Ts bs) bv (Some p) (Some eb) (Some es) = Ok ((ends, sizes), (thetas, thrs)) ->
     (forall i theta t, (1 <= i)%nat -> nth_error thetas i = Some theta -> nth_error thrs i = Some (Some t) -> 52 * INR N ^ 3 * bpow radix2 (-53) * M < Rabs (qr theta - qr t)) ->
     exists fsizes, fruns_sizes (FImbParams fmin fmax ET Ts bs) fbv fp feb fes = Some (ends, fsizes) /\ Forall2 (fun x q => fin x /\ fv x = qr q) fsizes sizes) /\
  (bv <> [] -> compute_runs_bar_sizes (ImbParams min max ET Ts bs) bv (Some p) (Some eb) (Some es) = Err IndexError ->
     (forall i, (1 <= i < length bv)%nat -> 52 * INR N ^ 3 * bpow radix2 (-53) * M < Rabs (qr (qmax (range_sum (buy_amounts bv) 0 i) (range_sum (sell_amounts bv) 0 i)) - qr (qn ET * qmax (p * eb) ((1 - p) * es))%Qc)) ->
     fruns_sizes (FImbParams fmin fmax ET Ts bs) fbv fp feb fes = None).
Proof.
  intros HN HM HF HL HET HTs Hbs Fp Feb Fes Bp Beb Bes Ep Eeb Ees Fm Vm Lim MIN MAX. pose proof (bpow_gt_0 radix2 (-1000)) as B0. assert (HM0 : 0 <= M <= bpow radix2 900) by lra. pose proof u64_pos as U.
  pose proof (@given_threshold N M ET fp feb fes p eb es HN HM HET Fp Feb Fes Bp Beb Bes Ep Eeb Ees) as THR. change (bpow radix2 (-53)) with u64 in *.
  assert (LB : (length (fbuy_amounts fbv) <= N)%nat) by (unfold fbuy_amounts; now rewrite map_length). assert (LS : (length (fsell_amounts fbv) <= N)%nat) by (unfold fsell_amounts; now rewrite map_length). assert (LA : (length (map snd fbv) <= N)%nat) by now rewrite map_length.
  pose proof (fun s i => @bar_sum_error N M HN HM0 _ _ s i (buy_same HM HF) LB) as BUY. pose proof (fun s i => @bar_sum_error N M HN HM0 _ _ s i (sell_same HM HF) LS) as SELL. pose proof (fun s i => @bar_sum_error N M HN HM0 _ _ s i (snd_same HF) LA) as ALL.
  assert (SMIN : forall s i, flt (fbar_sum (map snd fbv) s i) fmin = qlt (range_sum (map snd bv) s i) min).
  { intros s i. destruct (ALL s i) as [F B]. apply bool_iff. rewrite qlt_iff. destruct MIN as [[ML NN]|MIN]; [|rewrite (lt_decided F Fm Vm B (or_introl (MIN s i))); symmetry; apply qr_lt].
    assert (P1 : (0 <= range_sum (map snd bv) s i)%Qc) by (apply range_nonneg; intros x Hx; apply in_map_iff in Hx; destruct Hx as (r & <- & Hr); auto).
    assert (P2 : 0 <= fv (fbar_sum (map snd fbv) s i)). { apply fbar_nonneg; auto. clear - HF NN. induction HF as [|x y l1 l2 [_ (Fx & Vx & _)] F IH]; intros a Ha; [destruct Ha|]. destruct Ha as [<-|Ha]; [|apply IH; auto; intros; apply NN; now right]. rewrite Vx, <- qr_0. apply qr_le, NN. now left. }
    rewrite (flt_spec F Fm), Vm. assert (qr min <= 0) by (rewrite <- qr_0; now apply qr_le). split; [lra|]. intro. exfalso. clear - ML P1 H0. qlra. }
  assert (SMAX : forall s i, fle fmax (fbar_sum (map snd fbv) s i) = ge_max (range_sum (map snd bv) s i) max).
  { intros s i. destruct (ALL s i) as [F B]. destruct max as [m|]; cbn [same_limit ge_max] in *.
    - destruct Lim as [Fx Vx]. apply bool_iff. rewrite qle_iff, (le_decided F Fx Vx B (or_introl (MAX s i m eq_refl))). symmetry. apply qr_le.
    - subst fmax. now apply inf_le. }
  assert (EPS : forall x, 52 * INR N ^ 3 * u64 * M < x -> 2 * INR N ^ 2 * u64 * M + 50 * INR N ^ 3 * bpow radix2 (-53) * M < x).
  { intros x H. change (bpow radix2 (-53)) with u64. apply Rle_lt_trans with (2 := H). assert (Q : INR N ^ 2 <= INR N ^ 3) by (apply Rle_pow; [lra|lia]). assert (Q2 : INR N ^ 2 * (u64 * M) <= INR N ^ 3 * (u64 * M)) by (apply Rmult_le_compat_r; [apply Rmult_le_pos; lra|exact Q]). lra. }
  split.
  - intros ends sizes thetas thrs EX MG. apply (@runs_same_bars N M fbv bv ET Ts bs HN HM HF HL HTs Hbs min max fmin fmax (2 * INR N ^ 2 * u64 * M) (Some p) (Some eb) (Some es) fp feb fes BUY SELL SMIN SMAX THR ends sizes thetas thrs EX).
    intros i theta t Hi E1 E2. apply EPS. exact (MG i theta t Hi E1 E2).
  - intros NE EX MG. apply (@runs_same_error N M fbv bv ET Ts bs HF HL Hbs min max fmin fmax (2 * INR N ^ 2 * u64 * M) (Some p) (Some eb) (Some es) fp feb fes BUY SELL SMIN SMAX THR NE EX).
    intros i t Hi E. apply EPS. assert (T : runs_threshold (qn ET) (Some p) (Some eb) (Some es) = Some (qn ET * qmax (p * eb) ((1 - p) * es))%Qc) by (unfold runs_threshold, omul, py_max; rewrite <- qmax_py_eq; unfold qmax_py; now destruct (qlt (p * eb) ((1 - p) * es))).
    assert (t = (qn ET * qmax (p * eb) ((1 - p) * es))%Qc) by congruence. subst t. exact (MG i Hi).
Qed.
Print Assumptions c139_same_bars.
(** With whole amounts - ticks, or whole volumes - the sums and sizes are exact and only the thresholds are rounded *)
Section Whole.
  Variables (N : nat) (m : Z) (fbv : list (f64 * f64)) (bv : list (Qc * Qc)) (ET Ts : nat) (bs : Z) (fmin : f64) (min : Qc) (fmax : f64) (max : option Qc) (p eb es : option Qc) (fp feb fes : f64).
  Hypothesis HN : 1 <= INR N <= bpow radix2 16.
  Hypothesis Hm : (1 <= m <= 2 ^ 37)%Z.
  Hypothesis HF : Forall2 (fun f q => whole_value 1 (fst f) (fst q) /\ whole_value m (snd f) (snd q)) fbv bv.
  Hypothesis HL : (length fbv <= N)%nat.
  Hypothesis HTs : (Z.of_nat Ts < 2 ^ 53)%Z.
  Hypothesis Hbs : (1 <= bs)%Z.
  Hypothesis Fm : fin fmin.
  Hypothesis Vm : fv fmin = qr min.
  Hypothesis Lim : same_limit fmax max.
  Hypothesis THR : near_threshold N (IZR m) (fruns_threshold (fz (Z.of_nat ET)) fp feb fes) (runs_threshold (qn ET) p eb es).
  Lemma whole_runs :
    (forall ends sizes thetas thrs, compute_runs_bar_sizes (ImbParams min max ET Ts bs) bv p eb es = Ok ((ends, sizes), (thetas, thrs)) ->
       (forall i theta t, (1 <= i)%nat -> nth_error thetas i = Some theta -> nth_error thrs i = Some (Some t) -> 50 * INR N ^ 3 * bpow radix2 (-53) * IZR m < Rabs (qr theta - qr t)) ->
       exists fsizes, fruns_sizes (FImbParams fmin fmax ET Ts bs) fbv fp feb fes = Some (ends, fsizes) /\ Forall2 (fun x q => fin x /\ fv x = qr q) fsizes sizes) /\
    (bv <> [] -> compute_runs_bar_sizes (ImbParams min max ET Ts bs) bv p eb es = Err IndexError ->
       (forall i t, (1 <= i < length bv)%nat -> runs_threshold (qn ET) p eb es = Some t -> 50 * INR N ^ 3 * bpow radix2 (-53) * IZR m < Rabs (qr (qmax (range_sum (buy_amounts bv) 0 i) (range_sum (sell_amounts bv) 0 i)) - qr t)) ->
       fruns_sizes (FImbParams fmin fmax ET Ts bs) fbv fp feb fes = None).
  Proof.
    assert (HM : bpow radix2 (-1000) <= IZR m <= bpow radix2 900).
    { split; [apply Rle_trans with (bpow radix2 0); [apply bpow_le; lia|cbn [bpow]; apply (IZR_le 1); lia]|]. apply Rle_trans with (bpow radix2 37); [change (bpow radix2 37) with (IZR (2 ^ 37)); apply IZR_le; lia|apply bpow_le; lia]. }
    assert (LZ : (Z.of_nat (length fbv) * m <= 2 ^ 53)%Z).
    { assert (Z.of_nat (length fbv) <= 2 ^ 16)%Z; [|nia]. apply le_IZR. rewrite <- INR_IZR_INZ. change (IZR (2 ^ 16)) with (bpow radix2 16). apply Rle_trans with (2 := proj2 HN). now apply le_INR. }
    assert (m0 : (0 <= m)%Z) by lia. assert (SR : Forall2 (same_row (IZR m)) fbv bv). { clear - HF. induction HF as [|x y l1 l2 [A (z & F & V & E & B)] G IH]; constructor; auto. split; auto. split; auto. rewrite E, qr_z, V. split; auto. rewrite <- abs_IZR. now apply IZR_le. }
    assert (W0 : whole_value m (fz 0) 0%Qc) by (destruct fz0 as [F V]; exists 0%Z; repeat split; auto; lia).
    assert (WS : Forall2 (whole_value m) (map snd fbv) (map snd bv)) by (apply (Forall2_map_both HF); intros x y [_ H]; exact H).
    assert (WB : Forall2 (whole_value m) (fbuy_amounts fbv) (buy_amounts bv)) by (apply (Forall2_map_both HF); intros x y [H1 H2]; rewrite (proj1 (side_same H1)); destruct (qle 0 (fst y)); auto).
    assert (WL : Forall2 (whole_value m) (fsell_amounts fbv) (sell_amounts bv)) by (apply (Forall2_map_both HF); intros x y [H1 H2]; rewrite (proj2 (side_same H1)); destruct (qle 0 (fst y)); auto).
    assert (EXACT : forall l qs, length l = length fbv -> Forall2 (whole_value m) l qs -> forall s i, fin (fbar_sum l s i) /\ Rabs (fv (fbar_sum l s i) - qr (range_sum qs s i)) <= 0).
    { intros l qs Ll F s i. destruct (@bar_sum_whole m l qs s i F m0) as [G V]; [now rewrite Ll|]. split; auto. rewrite V, Rminus_diag_eq, Rabs_R0 by auto. lra. }
    pose proof (EXACT _ _ (map_length _ _) WS) as ALL. pose proof (EXACT _ _ (map_length _ _) WB) as BUY. pose proof (EXACT _ _ (map_length _ _) WL) as SELL.
    assert (SMIN : forall s i, flt (fbar_sum (map snd fbv) s i) fmin = qlt (range_sum (map snd bv) s i) min).
    { intros s i. destruct (ALL s i) as [F B]. apply bool_iff. rewrite qlt_iff, (lt_decided F Fm Vm B (or_intror eq_refl)). symmetry. apply qr_lt. }
    assert (SMAX : forall s i, fle fmax (fbar_sum (map snd fbv) s i) = ge_max (range_sum (map snd bv) s i) max).
    { intros s i. destruct (ALL s i) as [F B]. destruct max as [mx|]; cbn [same_limit ge_max] in *.
      - destruct Lim as [Fx Vx]. apply bool_iff. rewrite qle_iff, (le_decided F Fx Vx B (or_intror eq_refl)). symmetry. apply qr_le.
      - subst fmax. now apply inf_le. }
    split.
    - intros ends sizes thetas thrs EX MG. apply (@runs_same_bars N (IZR m) fbv bv ET Ts bs HN HM SR HL HTs Hbs min max fmin fmax 0 p eb es fp feb fes BUY SELL SMIN SMAX THR ends sizes thetas thrs EX).
      intros. rewrite Rplus_0_l. eauto.
    - intros NE EX MG. apply (@runs_same_error N (IZR m) fbv bv ET Ts bs SR HL Hbs min max fmin fmax 0 p eb es fp feb fes BUY SELL SMIN SMAX THR NE EX). intros. rewrite Rplus_0_l. eauto.
  Qed.
End Whole.
Theorem c139_same_bars_whole N m fbv bv ET Ts bs fp p feb eb fes es fmin min fmax max : 1 <= INR N <= bpow radix2 16 -> (1 <= m <= 2 ^ 37)%Z ->
  Forall2 (fun f q => whole_value 1 (fst f) (fst q) /\ whole_value m (snd f) (snd q)) fbv bv -> (length fbv <= N)%nat -> (ET <= N)%nat -> (Z.of_nat Ts < 2 ^ 53)%Z -> (1 <= bs)%Z ->
  fin fp -> fin feb -> fin fes -> 0 <= qr p <= 1 -> Rabs (qr eb) <= IZR m -> Rabs (qr es) <= IZR m ->
  Rabs (fv fp - qr p) <= 15 * INR N ^ 2 * bpow radix2 (-53) -> Rabs (fv feb - qr eb) <= 13 * INR N ^ 2 * bpow radix2 (-53) * IZR m -> Rabs (fv fes - qr es) <= 13 * INR N ^ 2 * bpow radix2 (-53) * IZR m ->
  fin fmin -> fv fmin = qr min -> same_limit fmax max ->
  (forall ends sizes thetas thrs, compute_runs_bar_sizes (ImbParams min max ET Ts bs) bv (Some p) (Some eb) (Some es) = Ok ((ends, sizes), (thetas, thrs)) ->
     (forall i theta t, (1 <= i)%nat -> nth_error thetas i = Some theta -> nth_error thrs i = Some (Some t) -> 50 * INR N ^ 3 * bpow radix2 (-53) * IZR m < Rabs (qr theta - qr t)) ->
     exists fsizes, fruns_sizes (FImbParams fmin fmax ET Ts bs) fbv fp feb fes = Some (ends, fsizes) /\ Forall2 (fun x q => fin x /\ fv x = qr q) fsizes sizes) /\
  (bv <> [] -> compute_runs_bar_sizes (ImbParams min max ET Ts bs) bv (Some p) (Some eb) (Some es) = Err IndexError ->
     (forall i, (1 <= i < length bv)%nat -> 50 * INR N ^ 3 * bpow radix2 (-53) * IZR m < Rabs (qr (qmax (range_sum (buy_amounts bv) 0 i) (range_sum (sell_amounts bv) 0 i)) - qr (qn ET * qmax (p * eb) ((1 - p) * es))%Qc)) ->
     fruns_sizes (FImbParams fmin fmax ET Ts bs) fbv fp feb fes = None).
Proof.
  intros HN Hm HF HL HET HTs Hbs Fp Feb Fes Bp Beb Bes Ep Eeb Ees Fm Vm Lim. assert (HM : bpow radix2 (-1000) <= IZR m <= bpow radix2 900).
  { split; [apply Rle_trans with (bpow radix2 0); [apply bpow_le; lia|cbn [bpow]; apply (IZR_le 1); lia]|]. apply Rle_trans with (bpow radix2 37); [change (bpow radix2 37) with (IZR (2 ^ 37)); apply IZR_le; lia|apply bpow_le; lia]. }
  pose proof (@given_threshold N (IZR m) ET fp feb fes p eb es HN HM HET Fp Feb Fes Bp Beb Bes Ep Eeb Ees) as THR.
  destruct (@whole_runs N m fbv bv ET Ts bs fmin min fmax max (Some p) (Some eb) (Some es) fp feb fes HN Hm HF HL HTs Hbs Fm Vm Lim THR) as [A B]. split; [exact A|]. intros NE EX MG. apply B; auto. intros i t Hi E.
  assert (T : runs_threshold (qn ET) (Some p) (Some eb) (Some es) = Some (qn ET * qmax (p * eb) ((1 - p) * es))%Qc) by (unfold runs_threshold, omul, py_max; rewrite <- qmax_py_eq; unfold qmax_py; now destruct (qlt (p * eb) ((1 - p) * es))).
  assert (t = (qn ET * qmax (p * eb) ((1 - p) * es))%Qc) by congruence. subst t. exact (MG i Hi).
Qed.
Print Assumptions c139_same_bars_whole.

(** ** from the prices on *)
Lemma ratio_near c n : (c <= n)%nat -> (0 < n)%nat -> (Z.of_nat n < 2 ^ 53)%Z -> near_share (2 * u64) (fdiv (fz (Z.of_nat c)) (fz (Z.of_nat n))) (qn c / qn n)%Qc.
Proof.
  intros Hc Hn H53. destruct (@fz_spec (Z.of_nat c)) as [Fc Vc]; [lia|]. destruct (@fz_spec (Z.of_nat n)) as [Fn Vn]; [lia|]. rewrite <- INR_IZR_INZ in Vc, Vn. assert (N0 : 0 < INR n) by now apply lt_0_INR. assert (C0 := pos_INR c). assert (CN : INR c <= INR n) by now apply le_INR.
  assert (QN : qn n <> 0%Qc) by (intro C; apply (f_equal qr) in C; rewrite qr_n, qr_0 in C; lra). assert (Q : qr (qn c / qn n)%Qc = INR c / INR n) by (rewrite qr_div, !qr_n; auto).
  assert (BX : 0 <= INR c / INR n <= 1). { split; [apply Rmult_le_pos; [lra|]; left; now apply Rinv_0_lt_compat|]. apply Rmult_le_reg_r with (INR n); auto. unfold Rdiv. rewrite Rmult_assoc, Rinv_l by lra. lra. }
  assert (AX : Rabs (INR c / INR n) <= 1) by (rewrite Rabs_right; lra).
  destruct (@fdiv_spec (fz (Z.of_nat c)) (fz (Z.of_nat n)) Fc) as [Fd Vd]; [rewrite Vn; lra|rewrite Vc, Vn; apply Rle_trans with (1 := AX); change 1 with (bpow radix2 0); apply bpow_le; lia|]. rewrite Vc, Vn in Vd.
  split; auto. rewrite Vd, Q. split; [split; [rewrite <- rnd64_0; apply rnd64_mono; lra|rewrite <- rnd64_1; apply rnd64_mono; lra]|]. split; auto. apply Rle_trans with (1 := rnd_abs_err _). pose proof u64_pos. pose proof eta_le_u.
  assert (u64 * Rabs (INR c / INR n) <= u64 * 1) by (apply Rmult_le_compat_l; lra). lra.
Qed.
(** the average of no numbers is NaN *)
Lemma zero_float x : fin x -> fv x = 0 -> exists s, x = B754_zero s.
Proof.
  destruct x as [s|s| |s m e H]; try (unfold fin; cbn [is_finite]; discriminate); intros _ V; [eauto|]. exfalso. change (IZR (cond_Zopp s (Zpos m)) * bpow radix2 e = 0) in V. pose proof (bpow_gt_0 radix2 e). apply Rmult_integral in V. destruct V as [V|V]; [|lra]. apply eq_IZR_R0 in V. destruct s; discriminate.
Qed.
Lemma empty_mean sum : is_sum sum -> fnp_mean sum [] = B754_nan.
Proof.
  intro HS. unfold fnp_mean. destruct (HS []) as (t & -> & PM & _). apply Permutation_sym, Permutation_nil in PM. destruct (@seval_signs t) as (z & F & V & B & _); [rewrite PM; intros x []|rewrite PM; cbn; lia|]. rewrite PM in B. cbn [length] in B. assert (z = 0)%Z by lia. subst z.
  destruct (zero_float F V) as [s ->]. destruct (zero_float (proj1 fz0) (proj2 fz0)) as [s' E]. cbn [length]. change (Z.of_nat 0) with 0%Z. rewrite E. reflexivity.
Qed.
(** an average that may be missing: NaN *)
Definition near_average (x : f64) (q : option Qc) : Prop := match q with Some q => fin x /\ Rabs (qr q) <= 1 /\ Rabs (fv x - qr q) <= 2 * u64 | None => x = B754_nan end.
Lemma near_mean sum l qs : is_sum sum -> Forall2 (whole_value 1) l qs -> (Z.of_nat (length l) <= 2 ^ 53)%Z -> near_average (fnp_mean sum l) (np_mean qs).
Proof.
  intros HS F L. destruct l as [|x l]; [inversion F; now apply empty_mean|]. destruct (@mean_same sum (x :: l) qs HS F) as (m & -> & B & Fd & Ed); [discriminate|exact L|]. split; auto.
Qed.
Lemma nan_mul x : fmul x B754_nan = B754_nan.
Proof. destruct x; reflexivity. Qed.
Lemma tick_threshold N ET fp feb fes p eb es : 1 <= INR N <= bpow radix2 16 -> (ET <= N)%nat -> fin fp -> 0 <= qr p <= 1 -> Rabs (fv fp - qr p) <= 2 * u64 -> near_average feb eb -> near_average fes es ->
  near_threshold N 1 (fruns_threshold (fz (Z.of_nat ET)) fp feb fes) (runs_threshold (qn ET) (Some p) eb es).
Proof.
  intros HN HET Fp Bp Ep Hb Hs. pose proof (c_range HN) as CR. pose proof u64_pos as U. assert (HM : bpow radix2 (-1000) <= 1 <= bpow radix2 900) by (change 1 with (bpow radix2 0); split; apply bpow_le; lia).
  destruct eb as [eb|]; cbn [near_average] in Hb.
  2:{ subst feb. unfold runs_threshold, omul, py_max. cbn [near_threshold]. intro x. unfold fruns_threshold, fmax_py. rewrite nan_mul. replace (flt B754_nan (fmul (fsub (fz 1) fp) fes)) with false by (destruct (fmul (fsub (fz 1) fp) fes) as [[]|[]| |[] ? ? ?]; reflexivity). rewrite nan_mul. destruct x as [[]|[]| |[] ? ? ?]; reflexivity. }
  destruct Hb as (Fb & Bb & Eb). destruct es as [es|]; cbn [near_average] in Hs.
  - destruct Hs as (Fs & Bs & Es). apply given_threshold; auto; change (bpow radix2 (-53)) with u64; lra.
  - subst fes. unfold runs_threshold, omul, py_max. cbn [near_threshold]. unfold fruns_threshold, fmax_py. rewrite nan_mul. replace (flt (fmul fp feb) B754_nan) with false by (destruct (fmul fp feb) as [[]|[]| |[] ? ? ?]; reflexivity).
    destruct (@fz_spec (Z.of_nat ET)) as [F V]; [pose proof (@N53 N HN ET HET); lia|]. rewrite <- INR_IZR_INZ in V. set (c := INR N ^ 2 * u64) in *.
    assert (B1 : bpow radix2 (-1000) <= 1 * 1 <= bpow radix2 1000) by (rewrite Rmult_1_l; change 1 with (bpow radix2 0); split; apply bpow_le; lia).
    assert (B2 : bpow radix2 (-1000) <= INR N * (1 * 1) <= bpow radix2 1000). { split; [lra|]. apply Rle_trans with (bpow radix2 16); [lra|apply bpow_le; lia]. }
    destruct (@times_error c 1 1 2 2 fp feb (qr p) (qr eb) CR) as [Fm Em]; auto; try lra; [rewrite Rabs_right; lra|].
    destruct (@times_error c (INR N) (1 * 1) 0 7 (fz (Z.of_nat ET)) (fmul fp feb) (INR ET) (qr p * qr eb) CR) as [Ft Et]; auto; try lra.
    + rewrite Rabs_right by (apply Rle_ge, pos_INR). now apply le_INR.
    + rewrite Rabs_mult, (Rabs_right (qr p)) by lra. pose proof (Rabs_pos (qr eb)). nra.
    + rewrite V, Rminus_diag_eq, Rabs_R0 by auto. lra.
    + split; auto. rewrite !qr_mul, qr_n. apply Rle_trans with (1 := Et). change (bpow radix2 (-53)) with u64. replace (50 * INR N ^ 3 * u64 * 1) with (50 * c * (INR N * (1 * 1))) by (unfold c; ring). apply Rmult_le_compat_r; [lra|]. apply Rmult_le_compat_r; lra.
Qed.
Lemma combine_const A B C D (R1 : A -> B -> Prop) (c : C) (d : D) (RC : C -> D -> Prop) (X Y : Type) (l1 : list A) (l2 : list B) (xs : list X) (ys : list Y) : Forall2 R1 l1 l2 -> RC c d -> length xs = length ys ->
  Forall2 (fun f q => R1 (fst f) (fst q) /\ RC (snd f) (snd q)) (combine l1 (map (fun _ => c) xs)) (combine l2 (map (fun _ => d) ys)).
Proof. intros H HC. revert xs ys. induction H as [|x y l1 l2 H F IH]; intros [|a xs] [|b ys] L; try discriminate; cbn [combine map]; constructor; auto. Qed.
Lemma pos_same f q : whole_value 1 f q -> flt (fz 0) f = qlt 0 q /\ flt f (fz 0) = qlt q 0.
Proof.
  intros (z & F & V & -> & B). destruct fz0 as [F0 V0]. split; apply bool_iff; rewrite qlt_iff, qr_lt, qr_0, qr_z; [rewrite (flt_spec F0 F)|rewrite (flt_spec F F0)]; rewrite V0, V; tauto.
Qed.
Lemma filter_len A (f : A -> bool) l : (length (filter f l) <= length l)%nat.
Proof. induction l as [|x l IH]; cbn [filter length]; [lia|]. destruct (f x); cbn [length]; lia. Qed.
(** the same optional argument *)
Definition same_arg (lo : R) (f : option f64) (q : option Qc) : Prop := (f = None /\ q = None) \/ exists x y, f = Some x /\ q = Some y /\ fin x /\ fv x = qr y /\ lo <= qr y <= 1.
(** Runs bars over ticks from the prices on: the directions are exact however close the prices are, so the float bars are the exact bars - or both fail - as soon as the runs stay away from the thresholds;
    this covers the defaults, with NaN for a side that does not occur at the start *)
Theorem c139_tick_bars sum N fticks ticks z fmin min fmax max ET Ts bs fP0 P0 fB0 B0 fS0 S0 : is_sum sum -> 1 <= INR N <= bpow radix2 16 ->
  Forall2 (fun f t => fin (ft_price f) /\ fv (ft_price f) = qr (t_price t) /\ Rabs (fv (ft_price f)) <= bpow radix2 1022) fticks ticks ->
  (length fticks <= N)%nat -> (1 <= ET <= N)%nat -> (Z.of_nat Ts < 2 ^ 53)%Z -> (forall b, bs = Some b -> (1 <= b)%Z) -> (Z.abs z <= 1)%Z -> fin fmin -> fv fmin = qr min -> same_limit fmax max ->
  same_arg 0 fP0 P0 -> same_arg (-1) fB0 B0 -> same_arg (-1) fS0 S0 -> ticks <> [] ->
  let bv := combine (tick_rule (map t_price ticks) (qz z)) (map (fun _ => 1%Qc) ticks) in
  let inits := runs_inits ET P0 B0 S0 bv in
  let exact := compute_runs_bar_sizes (ImbParams min max ET Ts (match bs with Some b => b | None => (3 * Z.of_nat ET)%Z end)) bv (fst (fst inits)) (snd (fst inits)) (snd inits) in
  let float := fruns_ends sum TICK fmin fmax (fz z) ET fP0 fB0 fS0 Ts bs fticks in
  (forall ends sizes thetas thrs, exact = Ok ((ends, sizes), (thetas, thrs)) ->
    (forall i theta t, (1 <= i)%nat -> nth_error thetas i = Some theta -> nth_error thrs i = Some (Some t) -> 50 * INR N ^ 3 * bpow radix2 (-53) < Rabs (qr theta - qr t)) -> float = Some ends) /\
  (exact = Err IndexError ->
    (forall i t, (1 <= i < length ticks)%nat -> initial_runs_threshold ET inits = Some t -> 50 * INR N ^ 3 * bpow radix2 (-53) < Rabs (qr (qmax (range_sum (buy_amounts bv) 0 i) (range_sum (sell_amounts bv) 0 i)) - qr t)) -> float = None).
Proof.
  intros HS HN HF HL HET HTs Hbs Hz Fm Vm Lim AP AB AS NE bv inits exact float. pose proof u64_pos as U.
  assert (HP : Forall2 same_price (map ft_price fticks) (map t_price ticks)) by (clear - HF; induction HF; cbn [map]; constructor; auto).
  destruct (@fz_spec z) as [Fz Vz]; [lia|]. assert (W0 : whole_value 1 (fz z) (qz z)) by (exists z; auto). pose proof (tick_rule_same HP W0) as HW. pose proof (Forall2_length HF) as LT.
  assert (W1 : whole_value 1 (fz 1) 1%Qc) by (destruct (@fz_spec 1) as [F1 V1]; [lia|]; exists 1%Z; repeat split; auto; lia).
  pose proof (@combine_const _ _ _ _ _ (fz 1) 1%Qc _ _ _ _ _ _ _ HW W1 LT) as HR. fold bv in HR. set (fbv := combine (ftick_rule (map ft_price fticks) (fz z)) (map (fun _ => fz 1) fticks)) in *.
  assert (LB : length bv = length ticks) by (unfold bv; rewrite combine_length, tick_rule_length, !map_length; lia). pose proof (Forall2_length HR) as LR. assert (LFB : (length fbv <= N)%nat) by lia.
  assert (NB : bv <> []) by (intro C; rewrite C in LB; destruct ticks; [congruence|discriminate]).
  set (head := firstn ET bv) in *. set (fhead := firstn ET fbv). pose proof (Forall2_firstn ET HR) as HH. fold head fhead in HH. pose proof (Forall2_length HH) as LH.
  assert (LH0 : (0 < length fhead <= N)%nat). { unfold fhead. rewrite firstn_length. destruct fbv; cbn [length] in *; [destruct bv; [congruence|discriminate]|lia]. }
  assert (FB : Forall2 (whole_value 1) (map snd (filter (fun x => flt (fz 0) (fst x)) fhead)) (map snd (filter (fun x => qlt 0 (fst x)) head))).
  { refine (Forall2_map_both _ _); [apply (Forall2_filter_both HH)|]; [intros x y [A _]; apply (pos_same A)|intros x y [_ A]; exact A]. }
  assert (FS : Forall2 (whole_value 1) (map snd (filter (fun x => flt (fst x) (fz 0)) fhead)) (map snd (filter (fun x => qlt (fst x) 0) head))).
  { refine (Forall2_map_both _ _); [apply (Forall2_filter_both HH)|]; [intros x y [A _]; apply (pos_same A)|intros x y [_ A]; exact A]. }
  assert (C53 : forall f : f64 * f64 -> bool, (Z.of_nat (length (map snd (filter f fhead))) <= 2 ^ 53)%Z). { intro f. rewrite map_length. assert (Z.of_nat (length (filter f fhead)) < 2 ^ 53)%Z; [|lia]. apply (@N53 N HN). pose proof (filter_len f fhead). lia. }
  set (fp := match fP0 with Some p => p | None => fdiv (fz (Z.of_nat (length (filter (fun x => flt (fz 0) (fst x)) fhead)))) (fz (Z.of_nat (length fhead))) end).
  set (feb := match fB0 with Some e => e | None => fnp_mean sum (map snd (filter (fun x => flt (fz 0) (fst x)) fhead)) end).
  set (fes := match fS0 with Some e => e | None => fnp_mean sum (map snd (filter (fun x => flt (fst x) (fz 0)) fhead)) end).
  assert (NP : exists p, fst (fst inits) = Some p /\ fin fp /\ 0 <= qr p <= 1 /\ Rabs (fv fp - qr p) <= 2 * u64).
  { unfold inits, runs_inits, fp. cbn [fst]. destruct AP as [[-> ->]|(x & y & -> & -> & Fx & Vx & Bx)].
    - assert (L53 : (Z.of_nat (length fhead) < 2 ^ 53)%Z) by (apply (@N53 N HN); lia). destruct (@ratio_near (length (filter (fun x => flt (fz 0) (fst x)) fhead)) (length fhead) (filter_len _ _) ltac:(lia) L53) as (A1 & A2 & A3 & A4).
      fold head. exists (qn (length (filter (fun x => qlt 0 (fst x)) head)) / qn (length head))%Qc. pose proof (Forall2_length FB) as L2. rewrite !map_length in L2. rewrite <- L2, <- LH. split; [|auto]. unfold np_div.
      destruct (qeq (qn (length fhead)) 0) eqn:EQ; auto. apply qeq_iff, (f_equal qr) in EQ. rewrite qr_n, qr_0 in EQ. assert (0 < INR (length fhead)) by (apply lt_0_INR; lia). lra.
    - exists y. split; auto. split; auto. split; auto. rewrite Vx, Rminus_diag_eq, Rabs_R0 by auto. lra. }
  assert (NEB : near_average feb (snd (fst inits))).
  { unfold inits, runs_inits, feb. cbn [fst snd]. destruct AB as [[-> ->]|(x & y & -> & -> & Fx & Vx & Bx)]; [apply near_mean; auto|]. split; auto. split; [apply Rabs_le; lra|]. rewrite Vx, Rminus_diag_eq, Rabs_R0 by auto. lra. }
  assert (NES : near_average fes (snd inits)).
  { unfold inits, runs_inits, fes. cbn [fst snd]. destruct AS as [[-> ->]|(x & y & -> & -> & Fx & Vx & Bx)]; [apply near_mean; auto|]. split; auto. split; [apply Rabs_le; lra|]. rewrite Vx, Rminus_diag_eq, Rabs_R0 by auto. lra. }
  destruct NP as (p & EP & Fp & Bp & Ep). set (span := match bs with Some b => b | None => (3 * Z.of_nat ET)%Z end) in *. assert (Hspan : (1 <= span)%Z) by (unfold span; destruct bs as [b|]; [now apply Hbs|lia]).
  assert (FL : float = option_map fst (fruns_sizes (FImbParams fmin fmax ET Ts span) fbv fp feb fes)) by reflexivity. clearbody fp feb fes float. subst float.
  pose proof (@tick_threshold N ET fp feb fes p (snd (fst inits)) (snd inits) HN (proj2 HET) Fp Bp Ep NEB NES) as THR.
  assert (IT : initial_runs_threshold ET inits = runs_threshold (qn ET) (Some p) (snd (fst inits)) (snd inits)).
  { clear - EP. destruct inits as [[p' e'] s']. cbn [fst snd] in *. subst p'. cbn [initial_runs_threshold]. unfold runs_threshold, omul, py_max. destruct e' as [e'|], s' as [s'|]; auto. rewrite <- qmax_py_eq. unfold qmax_py. now destruct (qlt (p * e') ((1 - p) * s')). }
  unfold exact. rewrite EP. destruct (@whole_runs N 1 fbv bv ET Ts span fmin min fmax max (Some p) (snd (fst inits)) (snd inits) fp feb fes HN ltac:(lia) HR LFB HTs Hspan Fm Vm Lim THR) as [A B]. split.
  - intros ends sizes thetas thrs EX MG. destruct (A ends sizes thetas thrs EX) as (fs & -> & _); [|reflexivity]. intros i theta t Hi E1 E2. rewrite Rmult_1_r. exact (MG i theta t Hi E1 E2).
  - intros EX MG. rewrite (B NB EX); [reflexivity|]. intros i t Hi E. rewrite Rmult_1_r. apply MG; [lia|]. now rewrite IT.
Qed.
Print Assumptions c139_tick_bars.
(** ** a stream that meets the hypotheses *)
Example c139_nonvacuous : exists sizes thetas thrs,
  compute_runs_bar_sizes (ImbParams 0%Qc None 4 0 12) (combine (tick_rule (map t_price (up_exact [10;9;8;9;10;11;10;9]%nat)) (qz 1)) (map (fun _ => 1%Qc) (up_exact [10;9;8;9;10;11;10;9]%nat))) (Some (q 5 8)) (Some (q 7 8)) (Some (q 7 8)) = Ok (([4; 7]%nat, sizes), (thetas, thrs)) /\
  (forall i theta t, (1 <= i)%nat -> nth_error thetas i = Some theta -> nth_error thrs i = Some (Some t) -> 50 * INR 8 ^ 3 * bpow radix2 (-53) < Rabs (qr theta - qr t)) /\
  fruns_ends fsum_left TICK (fz 0) (B754_infinity false) (fz 1) 4 (Some (ff 5 (-3))) (Some (ff 7 (-3))) (Some (ff 7 (-3))) 0 None (up_ticks [10;9;8;9;10;11;10;9]%nat) = Some [4; 7]%nat.
Proof.
  set (ps := [10;9;8;9;10;11;10;9]%nat).
  destruct (compute_runs_bar_sizes (ImbParams 0%Qc None 4 0 12) (combine (tick_rule (map t_price (up_exact ps)) (qz 1)) (map (fun _ => 1%Qc) (up_exact ps))) (Some (q 5 8)) (Some (q 7 8)) (Some (q 7 8))) as [((ends & sizes) & (thetas & thrs))|x] eqn:EX; [|vm_compute in EX; discriminate].
  assert (EE : ends = [4; 7]%nat) by (vm_compute in EX; congruence). subst ends. exists sizes, thetas, thrs. split; [reflexivity|].
  assert (MG : forall i theta t, (1 <= i)%nat -> nth_error thetas i = Some theta -> nth_error thrs i = Some (Some t) -> 50 * INR 8 ^ 3 * bpow radix2 (-53) < Rabs (qr theta - qr t)).
  { intros i theta t Hi E1 E2. apply Rlt_trans with (qr (q 1 10)).
    - assert (QE : qr (q 1 10) = / 10) by (unfold qr; replace (/ 10) with (Q2R (1 # 10)) by (unfold Q2R; cbn; lra); reflexivity). rewrite QE. replace (INR 8) with 8 by (cbn; lra). unfold bpow. change (Z.pow_pos radix2 53) with 9007199254740992%Z. lra.
    - revert i theta t Hi E1 E2. apply margin_check. vm_compute in EX. injection EX as <- <- <-. vm_compute. reflexivity. }
  split; [exact MG|]. assert (I8 : INR 8 = 8) by (cbn; lra).
  assert (EIGHTHS : forall m, (0 <= m <= 8)%Z -> fin (ff m (-3)) /\ fv (ff m (-3)) = IZR m / 8).
  { intros m Hm. assert (R8 : IZR m * bpow radix2 (-3) = IZR m / 8) by (cbn; lra). assert (0 <= IZR m <= 8) by (split; [apply (IZR_le 0)|apply (IZR_le m 8)]; lia). destruct (@ff_spec m (-3)) as [F V]; [rewrite R8, Rabs_right by lra; apply Rle_trans with (bpow radix2 0); [cbn [bpow]; lra|apply bpow_le; lia]|].
    split; auto. rewrite V, <- R8. apply rnd64_id. apply format64_float; lia. }
  assert (Q58 : qr (q 5 8) = 5 / 8) by (unfold qr; replace (5 / 8) with (Q2R (5 # 8)) by (unfold Q2R; cbn; lra); reflexivity).
  assert (Q78 : qr (q 7 8) = 7 / 8) by (unfold qr; replace (7 / 8) with (Q2R (7 # 8)) by (unfold Q2R; cbn; lra); reflexivity).
  destruct (@EIGHTHS 5%Z ltac:(lia)) as [F5 V5]. destruct (@EIGHTHS 7%Z ltac:(lia)) as [F7 V7].
  destruct (@c139_tick_bars fsum_left 8 (up_ticks ps) (up_exact ps) 1 (fz 0) 0%Qc (B754_infinity false) None 4 0 None (Some (ff 5 (-3))) (Some (q 5 8)) (Some (ff 7 (-3))) (Some (q 7 8)) (Some (ff 7 (-3))) (Some (q 7 8)) c126_left_sum) as [A _].
  - rewrite I8. split; [lra|]. change 8 with (bpow radix2 3). apply bpow_le. lia.
  - apply up_same. intros p Hp. repeat (destruct Hp as [<-|Hp]; [lia|]). destruct Hp.
  - apply Nat.leb_le. reflexivity.
  - lia.
  - reflexivity.
  - discriminate.
  - lia.
  - apply fz0.
  - rewrite (proj2 fz0). symmetry. apply qr_0.
  - reflexivity.
  - right. exists (ff 5 (-3)), (q 5 8). split; auto. split; auto. split; auto. rewrite V5, Q58. split; lra.
  - right. exists (ff 7 (-3)), (q 7 8). split; auto. split; auto. split; auto. rewrite V7, Q78. split; lra.
  - right. exists (ff 7 (-3)), (q 7 8). split; auto. split; auto. split; auto. rewrite V7, Q78. split; lra.
  - discriminate.
  - exact (A _ _ _ _ EX MG).
Qed.
(** without the margin the bars differ, with every argument at its default and whole prices: the third bar closes one tick later *)
Theorem c139_exact_refuted : ~ (forall fticks ticks fends ends sizes dbg ET,
  Forall2 (fun f t => fin (ft_price f) /\ fv (ft_price f) = qr (t_price t) /\ Rabs (fv (ft_price f)) <= bpow radix2 1022) fticks ticks ->
  fruns_ends fsum_left TICK (fz 0) (B754_infinity false) (fz 1) ET None None None 0 None fticks = Some fends ->
  (let bv := combine (tick_rule (map t_price ticks) (qz 1)) (map (fun _ => 1%Qc) ticks) in let inits := runs_inits ET None None None bv in
   compute_runs_bar_sizes (ImbParams 0%Qc None ET 0 (3 * Z.of_nat ET)) bv (fst (fst inits)) (snd (fst inits)) (snd inits) = Ok ((ends, sizes), dbg)) ->
  fends = ends).
Proof.
  intro H. set (ps := [10;9;10;9;10;9;10;11;10;11;12;13;14;13]%nat). assert (FE : fruns_ends fsum_left TICK (fz 0) (B754_infinity false) (fz 1) 5 None None None 0 None (up_ticks ps) = Some [4; 9; 13]%nat) by (vm_compute; reflexivity).
  destruct (let bv := combine (tick_rule (map t_price (up_exact ps)) (qz 1)) (map (fun _ => 1%Qc) (up_exact ps)) in let inits := runs_inits 5 None None None bv in
   compute_runs_bar_sizes (ImbParams 0%Qc None 5 0 (3 * Z.of_nat 5)) bv (fst (fst inits)) (snd (fst inits)) (snd inits)) as [((ends & sizes) & dbg)|x] eqn:EX; [|vm_compute in EX; discriminate].
  assert (EE : ends = [4; 9; 12; 13]%nat) by (vm_compute in EX; congruence). subst ends. assert (C := H _ _ _ _ _ _ 5%nat (@up_same ps ltac:(intros p Hp; cbn in Hp; repeat (destruct Hp as [<-|Hp]; [lia|]); destruct Hp)) FE EX). discriminate.
Qed.
Print Assumptions c139_exact_refuted.
