(** C138: imbalance bars in binary64. *)
From Coq Require Import ZArith QArith Qcanon Qreals Reals Lra Lia List Bool.
From Flocq Require Import Core BinarySingleNaN.
From Verif Require Import Py Num RNum Float64 FloatBarsModel FloatBarsProofs FloatBarsProps FloatHRPProofs FloatRetModel FloatRetProps FloatSeriesModel FloatSeriesProofs FloatSeriesProps FloatCusumProps FloatEwmaProps.
From Verif Require Import SeriesModel SeriesSpec SeriesProofs BarsModel BarsSpec BarsProofs InfoBarsProofs InfoBarsProps InfoTraceProps FloatInfoModel FloatInfoSpec FloatInfoProofs.
Import ListNotations.
Set Implicit Arguments.
Unset Strict Implicit.
Open Scope R_scope.

(** whatever the flow - also with infinities and NaN - the bars cut up the stream, each at the first tick where the compared floats allow it *)
Theorem c138_first_close P flow E_b : flow <> [] -> exists ends sizes, fimbalance_sizes P flow E_b = Some (ends, sizes) /\
  ends_at_first_close (fimbalance_trigger P E_b flow) (fsize_reached P flow) (length flow) ends /\ list_sum (bar_lengths 0 ends) = length flow /\
  ((Z.of_nat (length flow) <= 2 ^ 53)%Z -> Forall2 (fun x T => fin x /\ fv x = INR T) sizes (bar_lengths 0 ends)).
Proof.
  intro H. destruct (@fimbalance_sizes_ok P E_b flow H) as (ends & E & C & I). exists ends. eexists. split; [exact E|]. split; auto. split; [rewrite (incr_lengths I); lia|].
  intro L. destruct (incr_bounds I) as (_ & B & _). clear E C I. induction (bar_lengths 0 ends) as [|T l IH]; cbn [map]; [constructor|]. constructor; [|apply IH; intros; apply B; now right].
  destruct (@fz_spec (Z.of_nat T)) as [F V]; [specialize (B T (or_introl eq_refl)); lia|]. split; auto. rewrite V. symmetry. apply INR_IZR_INZ.
Qed.
Print Assumptions c138_first_close.

(** ** against the exact bars *)
Section Compare.
  Variables (N : nat) (M : R) (fflow : list f64) (flow : list Qc) (ET Ts : nat) (bs : Z) (fe : f64) (e : Qc).
  Hypothesis HN : 1 <= INR N <= bpow radix2 16.
  Hypothesis HM : bpow radix2 (-1000) <= M <= bpow radix2 900.
  Hypothesis HF : Forall2 (same_value M) fflow flow.
  Hypothesis HL : (length fflow <= N)%nat.
  Hypothesis HET : (ET <= N)%nat.
  Hypothesis HTs : (Z.of_nat Ts < 2 ^ 53)%Z.
  Hypothesis Hbs : (1 <= bs)%Z.
  Hypothesis Fe : fin fe.
  Hypothesis Ve : Rabs (fv fe - qr e) <= 13 * INR N ^ 2 * bpow radix2 (-53) * M.
  Hypothesis Be : Rabs (qr e) <= M.

  Lemma N20 : INR N <= bpow radix2 20.
  Proof. clear - HN. apply Rle_trans with (1 := proj2 HN). apply bpow_le. lia. Qed.
  Lemma N53 m : (m <= N)%nat -> (Z.of_nat m < 2 ^ 53)%Z.
  Proof. clear - HN. intro H. apply lt_IZR. rewrite <- INR_IZR_INZ. apply Rle_lt_trans with (INR N); [now apply le_INR|]. apply Rle_lt_trans with (1 := proj2 HN). change (IZR (2 ^ 53)) with (IZR (Zpower radix2 53)). rewrite IZR_Zpower by lia. apply bpow_lt. lia. Qed.
  Lemma product_finite x y c : 0 <= c <= 1 -> Rabs x <= INR N * (1 + c) -> Rabs y <= M * (1 + c) -> Rabs (x * y) <= big.
  Proof.
    intros Hc Hx Hy. pose proof (bpow_gt_0 radix2 (-1000)) as B0. rewrite Rabs_mult. apply Rle_trans with (bpow radix2 17 * bpow radix2 901); [|rewrite <- bpow_plus; apply bpow_le; lia].
    apply Rmult_le_compat; auto using Rabs_pos.
    - apply Rle_trans with (1 := Hx). replace (bpow radix2 17) with (bpow radix2 16 * 2) by (change 2 with (bpow radix2 1); now rewrite <- bpow_plus). apply Rmult_le_compat; lra.
    - apply Rle_trans with (1 := Hy). replace (bpow radix2 901) with (bpow radix2 900 * 2) by (change 2 with (bpow radix2 1); now rewrite <- bpow_plus). apply Rmult_le_compat; lra.
  Qed.
  Lemma c_small : 0 <= 13 * INR N ^ 2 * u64 <= 1.
  Proof.
    pose proof u64_pos as U. split; [apply Rmult_le_pos; [|lra]; nra|]. assert (Q : INR N ^ 2 <= bpow radix2 16 ^ 2) by (apply pow_incr; lra).
    apply Rle_trans with (13 * bpow radix2 16 ^ 2 * u64); [apply Rmult_le_compat_r; [lra|]; lra|]. unfold ulp64. change (bpow radix2 16) with 65536. cbn. lra.
  Qed.
  Lemma float_product x y X Y : fin x -> fin y -> Rabs X <= INR N -> Rabs Y <= M -> Rabs (fv x - X) <= 13 * INR N ^ 2 * u64 * INR N -> Rabs (fv y - Y) <= 13 * INR N ^ 2 * u64 * M ->
    fin (fmul x y) /\ Rabs (fv (fmul x y) - X * Y) <= 30 * INR N ^ 3 * u64 * M.
  Proof.
    intros Fx Fy BX BY Ex Ey. pose proof c_small as C. set (c := 13 * INR N ^ 2 * u64) in *.
    destruct (@fmul_spec x y Fx Fy) as [F V].
    - apply (@product_finite (fv x) (fv y) c C).
      + replace (fv x) with ((fv x - X) + X) by ring. apply Rle_trans with (1 := Rabs_triang _ _). lra.
      + replace (fv y) with ((fv y - Y) + Y) by ring. apply Rle_trans with (1 := Rabs_triang _ _). lra.
    - split; auto. apply (@product_error (INR N) M (fv x) (fv y) X Y); auto; [lra|]. rewrite V. apply rnd_abs_err.
  Qed.
  Lemma threshold_error hist : (length hist <= N)%nat -> (forall T, In T (bar_lengths 0 hist) -> (1 <= T <= N)%nat) -> (forall x, In x hist -> (1 <= x < length fflow)%nat) ->
    forall fmin fmax, exists t, imbalance_threshold ET Ts bs (Some e) flow hist = Some t /\ fin (fimbalance_threshold (FImbParams fmin fmax ET Ts bs) fe fflow hist) /\
      Rabs (fv (fimbalance_threshold (FImbParams fmin fmax ET Ts bs) fe fflow hist) - qr t) <= 30 * INR N ^ 3 * u64 * M.
  Proof.
    intros LH HT HX fmin fmax. pose proof (bpow_gt_0 radix2 (-1000)) as B0. pose proof u64_pos as U. pose proof c_small as CS. destruct hist as [|h0 hist'] eqn:EH.
    - exists (qn ET * e)%Qc. split; [reflexivity|]. cbn [fimbalance_threshold fm_E_T_init]. rewrite qr_mul, qr_n. destruct (@fz_spec (Z.of_nat ET)) as [F V]; [pose proof (N53 HET); lia|]. rewrite <- INR_IZR_INZ in V.
      apply float_product; auto.
      + rewrite Rabs_right by (apply Rle_ge, pos_INR). now apply le_INR.
      + rewrite V, Rminus_diag_eq, Rabs_R0 by auto. apply Rmult_le_pos; lra.
    - rewrite <- EH in *. assert (HNE : hist <> []) by (rewrite EH; discriminate). set (i := last hist 0%nat). assert (Hi : (1 <= i < length fflow)%nat) by (apply HX; apply last_in; auto).
      set (ts := if (Ts =? 0)%nat then length hist else Ts). assert (Hts : (1 <= Z.of_nat ts < 2 ^ 53)%Z). { unfold ts. destruct (Nat.eqb_spec Ts 0); [|lia]. split; [destruct hist; [congruence|cbn; lia]|]. now apply N53. }
      set (sp := Z.min bs (Z.of_nat (i + 1))). assert (Hsp : (1 <= sp < 2 ^ 53)%Z). { unfold sp. split; [lia|]. assert (Z.of_nat (i + 1) < 2 ^ 53)%Z by (apply N53; lia). lia. }
      exists (exp_weighted_mean (ewma_ratio (Z.of_nat ts)) (map qn (bar_lengths 0 hist)) * qabs (exp_weighted_mean (ewma_ratio sp) (firstn i flow)))%Qc.
      split; [unfold imbalance_threshold; rewrite EH; rewrite <- EH; reflexivity|].
      replace (fimbalance_threshold (FImbParams fmin fmax ET Ts bs) fe fflow hist) with (fmul (fewma_last (map (fun T => fz (Z.of_nat T)) (bar_lengths 0 hist)) (Z.of_nat ts)) (fabs (fewma_last (firstn i fflow) sp))) by (unfold fimbalance_threshold; rewrite EH; rewrite <- EH; reflexivity).
      assert (BLN : bar_lengths 0 hist <> []) by (rewrite EH; discriminate). assert (LB : length (bar_lengths 0 hist) = length hist) by apply bar_lengths_length.
      assert (F2T : Forall2 (same_value (INR N)) (map (fun T => fz (Z.of_nat T)) (bar_lengths 0 hist)) (map qn (bar_lengths 0 hist))).
      { clear - HT HN. induction (bar_lengths 0 hist) as [|T l IH]; cbn [map]; [constructor|]. constructor; [|apply IH; intros; apply HT; now right]. specialize (HT T (or_introl eq_refl)).
        destruct (@fz_spec (Z.of_nat T)) as [F V]; [assert (Z.of_nat T < 2 ^ 53)%Z by (apply N53; lia); lia|]. split; auto. rewrite V, qr_n, <- INR_IZR_INZ. split; auto. rewrite Rabs_right by (apply Rle_ge, pos_INR). apply le_INR. lia. }
      assert (NB : bpow radix2 (-1000) <= INR N <= bpow radix2 900). { split; [apply Rle_trans with (bpow radix2 0); [apply bpow_le; lia|cbn [bpow]; lra]|apply Rle_trans with (1 := proj2 HN); apply bpow_le; lia]. }
      assert (N1 : map (fun T => fz (Z.of_nat T)) (bar_lengths 0 hist) <> []) by (destruct (bar_lengths 0 hist); [congruence|discriminate]).
      assert (N2 : INR (length (map (fun T => fz (Z.of_nat T)) (bar_lengths 0 hist))) <= bpow radix2 20) by (rewrite map_length, LB; apply Rle_trans with (2 := N20); now apply le_INR).
      destruct (@fewma_last_error (Z.of_nat ts) (INR N) _ _ Hts NB N1 N2 F2T) as [FT ET'].
      assert (F2B : Forall2 (same_value M) (firstn i fflow) (firstn i flow)) by now apply Forall2_firstn. assert (LF : length (firstn i fflow) = i) by (rewrite firstn_length; lia).
      assert (N3 : firstn i fflow <> []) by (intro C; rewrite C in LF; cbn in LF; lia). assert (N4 : INR (length (firstn i fflow)) <= bpow radix2 20) by (rewrite LF; apply Rle_trans with (2 := N20); apply le_INR; lia).
      destruct (@fewma_last_error sp M _ _ Hsp HM N3 N4 F2B) as [FB EB].
      destruct (fabs_spec FB) as [FA VA]. rewrite qr_mul, qr_abs. rewrite map_length, LB in ET'. rewrite LF in EB.
      assert (SQ : forall m, (m <= N)%nat -> INR m ^ 2 <= INR N ^ 2) by (intros m Hm; apply pow_incr; split; [apply pos_INR|now apply le_INR]).
      apply float_product; auto.
      + apply exact_mean_bound; [lia|lra|destruct (bar_lengths 0 hist); [congruence|discriminate]|]. intros q Hq. apply in_map_iff in Hq. destruct Hq as (T & <- & IT). rewrite qr_n, Rabs_right by (apply Rle_ge, pos_INR). apply le_INR. now apply HT.
      + rewrite Rabs_Rabsolu. apply exact_mean_bound; [lia|lra|intro C; apply (f_equal (@length _)) in C; pose proof (Forall2_length F2B) as L2; rewrite LF, C in L2; cbn in L2; lia|]. intros q Hq.
        clear - F2B Hq. induction F2B as [|x y l1 l2 (_ & _ & B) F IH]; [destruct Hq|]. destruct Hq as [<-|Hq]; auto.
      + apply Rle_trans with (1 := ET'). apply Rmult_le_compat_r; [lra|]. apply Rmult_le_compat_r; [lra|]. apply Rmult_le_compat_l; [lra|]. now apply SQ.
      + rewrite VA. apply Rle_trans with (1 := Rabs_triang_inv2 _ _). apply Rle_trans with (1 := EB). apply Rmult_le_compat_r; [lra|]. apply Rmult_le_compat_r; [lra|]. apply Rmult_le_compat_l; [lra|]. apply SQ. lia.
  Qed.

  Variables (min : Qc) (max : option Qc) (fmin fmax : f64) (eps : R) (ends : list nat) (sizes thetas : list Qc) (thrs : list (option Qc)).
  Hypothesis SUM : forall s i, fin (fbar_sum fflow s i) /\ Rabs (fv (fbar_sum fflow s i) - qr (range_sum flow s i)) <= eps.
  Hypothesis SMIN : forall s i, flt (fbar_sum (map fabs fflow) s i) fmin = qlt (range_sum (map qabs flow) s i) min.
  Hypothesis SMAX : forall s i, fle fmax (fbar_sum (map fabs fflow) s i) = ge_max (range_sum (map qabs flow) s i) max.
  Hypothesis EX : compute_imbalance_bar_sizes (ImbParams min max ET Ts bs) flow (Some e) = Ok ((ends, sizes), (thetas, thrs)).
  Hypothesis MARGIN : forall i theta t, (1 <= i)%nat -> nth_error thetas i = Some theta -> nth_error thrs i = Some (Some t) -> eps + 30 * INR N ^ 3 * bpow radix2 (-53) * M < Rabs (qr theta - qr t).
  Lemma same_bars : exists fsizes, fimbalance_sizes (FImbParams fmin fmax ET Ts bs) fflow fe = Some (ends, fsizes) /\ Forall2 (fun x q => fin x /\ fv x = qr q) fsizes sizes.
  Proof.
    pose proof (Forall2_length HF) as LL. assert (NE : flow <> []) by (intro C; rewrite C in EX; discriminate). assert (FNE : fflow <> []) by (intro C; apply NE; rewrite C in LL; destruct flow; [auto|discriminate]).
    set (P := ImbParams min max ET Ts bs) in *. set (FP := FImbParams fmin fmax ET Ts bs).
    destruct (@compute_imbalance_ok P (Some e) flow Hbs NE) as (ends' & sizes' & dbg & E' & C & I & ES). rewrite EX in E'. injection E' as <- <- <-.
    destruct (@c124_imbalance_trace P flow (Some e) ends sizes thetas thrs Hbs EX) as (_ & _ & TR). destruct (incr_bounds I) as (LE & BL & BE).
    destruct (@c138_first_close FP fflow fe FNE) as (fends & fsizes & FE & FC & _ & FS).
    assert (EQ : fends = ends); [|subst fends; exists fsizes; split; auto].
    2:{ assert (F2 : Forall2 (fun x T => fin x /\ fv x = INR T) fsizes (bar_lengths 0 ends)) by (apply FS; assert (Z.of_nat (length fflow) < 2 ^ 53)%Z by (apply N53; lia); lia). rewrite ES. clear - F2. induction F2 as [|x T l1 l2 [F V] F2 IH]; cbn [map]; constructor; auto. rewrite qr_n. auto. }
    apply (first_close_unique FC). replace (length fflow) with (length flow) by auto. refine (first_close_transfer C _). intros k x i Ek Hi. set (hist := firstn k ends) in *. set (s := next_start hist) in *.
    assert (LK : (k < length ends)%nat) by (apply nth_error_Some; congruence).
    destruct (@threshold_error hist) with (fmin := fmin) (fmax := fmax) as (t & Et & Ft & Bt).
    { unfold hist. rewrite firstn_length. lia. } { unfold hist. rewrite bar_lengths_firstn. intros T HT. assert (IN : In T (bar_lengths 0 ends)) by (rewrite <- (firstn_skipn k (bar_lengths 0 ends)); apply in_or_app; now left). specialize (BL T IN). lia. }
    { intros y Hy. split; [exact (closed_ends_pos C LK Hy)|]. rewrite LL. apply BE. rewrite <- (firstn_skipn k ends). apply in_or_app. now left. }
    destruct (TR k x i Ek) as [T1 T2]; [fold hist; fold s; lia|]. fold hist in T1, T2. fold s in T1. cbn [im_E_T_init im_T_span im_b_span P] in T2. rewrite Et in T2.
    assert (i1 : (1 <= i)%nat) by (clear - Hi; lia). pose proof (@MARGIN i _ _ i1 T1 T2) as MG. rewrite qr_abs in MG. destruct (SUM s i) as [Fs Bs]. destruct (fabs_spec Fs) as [Fa Va].
    split.
    - unfold imbalance_trigger, fimbalance_trigger. cbn [im_E_T_init im_T_span im_b_span im_max P fm_max FP]. rewrite SMAX.
      assert (A : (exists t0, imbalance_threshold ET Ts bs (Some e) flow hist = Some t0 /\ (t0 <= qabs (range_sum flow s i))%Qc) <-> fle (fimbalance_threshold FP fe fflow hist) (fabs (fbar_sum fflow s i)) = true).
      { rewrite Et. transitivity (qr t <= Rabs (qr (range_sum flow s i))).
        - split; [intros (t0 & E0 & L0); injection E0 as <-; apply qr_le in L0; now rewrite qr_abs in L0|intro L0; exists t; split; auto; apply qr_le; now rewrite qr_abs].
        - fold FP in Ft, Bt. rewrite (fle_spec Ft Fa), Va. change (bpow radix2 (-53)) with u64 in MG. pose proof (Rabs_triang_inv2 (fv (fbar_sum fflow s i)) (qr (range_sum flow s i))) as TI.
          set (a := Rabs (fv (fbar_sum fflow s i))) in *. set (b := Rabs (qr (range_sum flow s i))) in *. set (g := 30 * INR N ^ 3 * u64 * M) in *. set (f := fv (fimbalance_threshold FP fe fflow hist)) in *. clearbody a b g f.
          apply Rabs_le_inv in Bt. assert (D : Rabs (a - b) <= eps) by lra. apply Rabs_le_inv in D. unfold Rabs in MG. destruct (Rcase_abs (b - qr t)); split; intro; lra. }
      rewrite A. unfold ge_max. destruct max as [m|]; split; (intros [H|H]; [now left|right]).
      + destruct H as (m0 & E0 & L0). injection E0 as <-. now apply qle_iff.
      + exists m. split; auto. now apply qle_iff.
      + destruct H as (m0 & E0 & _). discriminate.
      + discriminate.
    - unfold size_reached, fsize_reached. cbn [im_min P fm_min FP]. rewrite SMIN. rewrite qlt_false. reflexivity.
  Qed.
End Compare.

(** the limits of a bar's size: the same number, or no limit *)
Definition same_limit (x : f64) (q : option Qc) : Prop := match q with Some m => fin x /\ fv x = qr m | None => x = B754_infinity false end.
Lemma inf_le x : fin x -> fle (B754_infinity false) x = false.
Proof. destruct x as [s|s| |s m e H]; try (unfold fin; cbn [is_finite]; discriminate); intros _; destruct s; reflexivity. Qed.
Lemma fadd_finite x y : fin (fadd x y) -> fin x /\ fin y /\ fv (fadd x y) = rnd64 (fv x + fv y).
Proof.
  intro H. assert (F : fin x /\ fin y) by (unfold fin in *; destruct x as [[]|[]| |[] ? ? ?], y as [[]|[]| |[] ? ? ?]; auto; discriminate). destruct F as [Fx Fy]. split; auto. split; auto.
  pose proof (Bplus_correct 53 1024 _ _ mode_NE x y Fx Fy) as C. change (round_mode mode_NE) with ZnearestE in C. change (SpecFloat.fexp 53 1024) with fexp64 in C. fold (fv x) (fv y) in C.
  destruct (Rlt_bool _ _); [apply C|]. destruct C as [C _]. fold (fadd x y) in C. unfold fin in H. destruct (fadd x y); cbn in C; try discriminate; destruct (Bsign x); discriminate.
Qed.
Lemma fold_nonneg l : (forall x, In x l -> 0 <= fv x) -> forall acc, 0 <= fv acc -> fin (fold_left fadd l acc) -> 0 <= fv (fold_left fadd l acc).
Proof.
  assert (G : forall l acc, fin (fold_left fadd l acc) -> fin acc) by (clear; intro l; induction l as [|x k IH]; intros acc H; [exact H|]; apply IH in H; apply fadd_finite in H; tauto).
  induction l as [|x k IH]; intros HX acc HA H; [exact HA|]. cbn [fold_left] in *. apply IH; auto; [intros; apply HX; now right|]. destruct (fadd_finite (G _ _ H)) as (_ & _ & ->).
  rewrite <- rnd64_0. apply rnd64_mono. specialize (HX x (or_introl eq_refl)). lra.
Qed.
Lemma fabs_value x : 0 <= fv (fabs x).
Proof. destruct x as [s|s| |s m e H]; try (apply Rle_refl). destruct (@fabs_spec (B754_finite s m e H) eq_refl) as [_ V]. rewrite V. apply Rabs_pos. Qed.
Lemma fbar_abs_nonneg l s i : fin (fbar_sum (map fabs l) s i) -> 0 <= fv (fbar_sum (map fabs l) s i).
Proof.
  unfold fbar_sum. assert (IN : forall x, In x (firstn (S i - s) (skipn s (map fabs l))) -> 0 <= fv x).
  { intros x Hx. assert (IN : In x (map fabs l)). { rewrite <- (firstn_skipn s (map fabs l)). apply in_or_app. right. rewrite <- (firstn_skipn (S i - s) (skipn s (map fabs l))). apply in_or_app. now left. }
    apply in_map_iff in IN. destruct IN as (y & <- & _). apply fabs_value. }
  destruct fz0 as [F0 V0]. destruct (firstn (S i - s) (skipn s (map fabs l))) as [|x r]; [intros _; rewrite V0; lra|]. intro H. pose proof (IN x (or_introl eq_refl)) as PX. apply fold_nonneg; auto; [intros; apply IN; now right|].
  destruct (s =? 0)%nat; auto. assert (G : forall l acc, fin (fold_left fadd l acc) -> fin acc) by (clear; intro l; induction l as [|x k IH]; intros acc H; [exact H|]; apply IH in H; apply fadd_finite in H; tauto).
  destruct (fadd_finite (G _ _ H)) as (_ & _ & ->). rewrite <- rnd64_0. apply rnd64_mono. lra.
Qed.
Lemma range_abs_nonneg l s i : (0 <= range_sum (map qabs l) s i)%Qc.
Proof.
  unfold range_sum. apply qsum_nonneg. intros x Hx. assert (IN : In x (map qabs l)). { rewrite <- (firstn_skipn s (map qabs l)). apply in_or_app. right. rewrite <- (firstn_skipn (S i - s) (skipn s (map qabs l))). apply in_or_app. now left. }
  apply in_map_iff in IN. destruct IN as (y & <- & _). apply qr_le. rewrite qr_0, qr_abs. apply Rabs_pos.
Qed.
Lemma same_value_abs M l qs : Forall2 (same_value M) l qs -> Forall2 (same_value M) (map fabs l) (map qabs qs).
Proof. induction 1 as [|x q l qs (F & V & B) H IH]; cbn [map]; constructor; auto. destruct (fabs_spec F) as [F' V']. split; auto. rewrite V', qr_abs, V, Rabs_Rabsolu. auto. Qed.
Lemma whole_value_abs m l qs : Forall2 (whole_value m) l qs -> Forall2 (whole_value m) (map fabs l) (map qabs qs).
Proof.
  induction 1 as [|x q l qs (z & F & V & -> & B) H IH]; cbn [map]; constructor; auto. destruct (fabs_spec F) as [F' V']. exists (Z.abs z). split; auto. rewrite V', V, <- abs_IZR. split; auto. split; [|lia].
  destruct (Z.abs_spec z) as [[Z0 ->]|[Z0 ->]]; [apply qabs_pos; rewrite <- qz_0; now apply qz_le|]. rewrite qz_opp. apply qabs_neg. rewrite <- qz_0. apply qz_le. lia.
Qed.
Lemma whole_same m l qs : Forall2 (whole_value m) l qs -> Forall2 (same_value (IZR m)) l qs.
Proof. induction 1 as [|x q l qs (z & F & V & -> & B) H IH]; constructor; auto. split; auto. rewrite qr_z, V. split; auto. rewrite <- abs_IZR. now apply IZR_le. Qed.

(** comparisons that a margin decides *)
Lemma lt_decided x y a b d : fin x -> fin y -> fv y = b -> Rabs (fv x - a) <= d -> (d < Rabs (a - b) \/ d = 0) -> (flt x y = true <-> a < b).
Proof. intros Fx Fy Vy H D. rewrite (flt_spec Fx Fy), Vy. apply Rabs_le_inv in H. unfold Rabs in D. destruct (Rcase_abs (a - b)); lra. Qed.
Lemma le_decided x y a b d : fin x -> fin y -> fv y = b -> Rabs (fv x - a) <= d -> (d < Rabs (a - b) \/ d = 0) -> (fle y x = true <-> b <= a).
Proof. intros Fx Fy Vy H D. rewrite (fle_spec Fy Fx), Vy. apply Rabs_le_inv in H. unfold Rabs in D. destruct (Rcase_abs (a - b)); lra. Qed.
Lemma bool_iff (a b : bool) : (a = true <-> b = true) -> a = b.
Proof. destruct a, b; intuition. Qed.

(** Where the exact imbalance stays away from the exact thresholds, and the sizes of bars from their limits, the float bars are the exact bars *)
Theorem c138_same_bars N M fflow flow ET Ts bs fe e fmin min fmax max ends sizes thetas thrs : 1 <= INR N <= bpow radix2 16 -> bpow radix2 (-1000) <= M <= bpow radix2 900 ->
  Forall2 (same_value M) fflow flow -> (length fflow <= N)%nat -> (ET <= N)%nat -> (Z.of_nat Ts < 2 ^ 53)%Z -> (1 <= bs)%Z -> fin fe -> Rabs (fv fe - qr e) <= 13 * INR N ^ 2 * bpow radix2 (-53) * M -> Rabs (qr e) <= M ->
  fin fmin -> fv fmin = qr min -> same_limit fmax max ->
  compute_imbalance_bar_sizes (ImbParams min max ET Ts bs) flow (Some e) = Ok ((ends, sizes), (thetas, thrs)) ->
  (forall i theta t, (1 <= i)%nat -> nth_error thetas i = Some theta -> nth_error thrs i = Some (Some t) -> 32 * INR N ^ 3 * bpow radix2 (-53) * M < Rabs (qr theta - qr t)) ->
  (forall s i, (min <= 0)%Qc \/ 2 * INR N ^ 2 * bpow radix2 (-53) * M < Rabs (qr (range_sum (map qabs flow) s i) - qr min)) ->
  (forall s i m, max = Some m -> 2 * INR N ^ 2 * bpow radix2 (-53) * M < Rabs (qr (range_sum (map qabs flow) s i) - qr m)) ->
  exists fsizes, fimbalance_sizes (FImbParams fmin fmax ET Ts bs) fflow fe = Some (ends, fsizes) /\ Forall2 (fun x q => fin x /\ fv x = qr q) fsizes sizes.
Proof.
  intros HN HM HF HL HET HTs Hbs Fe Ve Be Fm Vm Lim EX MARGIN MIN MAX. change (bpow radix2 (-53)) with u64 in *. pose proof (bpow_gt_0 radix2 (-1000)) as B0. assert (HM0 : 0 <= M <= bpow radix2 900) by lra.
  pose proof (fun s i => @bar_sum_error N M HN HM0 fflow flow s i HF HL) as SUM. assert (HLA : (length (map fabs fflow) <= N)%nat) by now rewrite map_length.
  pose proof (fun s i => @bar_sum_error N M HN HM0 _ _ s i (same_value_abs HF) HLA) as ABS.
  apply (@same_bars N M fflow flow ET Ts bs fe e HN HM HF HL HET HTs Hbs Fe Ve Be min max fmin fmax (2 * INR N ^ 2 * u64 * M) ends sizes thetas thrs); auto.
  - intros s i. destruct (ABS s i) as [F B]. apply bool_iff. rewrite qlt_iff. destruct (MIN s i) as [H|H].
    + pose proof (@range_abs_nonneg flow s i) as P. rewrite (flt_spec F Fm), Vm. pose proof (fbar_abs_nonneg F) as P2. assert (qr min <= 0) by (rewrite <- qr_0; now apply qr_le). split; [lra|]. intro. exfalso. qlra.
    + rewrite (lt_decided F Fm Vm B (or_introl H)). symmetry. apply qr_lt.
  - intros s i. destruct (ABS s i) as [F B]. destruct max as [m|]; cbn [same_limit ge_max] in *.
    + destruct Lim as [Fx Vx]. apply bool_iff. rewrite qle_iff, (le_decided F Fx Vx B (or_introl (MAX s i m eq_refl))). symmetry. apply qr_le.
    + subst fmax. now apply inf_le.
  - intros i theta t Hi E1 E2. pose proof (MARGIN i theta t Hi E1 E2) as MG. change (bpow radix2 (-53)) with u64 in MG |- *. apply Rle_lt_trans with (2 := MG). pose proof u64_pos as U.
    assert (Q : INR N ^ 2 <= INR N ^ 3) by (apply Rle_pow; [lra|lia]). assert (Q2 : INR N ^ 2 * (u64 * M) <= INR N ^ 3 * (u64 * M)) by (apply Rmult_le_compat_r; [apply Rmult_le_pos; lra|exact Q]). lra.
Qed.
Print Assumptions c138_same_bars.
(** With whole numbers - ticks, or whole volumes - the sums and sizes are exact and only the thresholds are rounded *)
Theorem c138_same_bars_whole N m fflow flow ET Ts bs fe e fmin min fmax max ends sizes thetas thrs : 1 <= INR N <= bpow radix2 16 -> (1 <= m <= 2 ^ 37)%Z ->
  Forall2 (whole_value m) fflow flow -> (length fflow <= N)%nat -> (ET <= N)%nat -> (Z.of_nat Ts < 2 ^ 53)%Z -> (1 <= bs)%Z -> fin fe -> Rabs (fv fe - qr e) <= 13 * INR N ^ 2 * bpow radix2 (-53) * IZR m -> Rabs (qr e) <= IZR m ->
  fin fmin -> fv fmin = qr min -> same_limit fmax max ->
  compute_imbalance_bar_sizes (ImbParams min max ET Ts bs) flow (Some e) = Ok ((ends, sizes), (thetas, thrs)) ->
  (forall i theta t, (1 <= i)%nat -> nth_error thetas i = Some theta -> nth_error thrs i = Some (Some t) -> 30 * INR N ^ 3 * bpow radix2 (-53) * IZR m < Rabs (qr theta - qr t)) ->
  exists fsizes, fimbalance_sizes (FImbParams fmin fmax ET Ts bs) fflow fe = Some (ends, fsizes) /\ Forall2 (fun x q => fin x /\ fv x = qr q) fsizes sizes.
Proof.
  intros HN Hm HF HL HET HTs Hbs Fe Ve Be Fm Vm Lim EX MARGIN. assert (HM : bpow radix2 (-1000) <= IZR m <= bpow radix2 900).
  { split; [apply Rle_trans with (bpow radix2 0); [apply bpow_le; lia|cbn [bpow]; apply (IZR_le 1); lia]|]. apply Rle_trans with (bpow radix2 37); [change (bpow radix2 37) with (IZR (2 ^ 37)); apply IZR_le; lia|apply bpow_le; lia]. }
  assert (LZ : (Z.of_nat (length fflow) * m <= 2 ^ 53)%Z).
  { assert (Z.of_nat (length fflow) <= 2 ^ 16)%Z; [|nia]. apply le_IZR. rewrite <- INR_IZR_INZ. change (IZR (2 ^ 16)) with (bpow radix2 16). apply Rle_trans with (2 := proj2 HN). now apply le_INR. }
  assert (m0 : (0 <= m)%Z) by lia. assert (SUM : forall s i, fin (fbar_sum fflow s i) /\ Rabs (fv (fbar_sum fflow s i) - qr (range_sum flow s i)) <= 0).
  { intros s i. destruct (@bar_sum_whole m fflow flow s i HF m0 LZ) as [F V]. split; auto. rewrite V, Rminus_diag_eq, Rabs_R0 by auto. lra. }
  assert (ABS : forall s i, fin (fbar_sum (map fabs fflow) s i) /\ Rabs (fv (fbar_sum (map fabs fflow) s i) - qr (range_sum (map qabs flow) s i)) <= 0).
  { intros s i. destruct (@bar_sum_whole m (map fabs fflow) (map qabs flow) s i (whole_value_abs HF) m0) as [F V]; [now rewrite map_length|]. split; auto. rewrite V, Rminus_diag_eq, Rabs_R0 by auto. lra. }
  apply (@same_bars N (IZR m) fflow flow ET Ts bs fe e HN HM (whole_same HF) HL HET HTs Hbs Fe Ve Be min max fmin fmax 0 ends sizes thetas thrs); auto.
  - intros s i. destruct (ABS s i) as [F B]. apply bool_iff. rewrite qlt_iff, (lt_decided F Fm Vm B (or_intror eq_refl)). symmetry. apply qr_lt.
  - intros s i. destruct (ABS s i) as [F B]. destruct max as [mx|]; cbn [same_limit ge_max] in *.
    + destruct Lim as [Fx Vx]. apply bool_iff. rewrite qle_iff, (le_decided F Fx Vx B (or_intror eq_refl)). symmetry. apply qr_le.
    + subst fmax. now apply inf_le.
  - intros. rewrite Rplus_0_l. eauto.
Qed.
Print Assumptions c138_same_bars_whole.
