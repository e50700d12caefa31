From Coq Require Import ZArith QArith Qcanon Qreals Reals Lra Lia List Bool.
From Flocq Require Import Core BinarySingleNaN.
From Verif Require Import Py Num RNum Float64 FloatBarsModel FloatBarsProofs FloatHRPProofs FloatRetModel FloatRetProps FloatSeriesModel FloatSeriesProofs FloatSeriesProps FloatCusumProps FloatEwmaProps.
From Verif Require Import SeriesModel SeriesSpec SeriesProofs BarsModel BarsSpec BarsProofs InfoBarsProofs FloatInfoModel FloatInfoSpec.
Import ListNotations.
Set Implicit Arguments.
Unset Strict Implicit.
Open Scope R_scope.

(** ** the bar ends under a closing rule are unique, and two rules that agree along the run give the same ends *)
Lemma first_close_firstn trig big n e1 e2 : ends_at_first_close trig big n e1 -> ends_at_first_close trig big n e2 ->
  forall k, (k <= length e1)%nat -> firstn k e1 = firstn k e2.
Proof.
  intros (N & L1 & A1) (_ & L2 & A2). induction k as [|k IH]; intro Hk; [reflexivity|]. specialize (IH ltac:(lia)).
  destruct (nth_error e1 k) as [x|] eqn:E1; [|apply nth_error_None in E1; lia].
  assert (FS : forall (l : list nat) y, nth_error l k = Some y -> firstn (S k) l = firstn k l ++ [y]).
  { clear. induction k as [|k IH]; intros [|a l] y H; cbn in H; try discriminate; [injection H as <-; reflexivity|]. cbn [firstn app]. f_equal. now apply IH. }
  destruct (nth_error e2 k) as [y|] eqn:E2.
  - rewrite (FS _ _ E1), (FS _ _ E2), IH. f_equal. f_equal. destruct (A1 k x E1) as (S1 & B1 & C1 & D1). destruct (A2 k y E2) as (S2 & B2 & C2 & D2). rewrite IH in *.
    destruct (lt_eq_lt_dec x y) as [[LT|]|LT]; auto; exfalso.
    + destruct D1 as [D1|[_ ->]]; [exact (C2 x LT D1)|lia].
    + destruct D2 as [D2|[_ ->]]; [exact (C1 y LT D2)|lia].
  - exfalso. apply nth_error_None in E2. assert (LE : length e2 = k). { assert (F : length (firstn k e1) = length (firstn k e2)) by now rewrite IH. rewrite !firstn_length in F. lia. }
    destruct k as [|k]; [destruct e2; [|discriminate]; discriminate|]. rewrite LE in L2. replace (S k - 1)%nat with k in L2 by lia.
    destruct (A1 (S k) x E1) as (S1 & B1 & _). assert (NS : next_start (firstn (S k) e1) = S (n - 1)).
    { rewrite IH. replace (firstn (S k) e2) with (firstn k e2 ++ [(n - 1)%nat]); [apply next_start_snoc|]. clear - L2. revert e2 L2. induction k as [|k IH]; intros [|a l] H; cbn in H; try discriminate; [injection H as ->; reflexivity|]. cbn [firstn app] in *. f_equal. now apply IH. }
    lia.
Qed.
Lemma first_close_unique trig big n e1 e2 : ends_at_first_close trig big n e1 -> ends_at_first_close trig big n e2 -> e1 = e2.
Proof.
  intros H1 H2. assert (A : firstn (length e1) e1 = firstn (length e1) e2) by (eapply first_close_firstn; eauto).
  assert (B : firstn (length e2) e2 = firstn (length e2) e1) by (eapply first_close_firstn; eauto).
  rewrite firstn_all in *. destruct (Nat.le_ge_cases (length e1) (length e2)) as [L|L].
  - rewrite (firstn_all2 e1) in B by auto. auto.
  - rewrite (firstn_all2 e2) in A by auto. auto.
Qed.
Lemma first_close_transfer trig1 big1 trig2 big2 n ends : ends_at_first_close trig1 big1 n ends ->
  (forall k e i, nth_error ends k = Some e -> (Nat.max 1 (next_start (firstn k ends)) <= i <= e)%nat ->
     (trig1 (firstn k ends) (next_start (firstn k ends)) i <-> trig2 (firstn k ends) (next_start (firstn k ends)) i) /\
     (big1 (next_start (firstn k ends)) i <-> big2 (next_start (firstn k ends)) i)) ->
  ends_at_first_close trig2 big2 n ends.
Proof.
  intros (N & L & A) H. split; auto. split; auto. intros k e E. destruct (A k e E) as (A1 & A2 & A3 & A4). split; auto. split; auto.
  assert (G : forall i, (i <= e)%nat -> may_close trig1 big1 (firstn k ends) i <-> may_close trig2 big2 (firstn k ends) i).
  { intros i Hi. unfold may_close. split; intros (M1 & M2 & j & M3 & M4); (split; [exact M1|]; split; [apply (H k e i E); [lia|exact M2]|]; exists j; split; [exact M3|]; apply (H k e j E); [lia|exact M4]). }
  split; [intros i Hi C; apply (A3 i Hi); now apply G; [lia|]|]. destruct A4 as [A4|A4]; [left; now apply G|now right].
Qed.

(** ** the loop: bars end at the first tick where they may close *)
Section FImb.
  Variables (P : fimb_params) (E_b : f64) (flow : list f64).
  Notation fimbalance_threshold := (fimbalance_threshold P E_b flow).
  Notation fimbalance_trigger := (fimbalance_trigger P E_b flow).
  Notation fsize_reached := (fsize_reached P flow).
  Definition fpartial (l : list f64) (s i : nat) : f64 := if (s <? i)%nat then fbar_sum l s (i - 1) else fz 0.
  Lemma fpartial_step l s i b : (s <= i)%nat -> (1 <= i)%nat -> nth_error l i = Some b -> fbar_sum l s i = fadd (fpartial l s i) b.
  Proof.
    intros Hs Hi Hn. unfold fbar_sum, fpartial.
    assert (E : firstn (S i - s) (skipn s l) = firstn (i - s) (skipn s l) ++ [b]).
    { replace (S i - s)%nat with (S (i - s))%nat by lia.
      assert (N : nth_error (skipn s l) (i - s) = Some b). { rewrite nth_error_skipn. replace (s + (i - s))%nat with i by lia. auto. }
      revert N. generalize (skipn s l) (i - s)%nat. clear. intros l m. revert l.
      induction m as [|m IH]; intros [|x l] N; cbn in N; try discriminate; [inversion N; subst; reflexivity|]. cbn [firstn app]. f_equal. now apply IH. }
    rewrite E. destruct (Nat.ltb_spec s i).
    - unfold fbar_sum. replace (S (i - 1) - s)%nat with (i - s)%nat by lia. destruct (firstn (i - s) (skipn s l)) as [|x r] eqn:F.
      + exfalso. apply (f_equal (@length _)) in F. rewrite firstn_length, skipn_length in F. assert (i < length l)%nat by (apply nth_error_Some; congruence). cbn in F. lia.
      + cbn [app]. rewrite fold_left_app. reflexivity.
    - assert (s = i) by lia. subst s. rewrite Nat.sub_diag. cbn [firstn app fold_left]. destruct (Nat.eqb_spec i 0); [lia|]. reflexivity.
  Qed.
  Lemma fpartial_next l s i : (s <= i)%nat -> fpartial l s (S i) = fbar_sum l s i.
  Proof. intro H. unfold fpartial. destruct (Nat.ltb_spec s (S i)); [|lia]. f_equal. lia. Qed.
  Lemma fpartial_empty l s : fpartial l s s = fz 0.
  Proof. unfold fpartial. now rewrite Nat.ltb_irrefl. Qed.

  Let trig := fimbalance_trigger.
  Let reached := fsize_reached.
  Record fimb_inv (i : nat) (s : fimb_state) : Prop := {
    fii_start : fi_start s = next_start (rev (fi_ends s));
    fii_le : (fi_start s <= i)%nat;
    fii_pos : (1 <= i)%nat;
    fii_T : rev (fi_T s) = map (fun T => fz (Z.of_nat T)) (bar_lengths 0 (rev (fi_ends s)));
    fii_theta : fi_theta s = fpartial flow (fi_start s) i;
    fii_size : fi_size s = fpartial (map fabs flow) (fi_start s) i;
    fii_thr : fi_thr s = fimbalance_threshold (rev (fi_ends s));
    fii_pad : fi_pad s = true <-> exists j, (Nat.max 1 (fi_start s) <= j < i)%nat /\ trig (rev (fi_ends s)) (fi_start s) j;
    fii_open : forall j, (j < i)%nat -> ~ may_close trig reached (rev (fi_ends s)) j;
    fii_first : all_first trig reached (rev (fi_ends s)) }.

  Lemma fimb_init_inv b0 rest : flow = b0 :: rest -> fimb_inv 1 (fimb_init P E_b b0).
  Proof.
    intro Ef. constructor; cbn [fi_start fi_ends fi_T fi_theta fi_size fi_thr fi_pad fimb_init rev]; auto; try lia.
    - rewrite Ef. reflexivity.
    - rewrite Ef. reflexivity.
    - split; [discriminate|]. intros [j [H _]]. cbn in H. lia.
    - intros j Hj [H _]. cbn in H. lia.
    - intros [|k] e; discriminate.
  Qed.
  Lemma fimb_step_inv i b s : nth_error flow i = Some b -> fimb_inv i s -> fimb_inv (S i) (fimb_step P flow i b s).
  Proof.
    intros Hb [I1 I2 I3 I4 I5 I6 I7 I8 I9 I10].
    assert (Hi : (i < length flow)%nat) by (apply nth_error_Some; congruence).
    pose proof (fpartial_step I2 I3 Hb) as Eth. rewrite <- I5 in Eth.
    assert (Hb' : nth_error (map fabs flow) i = Some (fabs b)) by now apply map_nth_error.
    pose proof (fpartial_step I2 I3 Hb') as Esz. rewrite <- I6 in Esz.
    unfold fimb_step. cbv zeta. rewrite <- Eth, <- Esz.
    set (fire := fle (fi_thr s) (fabs (fbar_sum flow (fi_start s) i)) || fle (fm_max P) (fbar_sum (map fabs flow) (fi_start s) i) || fi_pad s).
    assert (Hfire : fire = true <-> exists j, (Nat.max 1 (fi_start s) <= j <= i)%nat /\ trig (rev (fi_ends s)) (fi_start s) j).
    { unfold fire. rewrite I7, !orb_true_iff. change (fle (fimbalance_threshold (rev (fi_ends s))) (fabs (fbar_sum flow (fi_start s) i)) = true \/ fle (fm_max P) (fbar_sum (map fabs flow) (fi_start s) i) = true) with (trig (rev (fi_ends s)) (fi_start s) i). rewrite I8. split.
      - intros [H|[j [Hj H]]]; [exists i; split; auto; lia|exists j; split; auto; lia].
      - intros [j [Hj H]]. destruct (Nat.eq_dec j i) as [->|N]; [now left|]. right. exists j. split; auto. lia. }
    destruct fire eqn:Ef.
    - assert (Hf : exists j, (Nat.max 1 (fi_start s) <= j <= i)%nat /\ trig (rev (fi_ends s)) (fi_start s) j) by now apply Hfire.
      destruct (flt (fbar_sum (map fabs flow) (fi_start s) i) (fm_min P)) eqn:Es.
      + constructor; cbn [fi_start fi_ends fi_T fi_theta fi_size fi_thr fi_pad]; auto; try lia.
        * symmetry. now apply fpartial_next.
        * symmetry. now apply fpartial_next.
        * split; auto. intros _. destruct Hf as [j [Hj H]]. exists j. split; auto. lia.
        * intros j Hj. destruct (Nat.eq_dec j i) as [->|N]; [|apply I9; lia].
          intros [_ [Hbig _]]. unfold reached, FloatInfoSpec.fsize_reached in Hbig. rewrite <- I1 in Hbig. congruence.
      + assert (HL : rev (fz (Z.of_nat (i - fi_start s + 1)) :: fi_T s) = map (fun T => fz (Z.of_nat T)) (bar_lengths 0 (rev (fi_ends s) ++ [i]))).
        { cbn [rev]. rewrite bar_lengths_snoc0, map_app, I4, I1. cbn [map]. do 4 f_equal. rewrite <- I1. lia. }
        assert (Hclose : may_close trig reached (rev (fi_ends s)) i).
        { unfold may_close. rewrite <- I1. split; [lia|]. split; auto. }
        constructor; cbn [fi_start fi_ends fi_T fi_theta fi_size fi_thr fi_pad rev]; auto; try lia.
        * now rewrite next_start_snoc.
        * now rewrite fpartial_empty.
        * now rewrite fpartial_empty.
        * cbn [rev] in HL. rewrite HL. unfold fimb_threshold, FloatInfoSpec.fimbalance_threshold. destruct (rev (fi_ends s) ++ [i]) eqn:E; [destruct (rev (fi_ends s)); discriminate|]. rewrite <- E.
          rewrite map_length, bar_lengths_length, last_last. reflexivity.
        * split; [discriminate|]. intros [j [Hj _]]. lia.
        * intros j Hj [H _]. rewrite next_start_snoc in H. lia.
        * apply all_first_snoc; auto. now rewrite <- I1.
    - assert (Hf : ~ exists j, (Nat.max 1 (fi_start s) <= j <= i)%nat /\ trig (rev (fi_ends s)) (fi_start s) j).
      { intro C. apply Hfire in C. discriminate. }
      constructor; cbn [fi_start fi_ends fi_T fi_theta fi_size fi_thr fi_pad]; auto; try lia.
      + symmetry. now apply fpartial_next.
      + symmetry. now apply fpartial_next.
      + split.
        * intro H. apply I8 in H. destruct H as [j [Hj H]]. exists j. split; auto. lia.
        * intros [j [Hj H]]. exfalso. apply Hf. exists j. split; auto. lia.
      + intros j Hj. destruct (Nat.eq_dec j i) as [->|N]; [|apply I9; lia].
        intros [_ [_ H]]. rewrite <- I1 in H. auto.
  Qed.
  Lemma fimb_loop_inv rest : forall i s, skipn i flow = rest -> fimb_inv i s -> (i <= length flow)%nat -> fimb_inv (length flow) (fimb_loop P flow rest i s).
  Proof.
    induction rest as [|b rest IH]; intros i s Hr Hi Hle; cbn [fimb_loop].
    - assert (i = length flow). { apply (f_equal (@length _)) in Hr. rewrite skipn_length in Hr. cbn in Hr. lia. } now subst i.
    - assert (Hb : nth_error flow i = Some b). { pose proof (nth_error_skipn flow i 0) as H. rewrite Hr, Nat.add_0_r in H. cbn in H. congruence. }
      apply IH; [|now apply fimb_step_inv|apply nth_error_Some; congruence].
      replace (S i) with (1 + i)%nat by lia. rewrite <- skipn_skipn, Hr. reflexivity.
  Qed.
  Lemma fimbalance_sizes_ok : flow <> [] -> exists ends, fimbalance_sizes P flow E_b = Some (ends, map (fun T => fz (Z.of_nat T)) (bar_lengths 0 ends)) /\
    ends_at_first_close trig reached (length flow) ends /\ incr_from (length flow) 0 ends.
  Proof.
    intro Hne. assert (exists b0 rest, flow = b0 :: rest) as [b0 [rest Ef]] by (destruct flow as [|b0 rest]; [congruence|eauto]).
    assert (Hr : skipn 1 flow = rest) by (rewrite Ef; reflexivity). assert (Hl : (1 <= length flow)%nat) by (rewrite Ef; cbn; lia).
    pose proof (fimb_loop_inv Hr (fimb_init_inv Ef) Hl) as Hi. set (s := fimb_loop P flow rest 1 (fimb_init P E_b b0)) in *.
    assert (EC : fimbalance_sizes P flow E_b = Some (if (fi_start s <? length flow)%nat then (rev (fi_ends s) ++ [(length flow - 1)%nat], rev (fi_T s) ++ [fz (Z.of_nat (length flow - fi_start s))]) else (rev (fi_ends s), rev (fi_T s)))).
    { unfold s. rewrite Ef. reflexivity. }
    clearbody s. rewrite EC. destruct Hi as [I1 I2 I3 I4 I5 I6 I7 I8 I9 I10].
    pose proof (finish_ends (n := length flow) (h := rev (fi_ends s)) Hl I10 ltac:(lia) I9) as [F1 F2]. rewrite I1 in *.
    destruct (next_start (rev (fi_ends s)) <? length flow)%nat eqn:EL.
    - eexists. split; [|split; eauto]. rewrite bar_lengths_snoc0, map_app, I4. cbn [map]. do 5 f_equal. f_equal. lia.
    - eexists. split; [|split; eauto]. now rewrite I4.
  Qed.
End FImb.

(** ** errors of the averages, the threshold and the sums *)
Definition same_value (M : R) (x : f64) (q : Qc) : Prop := fin x /\ fv x = qr q /\ Rabs (qr q) <= M.
Lemma ratio_alpha span : ewma_ratio span = (1 - ewma_alpha span)%Qc.
Proof. reflexivity. Qed.
Lemma exact_mean_bound span M xs : (1 <= span)%Z -> 0 <= M -> xs <> [] -> (forall q, In q xs -> Rabs (qr q) <= M) -> Rabs (qr (exp_weighted_mean (ewma_ratio span) xs)) <= M.
Proof.
  intros Hs HM Hx HB. destruct (@alpha_range span Hs) as [A1 A2]. rewrite ratio_alpha. assert (R0 : (0 <= 1 - ewma_alpha span)%Qc) by qlra. rewrite qr_exp_mean by auto.
  apply qr_le in R0. rewrite qr_0 in R0. set (d := qr (1 - ewma_alpha span)%Qc) in *. clearbody d. pose proof (@ew_weight_ge1 d (length xs - 1) R0) as W.
  assert (L : (0 < length xs)%nat) by (destruct xs; [congruence|cbn; lia]).
  assert (S : Rabs (ew_sum d (map qr xs) (length xs - 1)) <= M * ew_weight d (length xs - 1)). { apply ew_sum_bound; auto. intros j Hj. assert (IN : In (nth j (map qr xs) 0) (map qr xs)) by (apply nth_In; rewrite map_length; lia). apply in_map_iff in IN. destruct IN as (q & <- & Hq). auto. }
  unfold Rdiv. rewrite Rabs_mult, Rabs_inv, (Rabs_right (ew_weight d (length xs - 1))) by lra. apply Rmult_le_reg_r with (ew_weight d (length xs - 1)); [lra|]. rewrite Rmult_assoc, Rinv_l, Rmult_1_r by lra. exact S.
Qed.
Lemma last_cons_default A (l : list A) : forall a d, last (a :: l) d = last l a.
Proof. induction l as [|b l IH]; intros a d; [reflexivity|]. change (last (a :: b :: l) d) with (last (b :: l) d). now rewrite !IH. Qed.
Lemma fewma_last_error span M series xs : (1 <= span < 2 ^ 53)%Z -> bpow radix2 (-1000) <= M <= bpow radix2 900 -> series <> [] -> INR (length series) <= bpow radix2 20 -> Forall2 (same_value M) series xs ->
  fin (fewma_last series span) /\ Rabs (fv (fewma_last series span) - qr (exp_weighted_mean (ewma_ratio span) xs)) <= 13 * INR (length series) ^ 2 * u64 * M.
Proof.
  intros Hs HM Hne HL HF. pose proof (Forall2_length HF) as LL. assert (L : (0 < length series)%nat) by (destruct series; [congruence|cbn; lia]). set (j := (length series - 1)%nat). assert (SJ : S j = length series) by (unfold j; lia).
  assert (E : nth_error (fewma fpow series span) j = Some (fewma_last series span)).
  { unfold fewma_last. pose proof (fewma_length fpow span series) as FL. destruct (fewma fpow series span) as [|a l] eqn:EF; [cbn in FL; lia|]. unfold j. rewrite <- FL.
    replace (last (a :: l) (fz 0)) with (last l a); [apply last_nth|]. symmetry. apply last_cons_default. }
  assert (XN : xs <> []) by (intro C; rewrite C in LL; cbn in LL; lia). destruct (@fast_ewma_adjusted xs span XN ltac:(lia)) as (ys & E1 & _ & E3). specialize (E3 j ltac:(lia)).
  destruct (@c135_ewma_exact span M series xs ys j (fewma_last series span) _ Hs HM ltac:(rewrite SJ; exact HL) HF E1 E3 E) as [F B]. split; auto.
  rewrite SJ in B. rewrite firstn_all2 in B by lia. exact B.
Qed.

Lemma product_error N M x y X Y p : 1 <= N <= bpow radix2 16 -> bpow radix2 (-1000) <= M -> Rabs X <= N -> Rabs Y <= M -> Rabs (x - X) <= 13 * N ^ 2 * u64 * N -> Rabs (y - Y) <= 13 * N ^ 2 * u64 * M ->
  Rabs (p - x * y) <= u64 * Rabs (x * y) + eta64 -> Rabs (p - X * Y) <= 30 * N ^ 3 * u64 * M.
Proof.
  intros HN HM BX BY Ex Ey Ep. pose proof u64_pos as U. pose proof (bpow_gt_0 radix2 (-1000)) as B0. assert (M0 : 0 < M) by lra. set (c := 13 * N ^ 2 * u64) in *.
  assert (N2 : 1 <= N ^ 2) by nra. assert (C0 : 0 <= c) by (unfold c; apply Rmult_le_pos; [|lra]; lra).
  assert (C1 : c <= / 1000). { unfold c. assert (Q : N ^ 2 <= bpow radix2 16 ^ 2) by (apply pow_incr; lra). apply Rle_trans with (13 * bpow radix2 16 ^ 2 * u64); [apply Rmult_le_compat_r; [lra|]; lra|]. unfold ulp64. change (bpow radix2 16) with 65536. cbn. lra. }
  assert (Bx : Rabs x <= N * (1 + c)). { replace x with ((x - X) + X) by ring. apply Rle_trans with (1 := Rabs_triang _ _). lra. }
  assert (By : Rabs y <= M * (1 + c)). { replace y with ((y - Y) + Y) by ring. apply Rle_trans with (1 := Rabs_triang _ _). lra. }
  assert (P1 : Rabs (x * y) <= N * M * (1 + c) ^ 2). { rewrite Rabs_mult. replace (N * M * (1 + c) ^ 2) with ((N * (1 + c)) * (M * (1 + c))) by ring. apply Rmult_le_compat; auto using Rabs_pos. }
  assert (P2 : Rabs (x * y - X * Y) <= N * M * (2 * c + c ^ 2)).
  { replace (x * y - X * Y) with ((x - X) * y + X * (y - Y)) by ring. apply Rle_trans with (1 := Rabs_triang _ _). rewrite !Rabs_mult.
    assert (Rabs (x - X) * Rabs y <= (c * N) * (M * (1 + c))) by (apply Rmult_le_compat; auto using Rabs_pos). assert (Rabs X * Rabs (y - Y) <= N * (c * M)) by (apply Rmult_le_compat; auto using Rabs_pos). lra. }
  assert (E : eta64 <= u64 * (N * M)). { apply Rle_trans with (1 := eta_u). apply Rmult_le_compat_l; [lra|]. apply Rle_trans with (1 := HM). rewrite <- (Rmult_1_l M) at 1. apply Rmult_le_compat_r; lra. }
  replace (p - X * Y) with ((p - x * y) + (x * y - X * Y)) by ring. apply Rle_trans with (1 := Rabs_triang _ _).
  assert (NM : 0 < N * M) by (apply Rmult_lt_0_compat; lra). assert (UP : u64 * Rabs (x * y) <= u64 * (N * M * (1 + c) ^ 2)) by (apply Rmult_le_compat_l; lra).
  apply Rle_trans with (N * M * (2 * c + c ^ 2 + u64 * (1 + c) ^ 2 + u64)); [lra|]. replace (30 * N ^ 3 * u64 * M) with (N * M * (30 * N ^ 2 * u64)) by ring. apply Rmult_le_compat_l; [lra|].
  assert (K1 : c ^ 2 <= c * / 1000) by (cbn [pow]; rewrite Rmult_1_r; apply Rmult_le_compat_l; lra). assert (K2 : (1 + c) ^ 2 <= 3 / 2) by nra. assert (K3 : u64 * (1 + c) ^ 2 <= u64 * (3 / 2)) by (apply Rmult_le_compat_l; lra).
  assert (K4 : u64 <= N ^ 2 * u64) by (rewrite <- (Rmult_1_l u64) at 1; apply Rmult_le_compat_r; lra). unfold c in *. lra.
Qed.

(** ** bars that end within the stream *)
Lemma bar_lengths_firstn ends : forall s k, bar_lengths s (firstn k ends) = firstn k (bar_lengths s ends).
Proof. induction ends as [|e ends IH]; intros s [|k]; cbn [firstn bar_lengths]; auto. f_equal. apply IH. Qed.
Lemma incr_bounds n s ends : incr_from n s ends -> (length ends <= n - s)%nat /\ (forall T, In T (bar_lengths s ends) -> (1 <= T <= n)%nat) /\ (forall e, In e ends -> (e < n)%nat).
Proof.
  induction 1 as [|s e es H1 H2 H3 (IH1 & IH2 & IH3)]; [cbn; repeat split; try lia; intros ? []|]. cbn [length bar_lengths]. split; [lia|]. split.
  - intros T [<-|HT]; [lia|auto].
  - intros x [<-|Hx]; auto.
Qed.
Lemma last_in (l : list nat) d : l <> [] -> In (last l d) l.
Proof. induction l as [|a l IH]; [congruence|]. intros _. destruct l as [|b l]; [now left|]. right. apply IH. discriminate. Qed.
Lemma closed_ends_pos trig big n ends k : ends_at_first_close trig big n ends -> (k < length ends)%nat -> forall e, In e (firstn k ends) -> (1 <= e)%nat.
Proof.
  intros (N & L & A) Hk e He. apply In_nth_error in He. destruct He as [j Ej]. assert (Lj : (j < k)%nat). { assert (j < length (firstn k ends))%nat by (apply nth_error_Some; congruence). rewrite firstn_length in H. lia. }
  assert (E : nth_error ends j = Some e). { rewrite <- (firstn_skipn k ends). rewrite nth_error_app1; auto. rewrite firstn_length. lia. }
  destruct (A j e E) as (_ & _ & _ & [[M _]|[C _]]); lia.
Qed.

(** ** sums of a bar's flow *)
Lemma qr_sum l : qr (qsum l) = rsum (map qr l).
Proof. induction l as [|x l IH]; [apply qr_0|]. cbn [qsum map]. rewrite qr_add, IH. reflexivity. Qed.
Lemma Forall2_firstn A B (R : A -> B -> Prop) k : forall l1 l2, Forall2 R l1 l2 -> Forall2 R (firstn k l1) (firstn k l2).
Proof. induction k as [|k IH]; intros l1 l2 H; [constructor|]. destruct H; constructor; auto. Qed.
Lemma Forall2_skipn A B (R : A -> B -> Prop) k : forall l1 l2, Forall2 R l1 l2 -> Forall2 R (skipn k l1) (skipn k l2).
Proof. induction k as [|k IH]; intros l1 l2 H; [exact H|]. destruct H; [constructor|]. cbn [skipn]. auto. Qed.
Section Sums.
  Variables (N : nat) (M : R).
  Hypothesis HN : 1 <= INR N <= bpow radix2 16.
  Hypothesis HM : 0 <= M <= bpow radix2 900.
  Lemma small_sum x : Rabs x <= 4 * INR N * M -> Rabs x <= big.
  Proof.
    intro H. apply Rle_trans with (1 := H). apply Rle_trans with (bpow radix2 18 * bpow radix2 900); [|rewrite <- bpow_plus; apply bpow_le; lia].
    apply Rmult_le_compat; try lra. replace (bpow radix2 18) with (4 * bpow radix2 16) by (change 4 with (bpow radix2 2); now rewrite <- bpow_plus). lra.
  Qed.
  Lemma fold_sum_error l qs : Forall2 (same_value M) l qs -> forall acc S k, fin acc -> Rabs (fv acc - S) <= 2 * INR k * INR N * u64 * M -> Rabs S <= INR k * M -> (k + length l <= N)%nat ->
    fin (fold_left fadd l acc) /\ Rabs (fv (fold_left fadd l acc) - (S + rsum (map qr qs))) <= 2 * INR (k + length l) * INR N * u64 * M.
  Proof.
    pose proof u64_pos as U.
    induction 1 as [|x q l qs (Fx & Vx & Bx) HF IH]; intros acc S k Fa Ea BS Hk; cbn [fold_left map length].
    - unfold rsum. cbn [fold_right]. rewrite Nat.add_0_r, Rplus_0_r. auto.
    - assert (KN : INR k + 1 <= INR N) by (rewrite <- S_INR; apply le_INR; cbn [length] in Hk; lia). pose proof (pos_INR k) as K0.
      assert (SM : 2 * INR k * INR N * u64 * M <= M). { apply Rle_trans with (1 * M); [|lra]. apply Rmult_le_compat_r; [lra|]. apply Rle_trans with (2 * bpow radix2 16 * bpow radix2 16 * u64); [|unfold ulp64; change (bpow radix2 16) with 65536; cbn; lra]. apply Rmult_le_compat_r; [lra|]. apply Rmult_le_compat; lra. }
      assert (BX : Rabs (fv acc + fv x) <= 2 * INR N * M). { rewrite Vx. replace (fv acc + qr q) with ((fv acc - S) + S + qr q) by ring. apply Rle_trans with (1 := Rabs_triang _ _). apply Rle_trans with (Rabs (fv acc - S) + Rabs S + Rabs (qr q)); [apply Rplus_le_compat_r, Rabs_triang|]. nra. }
      destruct (@fadd_spec acc x Fa Fx) as [F V]; [apply small_sum; nra|]. pose proof (add_abs_err (fv_format acc) (fv_format x)) as AE. rewrite <- V in AE.
      replace (S + rsum (qr q :: map qr qs)) with ((S + qr q) + rsum (map qr qs)) by (unfold rsum; cbn [fold_right]; ring). replace (k + Datatypes.S (length l))%nat with (Datatypes.S k + length l)%nat by lia. apply IH; auto.
      + replace (fv (fadd acc x) - (S + qr q)) with ((fv (fadd acc x) - (fv acc + fv x)) + (fv acc - S)) by (rewrite Vx; ring). apply Rle_trans with (1 := Rabs_triang _ _). rewrite S_INR.
        assert (AE2 : Rabs (fv (fadd acc x) - (fv acc + fv x)) <= u64 * (2 * INR N * M)) by (apply Rle_trans with (1 := AE); apply Rmult_le_compat_l; lra). lra.
      + rewrite S_INR. apply Rle_trans with (1 := Rabs_triang _ _). lra.
      + cbn [length] in Hk. lia.
  Qed.
  Lemma bar_sum_error l qs s i : Forall2 (same_value M) l qs -> (length l <= N)%nat -> fin (fbar_sum l s i) /\ Rabs (fv (fbar_sum l s i) - qr (range_sum qs s i)) <= 2 * INR N ^ 2 * u64 * M.
  Proof.
    intros HF HL. pose proof u64_pos as U. unfold fbar_sum, range_sum. pose proof (Forall2_firstn (S i - s) (Forall2_skipn s HF)) as HG.
    assert (LG : (length (firstn (S i - s) (skipn s l)) <= N)%nat) by (rewrite firstn_length, skipn_length; lia). destruct fz0 as [F0 V0].
    destruct HG as [|x q l' qs' (Fx & Vx & Bx) HG].
    - split; auto. cbn [qsum]. rewrite V0, qr_0, Rminus_diag_eq, Rabs_R0 by auto. repeat apply Rmult_le_pos; try lra.
    - cbn [length] in LG. assert (START : exists y, (if (s =? 0)%nat then x else fadd (fz 0) x) = y /\ fin y /\ fv y = qr q).
      { destruct (s =? 0)%nat; [exists x; auto|]. exists (fadd (fz 0) x). split; auto. destruct (@fadd_spec (fz 0) x F0 Fx) as [F V]; [apply small_sum; rewrite V0, Rplus_0_l, Vx; apply Rle_trans with (1 := Bx); nra|]. split; auto. rewrite V, V0, Rplus_0_l, rnd64_fv. exact Vx. }
      destruct START as (y & -> & Fy & Vy). destruct (@fold_sum_error l' qs' HG y (qr q) 1 Fy) as [F B]; try lia.
      + rewrite Vy, Rminus_diag_eq, Rabs_R0 by auto. change (INR 1) with 1. repeat apply Rmult_le_pos; lra.
      + change (INR 1) with 1. lra.
      + split; auto. cbn [qsum]. rewrite qr_add, qr_sum. apply Rle_trans with (1 := B). replace (2 * INR N ^ 2 * u64 * M) with (2 * INR N * INR N * u64 * M) by ring. repeat (apply Rmult_le_compat_r; [lra|]). apply Rmult_le_compat_l; [lra|]. apply le_INR. lia.
  Qed.
End Sums.
(** whole numbers add up exactly *)
Definition whole_value (m : Z) (x : f64) (q : Qc) : Prop := exists z, fin x /\ fv x = IZR z /\ q = qz z /\ (Z.abs z <= m)%Z.
Lemma fold_sum_whole m l qs : Forall2 (whole_value m) l qs -> (0 <= m)%Z -> forall acc a k, fin acc -> fv acc = IZR a -> (Z.abs a <= Z.of_nat k * m)%Z -> (Z.of_nat (k + length l) * m <= 2 ^ 53)%Z ->
  fin (fold_left fadd l acc) /\ fv (fold_left fadd l acc) = IZR a + rsum (map qr qs).
Proof.
  intros HF Hm. induction HF as [|x q l qs (z & Fx & Vx & -> & Bx) HF IH]; intros acc a k Fa Va Ba Hk; cbn [fold_left map length].
  - split; auto. rewrite Va. unfold rsum. cbn. ring.
  - cbn [length] in Hk. assert (BZ : (Z.abs (a + z) <= Z.of_nat (S k) * m)%Z) by nia. assert (B53 : (Z.abs (a + z) <= 2 ^ 53)%Z) by nia.
    destruct (@fadd_spec acc x Fa Fx) as [F V]; [rewrite Va, Vx, <- plus_IZR; apply big_ge; lia|]. rewrite Va, Vx, <- plus_IZR, rnd64_int in V by auto.
    destruct (IH (fadd acc x) (a + z)%Z (S k) F V BZ) as [F2 V2]; [now replace (S k + length l)%nat with (k + S (length l))%nat by lia|]. split; auto. rewrite V2, plus_IZR, qr_z. unfold rsum. cbn [fold_right]. ring.
Qed.
Lemma bar_sum_whole m l qs s i : Forall2 (whole_value m) l qs -> (0 <= m)%Z -> (Z.of_nat (length l) * m <= 2 ^ 53)%Z -> fin (fbar_sum l s i) /\ fv (fbar_sum l s i) = qr (range_sum qs s i).
Proof.
  intros HF Hm HL. unfold fbar_sum, range_sum. pose proof (Forall2_firstn (S i - s) (Forall2_skipn s HF)) as HG.
  assert (LG : (length (firstn (S i - s) (skipn s l)) <= length l)%nat) by (rewrite firstn_length, skipn_length; lia). destruct fz0 as [F0 V0].
  destruct HG as [|x q l' qs' (z & Fx & Vx & -> & Bx) HG]; [split; auto; rewrite V0; symmetry; apply qr_0|]. cbn [length] in LG. assert (B53 : (Z.abs z <= 2 ^ 53)%Z) by nia.
  assert (START : exists y, (if (s =? 0)%nat then x else fadd (fz 0) x) = y /\ fin y /\ fv y = IZR z).
  { destruct (s =? 0)%nat; [exists x; auto|]. exists (fadd (fz 0) x). split; auto. destruct (@fadd_spec (fz 0) x F0 Fx) as [F V]; [rewrite V0, Vx, Rplus_0_l; apply big_ge; lia|]. split; auto. rewrite V, V0, Rplus_0_l, rnd64_fv. exact Vx. }
  destruct START as (y & -> & Fy & Vy). destruct (@fold_sum_whole m l' qs' HG Hm y z 1 Fy Vy) as [F B]; [lia|nia|]. split; auto. cbn [qsum]. now rewrite B, qr_add, qr_sum, qr_z.
Qed.
