(** C147, C148: recursive residuals and their CUSUM. *)
From Coq Require Import FunctionalExtensionality.
From Verif Require Import Py RNum Normal StructModel StructProps RegModel RegProofs RegProps.
Set Implicit Arguments.
Unset Strict Implicit.
Open Scope R_scope.

Lemma dependent_rows T T' k X : (T <= T')%nat -> dependent T' k X -> dependent T k X.
Proof. intros H (v & Hv & Hd). exists v. split; auto. intros t Ht. apply Hd. lia. Qed.
Lemma sum_n_last n f : sum_n (S n) f = sum_n n f + f n.
Proof. unfold sum_n. rewrite seq_S, map_app, rsum_app. cbn. ring. Qed.
Lemma sse_rows T k X y b : sse (S T) k X y b = sse T k X y b + residual k X y b T * residual k X y b T.
Proof. unfold sse. apply sum_n_last. Qed.

Section Recursive.
  Variables (k : nat) (X : nat -> nat -> R) (y : nat -> R).
  Hypothesis Hfull : ~ dependent k k X.
  Lemma prefix_full t : (k <= t)%nat -> ~ dependent t k X.
  Proof. intros H C. apply Hfull. now apply (dependent_rows H). Qed.

  (** the t-th recursive residual: [b] is any least squares fit to the rows before t, [z] solves (X'X) z = x_t over those rows *)
  Theorem c147_residual t b z : (k <= t)%nat -> (forall c, sse t k X y b <= sse t k X y c) ->
    (forall i, (i < k)%nat -> sum_n t (fun s => X s i * sum_n k (fun j => X s j * z j)) = X t i) ->
    0 <= sum_n k (fun j => X t j * z j) /\ rec_resid k X y t = Ok ((y t - sum_n k (fun j => X t j * b j)) / sqrt (1 + sum_n k (fun j => X t j * z j))).
  Proof.
    intros Hk Hb Hz. pose proof (prefix_full Hk) as ND.
    assert (P0 : sum_n k (fun j => X t j * z j) = sum_n t (fun s => sum_n k (fun j => X s j * z j) * sum_n k (fun j => X s j * z j))).
    { rewrite (@sum_n_ext k (fun j => X t j * z j) (fun i => sum_n t (fun s => z i * (X s i * sum_n k (fun j => X s j * z j))))).
      - rewrite sum_n_swap. apply sum_n_ext. intros s _. rewrite <- sum_n_scale. apply sum_n_ext. intros; ring.
      - intros i Hi. rewrite sum_n_scale, Hz by auto. ring. }
    split. { rewrite P0. apply rsum_nonneg. intros v Hv. apply in_map_iff in Hv as (s & <- & _). apply Rle_0_sqr. }
    unfold rec_resid. destruct (inv_spec k (xx t X)) as [(N & E & R & P)|(E & NR)]; [|exfalso; apply NR; now apply gram_regular]. rewrite E. cbn [bind].
    assert (NB : normal_eq t k X y (fun i => sum_n k (fun j => N i j * xy t X y j))).
    { destruct (fit_cases t k X y) as [(_ & D)|(_ & b' & V & F & HN & _)]; [tauto|]. unfold fit_adf in F. rewrite E in F. cbn [bind] in F. injection F as <- _. exact HN. }
    assert (B : forall j, (j < k)%nat -> b j = sum_n k (fun l => N j l * xy t X y l)) by exact (@least_unique t k X y _ b ND NB Hb).
    assert (Z : forall i, (i < k)%nat -> z i = sum_n k (fun j => N i j * X t j)).
    { intros i Hi. rewrite (@sum_n_ext k _ (fun j => sum_n k (fun l => N i j * (xx t X j l * z l)))) by (intros j Hj; rewrite sum_n_scale, gram_apply, Hz; auto). rewrite sum_n_swap.
      rewrite (@sum_n_ext k _ (fun l => (if (i =? l)%nat then 1 else 0) * z l)); [now rewrite sum_n_delta|]. intros l Hl. rewrite <- (inv_left E Hi Hl), Rmult_comm, <- sum_n_scale. apply sum_n_ext. intros; ring. }
    do 2 f_equal.
    - f_equal. apply sum_n_ext. intros j Hj. now rewrite B.
    - do 2 f_equal. apply sum_n_ext. intros j Hj. now rewrite Z.
  Qed.
  Lemma residual_data t : (k <= t)%nat -> exists b z, normal_eq t k X y b /\ (forall i, (i < k)%nat -> sum_n t (fun s => X s i * sum_n k (fun j => X s j * z j)) = X t i).
  Proof.
    intro Hk. destruct (fit_cases t k X y) as [(_ & D)|(ND & b & V & _ & HN & _)]; [exfalso; now apply (prefix_full Hk)|]. destruct (@gesv_some k (xx t X) (X t)) as [z Hz]; [now apply gram_regular|].
    exists b, z. split; auto. intros i Hi. rewrite <- gram_apply. exact (gesv_correct Hz Hi).
  Qed.
  Lemma rec_resid_ok t : (k <= t)%nat -> exists w, rec_resid k X y t = Ok w.
  Proof. intro Hk. destruct (residual_data Hk) as (b & z & HN & Hz). destruct (@c147_residual t b z Hk (@normal_least t k X y b HN) Hz) as [_ ->]. eauto. Qed.

  (** one more observation adds the square of its recursive residual to the residual sum of squares *)
  Lemma one_more t w b b' : (k <= t)%nat -> rec_resid k X y t = Ok w -> normal_eq t k X y b -> normal_eq (S t) k X y b' -> sse (S t) k X y b' = sse t k X y b + w * w.
  Proof.
    intros Hk Hw HN HN'. destruct (residual_data Hk) as (_ & z & _ & Hz). destruct (@c147_residual t b z Hk (@normal_least t k X y b HN) Hz) as [HP Ew]. rewrite Ew in Hw. injection Hw as <-.
    set (h := sum_n k (fun j => X t j * z j)) in *. set (v := y t - sum_n k (fun j => X t j * b j)).
    assert (F0 : 1 + h <> 0) by lra. set (b2 := fun j => b j + v / (1 + h) * z j).
    assert (R2 : forall s, residual k X y b2 s = residual k X y b s - v / (1 + h) * sum_n k (fun j => X s j * z j)).
    { intro s. unfold residual, b2. rewrite (@sum_n_ext k _ (fun j => X s j * b j + v / (1 + h) * (X s j * z j))) by (intros; ring). rewrite sum_n_add, sum_n_scale. ring. }
    assert (RT : residual k X y b2 t = v / (1 + h)). { rewrite R2. fold h. unfold residual. fold v. field. exact F0. }
    assert (N2 : normal_eq (S t) k X y b2).
    { intros i Hi. rewrite sum_n_last, RT. rewrite (@sum_n_ext t _ (fun s => X s i * residual k X y b s - v / (1 + h) * (X s i * sum_n k (fun j => X s j * z j)))) by (intros s _; rewrite R2; ring). rewrite sum_n_sub, sum_n_scale, (HN i Hi), (Hz i Hi). ring. }
    assert (SE : sse (S t) k X y b' = sse (S t) k X y b2) by (apply Rle_antisym; apply normal_least; auto).
    rewrite SE, sse_rows, RT. rewrite (@sse_split t k X y b b2 HN).
    assert (Q : sum_n t (fun s => sum_n k (fun j => X s j * (b j - b2 j)) * sum_n k (fun j => X s j * (b j - b2 j))) = v / (1 + h) * (v / (1 + h)) * h).
    { rewrite (@sum_n_ext t _ (fun s => v / (1 + h) * (v / (1 + h)) * (sum_n k (fun j => X s j * z j) * sum_n k (fun j => X s j * z j)))).
      - rewrite sum_n_scale. f_equal. symmetry. unfold h. rewrite (@sum_n_ext k (fun j => X t j * z j) (fun i => sum_n t (fun s => z i * (X s i * sum_n k (fun j => X s j * z j))))).
        + rewrite sum_n_swap. apply sum_n_ext. intros s _. rewrite <- sum_n_scale. apply sum_n_ext. intros; ring.
        + intros i Hi. rewrite sum_n_scale, Hz by auto. ring.
      - intros s _. rewrite (@sum_n_ext k (fun j => X s j * (b j - b2 j)) (fun j => - (v / (1 + h)) * (X s j * z j))) by (intros; unfold b2; ring). rewrite sum_n_scale. ring. }
    rewrite Q. assert (SQ : sqrt (1 + h) * sqrt (1 + h) = 1 + h) by (apply sqrt_sqrt; lra). assert (S0 : sqrt (1 + h) <> 0) by (intro C; rewrite C in SQ; lra).
    fold v. replace (v / sqrt (1 + h) * (v / sqrt (1 + h))) with (v * v / (sqrt (1 + h) * sqrt (1 + h))) by (field; exact S0). rewrite SQ. field. exact F0.
  Qed.
  (** the squares of all recursive residuals add up to the residual sum of squares of the regression on all rows *)
  Theorem c147_sum_of_squares T w b : (k <= T)%nat -> mapM (rec_resid k X y) (seq k (T - k)) = Ok w -> (forall c, sse T k X y b <= sse T k X y c) -> rsum (map (fun v => v * v) w) = sse T k X y b.
  Proof.
    intros HT. destruct (Nat.le_exists_sub k T HT) as (m & -> & _). rewrite (Nat.add_comm m k). replace (k + m - k)%nat with m by lia. clear HT. revert w b. induction m as [|m IH]; intros w b Hw Hb.
    - cbn in Hw. injection Hw as <-. cbn [map rsum]. rewrite Nat.add_0_r in *. destruct (@gesv_some k X y) as [x Hx].
      { intros v Hv j Hj. destruct (Req_EM_T (v j) 0) as [|N]; auto. exfalso. apply Hfull. exists v. split; eauto. }
      assert (S0 : sse k k X y x = 0) by (apply sum_n_0; intros t Ht; unfold residual; rewrite (gesv_correct Hx Ht); ring).
      specialize (Hb x). pose proof (@sse_nonneg k k X y b). lra.
    - rewrite seq_S, mapM_app in Hw. destruct (mapM (rec_resid k X y) (seq k m)) as [w1|] eqn:E1; cbn [bind] in Hw; [|discriminate]. cbn [mapM] in Hw.
      destruct (rec_resid k X y (k + m)) as [w2|] eqn:E2; cbn [bind] in Hw; [|discriminate]. injection Hw as <-.
      destruct (residual_data (t := k + m)) as (b1 & _ & N1 & _); [lia|]. rewrite map_app, rsum_app. rewrite (IH w1 b1 eq_refl (@normal_least _ k X y b1 N1)). cbn [map rsum].
      replace (k + S m)%nat with (S (k + m)) in * by lia. destruct (fit_cases (S (k + m)) k X y) as [(_ & D)|(ND & b' & V & _ & HN & _)]; [exfalso; now apply (prefix_full (t := S (k + m)) ltac:(lia))|].
      rewrite (@sse_ext _ k X y b b'); [|exact (@least_unique _ k X y b' b ND HN Hb)]. rewrite (@one_more (k + m) w2 b1 b' ltac:(lia) E2 N1 HN). ring.
  Qed.
End Recursive.

(** new units for the labels and a stable linear signal on top: the residuals are only rescaled *)
Theorem c147_affine k X y a beta t w : ~ dependent k k X -> (k <= t)%nat -> rec_resid k X y t = Ok w -> rec_resid k X (fun s => a * y s + sum_n k (fun j => X s j * beta j)) t = Ok (a * w).
Proof.
  intros Hf Hk Hw. destruct (@residual_data k X y Hf t Hk) as (b & z & HN & Hz). destruct (@c147_residual k X y Hf t b z Hk (@normal_least t k X y b HN) Hz) as [HP E]. rewrite E in Hw. injection Hw as <-.
  set (b2 := fun j => a * b j + beta j).
  assert (S2 : forall s, sum_n k (fun j => X s j * b2 j) = a * sum_n k (fun j => X s j * b j) + sum_n k (fun j => X s j * beta j)).
  { intro s. unfold b2. rewrite <- sum_n_scale, <- sum_n_add. apply sum_n_ext. intros; ring. }
  assert (N2 : normal_eq t k X (fun s => a * y s + sum_n k (fun j => X s j * beta j)) b2).
  { intros i Hi. rewrite (@sum_n_ext t _ (fun s => a * (X s i * residual k X y b s))) by (intros s _; unfold residual; rewrite S2; ring). rewrite sum_n_scale, (HN i Hi). ring. }
  destruct (@c147_residual k X _ Hf t b2 z Hk (@normal_least t k X _ b2 N2) Hz) as [_ ->]. f_equal. rewrite S2. unfold Rdiv. ring.
Qed.

Lemma sd1_scale a w : sd1 (map (fun v => a * v) w) = Rabs a * sd1 w.
Proof.
  unfold sd1. rewrite map_length, map_map.
  assert (M : rmean (map (fun v => a * v) w) = a * rmean w) by (rewrite (@rmean_map_scale _ (fun v => v)), map_id; reflexivity). rewrite M.
  rewrite (@rsum_map_ext _ _ (fun v => a * a * ((v - rmean w) * (v - rmean w)))) by (intros; ring). rewrite rsum_map_scale. unfold Rdiv. rewrite Rmult_assoc, sqrt_mult_alt by apply Rle_0_sqr. f_equal. apply sqrt_Rsqr_abs.
Qed.
Lemma mapM_resid k X y T : ~ dependent k k X -> exists w, mapM (rec_resid k X y) (seq k (T - k)) = Ok w /\ length w = (T - k)%nat /\ forall i, (i < T - k)%nat -> rec_resid k X y (k + i) = Ok (nth i w 0).
Proof.
  intro Hf. destruct (@mapM_all_ok _ _ (rec_resid k X y) (seq k (T - k))) as [w Hw]; [intros t Ht; apply in_seq in Ht; apply rec_resid_ok; auto; lia|]. exists w. split; auto.
  pose proof (@mapM_ok _ _ _ _ _ Hw) as F. pose proof (Forall2_length F) as L. rewrite seq_length in L. split; auto. intros i Hi.
  assert (N1 : nth_error (seq k (T - k)) i = Some (k + i)%nat) by (rewrite nth_error_nth' with (d := 0%nat); [rewrite seq_nth by auto; auto|now rewrite seq_length]).
  destruct (@Forall2_nth _ _ _ _ _ i (k + i)%nat F N1) as (v & Hv & E). now rewrite E, (nth_error_nth _ _ _ Hv).
Qed.
(** T - k statistics; the i-th is the sum of the first i + 1 recursive residuals over the standard deviation of all of them *)
Theorem c147_statistics cdf T k X y : ~ dependent k k X -> exists w out, recursive_residuals_cusum_stats cdf T k X y = Ok out /\ length w = (T - k)%nat /\ length out = (T - k)%nat /\
  (forall i, (i < T - k)%nat -> rec_resid k X y (k + i) = Ok (nth i w 0)) /\
  forall i, (i < T - k)%nat -> let m := rsum w / INR (T - k) in let s2 := rsum (map (fun v => (v - m) * (v - m)) w) / INR (T - k - 1) in
    nth_error out i = Some (if (T - k =? 1)%nat then (None, None) else if Req_EM_T s2 0 then (None, None)
                            else let c := sum_n (S i) (fun j => nth j w 0) / sqrt s2 in (Some c, Some (Rmin (cdf (c / sqrt (INR (T - k - 1)))) (1 - cdf (c / sqrt (INR (T - k - 1))))))).
Proof.
  intro Hf. destruct (@mapM_resid k X y T Hf) as (w & Hw & L & HR). exists w. unfold recursive_residuals_cusum_stats, rec_cusum. rewrite Hw. cbn [bind]. eexists. split; [reflexivity|]. split; [exact L|]. split; [now rewrite !map_length, seq_length|]. split; [exact HR|].
  intros i Hi. set (s2 := rsum (map (fun v => (v - rsum w / INR (T - k)) * (v - rsum w / INR (T - k))) w) / INR (T - k - 1)). rewrite map_map. rewrite nth_error_map. rewrite (@nth_error_nth' _ (seq 0 (length w)) i 0%nat) by (rewrite seq_length; lia). rewrite seq_nth by lia. cbn [option_map]. f_equal. rewrite L. cbn [Nat.add].
  destruct (Nat.leb_spec (T - k) 1) as [H1|H1]. { replace (T - k =? 1)%nat with true by (symmetry; apply Nat.eqb_eq; lia). reflexivity. }
  replace (T - k =? 1)%nat with false by (symmetry; apply Nat.eqb_neq; lia).
  assert (ES : sd1 w = sqrt s2). { unfold sd1, s2, rmean. rewrite L. rewrite (minus_INR (T - k) 1) by lia. reflexivity. }
  assert (P2 : 0 <= s2). { unfold s2. apply Rmult_le_pos; [apply rsum_nonneg; intros v Hv; apply in_map_iff in Hv as (u & <- & _); apply Rle_0_sqr|]. apply Rlt_le, Rinv_0_lt_compat, (lt_INR 0). lia. }
  rewrite ES. destruct (Req_EM_T (sqrt s2) 0) as [Z|Z]; destruct (Req_EM_T s2 0) as [Z2|Z2]; auto.
  - exfalso. apply Z2. now apply sqrt_eq_0.
  - exfalso. apply Z. rewrite Z2. apply sqrt_0.
  - cbn [option_map]. assert (EF : rsum (firstn (S i) w) = sum_n (S i) (fun j => nth j w 0)).
    { unfold sum_n. f_equal. assert (G : forall n (l : list R), (n <= length l)%nat -> firstn n l = map (fun j => nth j l 0) (seq 0 n)).
      { induction n as [|n IH]; intros l Hl; auto. destruct l as [|u l]; [cbn in Hl; lia|]. cbn [firstn seq map nth]. f_equal. rewrite <- seq_shift, map_map. apply IH. cbn in Hl. lia. }
      apply G. lia. }
    rewrite EF. reflexivity.
Qed.
(** positive rescaling of the labels and a stable linear signal change no statistic; a negative factor changes the signs *)
Theorem c147_invariant T k X y a beta cs : ~ dependent k k X -> a <> 0 -> rec_cusum T k X y = Ok cs ->
  rec_cusum T k X (fun s => a * y s + sum_n k (fun j => X s j * beta j)) = Ok (map (option_map (fun c => if Rlt_dec 0 a then c else - c)) cs).
Proof.
  intros Hf Ha. destruct (@mapM_resid k X y T Hf) as (w & Hw & L & HR). unfold rec_cusum. rewrite Hw. cbn [bind]. intro E. injection E as <-.
  assert (HA : mapM (rec_resid k X (fun s => a * y s + sum_n k (fun j => X s j * beta j))) (seq k (T - k)) = Ok (map (fun v => a * v) w)).
  { assert (G : forall l w, (forall t, In t l -> (k <= t)%nat) -> mapM (rec_resid k X y) l = Ok w -> mapM (rec_resid k X (fun s => a * y s + sum_n k (fun j => X s j * beta j))) l = Ok (map (fun v => a * v) w)).
    { induction l as [|t l IH]; intros w0 Hl Hm; cbn [mapM] in *; [now injection Hm as <-|]. destruct (rec_resid k X y t) as [v|] eqn:Ev; cbn [bind] in Hm; [|discriminate]. destruct (mapM (rec_resid k X y) l) as [w1|] eqn:Ew; cbn [bind] in Hm; [|discriminate]. injection Hm as <-.
      rewrite (@c147_affine k X y a beta t v Hf (Hl t (or_introl eq_refl)) Ev). cbn [bind]. rewrite (IH w1 (fun t Ht => Hl t (or_intror Ht)) eq_refl). reflexivity. }
    apply G; auto. intros t Ht. apply in_seq in Ht. lia. }
  rewrite HA. cbn [bind]. rewrite map_length, map_map. f_equal. apply map_ext. intro i. destruct (length w <=? 1)%nat; auto. rewrite sd1_scale.
  assert (A0 : Rabs a <> 0) by now apply Rabs_no_R0.
  destruct (Req_EM_T (sd1 w) 0) as [Z|Z]; destruct (Req_EM_T (Rabs a * sd1 w) 0) as [Z2|Z2]; auto.
  - exfalso. apply Z2. rewrite Z. ring.
  - exfalso. apply Rmult_integral in Z2 as [C|C]; auto.
  - cbn [option_map]. f_equal. rewrite firstn_map. rewrite (@rsum_map_scale _ (fun v => v)), map_id. change (match w with [] => [] | u :: l => u :: firstn i l end) with (firstn (S i) w). destruct (Rlt_dec 0 a) as [P|N].
    + rewrite Rabs_pos_eq by lra. field. split; auto.
    + rewrite Rabs_left by lra. field. split; auto.
Qed.

(** the residual of row t does not depend on later rows *)
Theorem c148_residual_causal k X y X' y' t : (forall s i, (s <= t)%nat -> X s i = X' s i) -> (forall s, (s <= t)%nat -> y s = y' s) -> rec_resid k X y t = rec_resid k X' y' t.
Proof.
  intros HX Hy. unfold rec_resid.
  assert (E1 : xx t X = xx t X') by (do 2 (apply functional_extensionality; intro); unfold xx; apply sum_n_ext; intros s Hs; now rewrite !HX by lia).
  assert (E2 : xy t X y = xy t X' y') by (apply functional_extensionality; intro; unfold xy; apply sum_n_ext; intros s Hs; now rewrite HX, Hy by lia).
  assert (E3 : X t = X' t) by (apply functional_extensionality; intro; now apply HX). rewrite E1, E2, E3, Hy by auto. reflexivity.
Qed.
(** but its statistic does: it is divided by the standard deviation of all residuals, so that a longer sample rescales every earlier value *)
Theorem c148_rescaled k X y T T' cs cs' i c c' : ~ dependent k k X -> (T <= T')%nat -> rec_cusum T k X y = Ok cs -> rec_cusum T' k X y = Ok cs' -> nth_error cs i = Some (Some c) -> nth_error cs' i = Some (Some c') ->
  exists w w', mapM (rec_resid k X y) (seq k (T - k)) = Ok w /\ mapM (rec_resid k X y) (seq k (T' - k)) = Ok w' /\ c' * sd1 w' = c * sd1 w /\ sd1 w <> 0 /\ sd1 w' <> 0.
Proof.
  intros Hf HT. destruct (@mapM_resid k X y T Hf) as (w & Hw & L & HR). destruct (@mapM_resid k X y T' Hf) as (w' & Hw' & L' & HR'). unfold rec_cusum. rewrite Hw, Hw'. cbn [bind]. intros E E'. injection E as <-. injection E' as <-. intros H H'.
  exists w, w'. split; auto. split; auto. rewrite nth_error_map in H, H'.
  destruct (nth_error (seq 0 (length w)) i) as [a|] eqn:Ea; [|discriminate]. destruct (nth_error (seq 0 (length w')) i) as [a'|] eqn:Ea'; [|discriminate]. cbn [option_map] in H, H'.
  pose proof (nth_error_nth _ _ 0%nat Ea) as Na. assert (La : (i < length w)%nat) by (rewrite <- (seq_length (length w) 0); apply nth_error_Some; congruence). rewrite seq_nth in Na by auto. cbn in Na. subst a.
  pose proof (nth_error_nth _ _ 0%nat Ea') as Na. assert (La' : (i < length w')%nat) by (rewrite <- (seq_length (length w') 0); apply nth_error_Some; congruence). rewrite seq_nth in Na by auto. cbn in Na. subst a'.
  destruct (length w <=? 1)%nat; [discriminate|]. destruct (length w' <=? 1)%nat; [discriminate|]. destruct (Req_EM_T (sd1 w) 0) as [|Z]; [discriminate|]. destruct (Req_EM_T (sd1 w') 0) as [|Z']; [discriminate|].
  injection H as <-. injection H' as <-. split; [|auto].
  assert (EF : firstn (S i) w' = firstn (S i) w).
  { replace (T' - k)%nat with ((T - k) + (T' - T))%nat in Hw' by lia. rewrite seq_app, mapM_app, Hw in Hw'. cbn [bind] in Hw'. destruct (mapM (rec_resid k X y) (seq (k + (T - k)) (T' - T))) as [w2|]; cbn [bind] in Hw'; [|discriminate]. injection Hw' as <-. rewrite firstn_app. replace (S i - length w)%nat with 0%nat by lia. cbn [firstn]. now rewrite app_nil_r. }
  cbn [firstn] in EF |- *. rewrite EF. field. auto.
Qed.

(** *** a constant regressor *)
Lemma const_full : ~ dependent 1 1 (fun _ _ => 1).
Proof. intros (v & (j & Hj & Hv) & H). assert (j = 0%nat) by lia. subst j. apply Hv. specialize (H 0%nat Nat.lt_0_1). unfold sum_n in H. cbn in H. lra. Qed.
(** with a constant as only regressor: the deviation from the mean so far over sqrt(1 + 1/t) *)
Theorem c147_constant y t : (1 <= t)%nat -> rec_resid 1 (fun _ _ => 1) y t = Ok ((y t - sum_n t y / INR t) / sqrt (1 + 1 / INR t)).
Proof.
  intro Ht. assert (T0 : INR t <> 0) by (apply not_0_INR; lia).
  assert (S1 : forall f, sum_n 1 f = f 0%nat) by (intro f; unfold sum_n; cbn; ring).
  assert (SC : forall c, sum_n t (fun _ => c) = INR t * c) by (intro c; unfold sum_n; rewrite rsum_map_const, seq_length; reflexivity).
  destruct (@c147_residual 1 (fun _ _ => 1) y const_full t (fun _ => sum_n t y / INR t) (fun _ => 1 / INR t) Ht) as [_ ->].
  - apply normal_least. intros i _. rewrite (@sum_n_ext t _ (fun s => y s - sum_n t y / INR t)) by (intros s _; unfold residual; rewrite S1; ring). rewrite sum_n_sub, SC. field. exact T0.
  - intros i _. rewrite (@sum_n_ext t _ (fun _ => 1 / INR t)) by (intros; rewrite S1; ring). rewrite SC. field. exact T0.
  - rewrite !S1, !Rmult_1_l. reflexivity.
Qed.
Lemma cusum_three a b : 
  let w1 := a / sqrt 2 in let w2 := (b - a / 2) / sqrt (3 / 2) in w1 <> w2 ->
  rec_cusum 3 1 (fun _ _ => 1) (fun t => nth t [0; a; b] 0) = Ok [Some (w1 * sqrt 2 / Rabs (w1 - w2)); Some ((w1 + w2) * sqrt 2 / Rabs (w1 - w2))].
Proof.
  intros w1 w2 HN. unfold rec_cusum. cbn [Nat.sub seq mapM]. rewrite !c147_constant by lia. cbn [bind].
  replace ((nth 1 [0; a; b] 0 - sum_n 1 (fun t => nth t [0; a; b] 0) / INR 1) / sqrt (1 + 1 / INR 1)) with w1 by (unfold sum_n, w1; cbn; f_equal; [|f_equal]; field).
  replace ((nth 2 [0; a; b] 0 - sum_n 2 (fun t => nth t [0; a; b] 0) / INR 2) / sqrt (1 + 1 / INR 2)) with w2 by (unfold sum_n, w2; cbn; f_equal; [|f_equal]; field).
  assert (SD : sd1 [w1; w2] = Rabs (w1 - w2) / sqrt 2).
  { unfold sd1, rmean. cbn [length map rsum INR]. rewrite <- sqrt_Rsqr_abs, <- sqrt_div_alt by lra. f_equal. unfold Rsqr. field. }
  assert (Q2 : sqrt 2 <> 0) by (apply Rgt_not_eq, sqrt_lt_R0; lra). assert (A0 : Rabs (w1 - w2) <> 0) by (apply Rabs_no_R0; lra).
  cbn [length Nat.leb seq map firstn rsum]. rewrite SD. destruct (Req_EM_T (Rabs (w1 - w2) / sqrt 2) 0) as [Z|Z].
  - exfalso. apply Rmult_integral in Z as [Z|Z]; [auto|]. now apply Rinv_neq_0_compat in Z.
  - do 2 f_equal; [|f_equal]; f_equal; field; auto.
Qed.
(** "the statistic at a row uses the rows up to it": two samples with the same first two rows, and two values of the first statistic *)
Theorem c148_causal_refuted : exists y y' cs cs', (forall t, (t <= 1)%nat -> y t = y' t) /\
  rec_cusum 3 1 (fun _ _ => 1) y = Ok cs /\ rec_cusum 3 1 (fun _ _ => 1) y' = Ok cs' /\ nth_error cs 0 = Some (Some (sqrt 2)) /\ nth_error cs' 0 = Some (Some (sqrt 2 / 2)).
Proof.
  assert (Q2 : 0 < sqrt 2) by (apply sqrt_lt_R0; lra). assert (Q32 : 0 < sqrt (3 / 2)) by (apply sqrt_lt_R0; lra).
  exists (fun t => nth t [0; 1; 1 / 2] 0), (fun t => nth t [0; 1; 1 / 2 - sqrt (3 / 2) / sqrt 2] 0).
  assert (P1 : 0 < 1 / sqrt 2) by (apply Rdiv_lt_0_compat; lra).
  assert (E1 : (1 / 2 - 1 / 2) / sqrt (3 / 2) = 0) by (unfold Rdiv; ring).
  assert (E2 : (1 / 2 - sqrt (3 / 2) / sqrt 2 - 1 / 2) / sqrt (3 / 2) = - (1 / sqrt 2)) by (field; split; lra).
  eexists _, _. split; [intros [|[|t]] Ht; try reflexivity; lia|]. split; [apply cusum_three; rewrite E1; lra|]. split; [apply cusum_three; rewrite E2; lra|]. cbn [nth_error]. rewrite E1, E2. split; do 2 f_equal.
  - rewrite Rminus_0_r, Rabs_pos_eq by lra. field. lra.
  - rewrite Rabs_pos_eq by lra. field. lra.
Qed.
Example cusum_values : exists cs, rec_cusum 3 1 (fun _ _ => 1) (fun t => nth t [0; 1; 1 / 2] 0) = Ok cs /\ cs = [Some (sqrt 2); Some (sqrt 2)].
Proof.
  assert (Q2 : 0 < sqrt 2) by (apply sqrt_lt_R0; lra). assert (P1 : 0 < 1 / sqrt 2) by (apply Rdiv_lt_0_compat; lra). assert (E1 : (1 / 2 - 1 / 2) / sqrt (3 / 2) = 0) by (unfold Rdiv; ring).
  eexists. split; [apply cusum_three; rewrite E1; lra|]. rewrite E1, Rminus_0_r, Rabs_pos_eq by lra. do 2 f_equal; [|f_equal; f_equal]; field; lra.
Qed.
Print Assumptions c147_residual.
Print Assumptions c147_sum_of_squares.
Print Assumptions c147_affine.
Print Assumptions c147_statistics.
Print Assumptions c147_invariant.
Print Assumptions c147_constant.
Print Assumptions c148_residual_causal.
Print Assumptions c148_rescaled.
Print Assumptions c148_causal_refuted.
