(** C176: the embargo of a fraction of the observations in binary64; C177: the sizes of the samples of a mixture of Gaussians. *)
From Coq Require Import ZArith List Bool Reals Lra Lia QArith Qcanon Permutation.
From Flocq Require Import Core BinarySingleNaN.
From Verif Require Import Py Float64 FloatBarsModel FloatBarsProofs FloatCusumProps FloatEwmaProps FloatPosProofs FloatPosProps FloatStatProps FloatDivProps FloatWeightProps CVModel CVSpec CVProofs UtilsModel FloatCVModel.
Import ListNotations.
Set Implicit Arguments.
Unset Strict Implicit.
Open Scope R_scope.

Lemma fcount_spec n pct : (Z.of_nat n <= 2 ^ 50)%Z -> fin pct -> 0 <= fv pct <= 1 -> 0 <= rnd64 (INR n * fv pct) <= INR n /\ Z.of_nat (fcount n pct) = Zfloor (rnd64 (INR n * fv pct)).
Proof.
  intros HN F B. destruct (@fz_spec (Z.of_nat n)) as [Fn Vn]; [lia|]. rewrite <- INR_IZR_INZ in Vn. pose proof (pos_INR n) as N0. assert (B1 : 0 <= INR n * fv pct <= INR n) by (split; [apply Rmult_le_pos; lra|rewrite <- (Rmult_1_r (INR n)) at 2; apply Rmult_le_compat_l; lra]).
  assert (N50 : INR n <= bpow radix2 50) by (rewrite INR_IZR_INZ; change (bpow radix2 50) with (IZR (2 ^ 50)); now apply IZR_le).
  assert (BB : Rabs (fv (fz (Z.of_nat n)) * fv pct) <= big) by (rewrite Vn, Rabs_pos_eq by lra; apply Rle_trans with (bpow radix2 50); [lra|apply bpow_le; lia]).
  destruct (@fmul_spec (fz (Z.of_nat n)) pct Fn F BB) as [Fm Vm]. rewrite Vn in Vm.
  assert (R0 : 0 <= rnd64 (INR n * fv pct) <= INR n). { split; [rewrite <- rnd64_0; apply rnd64_mono; lra|]. apply Rle_trans with (rnd64 (INR n)); [apply rnd64_mono; lra|]. rewrite INR_IZR_INZ, rnd64_int by lia. lra. }
  split; auto. unfold fcount. rewrite <- Vm in *. assert (E : Btrunc (fmul (fz (Z.of_nat n)) pct) = Zfloor (fv (fmul (fz (Z.of_nat n)) pct))).
  { rewrite Btrunc_spec. apply Ztrunc_floor. lra. }
  rewrite E, Z2Nat.id; auto. apply Zfloor_lub. cbn. lra.
Qed.
(** the sizes of the two samples of a mixture always add up: the first never exceeds the whole *)
Lemma count_at_most n pct : (Z.of_nat n <= 2 ^ 50)%Z -> fin pct -> 0 <= fv pct <= 1 -> (fcount n pct <= n)%nat /\ (fv pct = 0 -> fcount n pct = 0%nat) /\ (fv pct = 1 -> fcount n pct = n).
Proof.
  intros HN F B. destruct (fcount_spec HN F B) as [B1 E]. split; [|split; intro H].
  - assert (Z.of_nat (fcount n pct) <= Z.of_nat n)%Z; [|lia]. rewrite E. apply le_IZR. rewrite <- INR_IZR_INZ. apply Rle_trans with (1 := Zfloor_lb _). lra.
  - apply Nat2Z.inj. rewrite E, H, Rmult_0_r, rnd64_0. exact (Zfloor_IZR 0).
  - apply Nat2Z.inj. rewrite E, H, Rmult_1_r, INR_IZR_INZ, rnd64_int by lia. apply Zfloor_IZR.
Qed.
(** [int(n * fraction)] for the double nearest to p/d is the floor of n p/d, or one less if n p/d is a whole number *)
Theorem c176_count n pct p d : (Z.of_nat n <= 2 ^ 30)%Z -> fin pct -> (0 <= p <= d)%Z -> (0 < d <= 2 ^ 20)%Z -> fv pct = rnd64 (IZR p / IZR d) ->
  (Z.of_nat (fcount n pct) = Z.of_nat n * p / d)%Z \/ ((Z.of_nat n * p) mod d = 0)%Z /\ rnd64 (IZR p / IZR d) <> IZR p / IZR d /\ (Z.of_nat (fcount n pct) + 1 = Z.of_nat n * p / d)%Z.
Proof.
  intros HN F P D V. assert (D0 : 0 < IZR d) by (apply IZR_lt; lia). assert (PD : 0 <= IZR p / IZR d <= 1). { split; [apply Rmult_le_pos; [apply IZR_le; lia|apply Rlt_le, Rinv_0_lt_compat; lra]|apply Rmult_le_reg_r with (IZR d); auto; replace (IZR p / IZR d * IZR d) with (IZR p) by (field; lra); rewrite Rmult_1_l; apply IZR_le; lia]. }
  assert (B : 0 <= fv pct <= 1) by (rewrite V; split; [rewrite <- rnd64_0|rewrite <- rnd64_1]; apply rnd64_mono; lra).
  destruct (@fcount_spec n pct ltac:(lia) F B) as [B1 E]. rewrite E. set (k := (Z.of_nat n * p / d)%Z). pose proof (Z.div_mod (Z.of_nat n * p) d ltac:(lia)) as DM. fold k in DM. pose proof (Z.mod_pos_bound (Z.of_nat n * p) d ltac:(lia)) as MB. set (r := ((Z.of_nat n * p) mod d)%Z) in *.
  assert (X : INR n * (IZR p / IZR d) = IZR k + IZR r / IZR d) by (rewrite INR_IZR_INZ; apply Rmult_eq_reg_r with (IZR d); [|lra]; replace (IZR (Z.of_nat n) * (IZR p / IZR d) * IZR d) with (IZR (Z.of_nat n * p)) by (rewrite mult_IZR; field; lra); rewrite DM, plus_IZR, mult_IZR; field; lra).
  assert (K0 : (0 <= k)%Z) by (apply Z.div_pos; lia). assert (KN : (k <= Z.of_nat n)%Z) by (apply Z.div_le_upper_bound; nia).
  assert (NEAR : Rabs (rnd64 (INR n * fv pct) - INR n * (IZR p / IZR d)) < / IZR d).
  { pose proof (Rinv_0_lt_compat _ D0) as ID. assert (DB : bpow radix2 (-20) <= / IZR d) by (apply inv_ge with 20%Z; auto; change (bpow radix2 20) with (IZR (2 ^ 20)); apply IZR_le; lia).
    assert (Z0 : p = 0%Z \/ n = 0%nat \/ (0 < p /\ 0 < Z.of_nat n)%Z) by lia. destruct Z0 as [->|[->|[P0 N0]]].
    - rewrite V. unfold Rdiv. rewrite !Rmult_0_l, rnd64_0, Rmult_0_r, rnd64_0, Rminus_0_r, Rabs_R0. auto.
    - cbn [INR]. rewrite !Rmult_0_l, rnd64_0, Rminus_0_r, Rabs_R0. auto.
    - assert (Q0 : bpow radix2 (-20) <= IZR p / IZR d) by (apply Rle_trans with (1 := DB); unfold Rdiv; rewrite <- (Rmult_1_l (/ IZR d)) at 1; apply Rmult_le_compat_r; [lra|apply IZR_le; lia]). assert (N1 : 1 <= INR n) by (rewrite INR_IZR_INZ; apply IZR_le; lia).
      pose proof (bpow_gt_0 radix2 (-20)) as P20. pose proof u64_pos as U0. pose proof u64_small as U1. set (q := IZR p / IZR d) in *.
      destruct (@rel_rnd q) as (e1 & H1 & E1); [apply Rle_trans with (2 := Q0), bpow_le; lia|]. rewrite V, E1. pose proof (Rabs_le_inv _ _ H1) as H1'.
      assert (H20 : bpow radix2 (-21) <= INR n * (q * (1 + e1))). { apply Rle_trans with (1 * (bpow radix2 (-20) * bpow radix2 (-1))); [rewrite <- bpow_plus, Rmult_1_l; apply Rle_refl|]. change (bpow radix2 (-1)) with (/ 2). apply Rmult_le_compat; try lra. apply Rmult_le_compat; lra. }
      destruct (@rel_rnd (INR n * (q * (1 + e1)))) as (e2 & H2 & E2); [apply Rle_trans with (2 := H20), bpow_le; lia|]. rewrite E2. replace (INR n * (q * (1 + e1)) * (1 + e2) - INR n * q) with (INR n * q * ((1 + e1) * (1 + e2) - 1)) by ring.
      assert (HZ : Rabs ((1 + e1) * (1 + e2) - 1) <= (1 + 1 + 1) * u64) by (apply mul1; try lra; rewrite Rmult_1_l; auto). rewrite Rabs_mult, (Rabs_pos_eq (INR n * q)) by (apply Rmult_le_pos; lra).
      assert (N30 : INR n <= bpow radix2 30) by (rewrite INR_IZR_INZ; change (bpow radix2 30) with (IZR (2 ^ 30)); now apply IZR_le). apply Rle_lt_trans with (bpow radix2 30 * 1 * (bpow radix2 2 * bpow radix2 (-53))).
      + apply Rmult_le_compat; [apply Rmult_le_pos; lra|apply Rabs_pos|apply Rmult_le_compat; lra|]. apply Rle_trans with (1 := HZ). rewrite u53. apply Rmult_le_compat_r; [apply bpow_ge_0|]. change (bpow radix2 2) with 4. lra.
      + rewrite Rmult_1_r, <- !bpow_plus. apply Rlt_le_trans with (2 := DB). apply bpow_lt. reflexivity. }
  apply Rabs_def2 in NEAR. rewrite X in NEAR. set (y := rnd64 (INR n * fv pct)) in *. destruct (Z.eq_dec r 0) as [R0|R0].
  - rewrite R0 in NEAR, X. unfold Rdiv in NEAR, X. rewrite Rmult_0_l, Rplus_0_r in NEAR, X. fold (IZR p / IZR d) in X. assert (ID : / IZR d <= 1) by (rewrite <- Rinv_1; apply Rinv_le; [lra|apply IZR_le; lia]).
    destruct (Req_dec (rnd64 (IZR p / IZR d)) (IZR p / IZR d)) as [EX|NX].
    + left. assert (Y : y = IZR k) by (unfold y; rewrite V, EX, X; apply rnd64_int; lia). rewrite Y. apply Zfloor_IZR.
    + destruct (Rle_or_lt (IZR k) y); [left; apply Zfloor_imp; rewrite plus_IZR; lra|]. right. split; auto. split; auto. assert (Zfloor y = k - 1)%Z; [|lia]. apply Zfloor_imp. replace (k - 1 + 1)%Z with k by ring. rewrite minus_IZR. lra.
  - left. apply Zfloor_imp. rewrite plus_IZR. assert (L : / IZR d <= IZR r / IZR d) by (unfold Rdiv; rewrite <- (Rmult_1_l (/ IZR d)) at 1; apply Rmult_le_compat_r; [apply Rlt_le, Rinv_0_lt_compat; auto|apply IZR_le; lia]).
    assert (L2 : IZR r / IZR d <= 1 - / IZR d) by (replace (1 - / IZR d) with (IZR (d - 1) / IZR d) by (rewrite minus_IZR; field; lra); apply Rmult_le_compat_r; [apply Rlt_le, Rinv_0_lt_compat; auto|apply IZR_le; lia]). lra.
Qed.
Print Assumptions c176_count.
Lemma exact_count n p d : (0 <= p <= d)%Z -> (0 < d)%Z -> Z.of_nat (embargo_step n (qz p / qz d)%Qc) = (Z.of_nat n * p / d)%Z.
Proof.
  intros P D. assert (K0 : (0 <= Z.of_nat n * p / d)%Z) by (apply Z.div_pos; lia). rewrite (@embargo_step_spec n _ (Z.to_nat (Z.of_nat n * p / d))); [now apply Z2Nat.id|].
  assert (D0 : 0 < IZR d) by (apply IZR_lt; lia). assert (DN : qz d <> 0%Qc) by (intro C; apply (f_equal qr) in C; rewrite qr_z, qr_0 in C; lra).
  assert (X : forall z, qr (qn (Z.to_nat z)) = IZR (Z.of_nat (Z.to_nat z))) by (intro z; now rewrite qr_n, INR_IZR_INZ). pose proof (Z.div_mod (Z.of_nat n * p) d ltac:(lia)) as DM. pose proof (Z.mod_pos_bound (Z.of_nat n * p) d ltac:(lia)) as MB.
  assert (E : qr (qn n * (qz p / qz d))%Qc = IZR (Z.of_nat n * p) / IZR d) by (rewrite qr_mul, qr_div, !qr_z, qr_n, INR_IZR_INZ, mult_IZR by auto; field; lra).
  split; [apply qr_le|apply qr_lt]; rewrite E, qr_n, INR_IZR_INZ; rewrite ?Nat2Z.inj_add, Z2Nat.id by auto.
  - apply Rmult_le_reg_r with (IZR d); auto. replace (IZR (Z.of_nat n * p) / IZR d * IZR d) with (IZR (Z.of_nat n * p)) by (field; lra). rewrite <- mult_IZR. apply IZR_le. lia.
  - apply Rmult_lt_reg_r with (IZR d); auto. replace (IZR (Z.of_nat n * p) / IZR d * IZR d) with (IZR (Z.of_nat n * p)) by (field; lra). rewrite <- mult_IZR. apply IZR_lt. cbn [Z.of_nat Pos.of_succ_nat]. lia.
Qed.
(** the folds and the purged training sets are those of exact arithmetic unless the embargo is a whole number of observations and the fraction is not a float *)
Definition undecided (n : nat) (p d : Z) : Prop := ((Z.of_nat n * p) mod d = 0)%Z /\ rnd64 (IZR p / IZR d) <> IZR p / IZR d.
Lemma same_count n pct p d : (Z.of_nat n <= 2 ^ 30)%Z -> fin pct -> (0 <= p <= d)%Z -> (0 < d <= 2 ^ 20)%Z -> fv pct = rnd64 (IZR p / IZR d) -> ~ undecided n p d -> fcount n pct = embargo_step n (qz p / qz d)%Qc.
Proof. intros HN F P D V U. apply Nat2Z.inj. rewrite exact_count by lia. destruct (@c176_count n pct p d HN F P D V) as [E|(A & B & _)]; auto. destruct U. now split. Qed.
Theorem c176_folds n_splits pct p d events : (Z.of_nat (length events) <= 2 ^ 30)%Z -> fin pct -> (0 <= p <= d)%Z -> (0 < d <= 2 ^ 20)%Z -> fv pct = rnd64 (IZR p / IZR d) -> ~ undecided (length events) p d ->
  fkfold_split n_splits pct events = kfold_split n_splits (qz p / qz d)%Qc events.
Proof. intros HN F P D V U. unfold fkfold_split, kfold_split. now rewrite (same_count HN F P D V U). Qed.
Print Assumptions c176_folds.
Theorem c176_purging events tests bars pct p d : (Z.of_nat (length bars) <= 2 ^ 30)%Z -> fin pct -> (0 <= p <= d)%Z -> (0 < d <= 2 ^ 20)%Z -> fv pct = rnd64 (IZR p / IZR d) -> ~ undecided (length bars) p d ->
  fapply_purging_and_embargo events tests (Some bars) pct = apply_purging_and_embargo events tests (Some bars) (qz p / qz d)%Qc.
Proof. intros HN F P D V U. unfold fapply_purging_and_embargo, apply_purging_and_embargo, fembargo_times, embargo_times. now rewrite (same_count HN F P D V U). Qed.
Print Assumptions c176_purging.
(** without bars there is no embargo, whatever the fraction *)
Theorem c176_no_bars events tests pct q : fapply_purging_and_embargo events tests None pct = apply_purging_and_embargo events tests None q.
Proof. reflexivity. Qed.
Print Assumptions c176_no_bars.
(** an embargo of 0.29 of a hundred events: 28 are discarded, and the 29th is trained on *)
Definition p29 : f64 := ff 5224175567749775 (-54).
Definition events29 : list event := map (fun i => (Z.of_nat i, Z.of_nat i)) (seq 0 100).
Theorem c176_folds_refuted : fin p29 /\ fv p29 = rnd64 (IZR 29 / IZR 100) /\ length events29 = 100%nat /\
  kfold_split 2 (qz 29 / qz 100)%Qc events29 = Ok [(seq 80 20, seq 0 50); (seq 0 50, seq 50 50)] /\ fkfold_split 2 p29 events29 = Ok [(seq 79 21, seq 0 50); (seq 0 50, seq 50 50)].
Proof.
  destruct (@ff_exact 5224175567749775 (-54)) as [F V]; [lia|lia|lia|]. split; auto. split.
  { destruct (@fz_spec 29) as [F1 V1]; [lia|]. destruct (@fz_spec 100) as [F2 V2]; [lia|].
    destruct (@fdiv_spec (fz 29) (fz 100) F1) as [F3 V3]; rewrite ?V1, ?V2; [lra|rewrite Rabs_pos_eq by lra; apply Rle_trans with 1; [lra|change 1 with (bpow radix2 0); apply bpow_le; lia]|]. rewrite V1, V2 in V3. rewrite <- V3. apply feq_spec; auto; vm_compute; reflexivity. }
  split; [reflexivity|]. split; vm_compute; reflexivity.
Qed.
Print Assumptions c176_folds_refuted.
(** a quarter of a hundred events, and 0.29 of ninety-nine: the embargo is exact *)
Example c176_example : fcount 100 (ff 1 (-2)) = 25%nat /\ fcount 99 p29 = 28%nat /\ ~ undecided 100 1 4 /\ ~ undecided 99 29 100.
Proof.
  split; [vm_compute; reflexivity|]. split; [vm_compute; reflexivity|]. split; intros [H1 H2]; [|vm_compute in H1; discriminate]. apply H2. destruct (@ff_exact 1 (-2)) as [F V]; [lia|lia|lia|].
  replace (IZR 1 / IZR 4) with (fv (ff 1 (-2))) by (rewrite V; change (bpow radix2 (-2)) with (/ 4); unfold Rdiv; ring). apply rnd64_fv.
Qed.
(** a mixture of Gaussians: the two samples always add up to the number asked for; none or all are from the first component for a probability of 0 or 1; the first sample has the floor of n p/d draws, or one less *)
Theorem c177_mixture St V (seed_state : Z -> St) (normal : St -> V -> V -> nat -> list V * St) shuffle st mu1 mu2 sg1 sg2 pct n rs :
  (forall s m sg k, length (fst (normal s m sg k)) = k) -> (forall s l, Permutation (fst (shuffle s l)) l) -> (Z.of_nat n <= 2 ^ 30)%Z -> fin pct -> 0 <= fv pct <= 1 ->
  let sample := fgen_mixed_gaussians seed_state normal shuffle st mu1 mu2 sg1 sg2 pct n rs in
  length sample = n /\ exists s1 s2 n1, Permutation sample (fst (normal s1 mu1 sg1 n1) ++ fst (normal s2 mu2 sg2 (n - n1)%nat)) /\ (n1 <= n)%nat /\ (fv pct = 0 -> n1 = 0%nat) /\ (fv pct = 1 -> n1 = n) /\
    forall p d, (0 <= p <= d)%Z -> (0 < d <= 2 ^ 20)%Z -> fv pct = rnd64 (IZR p / IZR d) -> (Z.of_nat n1 = Z.of_nat n * p / d)%Z \/ undecided n p d /\ (Z.of_nat n1 + 1 = Z.of_nat n * p / d)%Z.
Proof.
  intros Hn Hsh HN F B sample. unfold sample, fgen_mixed_gaussians. clear sample. set (st' := match rs with Some s => if (s =? 0)%Z then st else seed_state s | None => st end). destruct (@count_at_most n pct ltac:(lia) F B) as (L & Z0 & Z1). set (n1 := fcount n pct) in *.
  destruct (normal st' mu1 sg1 n1) as [r1 s2] eqn:E1. assert (L1 : length r1 = n1) by (specialize (Hn st' mu1 sg1 n1); rewrite E1 in Hn; auto). rewrite L1. destruct (normal s2 mu2 sg2 (n - n1)%nat) as [r2 s3] eqn:E2. assert (L2 : length r2 = (n - n1)%nat) by (specialize (Hn s2 mu2 sg2 (n - n1)%nat); rewrite E2 in Hn; auto).
  split; [rewrite (Permutation_length (Hsh s3 (r1 ++ r2))), app_length; lia|]. exists st', s2, n1. rewrite E1, E2. split; [apply Hsh|]. split; auto. split; auto. split; auto. intros p d P D V'. destruct (@c176_count n pct p d HN F P D V') as [E|(A1 & A2 & A3)]; [now left|right]. split; auto. now split.
Qed.
Print Assumptions c177_mixture.
(** 29 hundredths of a hundred draws: 28 *)
Theorem c177_mixture_refuted : exists (normal : unit -> Z -> Z -> nat -> list Z * unit) (shuffle : unit -> list Z -> list Z * unit),
  (forall s m sg k, length (fst (normal s m sg k)) = k) /\ (forall s l, Permutation (fst (shuffle s l)) l) /\ fgen_mixed_gaussians (fun _ => tt) normal shuffle tt 1%Z 2%Z 0%Z 0%Z p29 100 None = repeat 1%Z 28 ++ repeat 2%Z 72.
Proof.
  exists (fun s m sg k => (repeat m k, s)), (fun s l => (l, s)). split; [intros; apply repeat_length|]. split; [intros; apply Permutation_refl|]. vm_compute. reflexivity.
Qed.
Print Assumptions c177_mixture_refuted.
