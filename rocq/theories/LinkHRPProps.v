(** C141, C142: hierarchical risk parity from the matrix of returns on. *)
From Verif Require Import Py Num RNum HRPModel HRPSpec HRPProofs HRPProps LinkModel LinkSpec LinkProofs LinkProps FloatCusumProps FloatEwmaProps FloatInfoProofs FloatTickBarsProps.
From Coq Require Import Permutation Sorted FunctionalExtensionality.
From Interval Require Import Tactic.
Set Implicit Arguments.
Unset Strict Implicit.

Section Covariance.
  Open Scope Qc_scope.
  Lemma qsum_filter A (f : A -> Qc) (p : A -> bool) l : qsum (map (fun x => if p x then f x else 0) l) = qsum (map f (filter p l)).
  Proof. induction l as [|x l IH]; auto. cbn [map qsum filter]. rewrite IH. destruct (p x); cbn [map qsum]; ring. Qed.
  Lemma qsum_sub n (s : list nat) (f : nat -> Qc) : NoDup s -> incl s (seq 0 n) ->
    qsum (map (fun i => if existsb (Nat.eqb i) s then f i else 0) (seq 0 n)) = qsum (map f s).
  Proof.
    intros Hs Hi. rewrite qsum_filter. apply qsum_perm, Permutation_map, NoDup_Permutation; auto; [apply NoDup_filter, seq_NoDup|].
    intro x. rewrite filter_In, existsb_exists. split.
    - intros (_ & y & Hy & E). apply Nat.eqb_eq in E. now subst.
    - intro Hx. split; [now apply Hi|]. exists x. split; auto. apply Nat.eqb_refl.
  Qed.
  Lemma qn_sub1 m : (2 <= m)%nat -> 0 < qn m - 1.
  Proof. intro H. assert (1 < qn m) by (unfold qn; change 1 with (qz 1); apply qz_lt; lia). qlra. Qed.
  Lemma quad_cov returns s w : (2 <= length returns)%nat ->
    quad (sample_cov returns) s w * (qn (length returns) - 1) =
    qsum (map (fun r => let x := qsum (map (fun i => w i * (nth i r 0 - qmean (col returns i))) s) in x * x) returns).
  Proof.
    intro HT. assert (HN : qn (length returns) - 1 <> 0) by (apply Qc_pos_neq, qn_sub1; exact HT).
    unfold quad. rewrite Qcmult_comm, <- qsum_map_scale.
    transitivity (qsum (map (fun i => qsum (map (fun j => qsum (map (fun r => (w i * (nth i r 0 - qmean (col returns i))) * (w j * (nth j r 0 - qmean (col returns j)))) returns)) s)) s)).
    { apply qsum_map_ext. intros i _. rewrite <- !qsum_map_scale. apply qsum_map_ext. intros j _. unfold sample_cov.
      transitivity (w i * w j * qsum (map (fun r => (nth j r 0 - qmean (col returns j)) * (nth i r 0 - qmean (col returns i))) returns)); [field; exact HN|].
      rewrite <- qsum_map_scale. apply qsum_map_ext. intros r _. ring. }
    transitivity (qsum (map (fun i => qsum (map (fun r => (w i * (nth i r 0 - qmean (col returns i))) * qsum (map (fun j => w j * (nth j r 0 - qmean (col returns j))) s)) returns)) s)).
    { apply qsum_map_ext. intros i _. rewrite (qsum_map_swap (fun j r => (w i * (nth i r 0 - qmean (col returns i))) * (w j * (nth j r 0 - qmean (col returns j))))). apply qsum_map_ext. intros r _. now rewrite <- qsum_map_scale. }
    rewrite (qsum_map_swap (fun i r => (w i * (nth i r 0 - qmean (col returns i))) * qsum (map (fun j => w j * (nth j r 0 - qmean (col returns j))) s))).
    apply qsum_map_ext. intros r _. cbv zeta. rewrite <- qsum_map_scale_r. reflexivity.
  Qed.
  Lemma sq_nonneg x : 0 <= x * x. Proof. qnra. Qed.
  Lemma sq_zero x : x * x = 0 -> x = 0.
  Proof. intro H. destruct (Qcmult_integral _ _ H); auto. Qed.
  Lemma quad_zero returns s w : (2 <= length returns)%nat -> quad (sample_cov returns) s w = 0 -> forall r, In r returns -> qsum (map (fun i => w i * nth i r 0) s) = qsum (map (fun i => w i * qmean (col returns i)) s).
  Proof.
    intros HT H r Hr. pose proof (quad_cov s w HT) as E. rewrite H in E. cbv zeta in E.
    assert (Z : qsum (map (fun i => w i * (nth i r 0 - qmean (col returns i))) s) = 0).
    { apply sq_zero. apply (@qsum_zero_all (map (fun r => qsum (map (fun i => w i * (nth i r 0 - qmean (col returns i))) s) * qsum (map (fun i => w i * (nth i r 0 - qmean (col returns i))) s)) returns)).
      - intros x Hx. apply in_map_iff in Hx as (y & <- & _). apply sq_nonneg.
      - rewrite <- E. ring.
      - apply in_map_iff. now exists r. }
    apply (f_equal (fun x => x + qsum (map (fun i => w i * qmean (col returns i)) s))) in Z. rewrite Qcplus_0_l in Z. rewrite <- Z, <- qsum_map_add. apply qsum_map_ext. intros i _. ring.
  Qed.
  Lemma quad_nonneg returns s w : (2 <= length returns)%nat -> 0 <= quad (sample_cov returns) s w.
  Proof.
    intro HT. pose proof (quad_cov s w HT) as E. pose proof (qn_sub1 HT) as HN. replace (quad (sample_cov returns) s w) with (quad (sample_cov returns) s w * (qn (length returns) - 1) / (qn (length returns) - 1)) by (field; now apply Qc_pos_neq).
    rewrite E. apply Qcmul_nonneg; [|apply Qclt_le_weak; rewrite <- (Qcmult_1_l (/ _)); apply Qcdiv_pos; [reflexivity|exact HN]]. apply qsum_nonneg. intros x Hx. apply in_map_iff in Hx as (y & <- & _). apply sq_nonneg.
  Qed.
  Lemma quad_one returns i : quad (sample_cov returns) [i] (fun _ => 1) = sample_cov returns i i.
  Proof. unfold quad. cbn [map qsum]. ring. Qed.
  (** the variance of an asset vanishes exactly when it earns the same in every observation *)
  Lemma var_zero returns i : (2 <= length returns)%nat -> (sample_cov returns i i = 0 <-> forall r r', In r returns -> In r' returns -> nth i r 0 = nth i r' 0).
  Proof.
    intro HT. split.
    - intros H r r' Hr Hr'. rewrite <- quad_one in H. pose proof (quad_zero HT H Hr) as E. pose proof (quad_zero HT H Hr') as E'. cbn [map qsum] in E, E'.
      replace (nth i r 0) with (1 * nth i r 0 + 0) by ring. replace (nth i r' 0) with (1 * nth i r' 0 + 0) by ring. now rewrite E, E'.
    - intro H. destruct returns as [|r0 l]; [cbn in HT; lia|]. set (c := nth i r0 0).
      assert (C : forall r, In r (r0 :: l) -> nth i r 0 = c) by (intros r Hr; apply H; auto; now left).
      assert (M : qmean (col (r0 :: l) i) = c).
      { unfold qmean, col. rewrite map_length. rewrite (@qsum_map_ext _ (fun r => nth i r 0) (fun _ => c) (r0 :: l) C). rewrite qsum_map_const. field. apply Qc_pos_neq. pose proof (qn_sub1 HT). qlra. }
      unfold sample_cov. rewrite M. rewrite qsum_map_0 by (intros r Hr; rewrite (C r Hr); ring). unfold Qcdiv. ring.
  Qed.
  Lemma cov_pos_def n returns : (2 <= length returns)%nat -> no_riskless_portfolio n returns -> pos_def (sample_cov returns) (seq 0 n).
  Proof.
    intros HT HR s w Hs Hi (i & Hin & Hw). destruct (Qcle_lt_or_eq _ _ (@quad_nonneg returns s w HT)) as [H|H]; auto. exfalso. apply Hw. symmetry in H.
    set (w' := fun i => if existsb (Nat.eqb i) s then w i else 0).
    assert (P : forall r, portfolio_return n w' r = qsum (map (fun i => w i * nth i r 0) s)).
    { intro r. unfold portfolio_return. rewrite <- (qsum_sub (fun i => w i * nth i r 0) Hs Hi). apply qsum_map_ext. intros k _. unfold w'. destruct (existsb (Nat.eqb k) s); ring. }
    assert (Z : w' i = 0).
    { apply HR; [|apply in_seq with (start := 0%nat), Hi, Hin]. intros r r' Hr Hr'. rewrite !P. now rewrite (quad_zero HT H Hr), (quad_zero HT H Hr'). }
    unfold w' in Z. replace (existsb (Nat.eqb i) s) with true in Z; auto. symmetry. apply existsb_exists. exists i. split; auto. apply Nat.eqb_refl.
  Qed.
  Lemma riskless_obs n returns : (1 <= n)%nat -> no_riskless_portfolio n returns -> (2 <= length returns)%nat.
  Proof.
    intros Hn HR. destruct returns as [|r [|r' l]]; [| |cbn; lia]; exfalso.
    - specialize (HR (fun _ => 1)). discriminate (HR ltac:(intros ? ? []) 0%nat ltac:(lia)).
    - specialize (HR (fun _ => 1)). discriminate (HR ltac:(intros a b [<-|[]] [<-|[]]; reflexivity) 0%nat ltac:(lia)).
  Qed.
End Covariance.

Open Scope R_scope.
Lemma row_dist_sym n m i j : row_dist n m i j = row_dist n m j i.
Proof. unfold row_dist. do 2 f_equal. apply map_ext. intro k. ring. Qed.
Lemma guard_false n returns : (2 <= n)%nat -> (2 <= length returns)%nat -> (forall i, (i < n)%nat -> sample_cov returns i i <> 0%Qc) ->
  (((n <? 2) || (length returns <? 2))%nat || existsb (fun i => qeq (sample_cov returns i i) 0%Qc) (seq 0 n))%bool = false.
Proof.
  intros Hn HT HV. apply Bool.orb_false_iff. split; [apply Bool.orb_false_iff; split; apply Nat.ltb_ge; auto|].
  apply Bool.not_true_is_false. intro E. apply existsb_exists in E as (i & Hi & E). apply in_seq in Hi. apply (HV i); [lia|]. now apply qeq_iff.
Qed.

(** distance of two assets as the clustering sees it, in terms of the sample correlations *)
Definition asset_dist (n : nat) (returns : list (list Qc)) (i j : nat) : R :=
  let m := fun i j => sqrt ((1 - pearson (map qr (col returns i)) (map qr (col returns j))) / 2) in
  sqrt (rsum (map (fun k => (m i k - m j k) ^ 2) (seq 0 n))).
Lemma asset_dist_sym n returns i j : asset_dist n returns i j = asset_dist n returns j i.
Proof. unfold asset_dist. cbv zeta. f_equal. apply rsum_map_ext. intros k _. ring. Qed.
Lemma asset_dist_row n returns i j : (2 <= length returns)%nat -> (forall i, (i < n)%nat -> sample_cov returns i i <> 0%Qc) -> (i < n)%nat -> (j < n)%nat ->
  row_dist n (fun i j => corr_to_dist (sample_corr returns i j)) i j = asset_dist n returns i j.
Proof.
  intros HT HV Hi Hj. unfold row_dist, asset_dist. cbv zeta. f_equal. apply rsum_map_ext. intros k Hk. apply in_seq in Hk. unfold corr_to_dist.
  destruct (@c142_correlation returns i k HT (HV _ Hi) (HV k ltac:(lia))) as [-> _]. destruct (@c142_correlation returns j k HT (HV _ Hj) (HV k ltac:(lia))) as [-> _]. reflexivity.
Qed.
Lemma connected_ext n d d' t i j : (forall i j, (i < n)%nat -> (j < n)%nat -> d i j = d' i j) -> connected n d t i j -> connected n d' t i j.
Proof.
  intros HE H. assert (HL : forall i j, connected n d t i j -> (i < n)%nat /\ (j < n)%nat) by (clear; intros i j H; induction H; tauto).
  induction H as [i Hi|i j k H IH Hk Hd]; [now constructor|]. apply connected_step with j; auto. rewrite <- HE; auto. apply (HL _ _ H).
Qed.

(** the whole procedure, from the returns on *)
Theorem c141_hrp_from_returns fuel n returns : (2 <= n <= fuel)%nat -> no_riskless_portfolio n returns ->
  exists idx w, hrp_of_returns fuel n returns = Some (Ok (map (fun i => (i, w i)) idx)) /\ Permutation idx (seq 0 n) /\
    (forall i, (i < n)%nat -> (0 < w i)%Qc) /\ qsum (map w idx) = 1%Qc /\
    (forall i, (i < n)%nat -> share (sample_cov returns) idx i (w i)) /\
    (forall t a b c i j k, (a <= b <= c)%nat -> nth_error idx a = Some i -> nth_error idx b = Some j -> nth_error idx c = Some k ->
       connected n (asset_dist n returns) t i k -> connected n (asset_dist n returns) t i j).
Proof.
  intros [Hn Hf] HR. assert (HT : (2 <= length returns)%nat) by (apply (@riskless_obs n); auto; lia).
  pose proof (cov_pos_def HT HR) as PD. assert (HV : forall i, (i < n)%nat -> sample_cov returns i i <> 0%Qc).
  { intros i Hi. apply Qc_pos_neq, (pos_def_diag PD), in_seq. lia. }
  unfold hrp_of_returns. rewrite guard_false by auto. cbv zeta. unfold hrp_allocations.
  set (d := row_dist n (fun i j => corr_to_dist (sample_corr returns i j))).
  destruct (@c140_order_keeps_groups n d Hn ltac:(intros; apply row_dist_sym) fuel ltac:(lia)) as (idx & E & P & G). rewrite E.
  assert (HI : forall i, In i idx <-> (i < n)%nat). { intro i. split; intro H; [apply (Permutation_in _ P) in H; apply in_seq in H; lia|apply (Permutation_in _ (Permutation_sym P)), in_seq; lia]. }
  destruct (@c66_recursive_allocation (sample_cov returns) idx fuel) as (w & E1 & W0 & W1 & W2).
  - intros ->. apply Permutation_length in P. rewrite seq_length in P. cbn in P. lia.
  - apply (Permutation_NoDup (Permutation_sym P)), seq_NoDup.
  - rewrite (Permutation_length P), seq_length. exact Hf.
  - intros c Hne Hnd Hinc. apply (@pos_def_var _ (seq 0 n)); auto. intros x Hx. apply in_seq. apply Hinc, HI in Hx. lia.
  - exists idx, w. rewrite E1. split; [reflexivity|]. split; auto. split; [intros i Hi; now apply W1, HI|]. split; auto. split; [intros i Hi; now apply W0, HI|].
    assert (DE : forall i j, (i < n)%nat -> (j < n)%nat -> d i j = asset_dist n returns i j) by (intros i j Hi Hj; now apply asset_dist_row).
    intros t a b c i j k Hab Ei Ej Ek H. apply (@connected_ext n d); auto. apply (G t a b c i j k); auto. apply (@connected_ext n (asset_dist n returns)); auto. intros x y Hx Hy. symmetry. auto.
Qed.
Print Assumptions c141_hrp_from_returns.

(** the only exception, and exactly when *)
Theorem c141_raises fuel n returns e : (n <= fuel)%nat ->
  (hrp_of_returns fuel n returns = Some (Err e) <->
   e = ValueError /\ ((n < 2)%nat \/ (length returns < 2)%nat \/ exists i, (i < n)%nat /\ forall r r', In r returns -> In r' returns -> nth i r 0%Qc = nth i r' 0%Qc)).
Proof.
  intro Hf. unfold hrp_of_returns. destruct (Nat.lt_ge_cases n 2) as [L|Hn].
  { apply Nat.ltb_lt in L as L'. rewrite L'. cbn [orb]. split; [intros [= <-]; auto|intros [-> _]; auto]. }
  destruct (Nat.lt_ge_cases (length returns) 2) as [L|HT].
  { apply Nat.ltb_lt in L as L'. rewrite L', Bool.orb_true_r. cbn [orb]. split; [intros [= <-]; auto|intros [-> _]; auto]. }
  destruct (existsb (fun i => qeq (sample_cov returns i i) 0%Qc) (seq 0 n)) eqn:EX.
  - rewrite Bool.orb_true_r. apply existsb_exists in EX as (i & Hi & EX). apply in_seq in Hi. apply qeq_iff in EX. pose proof (proj1 (var_zero i HT) EX) as C.
    split; [intros [= <-]; split; auto; right; right; exists i; split; [lia|exact C]|intros [-> _]; auto].
  - assert (HV : forall i, (i < n)%nat -> sample_cov returns i i <> 0%Qc).
    { intros i Hi E. rewrite <- Bool.not_true_iff_false in EX. apply EX, existsb_exists. exists i. split; [apply in_seq; lia|]. now apply qeq_iff. }
    rewrite (proj2 (Nat.ltb_ge n 2) Hn), (proj2 (Nat.ltb_ge (length returns) 2) HT). cbn [orb]. cbv zeta. unfold hrp_allocations.
    set (d := row_dist n (fun i j => corr_to_dist (sample_corr returns i j))).
    destruct (@c140_order_keeps_groups n d Hn ltac:(intros; apply row_dist_sym) fuel ltac:(lia)) as (idx & E & P & G). rewrite E.
    split; [destruct (recursive_bisection fuel (sample_cov returns) idx); discriminate|].
    intros (_ & [H|[H|(i & Hi & C)]]); [lia|lia|]. exfalso. apply (HV i Hi), var_zero; auto.
Qed.
Print Assumptions c141_raises.

(** ** units: a change of scale (or of sign) of all the returns, and an additive constant for each asset, change nothing *)
Definition rescale (k : Qc) (b : nat -> Qc) (r : list Qc) : list Qc := map (fun p => (k * snd p + b (fst p))%Qc) (combine (seq 0 (length r)) r).
Section Rescale.
  Open Scope Qc_scope.
  Variables (k : Qc) (b : nat -> Qc).
  Hypothesis Hk : k <> 0.
  Lemma rescale_len r : length (rescale k b r) = length r.
  Proof. unfold rescale. rewrite map_length, combine_length, seq_length. lia. Qed.
  Lemma rescale_nth r i : (i < length r)%nat -> nth i (rescale k b r) 0 = k * nth i r 0 + b i.
  Proof.
    intro Hi. unfold rescale. assert (L : length (combine (seq 0 (length r)) r) = length r) by (rewrite combine_length, seq_length; lia).
    set (f := fun p : nat * Qc => k * snd p + b (fst p)). rewrite (nth_indep _ 0 (f (0%nat, 0))) by (now rewrite map_length, L).
    rewrite map_nth, combine_nth by apply seq_length. unfold f. cbn [fst snd]. rewrite seq_nth by auto. reflexivity.
  Qed.
  Variables (n : nat) (returns : list (list Qc)).
  Hypothesis HL : forall r, In r returns -> length r = n.
  Hypothesis HT : (2 <= length returns)%nat.
  Let R' := map (rescale k b) returns.
  Lemma rescale_entry r i : In r returns -> nth i (rescale k b r) 0 = if (i <? n)%nat then k * nth i r 0 + b i else 0.
  Proof.
    intro Hr. destruct (Nat.ltb_spec i n) as [L|L]; [apply rescale_nth; now rewrite HL|]. apply nth_overflow. rewrite rescale_len, HL; auto.
  Qed.
  Lemma rescale_dev r i : In r returns -> nth i (rescale k b r) 0 - qmean (col R' i) = k * (nth i r 0 - qmean (col returns i)).
  Proof.
    intro Hr. assert (QN : qn (length returns) <> 0) by (apply Qc_pos_neq; pose proof (qn_sub1 HT); qlra).
    assert (M : qmean (col R' i) = if (i <? n)%nat then k * qmean (col returns i) + b i else 0).
    { unfold qmean, col, R'. rewrite !map_map, !map_length. rewrite (@qsum_map_ext _ (fun r => nth i (rescale k b r) 0) (fun r => if (i <? n)%nat then k * nth i r 0 + b i else 0) returns) by (intros; now apply rescale_entry).
      destruct (i <? n)%nat; [rewrite qsum_map_add, qsum_map_scale, qsum_map_const; field; exact QN|]. rewrite qsum_map_0 by auto. unfold Qcdiv. ring. }
    rewrite rescale_entry, M by auto. destruct (Nat.ltb_spec i n) as [L|L]; [ring|].
    rewrite nth_overflow by (now rewrite HL). unfold qmean, col. rewrite qsum_map_0 by (intros x Hx; apply nth_overflow; now rewrite HL). unfold Qcdiv. ring.
  Qed.
  Lemma rescale_cov i j : sample_cov R' i j = k * k * sample_cov returns i j.
  Proof.
    unfold sample_cov. unfold R' at 3 4. rewrite map_map, map_length. unfold Qcdiv. rewrite Qcmult_assoc. f_equal. rewrite <- qsum_map_scale. apply qsum_map_ext. intros r Hr. rewrite !rescale_dev by auto. ring.
  Qed.
End Rescale.

Section ScaledCov.
  Open Scope Qc_scope.
  Variables (c : Qc) (cov cov' : nat -> nat -> Qc).
  Hypothesis Hc : c <> 0.
  Hypothesis HC : forall i j, cov' i j = c * cov i j.
  Lemma div_scale x y : c * x / (c * y) = x / y.
  Proof. unfold Qcdiv. rewrite Qcinv_mult_distr. transitivity (c * / c * (x * / y)); [ring|]. rewrite Qcmult_inv_r by exact Hc. ring. Qed.
  Lemma inv_scale idx : inverse_cov_portfolio cov' idx = inverse_cov_portfolio cov idx.
  Proof.
    unfold inverse_cov_portfolio. assert (E : map (fun i => 1 / cov' i i) idx = map (Qcmult (/ c)) (map (fun i => 1 / cov i i) idx)).
    { rewrite map_map. apply map_ext. intro i. rewrite HC. unfold Qcdiv. rewrite Qcinv_mult_distr. ring. }
    rewrite E. assert (Q : forall l, qsum (map (Qcmult (/ c)) l) = / c * qsum l) by (induction l as [|x l IH]; cbn [map qsum]; [ring|rewrite IH; ring]).
    rewrite Q, map_map. apply map_ext. intro x. unfold Qcdiv. assert (II : / / c = c) by (field; repeat split; auto; discriminate). rewrite Qcinv_mult_distr, II. transitivity (c * / c * (x * / qsum (map (fun i => 1 * / cov i i) idx))); [ring|]. rewrite Qcmult_inv_r by exact Hc. ring.
  Qed.
  Lemma var_scale idx : cluster_var cov' idx = c * cluster_var cov idx.
  Proof.
    unfold cluster_var. rewrite inv_scale. rewrite <- qsum_map_scale. apply qsum_map_ext. intros p _.
    transitivity (snd p * (c * qsum (map (fun q => snd q * cov (fst q) (fst p)) (combine idx (inverse_cov_portfolio cov idx))))); [|ring]. f_equal. rewrite <- qsum_map_scale. apply qsum_map_ext. intros q _. rewrite HC. ring.
  Qed.
  Lemma pairs_scale parts ws : split_pairs cov' parts ws = split_pairs cov parts ws.
  Proof.
    revert ws. induction parts as [parts IH] using (well_founded_induction (Wf_nat.well_founded_ltof _ (@length (list nat)))). intro ws. destruct parts as [|p1 [|p2 rest]]; auto.
    cbn [split_pairs]. cbv zeta. rewrite !var_scale. replace (c * cluster_var cov p1 + c * cluster_var cov p2) with (c * (cluster_var cov p1 + cluster_var cov p2)) by ring. rewrite div_scale. apply IH. unfold Wf_nat.ltof. cbn. lia.
  Qed.
  Lemma loop_scale fuel : forall parts ws, bisect_loop fuel cov' parts ws = bisect_loop fuel cov parts ws.
  Proof. induction fuel as [|f IH]; intros [|p parts] ws; auto. cbn [bisect_loop]. cbv zeta. now rewrite pairs_scale, IH. Qed.
End ScaledCov.
Lemma corr_scale returns returns' (k : Qc) i j : k <> 0%Qc -> (forall i j, sample_cov returns' i j = k * k * sample_cov returns i j)%Qc ->
  sample_corr returns' i j = sample_corr returns i j.
Proof.
  intros Hk HC. unfold sample_corr. cbv zeta. do 2 f_equal. fold (qr (sample_cov returns' i j)) (qr (sample_cov returns' i i)) (qr (sample_cov returns' j j)) (qr (sample_cov returns i j)) (qr (sample_cov returns i i)) (qr (sample_cov returns j j)).
  rewrite !HC, !qr_mul. assert (K : qr k <> 0) by (intro E; apply Hk; now apply qr_eq_0).
  assert (S : forall x, sqrt (qr k * qr k * x) = Rabs (qr k) * sqrt x).
  { intro x. rewrite sqrt_mult_alt by nra. f_equal. apply sqrt_Rsqr_abs. }
  rewrite !S. assert (A : Rabs (qr k) * Rabs (qr k) = qr k * qr k) by (rewrite <- Rabs_mult; apply Rabs_right; nra). assert (Rabs (qr k) <> 0) by now apply Rabs_no_R0.
  rewrite <- A. unfold Rdiv. rewrite !Rinv_mult. transitivity (Rabs (qr k) * / Rabs (qr k) * (Rabs (qr k) * / Rabs (qr k)) * (qr (sample_cov returns i j) * / sqrt (qr (sample_cov returns i i)) * / sqrt (qr (sample_cov returns j j)))); [ring|]. rewrite Rinv_r by auto. ring.
Qed.
Theorem c141_units fuel n returns k b : k <> 0%Qc -> (forall r, In r returns -> length r = n) ->
  hrp_of_returns fuel n (map (rescale k b) returns) = hrp_of_returns fuel n returns.
Proof.
  intros Hk HL. unfold hrp_of_returns. rewrite map_length. destruct (Nat.ltb_spec (length returns) 2) as [L|HT]; [now rewrite Bool.orb_true_r|].
  destruct (n <? 2)%nat; auto. cbn [orb].
  assert (HC : forall i j, (sample_cov (map (rescale k b) returns) i j = k * k * sample_cov returns i j)%Qc) by (intros; now apply (@rescale_cov k b n)).
  assert (KK : (k * k <> 0)%Qc) by (intro E; apply Qcmult_integral in E; tauto).
  assert (EX : existsb (fun i => qeq (sample_cov (map (rescale k b) returns) i i) 0%Qc) (seq 0 n) = existsb (fun i => qeq (sample_cov returns i i) 0%Qc) (seq 0 n)).
  { induction (seq 0 n) as [|i l IH]; auto. cbn [existsb]. rewrite IH. f_equal. apply Bool.eq_iff_eq_true. rewrite !qeq_iff, HC. split; [intro E; apply Qcmult_integral in E; tauto|intros ->; ring]. }
  rewrite EX. clear EX. destruct (existsb _ _); auto.
  assert (CO : (fun i j => corr_to_dist (sample_corr (map (rescale k b) returns) i j)) = (fun i j => corr_to_dist (sample_corr returns i j))).
  { apply functional_extensionality. intro i. apply functional_extensionality. intro j. f_equal. now apply (@corr_scale _ _ k). }
  rewrite CO. cbv zeta. unfold hrp_allocations. destruct (quasi_diagonalize _ _) as [[idx|]|]; auto.
  unfold recursive_bisection. now rewrite (@loop_scale (k * k)%Qc (sample_cov returns) _ KK HC).
Qed.
Print Assumptions c141_units.

(** three assets in four observations *)
Definition c141_returns : list (list Qc) := map (map qz) [[1; 2; 0]; [3; 1; 1]; [-1; 0; 2]; [0; 2; 5]]%Z.
Example c141_no_riskless : no_riskless_portfolio 3 c141_returns.
Proof.
  intros w H. assert (E : forall a b, In a c141_returns -> In b c141_returns -> (portfolio_return 3 w a - portfolio_return 3 w b = 0)%Qc) by (intros a b Ha Hb; rewrite (H a b Ha Hb); ring).
  pose proof (E (map qz [1; 2; 0]%Z) (map qz [3; 1; 1]%Z) ltac:(cbn; auto) ltac:(cbn; auto)) as E1.
  pose proof (E (map qz [1; 2; 0]%Z) (map qz [-1; 0; 2]%Z) ltac:(cbn; auto) ltac:(cbn; auto)) as E2.
  pose proof (E (map qz [1; 2; 0]%Z) (map qz [0; 2; 5]%Z) ltac:(cbn; auto) ltac:(cbn; auto)) as E3.
  clear E H. unfold portfolio_return in E1, E2, E3. cbn [seq map nth qsum] in E1, E2, E3. set (x := w 0%nat) in *. set (y := w 1%nat) in *. set (z := w 2%nat) in *.
  assert (X : x = 0%Qc /\ y = 0%Qc /\ z = 0%Qc).
  { change (qz 2) with (1 + 1)%Qc in *. change (qz 3) with (1 + 1 + 1)%Qc in *. change (qz 5) with (1 + 1 + 1 + 1 + 1)%Qc in *. change (qz (-1)) with (- (1))%Qc in *. change (qz 1) with 1%Qc in *. change (qz 0) with 0%Qc in *.
    clearbody x y z. repeat split; qlra. }
  destruct X as (X & Y & Z). intros [|[|[|i]]] Hi; auto. lia.
Qed.
Example c141_nonvacuous : exists idx w, hrp_of_returns 3 3 c141_returns = Some (Ok (map (fun i => (i, w i)) idx)) /\ Permutation idx (seq 0 3) /\ qsum (map w idx) = 1%Qc.
Proof. destruct (@c141_hrp_from_returns 3 3 c141_returns ltac:(lia) c141_no_riskless) as (idx & w & H1 & H2 & _ & H3 & _). exists idx, w. auto. Qed.
Example c141_constant_raises : hrp_of_returns 2 2 (map (map qz) [[1; 7]; [2; 7]; [0; 7]]%Z) = Some (Err ValueError).
Proof. apply c141_raises; [lia|]. split; auto. right. right. exists 1%nat. split; [lia|]. intros r r' [<-|[<-|[<-|[]]]] [<-|[<-|[<-|[]]]]; reflexivity. Qed.

(** ** the pair merged first *)
(** The assets merged first are the two whose distances to all the assets are closest. *)
Theorem c142_first_merge n returns i0 j0 : (2 <= length returns)%nat -> (forall i, (i < n)%nat -> sample_cov returns i i <> 0%Qc) ->
  (i0 < j0 < n)%nat -> (forall i j, (i < j < n)%nat -> (i, j) <> (i0, j0) -> asset_dist n returns i0 j0 < asset_dist n returns i j) ->
  exists lk w, nth_error (single_linkage Rltb (row_dist n (fun i j => corr_to_dist (sample_corr returns i j))) n) 0 = Some (lk, w) /\ l_left lk = i0 /\ l_right lk = j0.
Proof.
  intros HT HV H0 Hmin. destruct (@c142_closest_pair_first n (row_dist n (fun i j => corr_to_dist (sample_corr returns i j))) ltac:(lia) ltac:(intros; apply row_dist_sym) i0 j0 H0) as (lk & w & E & A & B & _).
  - intros i j Hij Hne. rewrite !asset_dist_row by (auto; lia). now apply Hmin.
  - exists lk, w. auto.
Qed.
Print Assumptions c142_first_merge.

(** Four assets: the first two are the most correlated (1/2), the last two (0.471) are merged first. *)
Definition c142_returns : list (list Qc) := map (map qz) [[1; -1; 2; 2]; [0; 0; -1; 2]; [1; 2; -1; -1]; [-2; -1; 0; 0]]%Z.
Lemma corr_val returns i j p q r : (2 <= length returns)%nat -> qr (sample_cov returns i j) = p -> qr (sample_cov returns i i) = q -> qr (sample_cov returns j j) = r -> 0 < q -> 0 < r ->
  pearson (map qr (col returns i)) (map qr (col returns j)) = p / sqrt q / sqrt r.
Proof.
  intros HT Ep Eq Er Hq Hr. assert (Vi : sample_cov returns i i <> 0%Qc) by (intro E; rewrite E, qr_0 in Eq; lra). assert (Vj : sample_cov returns j j <> 0%Qc) by (intro E; rewrite E, qr_0 in Er; lra).
  destruct (corr_raw HT Vi Vj) as [<- _]. now rewrite Ep, Eq, Er.
Qed.
Lemma c142_cov i j a b : this (sample_cov c142_returns i j) = Qmake a b -> qr (sample_cov c142_returns i j) = IZR a / IZR (Zpos b).
Proof. intro E. unfold qr. now rewrite E. Qed.
Definition c142_pearson i j := pearson (map qr (col c142_returns i)) (map qr (col c142_returns j)).
Lemma pearson_sym xs ys : length xs = length ys -> pearson xs ys = pearson ys xs.
Proof.
  intro HL. unfold pearson. f_equal; [|ring]. f_equal. generalize (mean_of xs) (mean_of ys). intros mx my. revert ys HL. induction xs as [|x xs IH]; intros [|y ys] HL; try discriminate; auto. cbn [combine map]. injection HL as HL. rewrite (IH ys HL). f_equal. cbn. ring.
Qed.
Lemma c142_sym i j : c142_pearson i j = c142_pearson j i.
Proof. apply pearson_sym. unfold col. now rewrite !map_length. Qed.
Ltac cov_val := match goal with |- qr (sample_cov c142_returns ?i ?j) = _ => let v := eval vm_compute in (this (sample_cov c142_returns i j)) in match v with Qmake ?a ?b => apply (@c142_cov i j a b); vm_compute; reflexivity end end.
Lemma c142_ones : c142_pearson 0 0 = 1 /\ c142_pearson 1 1 = 1 /\ c142_pearson 2 2 = 1 /\ c142_pearson 3 3 = 1.
Proof.
  assert (G : forall i q, 0 < q -> qr (sample_cov c142_returns i i) = q -> c142_pearson i i = 1).
  { intros i q Hq E. unfold c142_pearson. rewrite (@corr_val c142_returns i i q q q); auto; [|cbn; lia]. assert (0 < sqrt q) by now apply sqrt_lt_R0. replace q with (sqrt q * sqrt q) at 1 by (apply sqrt_sqrt; lra). field. lra. }
  split; [eapply G; [|cov_val]; lra|]. split; [eapply G; [|cov_val]; lra|]. split; (eapply G; [|cov_val]; lra).
Qed.
Lemma c142_values : c142_pearson 0 1 = 1 / 2 /\ c142_pearson 0 2 = 1 / 6 /\ c142_pearson 0 3 = sqrt 2 / 9 /\ c142_pearson 1 2 = - (2 / 3) /\ c142_pearson 1 3 = - (4 / 9) * sqrt 2 /\ c142_pearson 2 3 = sqrt 2 / 3.
Proof.
  assert (P2 : 0 < sqrt 2) by (apply sqrt_lt_R0; lra). assert (S2 : / sqrt 2 = sqrt 2 / 2) by (apply Rmult_eq_reg_l with (sqrt 2); [|lra]; rewrite Rinv_r by lra; unfold Rdiv; rewrite <- Rmult_assoc, sqrt_sqrt by lra; lra).
  assert (SS : sqrt 2 * sqrt 2 = 2) by (apply sqrt_sqrt; lra). assert (S9 : sqrt (9 / 4) = 3 / 2) by (replace (9 / 4) with ((3 / 2) * (3 / 2)) by lra; apply sqrt_square; lra).
  assert (V0 : qr (sample_cov c142_returns 0 0) = 2) by (transitivity (2 / 1); [cov_val|lra]). assert (V1 : qr (sample_cov c142_returns 1 1) = 2) by (transitivity (2 / 1); [cov_val|lra]).
  assert (V2 : qr (sample_cov c142_returns 2 2) = 2) by (transitivity (2 / 1); [cov_val|lra]). assert (V3 : qr (sample_cov c142_returns 3 3) = 9 / 4) by cov_val.
  assert (HT : (2 <= length c142_returns)%nat) by (cbn; lia).
  assert (A : forall i j p, qr (sample_cov c142_returns i i) = 2 -> qr (sample_cov c142_returns j j) = 2 -> qr (sample_cov c142_returns i j) = p -> c142_pearson i j = p / 2).
  { intros i j p Ei Ej E. unfold c142_pearson. rewrite (@corr_val c142_returns i j p 2 2) by (auto; lra). unfold Rdiv. rewrite S2. transitivity (p * (sqrt 2 * sqrt 2) / 4); [field|rewrite SS; field]. }
  assert (B : forall i p, qr (sample_cov c142_returns i i) = 2 -> qr (sample_cov c142_returns i 3) = p -> c142_pearson i 3 = p * sqrt 2 / 3).
  { intros i p Ei E. unfold c142_pearson. rewrite (@corr_val c142_returns i 3 p 2 (9 / 4)) by (auto; lra). rewrite S9. unfold Rdiv. rewrite S2. field. }
  split; [rewrite (@A 0%nat 1%nat (1 / 1) V0 V1 ltac:(cov_val)); lra|]. split; [rewrite (@A 0%nat 2%nat (1 / 3) V0 V2 ltac:(cov_val)); lra|]. split; [rewrite (@B 0%nat (1 / 3) V0 ltac:(cov_val)); lra|].
  split; [rewrite (@A 1%nat 2%nat (-4 / 3) V1 V2 ltac:(cov_val)); lra|]. split; [rewrite (@B 1%nat (-4 / 3) V1 ltac:(cov_val)); lra|]. rewrite (@B 2%nat (1 / 1) V2 ltac:(cov_val)); lra.
Qed.
(** "the two most correlated assets are merged first" is false *)
Theorem c142_most_correlated_refuted :
  ~ (forall n returns i0 j0, (2 <= length returns)%nat -> (forall r, In r returns -> length r = n) ->
       (forall i, (i < n)%nat -> exists r r', In r returns /\ In r' returns /\ nth i r 0%Qc <> nth i r' 0%Qc) -> (i0 < j0 < n)%nat ->
       (forall i j, (i < j < n)%nat -> (i, j) <> (i0, j0) -> pearson (map qr (col returns i)) (map qr (col returns j)) < pearson (map qr (col returns i0)) (map qr (col returns j0))) ->
       exists lk w, nth_error (single_linkage Rltb (row_dist n (fun i j => corr_to_dist (sample_corr returns i j))) n) 0 = Some (lk, w) /\ l_left lk = i0 /\ l_right lk = j0).
Proof.
  intro H. destruct c142_values as (C01 & C02 & C03 & C12 & C13 & C23). destruct c142_ones as (C00 & C11 & C22 & C33).
  assert (HT : (2 <= length c142_returns)%nat) by (cbn; lia).
  assert (NC : forall i, (i < 4)%nat -> exists r r', In r c142_returns /\ In r' c142_returns /\ nth i r 0%Qc <> nth i r' 0%Qc).
  { intros i Hi. exists (map qz [0; 0; -1; 2]%Z), (map qz [-2; -1; 0; 0]%Z). split; [cbn; auto|]. split; [cbn; auto|]. destruct i as [|[|[|[|i]]]]; [discriminate..|lia]. }
  destruct (H 4%nat c142_returns 0%nat 1%nat HT) as (lk & w & E & L0 & L1); auto.
  - intros r [<-|[<-|[<-|[<-|[]]]]]; reflexivity.
  - intros i j Hij Hne. fold (c142_pearson i j) (c142_pearson 0 1). rewrite C01.
    assert (K : (i, j) = (0, 2)%nat \/ (i, j) = (0, 3)%nat \/ (i, j) = (1, 2)%nat \/ (i, j) = (1, 3)%nat \/ (i, j) = (2, 3)%nat).
    { destruct i as [|[|[|i]]]; destruct j as [|[|[|[|j]]]]; try lia; auto 6. congruence. }
    destruct K as [K|[K|[K|[K|K]]]]; injection K as -> ->; rewrite ?C02, ?C03, ?C12, ?C13, ?C23; interval.
  - destruct (@c142_first_merge 4 c142_returns 2 3 HT) as (lk' & w' & E' & L0' & L1'); [|lia| |congruence].
    + intros i Hi E0. destruct (NC i Hi) as (r & r' & Hr & Hr' & Hd). apply Hd. now apply (proj1 (var_zero i HT) E0).
    + intros i j Hij Hne. unfold asset_dist. cbn [seq map rsum]. cbv zeta. fold (c142_pearson 2 0) (c142_pearson 2 1) (c142_pearson 2 2) (c142_pearson 2 3) (c142_pearson 3 0) (c142_pearson 3 1) (c142_pearson 3 2) (c142_pearson 3 3) (c142_pearson i 0) (c142_pearson i 1) (c142_pearson i 2) (c142_pearson i 3) (c142_pearson j 0) (c142_pearson j 1) (c142_pearson j 2) (c142_pearson j 3).
      apply sqrt_lt_1_alt.
      assert (K : (i, j) = (0, 1)%nat \/ (i, j) = (0, 2)%nat \/ (i, j) = (0, 3)%nat \/ (i, j) = (1, 2)%nat \/ (i, j) = (1, 3)%nat).
      { destruct i as [|[|[|i]]]; destruct j as [|[|[|[|j]]]]; try lia; auto 6. congruence. }
      rewrite (c142_sym 2 0), (c142_sym 2 1), (c142_sym 3 0), (c142_sym 3 1), (c142_sym 3 2), C02, C03, C12, C13, C22, C23, C33.
      destruct K as [K|[K|[K|[K|K]]]]; injection K as -> ->; rewrite ?(c142_sym 1 0), ?(c142_sym 2 0), ?(c142_sym 2 1), ?(c142_sym 3 0), ?(c142_sym 3 1), ?(c142_sym 3 2), ?C00, ?C01, ?C02, ?C03, ?C11, ?C12, ?C13, ?C22, ?C23, ?C33; split; interval with (i_prec 60).
Qed.
Print Assumptions c142_most_correlated_refuted.

(** four points on a line at 0, 1, 3 and 7: the three rows scipy returns *)
Example c140_rows : single_linkage Nat.ltb (fun i j => let x := nth i [0; 1; 3; 7] 0 in let y := nth j [0; 1; 3; 7] 0 in x - y + (y - x))%nat 4 =
  [({| l_left := 0; l_right := 1; l_count := 2 |}, 1); ({| l_left := 2; l_right := 4; l_count := 3 |}, 2); ({| l_left := 3; l_right := 5; l_count := 4 |}, 4)]%nat.
Proof. reflexivity. Qed.
