(** C65, C66, C85, C93: hierarchical risk parity and PCA hedging. *)
From Verif Require Import Py RNum HRPModel HRPSpec HRPProofs.
From Coq Require Import Permutation.
Set Implicit Arguments.
Unset Strict Implicit.
Open Scope Qc_scope.

(** ** C65 *)
Theorem c65_quasi_diagonalize n lm fuel : linkage_ok n lm -> (n - 1 <= fuel)%nat ->
  exists idx, quasi_diagonalize fuel lm = Some (Ok idx) /\ leaves n lm (2 * n - 2) idx /\ Permutation idx (seq 0 n).
Proof.
  intros H Hf. pose proof (lk_items H). pose proof (lk_rows H) as Hr. exists (lv (length lm) n lm (2 * n - 2)). split; [apply quasi_diagonalize_ok; auto; lia|]. split.
  - apply lv_leaves; [apply (lk_before H)|lia].
  - now apply lv_root_perm.
Qed.
Print Assumptions c65_quasi_diagonalize.
(** an empty linkage matrix has no last row *)
Theorem c65_empty_linkage fuel : quasi_diagonalize fuel [] = Some (Err IndexError). Proof. reflexivity. Qed.
(** the items below a cluster are determined by the linkage matrix *)
Theorem c65_order_unique n lm x l1 l2 : leaves n lm x l1 -> leaves n lm x l2 -> l1 = l2.
Proof.
  intro H. revert l2. induction H as [x Hx|k r l1 l2 Hr H1 IH1 H2 IH2]; intros l' H'.
  - inversion H'; subst; auto. lia.
  - remember (n + k)%nat as y eqn:Ey. destruct H' as [y Hy|k' r' m1 m2 Hr' G1 G2]; [lia|]. assert (k' = k) by lia. subst k'. rewrite Hr in Hr'. injection Hr' as <-.
    now rewrite (IH1 _ G1), (IH2 _ G2).
Qed.
Print Assumptions c65_order_unique.
Definition c65_links := [ {| l_left := 0; l_right := 3; l_count := 2 |}; {| l_left := 1; l_right := 2; l_count := 2 |}; {| l_left := 5; l_right := 4; l_count := 4 |} ].
Example c65_links_ok : linkage_ok 4 c65_links.
Proof.
  split; try (cbn; lia).
  - intros [|[|[|k]]] r E; cbn in E; try (injection E as <-; cbn; lia). destruct k; discriminate.
  - cbn. apply NoDup_Permutation.
    + repeat constructor; cbn; intuition lia. + repeat constructor; cbn; intuition lia. + intro x. cbn. intuition lia.
  - cbn. intros r E. now injection E as <-.
Qed.
Example c65_example : quasi_diagonalize 3 c65_links = Some (Ok [1; 2; 0; 3]%nat). Proof. reflexivity. Qed.

(** ** C66 *)
(** The loop computes the recursive allocation: each half gets the other half's share of the variance. *)
Theorem c66_recursive_allocation cov idx fuel : idx <> [] -> NoDup idx -> (length idx <= fuel)%nat ->
  (forall c, c <> [] -> NoDup c -> incl c idx -> 0 < cluster_var cov c) ->
  exists w, recursive_bisection fuel cov idx = Some (map (fun i => (i, w i)) idx) /\
    (forall i, In i idx -> share cov idx i (w i)) /\ (forall i, In i idx -> 0 < w i) /\ qsum (map w idx) = 1.
Proof.
  intros Hne Hn Hf Hv. destruct (recursive_bisection_ok Hv Hne Hn Hf) as (g & E & Hs). exists g. split; auto. split; auto.
  destruct (@share_total cov idx Hv (length idx) idx g) as [T1 T2]; auto. intros x; auto.
Qed.
Print Assumptions c66_recursive_allocation.
(** hrp_allocations: for every valid linkage matrix and every positive-definite covariance matrix. *)
Theorem c66_hrp_portfolio n lm cov fuel : linkage_ok n lm -> pos_def cov (seq 0 n) -> (n <= fuel)%nat ->
  exists ws, hrp_allocations fuel cov lm = Some (Ok ws) /\ Permutation (map fst ws) (seq 0 n) /\ (forall e, In e ws -> 0 < snd e) /\ qsum (map snd ws) = 1.
Proof.
  intros Hl Hp Hf. destruct (@c65_quasi_diagonalize n lm fuel Hl ltac:(lia)) as (idx & E & _ & P). pose proof (lk_items Hl) as H2.
  assert (Hlen : length idx = n) by (rewrite (Permutation_length P), seq_length; auto).
  destruct (@c66_recursive_allocation cov idx fuel) as (w & E1 & _ & W1 & W2).
  - destruct idx; cbn in Hlen; [lia|discriminate].
  - apply (Permutation_NoDup (Permutation_sym P)), seq_NoDup.
  - lia.
  - intros c C1 C2 C3. apply (pos_def_var Hp); auto. intros x Hx. apply (Permutation_in _ P). auto.
  - unfold hrp_allocations. rewrite E, E1. eexists. split; [reflexivity|]. rewrite !map_map. cbn. rewrite map_id. split; auto. split; auto.
    intros e He. apply in_map_iff in He as (i & <- & Hi). cbn. auto.
Qed.
Print Assumptions c66_hrp_portfolio.
Theorem c66_inverse_variance cov idx : idx <> [] -> (forall i, In i idx -> 0 < cov i i) ->
  (forall w, In w (inverse_cov_portfolio cov idx) -> 0 < w) /\ qsum (inverse_cov_portfolio cov idx) = 1 /\
  forall j k wj wk i1 i2, nth_error idx j = Some i1 -> nth_error idx k = Some i2 -> nth_error (inverse_cov_portfolio cov idx) j = Some wj -> nth_error (inverse_cov_portfolio cov idx) k = Some wk -> wj * cov i1 i1 = wk * cov i2 i2.
Proof.
  intros Hne Hd. unfold inverse_cov_portfolio. set (S := qsum (map (fun i => 1 / cov i i) idx)).
  assert (HS : 0 < S).
  { apply qsum_pos; [destruct idx; [congruence|discriminate]|]. intros x Hx. apply in_map_iff in Hx as (i & <- & Hi). apply Qcdiv_pos; [reflexivity|auto]. }
  assert (HSn : S <> 0) by now apply Qc_pos_neq. split; [|split].
  - intros w Hw. apply in_map_iff in Hw as (x & <- & Hx). apply in_map_iff in Hx as (i & <- & Hi). apply Qcdiv_pos; auto. apply Qcdiv_pos; [reflexivity|auto].
  - rewrite (@qsum_map_ext _ (fun x => x / S) (fun x => / S * x) _) by (intros; field; auto). rewrite qsum_map_scale, map_id. fold S. field. auto.
  - intros j k wj wk i1 i2 H1 H2 H3 H4. rewrite map_map, nth_error_map in H3, H4. rewrite H1 in H3. rewrite H2 in H4. cbn in H3, H4. injection H3 as <-. injection H4 as <-.
    apply nth_error_In, Hd, Qc_pos_neq in H1. apply nth_error_In, Hd, Qc_pos_neq in H2. field. repeat split; auto.
Qed.
Print Assumptions c66_inverse_variance.
(** the variance of a cluster is that of its inverse-variance portfolio *)
Theorem c66_cluster_variance cov idx :
  let w i := (1 / cov i i) / qsum (map (fun k => 1 / cov k k) idx) in
  cluster_var cov idx = qsum (map (fun i => qsum (map (fun j => w i * w j * cov j i) idx)) idx).
Proof.
  intro w. unfold cluster_var, inverse_cov_portfolio. rewrite map_map. assert (E : combine idx (map (fun i => 1 / cov i i / qsum (map (fun k => 1 / cov k k) idx)) idx) = map (fun i => (i, w i)) idx) by (unfold w; clear; generalize (qsum (map (fun k => 1 / cov k k) idx)); intro s; induction idx as [|i l IH]; cbn; auto; now rewrite IH).
  rewrite E, map_map. apply qsum_map_ext. intros i _. cbn [fst snd]. rewrite map_map, <- qsum_map_scale. apply qsum_map_ext. intros j _. cbn [fst snd]. ring.
Qed.
Print Assumptions c66_cluster_variance.
(** the split minimises the variance of two uncorrelated halves *)
Theorem c66_split_minimises_variance v1 v2 a : 0 < v1 -> 0 < v2 ->
  let alpha := 1 - v1 / (v1 + v2) in alpha * alpha * v1 + (1 - alpha) * (1 - alpha) * v2 <= a * a * v1 + (1 - a) * (1 - a) * v2.
Proof.
  intros H1 H2 alpha. assert (Hs : v1 + v2 <> 0) by (apply Qc_pos_neq; qlra).
  assert (E : a * a * v1 + (1 - a) * (1 - a) * v2 - (alpha * alpha * v1 + (1 - alpha) * (1 - alpha) * v2) = (v1 + v2) * ((a - alpha) * (a - alpha))) by (unfold alpha; field; auto).
  assert (0 <= (v1 + v2) * ((a - alpha) * (a - alpha))) by (apply Qcmul_nonneg; [qlra|]; set (x := a - alpha); clearbody x; qnra). qlra.
Qed.
Print Assumptions c66_split_minimises_variance.
(** a diagonal covariance meets the hypothesis *)
Definition c66_cov (i j : nat) : Qc := if (i =? j)%nat then qz (2 * (1 + Z.of_nat i)) else 0.
Example c66_example : hrp_allocations 5 c66_cov c65_links = Some (Ok [(1%nat, q 6 25); (2%nat, q 4 25); (0%nat, q 12 25); (3%nat, q 3 25)]).
Proof. vm_compute. reflexivity. Qed.
Example c66_cov_pos_def : pos_def c66_cov (seq 0 4).
Proof.
  intros s w Hn Hi (i & Hin & Hw). unfold quad.
  assert (E : forall l, NoDup l -> forall i, In i l -> qsum (map (fun j => w j * c66_cov j i) l) = w i * qz (2 * (1 + Z.of_nat i))).
  { intros l Hl k Hk. induction Hl as [|a l Ha Hl IH]; [destruct Hk|]. cbn [map qsum fold_right].
    change (qsum (w a * c66_cov a k :: map (fun j => w j * c66_cov j k) l)) with (w a * c66_cov a k + qsum (map (fun j => w j * c66_cov j k) l)).
    destruct Hk as [->|Hk].
    - unfold c66_cov at 1. rewrite Nat.eqb_refl. rewrite qsum_map_0; [ring|]. intros x Hx. unfold c66_cov. destruct (Nat.eqb_spec x k); [subst; contradiction|ring].
    - rewrite IH by auto. unfold c66_cov at 1. destruct (Nat.eqb_spec a k); [subst; contradiction|ring]. }
  rewrite (@qsum_map_ext _ _ (fun i => w i * w i * qz (2 * (1 + Z.of_nat i))) s) by (intros j Hj; rewrite E by auto; ring).
  assert (G : forall j, 0 < qz (2 * (1 + Z.of_nat j))) by (intro j; change 0 with (qz 0); apply qz_lt; lia).
  assert (Hnn : forall x, In x (map (fun i => w i * w i * qz (2 * (1 + Z.of_nat i))) s) -> 0 <= x).
  { intros x Hx. apply in_map_iff in Hx as (j & <- & _). apply Qcmul_nonneg; [generalize (w j); intro; qnra|]. specialize (G j). qlra. }
  assert (Hge : w i * w i * qz (2 * (1 + Z.of_nat i)) <= qsum (map (fun i => w i * w i * qz (2 * (1 + Z.of_nat i))) s)).
  { apply (@qsum_ge_elem _ _ Hnn). apply in_map_iff. exists i. auto. }
  assert (0 < w i * w i * qz (2 * (1 + Z.of_nat i))).
  { apply Qcmul_pos; auto. destruct (Qc_dec 0 (w i)) as [[H|H]|H]; [now apply Qcmul_pos| |congruence]. replace (w i * w i) with ((- w i) * (- w i)) by ring. apply Qcmul_pos; qlra. }
  qlra.
Qed.

(** ** C85 *)
Open Scope R_scope.
Theorem c85_pca_risk n cov eig d target : eigen_system n cov eig -> (forall l v, In (l, v) eig -> 0 < l) -> length d = n -> (forall x, In x d -> 0 <= x) ->
  rdot n (pca_weights eig (Some d) target) (mat_vec n cov (pca_weights eig (Some d) target)) = target * target * rsum d.
Proof.
  intros He Hpos Hd Hnn. pose proof (eigen_system_perm (Permutation_sym (eig_desc_perm eig)) He) as (L & H1 & H2).
  set (es := eig_desc eig) in *. set (ld := pca_loads eig (Some d) target). set (ps := combine ld es).
  assert (Ll : length ld = n) by (unfold ld, pca_loads; fold es; rewrite map_length, combine_length; lia).
  change (pca_weights eig (Some d) target) with (combo ps). rewrite combo_variance.
  - unfold ps, ld, pca_loads. fold es. assert (Hp : forall l v, In (l, v) es -> 0 < l) by (intros l v Hin; apply (Hpos l v), (Permutation_in _ (eig_desc_perm eig)), Hin).
    clear H1 H2 He ps ld Ll. clearbody es. clear eig Hpos. revert d n L Hp Hd Hnn. induction es as [|[l v] es IH]; intros d n L Hp Hd Hnn; cbn in L; subst n.
    + destruct d; [cbn; ring|discriminate].
    + destruct d as [|x d]; [discriminate|]. cbn [combine map rsum fst snd]. cbn [length] in Hd. injection Hd as Hd. rewrite (IH d (length es)); auto.
      * assert (Hl : 0 < l) by (apply (Hp l v); now left). assert (Hx : 0 <= x) by (apply Hnn; now left).
        assert (S : sqrt (x / l) * sqrt (x / l) = x / l) by (apply sqrt_sqrt; apply Rmult_le_pos; auto; left; now apply Rinv_0_lt_compat).
        replace (target * sqrt (x / l) * (target * sqrt (x / l)) * l) with (target * target * (sqrt (x / l) * sqrt (x / l)) * l) by ring. rewrite S. field. lra.
      * intros l' v' Hin. apply (Hp l' v'). now right. * intros; apply Hnn; now right.
  - intros [w [l v]] Hp. unfold ps in Hp. apply in_combine_r in Hp. cbn [fst snd]. auto.
  - unfold ps. clearbody ld. clear - H2. revert ld. induction H2 as [|a l Hf Ho IH]; intro ld; [destruct ld; constructor|]. destruct ld as [|x ld]; [constructor|]. cbn. constructor; auto.
    apply Forall_forall. intros [y b] Hy. apply in_combine_r in Hy. rewrite Forall_forall in Hf. cbn. auto.
Qed.
Print Assumptions c85_pca_risk.
(** default: all the risk on an eigenvector of the smallest eigenvalue *)
Theorem c85_default_is_smallest n cov eig target : eigen_system n cov eig -> (0 < n)%nat -> (forall l v, In (l, v) eig -> 0 < l) ->
  rdot n (pca_weights eig None target) (mat_vec n cov (pca_weights eig None target)) = target * target /\
  exists l v, In (l, v) eig /\ (forall l' v', In (l', v') eig -> l <= l') /\ forall i, pca_weights eig None target i = target / sqrt l * v i.
Proof.
  intros He Hn Hpos. split.
  - destruct He as (L & H1 & H2).
    change (pca_weights eig None target) with (pca_weights eig (Some (repeat 0 (length eig - 1) ++ [1])) target).
    rewrite (@c85_pca_risk n cov); auto.
    + rewrite rsum_app. cbn. replace (rsum (repeat 0 (length eig - 1))) with 0; [ring|]. symmetry. generalize (length eig - 1)%nat. induction n0; cbn; lra.
    + split; auto.
    + rewrite app_length, repeat_length. cbn. lia.
    + intros x Hx. apply in_app_or in Hx as [Hx|[<-|[]]]; [apply repeat_spec in Hx|]; lra.
  - destruct He as (L & _ & _). pose proof (esort_perm eig) as P. pose proof (esort_sorted eig) as Hs.
    destruct (esort eig) as [|[l v] t] eqn:E; [apply Permutation_length in P; cbn in P; lia|]. exists l, v.
    assert (Lt : length t = (length eig - 1)%nat) by (apply Permutation_length in P; cbn in P; lia).
    split; [apply (Permutation_in _ P); now left|]. split.
    + intros l' v' Hin. apply (Permutation_in _ (Permutation_sym P)) in Hin as [Hin|Hin]; [injection Hin as -> _; lra|].
      inversion_clear Hs as [|? ? _ Hf]. rewrite Forall_forall in Hf. apply (Hf _ Hin).
    + intro i. assert (Hl : 0 < l) by (apply (Hpos l v), (Permutation_in _ P); now left).
      unfold pca_weights, pca_loads, eig_desc. rewrite E. cbn [rev]. rewrite <- Lt, <- (rev_length t).
      induction (rev t) as [|a u IH]; cbn [length repeat app combine map rsum fst snd].
      * rewrite Rplus_0_r. unfold Rdiv at 1. rewrite Rmult_1_l, sqrt_inv. reflexivity.
      * rewrite IH. unfold Rdiv at 1. rewrite Rmult_0_l, sqrt_0. ring.
Qed.
Print Assumptions c85_default_is_smallest.
(** diag(4, 1) with the unit vectors *)
Example c85_example : let e k := fun i => if (i =? k)%nat then 1 else 0 in let cov := fun i j => if (i =? j)%nat then (if (i =? 0)%nat then 4 else 1) else 0 in
  eigen_system 2 cov [(4, e 0%nat); (1, e 1%nat)].
Proof.
  cbn. split; auto. split; [|repeat constructor; unfold rdot; cbn; ring].
  intros l v [H|[H|[]]]; injection H as <- <-; (split; [unfold rdot; cbn; ring|]); intros [|[|i]] Hi; try lia; unfold mat_vec; cbn; ring.
Qed.

(** ** C93: the correlation distance is a metric *)
Theorem c93_corr_distance_metric m (u : nat -> nat -> R) i j k : (forall a, rdot m (u a) (u a) = 1) ->
  let d a b := corr_to_dist (rdot m (u a) (u b)) in
  0 <= d i j <= 1 /\ d i j = d j i /\ d i i = 0 /\ (d i j = 0 -> rdot m (u i) (u j) = 1) /\ d i k <= d i j + d j k.
Proof.
  intros Hu d. assert (Hc : forall a b, -1 <= rdot m (u a) (u b) <= 1).
  { intros a b. pose proof (cauchy_schwarz m (u a) (u b)) as H. rewrite !Hu in H. split; nra. }
  assert (Hd : forall a b, d a b = / 2 * sqrt (rdot m (fun x => u a x + - 1 * u b x) (fun x => u a x + - 1 * u b x))).
  { intros a b. unfold d, corr_to_dist. rewrite rdot_diff, !Hu.
    set (c := rdot m (u a) (u b)). replace ((1 - c) / 2) with (/ 2 * / 2 * (1 - 2 * c + 1)) by field.
    pose proof (Hc a b). fold c in H. rewrite sqrt_mult_alt by lra. rewrite sqrt_square by lra. reflexivity. }
  split; [|split; [|split; [|split]]].
  - unfold d, corr_to_dist. split; [apply sqrt_pos|]. apply Rle_trans with (sqrt 1); [|rewrite sqrt_1; lra]. apply sqrt_le_1_alt. pose proof (Hc i j). lra.
  - unfold d. now rewrite rdot_comm.
  - unfold d, corr_to_dist. rewrite Hu. replace ((1 - 1) / 2) with 0 by field. apply sqrt_0.
  - unfold d, corr_to_dist. intro E. apply sqrt_eq_0 in E; pose proof (Hc i j); lra.
  - rewrite !Hd. assert (H := minkowski m (fun x => u i x + -1 * u j x) (fun x => u j x + -1 * u k x)).
    rewrite (@rdot_ext m _ (fun x => u i x + -1 * u k x) _ (fun x => u i x + -1 * u k x)) in H by (intros; ring). lra.
Qed.
Print Assumptions c93_corr_distance_metric.
Theorem c93_closer_when_more_correlated c1 c2 : -1 <= c1 -> c1 < c2 -> c2 <= 1 -> corr_to_dist c2 < corr_to_dist c1.
Proof. intros H1 H2 H3. apply sqrt_lt_1_alt. lra. Qed.
Print Assumptions c93_closer_when_more_correlated.
