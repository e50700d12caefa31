(** C77-C80, C100, C101: structural break statistics.  All theorems use the axioms of the standard real numbers. *)
From Verif Require Import Py RNum Normal SysDefaultModel SysDefaultProofs StructModel.
Set Implicit Arguments.
Unset Strict Implicit.
Open Scope R_scope.

Lemma diff_length l : length (diff l) = (length l - 1)%nat.
Proof. induction l as [|x l IH]; auto. destruct l as [|y l]; auto. cbn [diff length] in *. rewrite IH. lia. Qed.
Lemma diff_nth l : forall i, (S i < length l)%nat -> nth i (diff l) 0 = nth (S i) l 0 - nth i l 0.
Proof.
  induction l as [|x l IH]; intros i H; [cbn in H; lia|]. destruct l as [|y l]; [cbn in H; lia|]. destruct i as [|i]; [reflexivity|].
  change (diff (x :: y :: l)) with ((y - x) :: diff (y :: l)). cbn [nth]. rewrite IH by (cbn in *; lia). reflexivity.
Qed.
Lemma diff_firstn l : forall n, diff (firstn (S n) l) = firstn n (diff l).
Proof.
  induction l as [|x l IH]; intros n; [now rewrite !firstn_nil|]. destruct l as [|y l]. { cbn. now rewrite !firstn_nil. }
  destruct n as [|n]; [reflexivity|]. change (diff (x :: y :: l)) with ((y - x) :: diff (y :: l)). cbn [firstn]. rewrite <- (IH n). reflexivity.
Qed.
Lemma diff_affine a b l : diff (map (fun v => a * v + b) l) = map (fun d => a * d) (diff l).
Proof. induction l as [|x l IH]; auto. destruct l as [|y l]; auto. change (diff (x :: y :: l)) with ((y - x) :: diff (y :: l)). cbn [map] in *. rewrite <- IH. cbn [diff]. f_equal. ring. Qed.
Lemma nth_map_lt A (f : A -> R) l d i : (i < length l)%nat -> nth i (map f l) 0 = f (nth i l d).
Proof. intros H. rewrite (nth_indep _ 0 (f d)) by now rewrite map_length. apply map_nth. Qed.
Lemma nth_error_val (l : list R) i v : nth_error l i = Some v -> nth i l 0 = v.
Proof. revert i. induction l as [|x l IH]; intros [|i] H; try discriminate; cbn in *; [now injection H|auto]. Qed.
Lemma nth_error_some_nth (l : list R) i : (i < length l)%nat -> nth_error l i = Some (nth i l 0).
Proof. revert i. induction l as [|x l IH]; intros [|i] H; cbn in *; try lia; auto. apply IH. lia. Qed.
Lemma nth_firstn_lt (l : list R) n i : (i < n)%nat -> nth i (firstn n l) 0 = nth i l 0.
Proof. revert n i. induction l as [|x l IH]; intros [|n] [|i] H; cbn; auto; try lia. apply IH. lia. Qed.
Lemma nth_skipn (l : list R) n i : nth i (skipn n l) 0 = nth (n + i) l 0.
Proof. revert n. induction l as [|x l IH]; intros [|n]; cbn; auto. now destruct i. Qed.

(** ** C80 Level CUSUM *)
(** the statistic at observation t > n: distance from the reference level over the root mean squared change up to t, times sqrt (t - n) *)
Definition rms_change (y : list R) (t : nat) : R := sqrt (rsum (map (fun i => (nth (S i) y 0 - nth i y 0) * (nth (S i) y 0 - nth i y 0)) (seq 0 t)) / INR t).
Lemma cusum_sigma_rms y i : (S i < length y)%nat -> cusum_sigma y i = rms_change y (S i).
Proof.
  intros H. unfold cusum_sigma, rms_change. f_equal. unfold Rdiv. rewrite Rmult_1_l, Rmult_comm. f_equal.
  assert (E : firstn (S i) (diff y) = map (fun j => nth (S j) y 0 - nth j y 0) (seq 0 (S i))).
  { apply nth_ext with 0 0; [rewrite firstn_length, diff_length, map_length, seq_length; lia|]. intros j Hj. rewrite firstn_length, diff_length in Hj.
    rewrite nth_firstn_lt, diff_nth by lia. rewrite (@nth_map_lt _ _ _ 0%nat) by (rewrite seq_length; lia). rewrite seq_nth by lia. reflexivity. }
  rewrite E, map_map. reflexivity.
Qed.
Theorem c80_statistic cdf y n : (2 <= length y)%nat -> (n < length y)%nat ->
  exists stats, levels_cusum_stats cdf y n = Ok (Some stats) /\ length stats = (length y - n - 1)%nat /\
  forall t, (n < t < length y)%nat -> exists s, nth_error stats (t - n - 1) = Some (s, option_map (fun z => Rmin (cdf z) (1 - cdf z)) s) /\
    (rms_change y t <> 0 -> s = Some ((nth t y 0 - nth n y 0) / (rms_change y t * sqrt (INR (t - n))))) /\ (rms_change y t = 0 -> s = None).
Proof.
  intros H2 Hn. unfold levels_cusum_stats. rewrite (proj2 (Nat.ltb_ge _ _)) by lia. rewrite nth_error_some_nth by exact Hn. cbn [bind]. eexists. split; [reflexivity|]. split; [rewrite map_length, seq_length; lia|].
  intros t Ht. eexists. split; [rewrite nth_error_map, (nth_error_nth' (seq 0 (length y - (n + 1))) (n := (t - n - 1)%nat) 0%nat) by (rewrite seq_length; lia); cbn [option_map]; rewrite seq_nth by lia; reflexivity|].
  cbv zeta. replace (n + (0 + (t - n - 1)))%nat with (t - 1)%nat by lia. replace (n + 1 + (0 + (t - n - 1)))%nat with t by lia. rewrite cusum_sigma_rms by lia.
  replace (S (t - 1)) with t by lia. replace (S (0 + (t - n - 1))) with (t - n)%nat by lia. assert (Hs : 0 < sqrt (INR (t - n))) by (apply sqrt_lt_R0, lt_0_INR; lia).
  split; intros Hr.
  - destruct (Req_EM_T _ 0) as [E|E]; [|reflexivity]. exfalso. apply Rmult_integral in E. destruct E; [contradiction|lra].
  - rewrite Hr, Rmult_0_l. destruct (Req_EM_T 0 0); [reflexivity|congruence].
Qed.
(** only data up to the observation is used *)
Lemma rms_causal y y' t : (forall i, (i <= t)%nat -> nth i y 0 = nth i y' 0) -> rms_change y t = rms_change y' t.
Proof. intros H. unfold rms_change. do 2 f_equal. apply rsum_map_ext. intros i Hi. apply in_seq in Hi. rewrite !H by lia. reflexivity. Qed.
Lemma firstn_nth_eq (y y' : list R) t i : firstn (S t) y = firstn (S t) y' -> (i <= t)%nat -> nth i y 0 = nth i y' 0.
Proof. intros H Hi. rewrite <- (@nth_firstn_lt y (S t) i), <- (@nth_firstn_lt y' (S t) i) by lia. now rewrite H. Qed.
Theorem c80_causal cdf y y' n t s s' : firstn (S t) y = firstn (S t) y' -> (n < t < length y)%nat -> (t < length y')%nat ->
  levels_cusum_stats cdf y n = Ok (Some s) -> levels_cusum_stats cdf y' n = Ok (Some s') -> nth_error s (t - n - 1) = nth_error s' (t - n - 1).
Proof.
  intros HE Ht Ht' H H'. destruct (@c80_statistic cdf y n) as (w & Ew & _ & A); try lia. destruct (@c80_statistic cdf y' n) as (w' & Ew' & _ & A'); try lia.
  rewrite H in Ew. rewrite H' in Ew'. injection Ew as <-. injection Ew' as <-. destruct (A t Ht) as (a & Ea & A1 & A2). destruct (A' t ltac:(lia)) as (a' & Ea' & A1' & A2').
  rewrite Ea, Ea'. assert (Er : rms_change y t = rms_change y' t) by (apply rms_causal; intros i Hi; now apply firstn_nth_eq with t).
  replace a' with a; auto. destruct (Req_EM_T (rms_change y t) 0) as [E0|E0]; [rewrite A2, A2' by congruence; reflexivity|]. rewrite A1, A1' by congruence. rewrite Er, !(@firstn_nth_eq y y' t) by (auto; lia). reflexivity.
Qed.
(** shifting and positive scaling of the series change nothing *)
Theorem c80_affine_invariant cdf y n a b : 0 < a -> levels_cusum_stats cdf (map (fun v => a * v + b) y) n = levels_cusum_stats cdf y n.
Proof.
  intros Ha. unfold levels_cusum_stats. rewrite map_length. destruct (length y <? 2)%nat eqn:E2; auto. rewrite nth_error_map. destruct (nth_error y n) as [yn|] eqn:En; cbn [option_map bind]; auto. do 2 f_equal.
  apply map_ext_in. intros i Hi. apply in_seq in Hi. assert (Hlt : (n + 1 + i < length y)%nat) by lia. cbv zeta.
  assert (Es : cusum_sigma (map (fun v => a * v + b) y) (n + i) = a * cusum_sigma y (n + i)).
  { unfold cusum_sigma. rewrite diff_affine, firstn_map, map_map. rewrite (@rsum_map_ext _ _ (fun d => (a * a) * (d * d))) by (intros; ring). rewrite rsum_map_scale.
    replace (1 / INR (S (n + i)) * (a * a * rsum (map (fun d => d * d) (firstn (S (n + i)) (diff y))))) with ((a * a) * (1 / INR (S (n + i)) * rsum (map (fun d => d * d) (firstn (S (n + i)) (diff y))))) by ring.
    rewrite sqrt_mult_alt by apply Rle_0_sqr. rewrite sqrt_square by lra. reflexivity. }
  rewrite Es, (@nth_map_lt _ _ _ 0) by exact Hlt. set (sg := cusum_sigma y (n + i)). set (q := sqrt (INR (S i))).
  replace (if Req_EM_T (a * sg * q) 0 then None else Some ((a * nth (n + 1 + i) y 0 + b - (a * yn + b)) * / (a * sg * q))) with (if Req_EM_T (sg * q) 0 then None else Some ((nth (n + 1 + i) y 0 - yn) * / (sg * q))); auto.
  destruct (Req_EM_T (sg * q) 0) as [E0|E0], (Req_EM_T (a * sg * q) 0) as [E1|E1]; auto.
  - exfalso. apply E1. rewrite Rmult_assoc, E0. ring.
  - exfalso. rewrite Rmult_assoc in E1. apply Rmult_integral in E1. destruct E1; [lra|contradiction].
  - f_equal. assert (sg <> 0 /\ q <> 0) as [] by (split; intros Z; apply E0; rewrite Z; ring). field. repeat split; auto. lra.
Qed.
(** p-values are probabilities at most one half *)
Theorem c80_pvalue_range cdf z : is_normal_cdf cdf -> 0 < one_sided cdf z <= / 2.
Proof. intros N. unfold one_sided. pose proof (nc_pos N z). pose proof (normal_lt_1 N z). unfold Rmin. destruct (Rle_dec (cdf z) (1 - cdf z)); lra. Qed.
Theorem c80_short_series cdf y n : (length y < 2)%nat -> levels_cusum_stats cdf y n = Ok None.
Proof. intros H. unfold levels_cusum_stats. now rewrite (proj2 (Nat.ltb_lt _ _)). Qed.
Theorem c80_reference_outside_raises cdf y n : (2 <= length y <= n)%nat -> levels_cusum_stats cdf y n = Err IndexError.
Proof. intros H. unfold levels_cusum_stats. rewrite (proj2 (Nat.ltb_ge _ _)) by lia. rewrite (proj2 (nth_error_None y n)) by lia. reflexivity. Qed.
Example c80_ex : rms_change [1; 4; 0] 2 = sqrt (25 / 2) /\ (2 <= length [1; 4; 0])%nat.
Proof. split; [|cbn; lia]. unfold rms_change. cbn. f_equal. field. Qed.

(** ** C100 Recursive CUSUM *)
(** REFUTED: the docstring gives the statistic at time t the variance t - k - 1 under the null; the code uses T - k - 1 throughout, so every p-value of a
    non-zero statistic before the last observation is wrong *)
Theorem c100_null_variance_refuted cdf T k cusum i t c : is_normal_cdf cdf -> (k + 1 < t < T)%nat -> nth_error cusum i = Some c -> c <> 0 ->
  exists p, nth_error (recursive_cusum_pvals cdf T k cusum) i = Some p /\ p <> one_sided cdf (c / sqrt (INR (t - k - 1))) /\ one_sided cdf (c / sqrt (INR (t - k - 1))) < p.
Proof.
  intros N Ht Hi Hc. unfold recursive_cusum_pvals. rewrite nth_error_map, Hi. eexists. split; [reflexivity|].
  assert (H1 : 0 < sqrt (INR (t - k - 1))) by (apply sqrt_lt_R0, lt_0_INR; lia). assert (H2 : sqrt (INR (t - k - 1)) < sqrt (INR (T - k - 1))) by (apply sqrt_lt_1_alt; split; [apply pos_INR|apply lt_INR; lia]).
  set (u := sqrt (INR (t - k - 1))) in *. set (v := sqrt (INR (T - k - 1))) in *.
  assert (Habs : forall z, one_sided cdf z = cdf (- Rabs z)).
  { intros z. unfold one_sided. rewrite <- (nc_symmetry N). destruct (Rle_lt_dec 0 z) as [Hz|Hz].
    - rewrite Rabs_right by lra. rewrite Rmin_right; auto. apply (normal_increasing_le N). lra.
    - rewrite Rabs_left by lra. rewrite Ropp_involutive. rewrite Rmin_left; auto. apply (normal_increasing_le N). lra. }
  assert (Hlt : one_sided cdf (c / u) < one_sided cdf (c / v)).
  { rewrite !Habs. apply (normal_increasing N). apply Ropp_lt_contravar. unfold Rdiv. rewrite !Rabs_mult. apply Rmult_lt_compat_l; [now apply Rabs_pos_lt|].
    rewrite !Rabs_right by (left; apply Rinv_0_lt_compat; lra). apply Rinv_lt_contravar; [apply Rmult_lt_0_compat; lra|exact H2]. }
  split; [lra|exact Hlt].
Qed.
Theorem c100_last_observation cdf T k cusum i c : nth_error cusum i = Some c -> nth_error (recursive_cusum_pvals cdf T k cusum) i = Some (one_sided cdf (c / sqrt (INR (T - k - 1)))).
Proof. intros H. unfold recursive_cusum_pvals. now rewrite nth_error_map, H. Qed.

(** ** C77 ADF rows *)
Lemma all_some_none l : In None l -> all_some l = None.
Proof. unfold all_some. induction l as [|x l IH]; [easy|]. intros [->|H]; cbn [fold_right]; auto. rewrite (IH H). now destruct x. Qed.
Lemma all_some_map (A : Type) (f : A -> R) l : all_some (map (fun a => Some (f a)) l) = Some (map f l).
Proof. unfold all_some. induction l as [|x l IH]; cbn [map fold_right]; auto. now rewrite IH. Qed.
Lemma keep_app a b : keep (a ++ b) = keep a ++ keep b.
Proof. unfold keep. now rewrite flat_map_app. Qed.
Lemma list_max_in l : l <> [] -> In (list_max l) l.
Proof.
  induction l as [|x l IH]; [congruence|]. intros _. cbn [list_max fold_right]. fold (list_max l). destruct l as [|y l]; [left; cbn; lia|].
  destruct (Nat.max_spec x (list_max (y :: l))) as [[_ ->]|[_ ->]]; [right; apply IH; discriminate|now left].
Qed.
Lemma list_max_ge' l x : In x l -> (x <= list_max l)%nat.
Proof. intros H. pose proof (proj1 (list_max_le l (list_max l)) (le_n _)) as F. rewrite Forall_forall in F. auto. Qed.
Lemma lag_rows_eq d ls : ls <> [] -> lag_rows d ls = map (fun i => map (fun lag => nth (i - lag) d 0) ls) (seq (list_max ls) (length d - list_max ls)).
Proof.
  intros Hne. unfold lag_rows. set (L := list_max ls). set (f := fun i => map (fun lag => if (lag <=? i)%nat then nth_error d (i - lag) else None) ls).
  assert (Hlow : forall a n, (a + n <= L)%nat -> keep (map f (seq a n)) = []).
  { intros a n. revert a. induction n as [|n IH]; intros a H; auto. cbn [seq map]. unfold keep. cbn [flat_map]. rewrite all_some_none; [apply IH; lia|].
    unfold f. apply in_map_iff. exists L. split; [rewrite (proj2 (Nat.leb_gt _ _)) by lia; reflexivity|now apply list_max_in]. }
  assert (Hhigh : forall a n, (L <= a)%nat -> (a + n <= length d)%nat -> keep (map f (seq a n)) = map (fun i => map (fun lag => nth (i - lag) d 0) ls) (seq a n)).
  { intros a n. revert a. induction n as [|n IH]; intros a Ha Hn; auto. cbn [seq map]. unfold keep. cbn [flat_map]. replace (f a) with (map (fun lag => Some (nth (a - lag) d 0)) ls).
    - rewrite all_some_map. cbn [app]. f_equal. apply IH; lia.
    - apply map_ext_in. intros lag Hl. apply list_max_ge' in Hl. fold L in Hl. rewrite (proj2 (Nat.leb_le _ _)) by lia. rewrite nth_error_some_nth by lia. reflexivity. }
  destruct (le_lt_dec (length d) L) as [Hd|Hd].
  - rewrite Hlow by lia. replace (length d - L)%nat with 0%nat by lia. reflexivity.
  - replace (length d) with (L + (length d - L))%nat at 1 by lia. rewrite seq_app, map_app, keep_app, Hlow, Hhigh by lia. reflexivity.
Qed.
Definition trend_columns (c : trend_arg) (j : nat) : list R := match c with NC => [] | C => [1] | CT => [1; INR j] | CTT => [1; INR j; INR j ^ 2] end.
Lemma zip_with_nth A B C (f : A -> B -> C) a : forall b i x y, nth_error a i = Some x -> nth_error b i = Some y -> nth_error (zip_with f a b) i = Some (f x y).
Proof. unfold zip_with. induction a as [|u a IH]; intros [|w b] [|i] x y Ha Hb; try discriminate; cbn in *; [injection Ha as ->; injection Hb as ->; reflexivity|now apply IH]. Qed.
(** row j belongs to time t = L+1+j: the response is the change at t, the first regressor the level at t-1, then the changes at t-lag for every lag but the first of the list *)
Lemma lags_distinct_iff lags : lags_distinct lags = true <-> NoDup (lag_list lags).
Proof.
  destruct lags as [n|l]; cbn [lags_distinct lag_list]; [split; [intros _; apply seq_NoDup|reflexivity]|]. rewrite Nat.eqb_eq. split; intro H.
  - assert (G : forall m : list nat, (length (nodup Nat.eq_dec m) <= length m)%nat /\ (length (nodup Nat.eq_dec m) = length m -> NoDup m)).
    { induction m as [|a m [IH1 IH2]]; [split; [apply le_n|constructor]|]. cbn [nodup]. destruct (in_dec Nat.eq_dec a m) as [Hi|Hi]; cbn [length]; [split; [apply le_S; exact IH1|intro E; rewrite E in IH1; exfalso; lia]|]. split; [apply le_n_S; exact IH1|]. intro E. injection E as E. constructor; [exact Hi|]. apply IH2, E. }
    apply (proj2 (G l)), H.
  - rewrite (nodup_fixed_point Nat.eq_dec H). reflexivity.
Qed.
Theorem c77_rows series c lags : lag_list lags <> [] -> NoDup (lag_list lags) -> let L := list_max (lag_list lags) in (L + 1 < length series)%nat ->
  exists y x, get_yx series c lags = Ok (y, x) /\ length y = (length series - 1 - L)%nat /\ length x = length y /\
  forall j, (j < length y)%nat -> let t := (L + 1 + j)%nat in
    nth_error y j = Some (nth t series 0 - nth (t - 1) series 0) /\
    nth_error x j = Some (nth (t - 1) series 0 :: map (fun lag => nth (t - lag) series 0 - nth (t - lag - 1) series 0) (tl (lag_list lags)) ++ trend_columns c j).
Proof.
  intros Hne Hnd L HN. assert (HL : L = list_max (lag_list lags)) by reflexivity. clearbody L. unfold get_yx. rewrite (proj2 (lags_distinct_iff lags) Hnd). destruct (lag_list lags) as [|l0 ls] eqn:El; [congruence|]. rewrite <- El in *. rewrite lag_rows_eq by exact Hne. rewrite <- HL, diff_length.
  set (m := (length series - 1 - L)%nat). rewrite map_length, seq_length. assert (Hm : m <> 0%nat) by (unfold m; lia).
  set (X := map (fun i => map (fun lag => nth (i - lag) (diff series) 0) (lag_list lags)) (seq L m)).
  assert (LX : length X = m) by (unfold X; now rewrite map_length, seq_length).
  assert (LL : length (level_rows m series) = m) by (unfold level_rows; rewrite skipn_length, firstn_length; unfold m; lia).
  do 2 eexists. split; [reflexivity|]. assert (Ly : length (tail_rows m (diff series)) = m) by (unfold tail_rows; rewrite (proj2 (Nat.eqb_neq m 0)) by exact Hm; rewrite skipn_length, diff_length; unfold m; lia).
  split; [exact Ly|]. split; [rewrite zip_with_length; [rewrite seq_length; now rewrite Ly|rewrite seq_length, zip_with_length by congruence; congruence]|].
  intros j Hj. rewrite Ly in Hj. set (t := (L + 1 + j)%nat). cbv zeta. assert (Ht : (t < length series)%nat) by (unfold t, m in *; lia). split.
  - rewrite nth_error_some_nth by (rewrite Ly; exact Hj). unfold tail_rows. rewrite (proj2 (Nat.eqb_neq m 0)) by exact Hm. rewrite nth_skipn, diff_length. replace (length series - 1 - m + j)%nat with (t - 1)%nat by (unfold t, m; lia).
    rewrite diff_nth by (unfold t in *; lia). replace (S (t - 1)) with t by (unfold t; lia). reflexivity.
  - rewrite (@zip_with_nth _ _ _ _ (seq 0 m) _ j j (nth (t - 1) series 0 :: map (fun lag => nth (t - lag) series 0 - nth (t - lag - 1) series 0) (tl (lag_list lags)))).
    + f_equal. cbn [app]. do 2 f_equal. unfold trend_columns. destruct c; auto. do 2 f_equal. cbn. f_equal. ring.
    + rewrite (nth_error_nth' (seq 0 m) (n := j) 0%nat) by (rewrite seq_length; exact Hj). rewrite seq_nth by exact Hj. reflexivity.
    + rewrite (@zip_with_nth _ _ _ _ (level_rows m series) X j (nth (t - 1) series 0) (map (fun lag => nth (L + j - lag) (diff series) 0) (lag_list lags))).
      * do 2 f_equal. rewrite El. cbn [map tl]. apply map_ext_in. intros lag Hl. assert (Hl' : (lag <= L)%nat) by (rewrite HL, El; apply list_max_ge'; now right).
        rewrite diff_nth by (unfold t, m in *; lia). replace (S (L + j - lag)) with (t - lag)%nat by (unfold t; lia). replace (t - lag - 1)%nat with (L + j - lag)%nat by (unfold t; lia). reflexivity.
      * rewrite nth_error_some_nth by (rewrite LL; exact Hj). f_equal. unfold level_rows. rewrite nth_skipn, nth_firstn_lt by (unfold m in *; lia). f_equal. unfold t, m in *. lia.
      * unfold X. rewrite nth_error_map, (nth_error_nth' (seq L m) (n := j) 0%nat) by (rewrite seq_length; exact Hj). rewrite seq_nth by exact Hj. reflexivity.
Qed.
(** for an integer number of lags: the level at t-1 and the changes at t-1, ..., t-n *)
Theorem c77_integer_lags series c n : (n + 1 < length series)%nat ->
  exists y x, get_yx series c (LagInt n) = Ok (y, x) /\ length y = (length series - 1 - n)%nat /\ length x = length y /\
  forall j, (j < length y)%nat -> let t := (n + 1 + j)%nat in
    nth_error y j = Some (nth t series 0 - nth (t - 1) series 0) /\
    nth_error x j = Some (nth (t - 1) series 0 :: map (fun lag => nth (t - lag) series 0 - nth (t - lag - 1) series 0) (seq 1 n) ++ trend_columns c j).
Proof.
  intros H. assert (E : list_max (lag_list (LagInt n)) = n).
  { apply Nat.le_antisymm; [apply list_max_le, Forall_forall; intros x Hx; apply in_seq in Hx; lia|apply list_max_ge', in_seq; lia]. }
  destruct (@c77_rows series c (LagInt n)) as (y & x & H1 & H2 & H3 & H4); [discriminate|apply seq_NoDup|rewrite E; exact H|]. rewrite E in *. exists y, x. auto.
Qed.
(** nothing after time t enters the rows up to t: rows of a longer series extend those of its prefix *)
Theorem c77_causal series series' c n y x y' x' j : (n + 1 < length series)%nat -> (n + 1 < length series')%nat -> get_yx series c (LagInt n) = Ok (y, x) -> get_yx series' c (LagInt n) = Ok (y', x') ->
  (n + 1 + j < length series)%nat -> (n + 1 + j < length series')%nat -> firstn (n + 2 + j) series = firstn (n + 2 + j) series' -> nth_error y j = nth_error y' j /\ nth_error x j = nth_error x' j.
Proof.
  intros H H' E E' Hj Hj' HF. destruct (@c77_integer_lags series c n H) as (u & v & F & L1 & L2 & A). destruct (@c77_integer_lags series' c n H') as (u' & v' & F' & L1' & L2' & A').
  rewrite E in F. rewrite E' in F'. injection F as <- <-. injection F' as <- <-. destruct (A j ltac:(lia)) as [A1 A2]. destruct (A' j ltac:(lia)) as [B1 B2]. rewrite A1, A2, B1, B2.
  assert (HE : forall i, (i <= n + 1 + j)%nat -> nth i series 0 = nth i series' 0) by (intros i Hi; apply firstn_nth_eq with (n + 1 + j)%nat; [replace (S (n + 1 + j)) with (n + 2 + j)%nat by lia; exact HF|exact Hi]).
  rewrite !(HE (n + 1 + j)%nat), !(HE (n + 1 + j - 1)%nat) by lia. split; auto. do 3 f_equal. apply map_ext_in. intros lag Hl. rewrite !HE by lia. reflexivity.
Qed.
Example c77_ex : get_yx [1; 3; 4; 9] CT (LagInt 1) = Ok ([4 - 3; 9 - 4], [[3; 3 - 1; 1; INR 0]; [4; 4 - 3; 1; INR 1]]).
Proof. reflexivity. Qed.

(** ** C79 Lag lists *)
(** REFUTED: a list of lags makes [sadf_stat] raise TypeError whenever the design matrix can be built *)
Theorem c79_lag_list_refuted adf series min_len c l y x : get_yx series c (LagList l) = Ok (y, x) -> sadf_stat adf series min_len c (LagList l) = Err TypeError.
Proof. intros H. unfold sadf_stat. rewrite H. reflexivity. Qed.
Theorem c79_never_accepted adf series min_len c l r : sadf_stat adf series min_len c (LagList l) <> Ok r.
Proof. unfold sadf_stat. destruct (get_yx _ _ _); discriminate. Qed.
(** REFUTED also for the regressors: the first listed lag is overwritten by the level, so it has no influence beyond the number of rows *)
Theorem c79_first_lag_lost_refuted series c a b ls : NoDup (a :: ls) -> NoDup (b :: ls) -> list_max (a :: ls) = list_max (b :: ls) -> (list_max (a :: ls) + 1 < length series)%nat ->
  get_yx series c (LagList (a :: ls)) = get_yx series c (LagList (b :: ls)).
Proof.
  intros Ha Hb HE HN. destruct (@c77_rows series c (LagList (a :: ls))) as (y & x & E1 & L1 & L2 & A); [discriminate|exact Ha|exact HN|]. destruct (@c77_rows series c (LagList (b :: ls))) as (y' & x' & E1' & L1' & L2' & A'); [discriminate|exact Hb|cbn [lag_list]; rewrite <- HE; exact HN|].
  rewrite E1, E1'. cbn [lag_list] in *. rewrite HE in *. f_equal.
  assert (Hy : y = y').
  { apply nth_error_ext. intros j. destruct (le_lt_dec (length y) j) as [Hj|Hj]; [rewrite !(proj2 (nth_error_None _ _)) by lia; reflexivity|]. destruct (A j Hj) as [-> _]. destruct (A' j ltac:(lia)) as [-> _]. reflexivity. }
  assert (Hx : x = x').
  { apply nth_error_ext. intros j. destruct (le_lt_dec (length y) j) as [Hj|Hj]; [rewrite !(proj2 (nth_error_None _ _)) by lia; reflexivity|]. destruct (A j Hj) as [_ ->]. destruct (A' j ltac:(lia)) as [_ ->]. reflexivity. }
  now rewrite Hy, Hx.
Qed.
Example c79_ex : get_yx [1; 3; 4; 9; 7] NC (LagList [1; 2]%nat) = get_yx [1; 3; 4; 9; 7] NC (LagList [0; 2]%nat).
Proof. apply c79_first_lag_lost_refuted; try (cbn; lia); repeat constructor; cbn; intuition congruence. Qed.

(** ** C78 The supremum *)
Lemma fold_max_spec l : forall acc, match fold_left step_max l acc with
  | None => acc = None /\ (forall v, In v l -> v = None)
  | Some b => (acc = Some b \/ In (Some b) l) /\ (forall a, acc = Some a \/ In (Some a) l -> a <= b) end.
Proof.
  induction l as [|v l IH]; intros acc; cbn [fold_left].
  - destruct acc; [split; [now left|intros a [[= ->]|[]]; lra]|split; [auto|easy]].
  - specialize (IH (step_max acc v)). destruct (fold_left step_max l (step_max acc v)) as [b|].
    + destruct IH as [I1 I2]. unfold step_max in *. destruct v as [v|].
      * destruct acc as [a|]; [destruct (Rlt_dec a v)|].
        -- split; [destruct I1 as [[= ->]|I1]; [right; now left|right; now right]|]. intros w [[= <-]|[[= <-]|Hw]]; [assert (v <= b) by (apply I2; now left); lra|apply I2; now left|apply I2; now right].
        -- split; [destruct I1 as [I1|I1]; [now left|right; now right]|]. intros w [[= <-]|[[= <-]|Hw]]; [apply I2; now left|assert (a <= b) by (apply I2; now left); lra|apply I2; now right].
        -- split; [destruct I1 as [[= ->]|I1]; [right; now left|right; now right]|]. intros w [[=]|[[= <-]|Hw]]; [apply I2; now left|apply I2; now right].
      * split; [destruct I1 as [I1|I1]; [left|right; right]; destruct acc; auto|]. intros w [Hw|[[=]|Hw]]; [apply I2; left; destruct acc; auto|apply I2; now right].
    + destruct IH as [I1 I2]. unfold step_max in I1. destruct v as [v|]; [destruct acc; [destruct (Rlt_dec _ _)|]; discriminate|]. split; [destruct acc; auto; discriminate|]. intros w [<-|Hw]; auto.
Qed.
(** the statistic is the largest of the window statistics (NaN skipped), one window for each start up to length y + n - min_len; minus infinity if there is none *)
Theorem c78_supremum adf series min_len c n y x r : get_yx series c (LagInt n) = Ok (y, x) -> sadf_stat adf series min_len c (LagInt n) = Ok r ->
  (forall s, (s + min_len <= length y + n)%nat -> exists v, adf (skipn s y) (skipn s x) = Ok v /\ (forall a, v = Some a -> exists b, r = Some b /\ a <= b)) /\
  (forall b, r = Some b -> exists s, (s + min_len <= length y + n)%nat /\ adf (skipn s y) (skipn s x) = Ok (Some b)).
Proof.
  intros E. unfold sadf_stat. rewrite E. cbn [bind fst snd]. destruct (mapM _ _) as [stats|] eqn:Em; cbn [bind]; [|discriminate]. intros [= <-]. apply mapM_ok in Em.
  pose proof (fold_max_spec stats None) as HF.
  assert (H1 : forall s, In s (seq 0 (length y + n + 1 - min_len)) -> exists v, adf (skipn s y) (skipn s x) = Ok v /\ In v stats).
  { clear HF. induction Em as [|s v ss vs Hs F IH]; [easy|]. intros s' [<-|Hin]; [exists v; split; auto; now left|]. destruct (IH s' Hin) as (w & A & B). exists w. split; auto. now right. }
  assert (H2 : forall v, In v stats -> exists s, In s (seq 0 (length y + n + 1 - min_len)) /\ adf (skipn s y) (skipn s x) = Ok v).
  { clear HF H1. induction Em as [|s v ss vs Hs F IH]; [easy|]. intros v' [<-|Hin]; [exists s; split; auto; now left|]. destruct (IH v' Hin) as (w & A & B). exists w. split; auto. now right. }
  split.
  - intros s Hs. destruct (H1 s) as (v & A & B); [apply in_seq; lia|]. exists v. split; auto. intros a ->. destruct (fold_left step_max stats None) as [b|]; [exists b; split; auto; apply HF; now right|]. destruct HF as [_ HF]. apply HF in B. discriminate.
  - intros b Hb. rewrite Hb in HF. destruct HF as [[HF|HF] _]; [discriminate|]. destruct (H2 _ HF) as (s & A & B). exists s. split; auto. apply in_seq in A. lia.
Qed.
Theorem c78_all_nan adf series min_len c n y x : get_yx series c (LagInt n) = Ok (y, x) -> sadf_stat adf series min_len c (LagInt n) = Ok None ->
  forall s, (s + min_len <= length y + n)%nat -> adf (skipn s y) (skipn s x) = Ok None.
Proof. intros E H s Hs. destruct (@c78_supremum adf series min_len c n y x None E H) as [A _]. destruct (A s Hs) as ([a|] & B & C); auto. destruct (C a eq_refl) as (b & [=] & _). Qed.
(** REFUTED: [min_sample_len] is not the minimum number of regression samples: with n > 0 lags the smallest window has n fewer *)
Theorem c102_min_sample_refuted series min_len c n y x : (0 < n)%nat -> (n <= min_len)%nat -> (min_len < length series)%nat -> (n + 1 < length series)%nat -> get_yx series c (LagInt n) = Ok (y, x) ->
  exists s, (s + min_len <= length y + n)%nat /\ length (skipn s y) = (min_len - n)%nat /\ (length (skipn s y) < min_len)%nat.
Proof.
  intros Hn Hle Hlt HN E. destruct (@c77_integer_lags series c n HN) as (u & v & F & L1 & L2 & _). rewrite E in F. injection F as <- <-.
  exists (length y + n - min_len)%nat. rewrite skipn_length, L1. lia.
Qed.
(** every window has at least min_len - n rows, and the whole sample is the first window *)
Theorem c102_window_sizes (y : list R) (n min_len s : nat) : (s + min_len <= length y + n)%nat -> (min_len - n <= length (skipn s y))%nat.
Proof. intros H. rewrite skipn_length. lia. Qed.
(** the series: one value per time from min_len on, each computed from the data up to that time and from t + 1 - min_len windows *)
Theorem c78_series adf series min_len c n r : sadf_stat_series adf series min_len c (LagInt n) = Ok r ->
  map fst r = seq min_len (length series - min_len) /\ forall t v, In (t, v) r -> (min_len <= t < length series)%nat /\ sadf_stat adf (firstn (S t) series) min_len c (LagInt n) = Ok v.
Proof.
  unfold sadf_stat_series. intros H. apply mapM_ok in H. split.
  - induction H as [|t [t' v] ts rs Ht F IH]; auto. cbn [map fst]. f_equal; auto. destruct (sadf_stat _ _ _ _ _); cbn in Ht; congruence.
  - intros t v Hin. assert (G : exists t0, In t0 (seq min_len (length series - min_len)) /\ (do s <- sadf_stat adf (firstn (S t0) series) min_len c (LagInt n); Ok (t0, s)) = Ok (t, v)).
    { induction H as [|a b la lb Hab F IH]; [easy|]. destruct Hin as [->|Hin]; [exists a; split; auto; now left|]. destruct (IH Hin) as (t0 & A & B). exists t0. split; auto. now right. }
    destruct G as (t0 & A & B). apply in_seq in A. destruct (sadf_stat adf (firstn (S t0) series) min_len c (LagInt n)) as [w|] eqn:E; cbn in B; [|discriminate]. injection B as -> ->. split; [lia|exact E].
Qed.
Theorem c78_series_causal adf s1 s2 min_len c n r1 r2 t v1 v2 : sadf_stat_series adf s1 min_len c (LagInt n) = Ok r1 -> sadf_stat_series adf s2 min_len c (LagInt n) = Ok r2 ->
  firstn (S t) s1 = firstn (S t) s2 -> In (t, v1) r1 -> In (t, v2) r2 -> v1 = v2.
Proof. intros H1 H2 HE I1 I2. destruct (c78_series H1) as [_ A1]. destruct (c78_series H2) as [_ A2]. destruct (A1 _ _ I1) as [_ B1]. destruct (A2 _ _ I2) as [_ B2]. rewrite HE in B1. congruence. Qed.
Theorem c78_series_windows series t n min_len c y x : (t < length series)%nat -> (n < t)%nat -> (min_len <= t)%nat -> get_yx (firstn (S t) series) c (LagInt n) = Ok (y, x) ->
  forall s, (s + min_len <= length y + n)%nat <-> (s <= t - min_len)%nat.
Proof.
  intros Ht Hn Hm E. assert (HL : length (firstn (S t) series) = S t) by (rewrite firstn_length; lia). destruct (@c77_integer_lags (firstn (S t) series) c n) as (u & v & F & L1 & L2 & _); [lia|]. rewrite E in F. injection F as <- <-. intros s. lia.
Qed.
Example c78_ex : sadf_stat (fun y x => Ok (hd_error y)) [1; 3; 4; 9; 7] 2 C (LagInt 1) = Ok (Some 5).
Proof.
  unfold sadf_stat. cbn. unfold step_max. repeat (destruct (Rlt_dec _ _); [|try lra]); try lra; repeat f_equal; lra.
Qed.

(** ** C101 The regression behind the statistic *)
Lemma sum_n_ext n f g : (forall i, (i < n)%nat -> f i = g i) -> sum_n n f = sum_n n g.
Proof. intros H. apply rsum_map_ext. intros i Hi. apply in_seq in Hi. apply H. lia. Qed.
Lemma sum_n_swap n m (f : nat -> nat -> R) : sum_n n (fun i => sum_n m (fun j => f i j)) = sum_n m (fun j => sum_n n (fun i => f i j)).
Proof.
  unfold sum_n. induction (seq 0 n) as [|a l IH]; cbn [map rsum]; [symmetry; apply rsum_map_0; auto|]. rewrite IH. rewrite <- (@rsum_map_add _ (fun j => f a j) (fun j => rsum (map (fun i => f i j) l))). reflexivity.
Qed.
Lemma sum_n_scale n c f : sum_n n (fun i => c * f i) = c * sum_n n f. Proof. apply rsum_map_scale. Qed.
Lemma sum_n_add n f g : sum_n n (fun i => f i + g i) = sum_n n f + sum_n n g. Proof. apply rsum_map_add. Qed.
Lemma sum_n_sub n f g : sum_n n (fun i => f i - g i) = sum_n n f - sum_n n g. Proof. apply rsum_map_sub. Qed.
Lemma sum_n_delta n i f : (i < n)%nat -> sum_n n (fun j => (if (i =? j)%nat then 1 else 0) * f j) = f i.
Proof.
  intros H. unfold sum_n. assert (G : forall l, NoDup l -> rsum (map (fun j => (if (i =? j)%nat then 1 else 0) * f j) l) = if in_dec Nat.eq_dec i l then f i else 0).
  { induction l as [|a l IH]; intros HD; cbn [map rsum]; [reflexivity|]. inversion HD; subst. rewrite IH by assumption. destruct (Nat.eq_dec i a) as [->|Hne].
    - rewrite Nat.eqb_refl. destruct (in_dec Nat.eq_dec a (a :: l)) as [_|Hin]; [|exfalso; apply Hin; now left]. destruct (in_dec Nat.eq_dec a l); [contradiction|]. ring.
    - rewrite (proj2 (Nat.eqb_neq i a)) by exact Hne. destruct (in_dec Nat.eq_dec i (a :: l)) as [Hin|Hin], (in_dec Nat.eq_dec i l) as [Hl|Hl]; try ring.
      + exfalso. destruct Hin; [congruence|contradiction].
      + exfalso. apply Hin. now right. }
  rewrite G by apply seq_NoDup. destruct (in_dec Nat.eq_dec i (seq 0 n)) as [|Hn]; auto. exfalso. apply Hn. apply in_seq. lia.
Qed.
(** np.linalg.inv, when it returns, gives a matrix whose product with the argument is the identity *)
Definition inv_contract (inv : nat -> (nat -> nat -> R) -> res (nat -> nat -> R)) : Prop := forall k M N, inv k M = Ok N ->
  forall i l, (i < k)%nat -> (l < k)%nat -> sum_n k (fun j => M i j * N j l) = if (i =? l)%nat then 1 else 0.
Section OLSFit.
  Variables (inv : nat -> (nat -> nat -> R) -> res (nat -> nat -> R)) (T k : nat) (X : nat -> nat -> R) (y : nat -> R) (b : nat -> R) (V : nat -> nat -> R).
  Hypothesis Hinv : inv_contract inv.
  Hypothesis Hfit : fit_adf inv T k X y = Ok (b, V).
  Definition residual (c : nat -> R) (t : nat) : R := y t - sum_n k (fun j => X t j * c j).
  Definition sse (c : nat -> R) : R := sum_n T (fun t => residual c t * residual c t).
  (** the residuals are orthogonal to every regressor (normal equations) *)
  Theorem c101_normal_equations i : (i < k)%nat -> sum_n T (fun t => X t i * residual b t) = 0.
  Proof.
    intros Hi. unfold fit_adf in Hfit. destruct (inv k (xx T X)) as [xi|] eqn:Ei; cbn [bind] in Hfit; [|discriminate]. injection Hfit as Hb _.
    assert (E1 : sum_n k (fun j => xx T X i j * b j) = xy T X y i).
    { rewrite <- Hb. rewrite (@sum_n_ext k _ (fun j => sum_n k (fun l => xx T X i j * xi j l * xy T X y l))).
      2: { intros j Hj. rewrite <- sum_n_scale. apply sum_n_ext. intros l _. ring. }
      rewrite sum_n_swap. rewrite (@sum_n_ext k _ (fun l => (if (i =? l)%nat then 1 else 0) * xy T X y l)).
      - apply sum_n_delta. exact Hi.
      - intros l Hl. rewrite <- (Hinv Ei Hi Hl). rewrite Rmult_comm, <- sum_n_scale. apply sum_n_ext. intros j _. ring. }
    rewrite (@sum_n_ext T _ (fun t => X t i * y t - sum_n k (fun j => X t i * X t j * b j))).
    2: { intros t _. unfold residual. rewrite Rmult_minus_distr_l, <- sum_n_scale. f_equal. apply sum_n_ext. intros j _. ring. }
    rewrite sum_n_sub. fold (xy T X y i). rewrite sum_n_swap. rewrite (@sum_n_ext k _ (fun j => xx T X i j * b j)).
    - rewrite E1. ring.
    - intros j _. unfold xx. rewrite Rmult_comm, <- sum_n_scale. apply sum_n_ext. intros t _. ring.
  Qed.
  (** so the coefficients minimise the squared error *)
  Theorem c101_least_squares c : sse b <= sse c.
  Proof.
    assert (E : sse c = sse b + 2 * sum_n k (fun j => (b j - c j) * sum_n T (fun t => X t j * residual b t)) + sum_n T (fun t => sum_n k (fun j => X t j * (b j - c j)) * sum_n k (fun j => X t j * (b j - c j)))).
    { rewrite (@sum_n_ext k (fun j => (b j - c j) * sum_n T (fun t => X t j * residual b t)) (fun j => sum_n T (fun t => (b j - c j) * (X t j * residual b t)))) by (intros; now rewrite sum_n_scale).
      rewrite sum_n_swap. unfold sse. rewrite <- sum_n_scale, <- !sum_n_add. apply sum_n_ext. intros t _.
      assert (Er : residual c t = residual b t + sum_n k (fun j => X t j * (b j - c j))).
      { unfold residual. rewrite (@sum_n_ext k (fun j => X t j * (b j - c j)) (fun j => X t j * b j - X t j * c j)) by (intros; ring). rewrite sum_n_sub. ring. }
      rewrite Er. rewrite (@sum_n_ext k (fun j => (b j - c j) * (X t j * residual b t)) (fun j => residual b t * (X t j * (b j - c j)))) by (intros; ring). rewrite sum_n_scale. ring. }
    rewrite E. rewrite (@sum_n_ext k _ (fun _ => 0 * 0)) by (intros j Hj; rewrite c101_normal_equations by exact Hj; ring). rewrite sum_n_scale.
    assert (0 <= sum_n T (fun t => sum_n k (fun j => X t j * (b j - c j)) * sum_n k (fun j => X t j * (b j - c j)))).
    { apply rsum_nonneg. intros v Hv. apply in_map_iff in Hv. destruct Hv as (t & <- & _). apply Rle_0_sqr. }
    lra.
  Qed.
  (** and data lying exactly on a linear model gives back its coefficients *)
  Theorem c101_exact_recovery c : (forall M N, inv k M = Ok N -> forall i l, (i < k)%nat -> (l < k)%nat -> sum_n k (fun j => N i j * M j l) = if (i =? l)%nat then 1 else 0) ->
    (forall t, (t < T)%nat -> y t = sum_n k (fun j => X t j * c j)) -> forall i, (i < k)%nat -> b i = c i.
  Proof.
    intros Hleft Hy i Hi. unfold fit_adf in Hfit. destruct (inv k (xx T X)) as [xi|] eqn:Ei; cbn [bind] in Hfit; [|discriminate]. injection Hfit as Hb _. rewrite <- Hb.
    rewrite (@sum_n_ext k _ (fun j => sum_n k (fun l => xi i j * xx T X j l * c l))).
    - rewrite sum_n_swap. rewrite (@sum_n_ext k _ (fun l => (if (i =? l)%nat then 1 else 0) * c l)); [now apply sum_n_delta|]. intros l Hl. rewrite <- (Hleft _ _ Ei i l Hi Hl). rewrite Rmult_comm, <- sum_n_scale. apply sum_n_ext. intros j _. ring.
    - intros j _. unfold xy. rewrite (@sum_n_ext T _ (fun t => sum_n k (fun l => X t j * X t l * c l))).
      + rewrite sum_n_swap, <- sum_n_scale. apply sum_n_ext. intros l _. unfold xx. rewrite Rmult_assoc. f_equal. rewrite Rmult_comm, <- sum_n_scale. apply sum_n_ext. intros t _. ring.
      + intros t Ht. rewrite Hy by exact Ht. rewrite <- sum_n_scale. apply sum_n_ext. intros l _. ring.
  Qed.
  (** the coefficient variance is the unbiased residual variance times the inverse of X'X *)
  Theorem c101_variance : exists xi, inv k (fun i j => sum_n T (fun t => X t i * X t j)) = Ok xi /\ forall i j, V i j = sse b / (INR T - INR k) * xi i j.
  Proof.
    unfold fit_adf in Hfit. change (fun i j => sum_n T (fun t => X t i * X t j)) with (xx T X). destruct (inv k (xx T X)) as [xi|] eqn:Ei; cbn [bind] in Hfit; [|discriminate]. injection Hfit as Hb HV. exists xi. split; auto. intros i j. rewrite <- HV.
    f_equal. f_equal. unfold sse, residual. rewrite <- Hb. reflexivity.
  Qed.
End OLSFit.
(** an inverse meeting the contract: one regressor *)
Example c101_ex : let inv := fun (k : nat) (M : nat -> nat -> R) => if (k =? 1)%nat then if Req_EM_T (M 0%nat 0%nat) 0 then Err ValueError else Ok (fun _ _ => / M 0%nat 0%nat) else Err ValueError in
  inv_contract inv /\ exists b V, fit_adf inv 2 1 (fun t _ => INR (S t)) (fun t => 3 * INR (S t)) = Ok (b, V) /\ b 0%nat = 3.
Proof.
  intros inv. split.
  - intros k M N H i l Hi Hl. unfold inv in H. destruct (k =? 1)%nat eqn:Ek; [|discriminate]. apply Nat.eqb_eq in Ek. subst k. destruct (Req_EM_T (M 0%nat 0%nat) 0); [discriminate|]. injection H as <-.
    assert (i = 0%nat) by lia. assert (l = 0%nat) by lia. subst. unfold sum_n. cbn. field. assumption.
  - unfold fit_adf, inv. cbn [Nat.eqb]. unfold xx, xy, sum_n. cbn [seq map rsum INR]. destruct (Req_EM_T _ 0) as [E|E]; [exfalso; lra|]. cbn [bind]. do 2 eexists. split; [reflexivity|]. cbn. field.
Qed.
Print Assumptions c80_statistic.
Print Assumptions c80_causal.
Print Assumptions c80_affine_invariant.
Print Assumptions c80_pvalue_range.
Print Assumptions c80_short_series.
Print Assumptions c80_reference_outside_raises.
Print Assumptions c100_null_variance_refuted.
Print Assumptions c100_last_observation.
Print Assumptions c77_rows.
Print Assumptions c77_integer_lags.
Print Assumptions c77_causal.
Print Assumptions c79_lag_list_refuted.
Print Assumptions c79_never_accepted.
Print Assumptions c79_first_lag_lost_refuted.
Print Assumptions c78_supremum.
Print Assumptions c78_all_nan.
Print Assumptions c102_min_sample_refuted.
Print Assumptions c102_window_sizes.
Print Assumptions c78_series.
Print Assumptions c78_series_causal.
Print Assumptions c78_series_windows.
Print Assumptions c101_normal_equations.
Print Assumptions c101_least_squares.
Print Assumptions c101_exact_recovery.
Print Assumptions c101_variance.
