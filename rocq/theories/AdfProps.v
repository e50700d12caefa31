(** Theorems about the augmented Dickey-Fuller tests (C162-C163). *)
From Verif Require Import Py RNum Normal StructModel StructProps RegModel RegProofs RegProps FracDiffModel FracDiffProofs FracDiffProps StatsModel StatsProps AdfModel AdfProofs.
From Coq Require Import Qreals.
Set Implicit Arguments.
Unset Strict Implicit.
Open Scope R_scope.

(** What is asked of [OLS]: on independent regressors it reports their number, the smallest sum of squared residuals and, with residual degrees of
    freedom, the level's coefficient over its standard error ([z] is the first column of the inverse of X'X) *)
Definition least T k X y (b : nat -> R) : Prop := forall c, sse T k X y b <= sse T k X y c.
Definition unit_column T k X (z : nat -> R) : Prop := forall i, (i < k)%nat -> sum_n T (fun t => X t i * sum_n k (fun j => X t j * z j)) = if (i =? 0)%nat then 1 else 0.
Definition ols_contract (ols : nat -> list R -> list (list R) -> ols_fit) : Prop := forall k y x, (0 < k)%nat -> let T := length y in ~ dependent T k (design x) ->
  rank (ols k y x) = k /\ forall b, least T k (design x) (col y) b -> ssr (ols k y x) = sse T k (design x) (col y) b /\
    forall z, unit_column T k (design x) z -> (k < T)%nat ->
      tvalue (ols k y x) = if Req_EM_T (sse T k (design x) (col y) b) 0 then None else Some (b 0%nat / sqrt (sse T k (design x) (col y) b / (INR T - INR k) * z 0%nat)).

(** such a fit exists *)
Definition ols_ref (k : nat) (y : list R) (x : list (list R)) : ols_fit :=
  {| ssr := match fit_adf inv (length y) k (design x) (col y) with Ok f => sse (length y) k (design x) (col y) (fst f) | Err _ => 0 end;
     rank := k; tvalue := match adf_tstat k y x with Ok v => v | Err _ => None end |}.
Lemma least_same T k X y b b' : least T k X y b -> least T k X y b' -> sse T k X y b = sse T k X y b'.
Proof. intros H H'. apply Rle_antisym; [apply H|apply H']. Qed.
Example ols_ref_contract : ols_contract ols_ref.
Proof.
  intros k y x Hk T ND. split; auto. intros b Hb. split.
  - cbn. fold T. destruct (fit_cases T k (design x) (col y)) as [(_ & D)|(_ & b' & V & -> & HN & HV)]; [tauto|]. cbn [fst]. apply (@least_same T k (design x) (col y)); auto. intros c. now apply normal_least.
  - intros z Hz HT. cbn. rewrite (@c145_statistic k y x b z); auto.
Qed.

Lemma real_affine a b v : real (a * v + b)%Qc = real a * real v + real b.
Proof. unfold real. rewrite <- Q2R_mult, <- Q2R_plus. apply Qeq_eqR. etransitivity; [apply (Qred_correct (this (a * v)%Qc + this b))|]. apply Qplus_comp; [apply (Qred_correct (this a * this v))|reflexivity]. Qed.
Lemma real_neq0 a : a <> 0%Qc -> real a <> 0.
Proof. intros H E. apply H. apply Qc_is_canon. apply eqR_Qeq. unfold real in E. rewrite E. cbn. unfold Q2R. cbn. lra. Qed.

(** ** differencing a shifted and scaled column *)
Lemma ffill_map (f : Qc -> Qc) l : forall prev, ffill (option_map f prev) (map (option_map f) l) = map (option_map f) (ffill prev l).
Proof. induction l as [|[v|] l IH]; intros prev; cbn; auto; f_equal; auto. apply (IH (Some v)). Qed.
Lemma dropna_map (f : Qc -> Qc) l : forall i, dropna_from i (map (option_map f) l) = map (fun p => (fst p, f (snd p))) (dropna_from i l).
Proof. induction l as [|[v|] l IH]; intros i; cbn; auto. f_equal. apply IH. Qed.
Lemma dot_affine a b ws xs : length ws = length xs -> dot ws (map (fun v => a * v + b)%Qc xs) = (a * dot ws xs + b * qsum ws)%Qc.
Proof.
  revert xs. induction ws as [|w ws IH]; intros [|x xs] L; try discriminate; unfold dot in *; cbn in *; [ring|]. rewrite IH by lia. ring.
Qed.
Definition moved (a b : Qc) (lp : list (option Qc)) := map (option_map (fun v => a * v + b)%Qc) lp.
Lemma fixed_moved a b lp d thr : exists w, frac_diff_fixed (moved a b lp) d thr = map (fun iv => (fst iv, (a * snd iv + b * w)%Qc)) (frac_diff_fixed lp d thr).
Proof.
  set (ws := get_weights_fixed d thr (length lp)). exists (qsum ws). unfold frac_diff_fixed, moved. rewrite map_length. fold ws. set (f := fun v : Qc => (a * v + b)%Qc).
  assert (E : prepared (map (option_map f) lp) = map (fun p => (fst p, f (snd p))) (prepared lp)) by (unfold prepared; rewrite <- dropna_map; f_equal; apply (ffill_map f lp None)). rewrite E, map_length.
  assert (W : (0 < length ws)%nat) by (unfold ws, get_weights_fixed; rewrite rev_length; cbn; lia).
  rewrite flat_map_concat_map, flat_map_concat_map, concat_map, map_map. f_equal. apply map_ext_in. intros i Hi. apply in_seq in Hi.
  assert (N : fst (nth i (map (fun p : nat * Qc => (fst p, f (snd p))) (prepared lp)) (0%nat, 0%Qc)) = fst (nth i (prepared lp) (0%nat, 0%Qc))).
  { rewrite (nth_indep _ (0%nat, 0%Qc) ((fun p : nat * Qc => (fst p, f (snd p))) (0%nat, 0%Qc))) by (rewrite map_length; lia). now rewrite (map_nth (fun p : nat * Qc => (fst p, f (snd p)))). }
  rewrite N. set (e := fst _). assert (M : nth e (map (option_map f) lp) None = option_map f (nth e lp None)) by (change None with (option_map f None) at 1; apply map_nth). rewrite M. destruct (nth e lp None); cbn [option_map map]; auto. cbn [fst snd]. do 2 f_equal.
  rewrite <- dot_affine; [|unfold slice; rewrite map_length, firstn_length, skipn_length; lia]. f_equal. unfold slice. rewrite skipn_map, firstn_map, !map_map. reflexivity.
Qed.

Section Tests.
  Variable ols : nat -> list R -> list (list R) -> ols_fit.
  Variable cdf : R -> R.
  Hypothesis Hols : ols_contract ols.
  Lemma ols_tstat k y x : (0 < k < length y)%nat -> ~ dependent (length y) k (design x) -> adf_tstat k y x = Ok (tvalue (ols k y x)).
  Proof.
    intros Hk ND. destruct (@c145_least_squares_exists k y x ltac:(lia) ND) as (b & z & Hb & _ & Hz & _). rewrite (@c145_statistic k y x b z) by auto.
    destruct (@Hols k y x ltac:(lia) ND) as [_ H]. destruct (H b Hb) as [_ H']. now rewrite (H' z Hz ltac:(lia)).
  Qed.
  Lemma ols_ssr k y x : (0 < k)%nat -> ~ dependent (length y) k (design x) -> exists b, least (length y) k (design x) (col y) b /\ ssr (ols k y x) = sse (length y) k (design x) (col y) b.
  Proof.
    intros Hk ND. destruct (@c145_least_squares_exists k y x Hk ND) as (b & z & Hb & _). exists b. split; auto. destruct (Hols Hk ND) as [_ H]. now destruct (H b Hb).
  Qed.

  (** ** the regression, written out: [change] explained by the level before it, the [l] changes before it and a constant, without the first [s] changes *)
  Definition change (x : list R) (s t : nat) : R := nth (s + t + 1) x 0 - nth (s + t) x 0.
  Definition regressor (x : list R) (s l t j : nat) : R :=
    if (j =? 0)%nat then nth (s + t) x 0 else if (j <=? l)%nat then nth (s + t + 1 - j) x 0 - nth (s + t - j) x 0 else 1.
  Lemma regressor_design x s l t j : (t < length x - 1 - s)%nat -> (j < l + 2)%nat -> design (adf_x x s l) t j = regressor x s l t j.
  Proof.
    intros Ht Hj. unfold regressor. destruct j as [|j]; [now rewrite x_level|]. cbn [Nat.eqb]. destruct (Nat.leb_spec (S j) l) as [J|J].
    - rewrite x_lag by (auto; lia). f_equal; f_equal; lia.
    - replace j with l by lia. now rewrite x_const.
  Qed.
  Lemma change_col x s t : (t < length x - 1 - s)%nat -> col (adf_y x s) t = change x s t.
  Proof. intros Ht. rewrite y_entry by auto. unfold change. f_equal. f_equal. lia. Qed.
  Lemma sse_written x s l b : sse (length x - 1 - s) (l + 2) (design (adf_x x s l)) (col (adf_y x s)) b = sse (length x - 1 - s) (l + 2) (regressor x s l) (change x s) b.
  Proof.
    unfold sse, residual. apply sum_n_ext. intros t Ht. rewrite change_col by auto. rewrite (@sum_n_ext (l + 2) _ (fun j => regressor x s l t j * b j)); [reflexivity|]. intros j Hj. now rewrite regressor_design.
  Qed.
  Lemma dependent_written x s l : dependent (length x - 1 - s) (l + 2) (design (adf_x x s l)) <-> dependent (length x - 1 - s) (l + 2) (regressor x s l).
  Proof. split; apply dependent_ext; intros; [|symmetry]; now apply regressor_design. Qed.
  Lemma least_written x s l b : least (length x - 1 - s) (l + 2) (regressor x s l) (change x s) b <-> least (length x - 1 - s) (l + 2) (design (adf_x x s l)) (col (adf_y x s)) b.
  Proof. unfold least. split; intros H c; specialize (H c); rewrite !sse_written in *; auto. Qed.
  Lemma unit_written x s l z : unit_column (length x - 1 - s) (l + 2) (regressor x s l) z <-> unit_column (length x - 1 - s) (l + 2) (design (adf_x x s l)) z.
  Proof.
    unfold unit_column. split; intros H i Hi; rewrite <- (H i Hi); apply sum_n_ext; intros t Ht; rewrite !regressor_design by auto; f_equal; apply sum_n_ext; intros j Hj; now rewrite regressor_design.
  Qed.
  Definition statistic (T k : nat) X y (b z : nat -> R) : option R :=
    if Req_EM_T (sse T k X y b) 0 then None else Some (b 0%nat / sqrt (sse T k X y b / (INR T - INR k) * z 0%nat)).
  Lemma tvalue_written x s l b z : let T := (length x - 1 - s)%nat in (l + 2 < T)%nat -> ~ dependent T (l + 2) (regressor x s l) ->
    least T (l + 2) (regressor x s l) (change x s) b -> unit_column T (l + 2) (regressor x s l) z ->
    tvalue (ols (l + 2) (adf_y x s) (adf_x x s l)) = statistic T (l + 2) (regressor x s l) (change x s) b z.
  Proof.
    intros T HT ND Hb Hz. destruct (@Hols (l + 2)%nat (adf_y x s) (adf_x x s l) ltac:(lia)) as [_ H]; rewrite adf_y_length in *; [now rewrite dependent_written|].
    destruct (H b) as [_ H']; [now apply least_written|]. rewrite (H' z) by (auto; now apply unit_written). unfold statistic, T. now rewrite !sse_written.
  Qed.
  (** coefficients of least squares exist, and the first column of the inverse of X'X *)
  Lemma written_exists x s l : let T := (length x - 1 - s)%nat in ~ dependent T (l + 2) (regressor x s l) ->
    exists b z, least T (l + 2) (regressor x s l) (change x s) b /\ unit_column T (l + 2) (regressor x s l) z.
  Proof.
    intros T ND. destruct (@c145_least_squares_exists (l + 2)%nat (adf_y x s) (adf_x x s l) ltac:(lia)) as (b & z & Hb & _ & Hz & _); rewrite adf_y_length in *; [now rewrite dependent_written|].
    exists b, z. split; [now apply least_written|now apply unit_written].
  Qed.

  (** ** the test of an order of differencing (maxlag=1, autolag=None) *)
  Theorem c162_raises x e : scan_test ols cdf x = Err e <-> e = ValueError /\ (length x < 6)%nat.
  Proof.
    unfold scan_test, adfuller, max_lags, lag_limit. rewrite map_length. destruct (Z.ltb_spec (Z.of_nat (length x / 2) - 2) (Z.of_nat 1)) as [H|H]; cbn [bind].
    - split; [intros [= <-]; split; auto|intros [-> _]; auto]. assert (length x / 2 < 3)%nat by lia. destruct (le_lt_dec 6 (length x)) as [L|]; auto. apply (Nat.div_le_mono 6 _ 2) in L; [|lia]. change (6 / 2)%nat with 3%nat in L. lia.
    - split; [discriminate|]. intros [_ L]. assert (length x / 2 < 3)%nat by (apply Nat.div_lt_upper_bound; lia). lia.
  Qed.
  Theorem c162_row (xs : list Qc) b z : let x := map real xs in let n := length xs in (6 <= n)%nat -> ~ dependent (n - 2) 3 (regressor x 1 1) ->
    least (n - 2) 3 (regressor x 1 1) (change x 1) b -> unit_column (n - 2) 3 (regressor x 1 1) z ->
    let s := statistic (n - 2) 3 (regressor x 1 1) (change x 1) b z in
    scan_test ols cdf xs = Ok (s, option_map (mackinnon_p cdf) s, 1%nat, (n - 2)%nat, mackinnon_5pct (n - 2)).
  Proof.
    intros x n Hn ND Hb Hz s. unfold scan_test, adfuller, max_lags, lag_limit. rewrite map_length. fold n x.
    assert (3 <= n / 2)%nat by (apply (Nat.div_le_mono 6 _ 2) in Hn; [exact Hn|lia]). rewrite (proj2 (Z.ltb_ge _ _)) by lia. cbn [bind].
    assert (L : (length x - 1 - 1 = n - 2)%nat) by (unfold x; rewrite map_length; fold n; lia). pose proof (@tvalue_written x 1 1 b z) as K. cbv zeta in K. rewrite L in K. change (1 + 2)%nat with 3%nat in *.
    rewrite K by (auto; lia). fold s. replace (n - 1 - 1)%nat with (n - 2)%nat by lia. reflexivity.
  Qed.

  (** new units or a shift of the level change nothing *)
  Lemma affine_tvalue x a b l : a <> 0 -> (l + 2 < length x - 1 - l)%nat -> ~ dependent (length x - 1 - l) (l + 2) (regressor x l l) ->
    tvalue (ols (l + 2) (adf_y (map (fun v => a * v + b) x) l) (adf_x (map (fun v => a * v + b) x) l l)) = tvalue (ols (l + 2) (adf_y x l) (adf_x x l l)).
  Proof.
    intros Ha HT ND. rewrite <- dependent_written in ND. pose proof (@affine_tstat x a b Ha l l ltac:(lia)) as E.
    rewrite !ols_tstat in E; rewrite ?adf_y_length, ?map_length; try lia; auto.
    - now injection E.
    - intro D. apply ND. now apply (@affine_dependent x a b Ha l l).
  Qed.
  Theorem c162_test_units (xs : list Qc) (a b : Qc) : a <> 0%Qc -> ((6 <= length xs)%nat -> ~ dependent (length xs - 2) 3 (regressor (map real xs) 1 1)) ->
    scan_test ols cdf (map (fun v => a * v + b)%Qc xs) = scan_test ols cdf xs.
  Proof.
    intros Ha ND. destruct (le_lt_dec 6 (length xs)) as [L|L].
    - unfold scan_test. rewrite map_map. rewrite (map_ext (fun v => real (a * v + b)) (fun v => real a * real v + real b)) by (intro; apply real_affine). rewrite <- (map_map real (fun v => real a * v + real b)).
      unfold adfuller. rewrite !map_length. destruct (max_lags _ _) as [m|] eqn:E; cbn [bind]; auto. assert (m = 1%nat) as -> by (unfold max_lags in E; destruct (_ <? _)%Z; [discriminate|now injection E]).
      rewrite (@affine_tvalue (map real xs) (real a) (real b) 1); auto; rewrite ?map_length; [now apply real_neq0|lia|]. replace (length xs - 1 - 1)%nat with (length xs - 2)%nat by lia. now apply ND.
    - transitivity (@Err (option R * option R * nat * nat * R) ValueError); [|symmetry]; apply c162_raises; rewrite ?map_length; auto.
  Qed.
  (** the row of an order of differencing does not depend on the unit of the prices: scaling the prices shifts their logarithms *)
  Definition regular_row (lp : list (option Qc)) (d : Qc) : Prop := let x := map (fun iv => real (snd iv)) (frac_diff_fixed lp d (q 1 100)) in
    (6 <= length x)%nat -> ~ dependent (length x - 2) 3 (regressor x 1 1).
  Theorem c162_row_units lp d a b : a <> 0%Qc -> regular_row lp d -> adf_row (scan_test ols cdf) (moved a b lp) d = adf_row (scan_test ols cdf) lp d.
  Proof.
    intros Ha ND. unfold adf_row. destruct (fixed_moved a b lp d (q 1 100)) as [w ->]. set (fd := frac_diff_fixed lp d (q 1 100)) in *. rewrite !map_map. cbn [fst snd].
    rewrite <- (map_map snd (fun v => a * v + b * w)%Qc). rewrite c162_test_units; auto.
    - destruct (scan_test ols cdf (map snd fd)) as [r|]; cbn [bind]; auto. do 2 f_equal.
      rewrite (map_ext (fun iv => real (a * snd iv + b * w)) (fun iv => real a * real (snd iv) + real (b * w))) by (intro; apply real_affine). rewrite <- (map_map (fun iv => real (snd iv)) (fun v => real a * v + real (b * w))).
      rewrite (map_ext_in (fun iv => match nth (fst iv) (moved a b lp) None with Some x => real x | None => 0 end) (fun iv => real a * match nth (fst iv) lp None with Some x => real x | None => 0 end + real b)).
      + rewrite <- (map_map (fun iv => match nth (fst iv) lp None with Some x => real x | None => 0 end) (fun v => real a * v + real b)). apply corr_affine; [|now rewrite !map_length]. pose proof (real_neq0 Ha). nra.
      + intros [i v] Hin. cbn [fst]. unfold fd in Hin. destruct (c52_fixed_values lp d (q 1 100)) as (a0 & y & _ & _ & _ & H). apply H in Hin. destruct Hin as (_ & (x & Hx) & _).
        assert (M : nth i (moved a b lp) None = option_map (fun v => a * v + b)%Qc (nth i lp None)) by (unfold moved; change None with (option_map (fun v => a * v + b)%Qc None) at 1; apply map_nth). rewrite M. rewrite (nth_error_nth _ _ None Hx). cbn [option_map]. apply real_affine.
    - rewrite map_length. intros L. unfold regular_row in ND. fold fd in ND. cbv zeta in ND. rewrite map_length in ND. rewrite map_map. auto.
  Qed.
  Theorem c162_scan_units lp orders a b : a <> 0%Qc -> (forall d, In d orders -> regular_row lp d) ->
    run_adf_tests (scan_test ols cdf) (moved a b lp) orders = run_adf_tests (scan_test ols cdf) lp orders.
  Proof.
    intros Ha. unfold run_adf_tests. generalize (@Ok (list (Qc * (option R * option R * nat * nat * R * option R))) []) as acc. induction orders as [|d orders IH]; intros acc H; cbn [fold_left]; auto.
    rewrite c162_row_units by (auto; apply H; now left). apply IH. intros; apply H; now right.
  Qed.
  (** the statistic is the one of the library's own regression: a supremum over windows that include the whole series is not smaller *)
  Theorem c162_below_supremum (xs : list Qc) min_len s p l n c r : scan_test ols cdf xs = Ok (Some s, p, l, n, c) -> (min_len < length xs)%nat ->
    sadf (map real xs) min_len C 1 = Ok r -> exists b, r = Some b /\ s <= b.
  Proof.
    intros H HM HS. assert (L6 : (6 <= length xs)%nat). { destruct (le_lt_dec 6 (length xs)) as [|L]; auto. assert (E : scan_test ols cdf xs = Err ValueError) by (apply c162_raises; auto). congruence. }
    assert (E : get_yx (map real xs) C (LagInt 1) = Ok (adf_y (map real xs) 1, adf_x (map real xs) 1 1)) by (apply adf_rows_get_yx; rewrite map_length; lia).
    unfold sadf in HS. destruct (@c78_supremum _ _ _ _ _ _ _ _ E HS) as [K _]. destruct (K 0%nat) as (v & Hv & Kv); [rewrite adf_y_length, map_length; lia|]. cbn [skipn trend_count] in Hv. change (1 + 1 + 1)%nat with 3%nat in Hv.
    assert (ND : ~ dependent (length (adf_y (map real xs) 1)) 3 (design (adf_x (map real xs) 1 1))). { intros D. assert (adf_tstat 3 (adf_y (map real xs) 1) (adf_x (map real xs) 1 1) = Err ValueError) by (apply c145_raises; auto). congruence. }
    rewrite ols_tstat in Hv by (auto; rewrite adf_y_length, map_length; lia). injection Hv as <-. apply Kv.
    unfold scan_test, adfuller in H. destruct (max_lags _ _) as [m|] eqn:EM; cbn [bind] in H; [|discriminate]. assert (m = 1%nat) as -> by (unfold max_lags in EM; destruct (_ <? _)%Z; [discriminate|now injection EM]). now injection H.
  Qed.

  (** ** the p-value of [augmented_dickey_fuller_pval]: the number of lags is chosen by Akaike's criterion *)
  Definition least_error (x : list R) (s l : nat) (e : R) : Prop := let T := (length x - 1 - s)%nat in exists b, least T (l + 2) (regressor x s l) (change x s) b /\ e = sse T (l + 2) (regressor x s l) (change x s) b.
  Definition regular (x : list R) (m : nat) : Prop := ~ dependent (length x - 1 - m) (m + 2) (regressor x m m).
  Lemma ssr_written x s l e : ~ dependent (length x - 1 - s) (l + 2) (design (adf_x x s l)) -> least_error x s l e -> ssr (ols (l + 2) (adf_y x s) (adf_x x s l)) = e /\ rank (ols (l + 2) (adf_y x s) (adf_x x s l)) = (l + 2)%nat.
  Proof.
    intros ND (b & Hb & ->). destruct (@Hols (l + 2)%nat (adf_y x s) (adf_x x s l) ltac:(lia)) as [HR H]; rewrite adf_y_length in *; auto. split; auto. destruct (H b) as [H' _]; [now apply least_written|]. rewrite H'. apply sse_written.
  Qed.
  Lemma least_error_exists x s l : ~ dependent (length x - 1 - s) (l + 2) (regressor x s l) -> exists e, least_error x s l e /\ 0 <= e.
  Proof. intros ND. destruct (@written_exists x s l ND) as (b & z & Hb & _). eexists. split; [exists b; split; [exact Hb|reflexivity]|]. apply sse_nonneg. Qed.
  Lemma least_error_unique x s l e e' : least_error x s l e -> least_error x s l e' -> e = e'.
  Proof. intros (b & Hb & ->) (b' & Hb' & ->). now apply (@least_same (length x - 1 - s)). Qed.
  Lemma least_error_nonneg x s l e : least_error x s l e -> 0 <= e.
  Proof. intros (b & _ & ->). apply sse_nonneg. Qed.
  Definition criterion (T l : nat) (e : R) : R := INR T * ln e + 2 * INR l.
  Lemma aic_value x m l e : (l <= m)%nat -> (m + 1 < length x)%nat -> regular x m -> least_error x m l e ->
    lags_aic ols x m l = if Req_EM_T e 0 then None else let T := (length x - 1 - m)%nat in Some (criterion T l e + (INR T * ln (2 * PI) - INR T * ln (INR T) + INR T + 4)).
  Proof.
    intros Hl HT HR He. destruct (@independent_down x m l Hl) as [ND _]; [now rewrite dependent_written|]. destruct (ssr_written ND He) as [E1 E2]. unfold lags_aic, aic. rewrite E1, E2. destruct (Req_EM_T e 0) as [|N]; auto. cbv zeta. f_equal.
    assert (0 < INR (length x - 1 - m)) by (apply lt_0_INR; lia). pose proof (least_error_nonneg He). unfold criterion. unfold Rdiv. rewrite (@ln_mult e (/ INR (length x - 1 - m))) by (try lra; now apply Rinv_0_lt_compat). rewrite ln_Rinv by auto. rewrite plus_INR. cbn [INR]. ring.
  Qed.
  Lemma aic_lt_criterion T l e l' e' c : 0 <= e -> 0 <= e' ->
    aic_lt (if Req_EM_T e 0 then None else Some (criterion T l e + c)) (if Req_EM_T e' 0 then None else Some (criterion T l' e' + c)) = true <-> (e = 0 /\ 0 < e') \/ (0 < e /\ 0 < e' /\ criterion T l e < criterion T l' e').
  Proof.
    intros He He'. destruct (Req_EM_T e 0) as [Z|Z], (Req_EM_T e' 0) as [Z'|Z']; cbn [aic_lt].
    - split; [discriminate|]. intros [[_ K]|(K & _)]; lra.
    - split; auto. intros _. left. split; auto. lra.
    - split; [discriminate|]. intros [[K _]|(_ & K & _)]; lra.
    - destruct (Rlt_dec _ _) as [L|L]; split; auto; try discriminate.
      + intros _. right. repeat split; try lra.
      + intros [[K _]|(_ & _ & K)]; lra.
  Qed.
  Theorem c163_max_lags n m : max_lags n None = Ok m <-> (4 <= n)%nat /\ exists c, 12 * sqrt (sqrt (INR n / 100)) <= INR c < 12 * sqrt (sqrt (INR n / 100)) + 1 /\ m = Nat.min (n / 2 - 2) c.
  Proof.
    set (q := sqrt (sqrt (INR n / 100))). assert (Q0 : 0 <= q) by apply sqrt_pos. assert (Q4 : (12 * q) ^ 4 = 12 ^ 4 * INR n / 100).
    { replace ((12 * q) ^ 4) with (12 ^ 4 * ((q * q) * (q * q))) by ring. unfold q. rewrite sqrt_sqrt by apply sqrt_pos. rewrite sqrt_sqrt; [field|]. apply Rmult_le_pos; [apply pos_INR|lra]. }
    assert (UP : forall c : nat, (12 ^ 4 * Z.of_nat n <= 100 * Z.of_nat c ^ 4)%Z <-> 12 * q <= INR c).
    { intros c. assert (I : 12 ^ 4 * INR n / 100 <= INR c ^ 4 <-> (12 ^ 4 * Z.of_nat n <= 100 * Z.of_nat c ^ 4)%Z).
      { rewrite !INR_IZR_INZ. split.
        - intros H. apply le_IZR. rewrite !mult_IZR, <- !pow_IZR with (n := 4%nat) in *. lra.
        - intros H. apply IZR_le in H. rewrite !mult_IZR, <- !pow_IZR with (n := 4%nat) in H. lra. }
      rewrite <- I, <- Q4. pose proof (pos_INR c). split; intros H'.
      - apply Rnot_lt_le. intros K. assert (INR c ^ 4 < (12 * q) ^ 4); [|lra]. assert (K2 : INR c * INR c < (12 * q) * (12 * q)) by (apply Rmult_le_0_lt_compat; lra). replace (INR c ^ 4) with ((INR c * INR c) * (INR c * INR c)) by ring. replace ((12 * q) ^ 4) with (((12 * q) * (12 * q)) * ((12 * q) * (12 * q))) by ring. assert (0 <= INR c * INR c) by nra. apply Rmult_le_0_lt_compat; lra.
      - apply pow_incr. lra. }
    destruct (schwert_spec n) as [S1 S2]. assert (SC : 12 * q <= INR (schwert n) < 12 * q + 1).
    { split; [now apply UP|]. destruct (schwert n) as [|c] eqn:E; [cbn; lra|]. specialize (S2 c ltac:(lia)). assert (~ 12 * q <= INR c) by (rewrite <- UP; lia). rewrite S_INR. lra. }
    assert (U : forall c, 12 * q <= INR c < 12 * q + 1 -> c = schwert n).
    { intros c Hc. assert (INR c < INR (schwert n) + 1) by lra. assert (INR (schwert n) < INR c + 1) by lra. rewrite <- S_INR in *. apply INR_lt in H. apply INR_lt in H0. lia. }
    unfold max_lags, lag_limit. destruct (Z.ltb_spec (Z.min (Z.of_nat (n / 2) - 2) (Z.of_nat (schwert n))) 0) as [H|H].
    - split; [discriminate|]. intros [L _]. apply (Nat.div_le_mono 4 _ 2) in L; [|lia]. change (4 / 2)%nat with 2%nat in L. lia.
    - assert (2 <= n / 2)%nat by lia. split.
      + intros E. assert (E' : m = Z.to_nat (Z.min (Z.of_nat (n / 2) - 2) (Z.of_nat (schwert n)))) by congruence. rewrite E'. split. { destruct (le_lt_dec 4 n); auto. assert (n / 2 < 2)%nat by (apply Nat.div_lt_upper_bound; lia). lia. } exists (schwert n). split; auto. clear - H0. generalize dependent (n / 2)%nat. intros h Hh. lia.
      + intros [_ (c & Hc & ->)]. rewrite (U c Hc). f_equal. clear - H0. generalize dependent (n / 2)%nat. intros h Hh. lia.
  Qed.
  Lemma max_lags_bound n ml m : max_lags n ml = Ok m -> (2 * m + 4 <= n)%nat.
  Proof.
    intros H. assert (K : (m + 2 <= n / 2)%nat).
    { unfold max_lags, lag_limit in H. destruct ml as [m0|].
      - destruct (Z.ltb_spec (Z.of_nat (n / 2) - 2) (Z.of_nat m0)); [discriminate|]. assert (m0 = m) by congruence. generalize dependent (n / 2)%nat. intros; lia.
      - destruct (Z.ltb_spec (Z.min (Z.of_nat (n / 2) - 2) (Z.of_nat (schwert n))) 0) as [|K]; [discriminate|]. assert (E : m = Z.to_nat (Z.min (Z.of_nat (n / 2) - 2) (Z.of_nat (schwert n)))) by congruence. clear H. generalize dependent (n / 2)%nat. intros; lia. }
    pose proof (Nat.mul_div_le n 2 ltac:(lia)). lia.
  Qed.
  Theorem c163_raises x maxlag e : adfuller ols cdf x maxlag true = Err e <-> e = ValueError /\ (length x < 2 * match maxlag with None => 0 | Some m => m end + 4)%nat.
  Proof.
    unfold adfuller, max_lags, lag_limit. assert (D : forall m, (Z.of_nat (length x / 2) - 2 < Z.of_nat m)%Z <-> (length x < 2 * m + 4)%nat).
    { intros m. assert ((length x / 2 < m + 2)%nat <-> (length x < 2 * m + 4)%nat); [|lia]. split; intros K.
      - destruct (le_lt_dec (2 * m + 4) (length x)) as [L|]; auto. apply (Nat.div_le_mono _ _ 2) in L; [|lia]. replace ((2 * m + 4) / 2)%nat with (m + 2)%nat in L; [lia|]. replace (2 * m + 4)%nat with ((m + 2) * 2)%nat by lia. now rewrite Nat.div_mul.
      - apply Nat.div_lt_upper_bound; lia. }
    destruct maxlag as [m|].
    - destruct (Z.ltb_spec (Z.of_nat (length x / 2) - 2) (Z.of_nat m)) as [H|H]; cbn [bind].
      + apply D in H. split; [intros [= <-]; auto|intros [-> _]; auto].
      + split; [discriminate|]. intros [_ L]. apply D in L. lia.
    - specialize (D 0%nat). destruct (Z.ltb_spec (Z.min (Z.of_nat (length x / 2) - 2) (Z.of_nat (schwert (length x)))) 0) as [H|H]; cbn [bind].
      + assert (K : (length x < 2 * 0 + 4)%nat) by (apply D; lia). split; [intros [= <-]; auto|intros [-> _]; auto].
      + split; [discriminate|]. intros [_ L]. apply D in L. lia.
  Qed.
  (** the number of lags has the smallest criterion, all fits using the rows the longest leaves; of several the fewest lags.  A fit without residuals wins. *)
  Theorem c163_lags x maxlag s p l nobs cv : adfuller ols cdf x maxlag true = Ok (s, p, l, nobs, cv) -> exists m, max_lags (length x) maxlag = Ok m /\ (l <= m)%nat /\
    (regular x m -> forall e, (forall i, (i <= m)%nat -> least_error x m i (e i)) -> let T := (length x - 1 - m)%nat in
      ((forall i, (i <= m)%nat -> 0 < e i) -> forall i, (i <= m)%nat -> criterion T l (e l) <= criterion T i (e i) /\ ((i < l)%nat -> criterion T l (e l) < criterion T i (e i))) /\
      ((exists i, (i <= m)%nat /\ e i = 0) -> e l = 0 /\ forall i, (i < l)%nat -> 0 < e i)).
  Proof.
    unfold adfuller. destruct (max_lags (length x) maxlag) as [m|] eqn:EM; cbn [bind]; [|discriminate]. intros [= _ _ <- _ _]. exists m. split; auto.
    assert (HT : (m + 1 < length x)%nat) by (apply max_lags_bound in EM; lia).
    destruct (@best_spec (lags_aic ols x m) m) as [B1 B2]. change (fold_left _ (seq 1 m) 0%nat) with (best_lag ols x m) in B1, B2. split; auto. intros HR e He. set (T := (length x - 1 - m)%nat). set (l := best_lag ols x m) in *.
    assert (N : forall i, (i <= m)%nat -> 0 <= e i) by (intros i Hi; now apply (least_error_nonneg (He i Hi))).
    assert (LT : forall i j, (i <= m)%nat -> (j <= m)%nat -> (aic_lt (lags_aic ols x m i) (lags_aic ols x m j) = true <-> (e i = 0 /\ 0 < e j) \/ (0 < e i /\ 0 < e j /\ criterion T i (e i) < criterion T j (e j)))).
    { intros i j Hi Hj. rewrite (aic_value Hi HT HR (He i Hi)), (aic_value Hj HT HR (He j Hj)). apply aic_lt_criterion; auto. }
    split.
    - intros P i Hi. destruct (B2 i Hi) as [C1 C2]. split.
      + apply Rnot_lt_le. intros K. assert (aic_lt (lags_aic ols x m i) (lags_aic ols x m l) = true); [|congruence]. apply LT; auto.
      + intros K. apply C2, LT in K; auto. pose proof (P l B1). destruct K as [[K _]|(_ & _ & K)]; auto. lra.
    - intros (i & Hi & Zi). assert (ZL : e l = 0).
      { destruct (B2 i Hi) as [C1 _]. destruct (Req_dec (e l) 0) as [|K]; auto. assert (aic_lt (lags_aic ols x m i) (lags_aic ols x m l) = true); [|congruence]. apply LT; auto. left. split; auto. pose proof (N l B1). lra. }
      split; auto. intros j Hj. assert (Hjm : (j <= m)%nat) by lia. destruct (B2 j Hjm) as [_ C2]. apply C2, LT in Hj; auto. destruct Hj as [[_ K]|(_ & K & _)]; auto.
  Qed.
  (** the reported fit leaves degrees of freedom, and its statistic and p-value are those of the chosen regression on all its rows *)
  Theorem c163_value x maxlag s p l nobs cv : adfuller ols cdf x maxlag true = Ok (s, p, l, nobs, cv) -> nobs = (length x - 1 - l)%nat /\ (l + 2 < nobs)%nat /\ cv = mackinnon_5pct nobs /\ p = option_map (mackinnon_p cdf) s /\
    forall b z, ~ dependent nobs (l + 2) (regressor x l l) -> least nobs (l + 2) (regressor x l l) (change x l) b -> unit_column nobs (l + 2) (regressor x l l) z ->
      s = statistic nobs (l + 2) (regressor x l l) (change x l) b z.
  Proof.
    intros H. destruct (c163_lags H) as (m & EM & Hl & _). apply max_lags_bound in EM. unfold adfuller in H. destruct (max_lags (length x) maxlag) as [m'|]; cbn [bind] in H; [|discriminate].
    injection H as <- <- E <- <-. rewrite E in *. split; auto. split; [lia|]. split; auto. split; auto. intros b z ND Hb Hz. apply tvalue_written; auto. lia.
  Qed.
  (** new units or a shift of the level: the same lags, statistic and p-value *)
  Lemma affine_error x a b s l e : a <> 0 -> (l <= s)%nat -> least_error x s l e -> least_error (map (fun v => a * v + b) x) s l (a ^ 2 * e).
  Proof.
    intros Ha Hl (c & Hc & ->). exists (coef a b l c). rewrite map_length. apply least_written in Hc. rewrite <- !sse_written.
    assert (L : (length (map (fun v => (a * v + b)%R) x) - 1 - s = length x - 1 - s)%nat) by (now rewrite map_length). pose proof (@sse_written (map (fun v => a * v + b) x) s l) as SW. rewrite L in SW. split.
    - intros d. rewrite <- !SW. rewrite (@coef_sse x a b s l Hl), (@uncoef_sse x a b Ha s l Hl). apply Rmult_le_compat_l; [apply pow2_ge_0|]. apply Hc.
    - rewrite <- SW. symmetry. now apply coef_sse.
  Qed.
  Theorem c163_units x a b maxlag : a <> 0 -> (forall m, max_lags (length x) maxlag = Ok m -> regular x m) -> adfuller ols cdf (map (fun v => a * v + b) x) maxlag true = adfuller ols cdf x maxlag true.
  Proof.
    intros Ha HR. set (x' := map (fun v => a * v + b) x). assert (L : length x' = length x) by apply map_length. unfold adfuller. rewrite L. destruct (max_lags (length x) maxlag) as [m|] eqn:EM; cbn [bind]; auto. specialize (HR m eq_refl).
    pose proof (max_lags_bound EM) as HB. assert (HR0 : ~ dependent (length x - 1 - m) (m + 2) (design (adf_x x m m))) by (now rewrite dependent_written).
    assert (HR' : regular x' m). { unfold regular. rewrite <- dependent_written. rewrite L. intros D. apply HR0. now apply (@affine_dependent x a b Ha m m). }
    assert (EX : forall i, (i <= m)%nat -> exists e, least_error x m i e /\ 0 <= e). { intros i Hi. apply least_error_exists. rewrite <- dependent_written. now destruct (independent_down Hi HR0). }
    assert (EB : best_lag ols x' m = best_lag ols x m).
    { unfold best_lag. apply best_ext. intros i j Hi Hj. destruct (EX i Hi) as (e & He & Pe), (EX j Hj) as (e' & He' & Pe'). pose proof (affine_error b Ha Hi He) as Ae. pose proof (affine_error b Ha Hj He') as Ae'. fold x' in Ae, Ae'.
      assert (P2 : 0 < a ^ 2) by (rewrite <- Rsqr_pow2; now apply Rsqr_pos_lt). rewrite (@aic_value x m i e), (@aic_value x m j e'), (@aic_value x' m i (a ^ 2 * e)), (@aic_value x' m j (a ^ 2 * e')) by (auto; lia). cbv zeta. rewrite L. set (T := (length x - 1 - m)%nat).
      apply eq_true_iff_eq. rewrite !aic_lt_criterion by nra. assert (SC : forall i0 e0, 0 < e0 -> criterion T i0 (a ^ 2 * e0) = INR T * ln (a ^ 2) + criterion T i0 e0) by (intros i0 e0 H0; unfold criterion; rewrite ln_mult by auto; ring).
      assert (Z : forall e0, 0 <= e0 -> (a ^ 2 * e0 = 0 <-> e0 = 0)) by (intros; split; intro; nra). assert (P : forall e0, 0 < a ^ 2 * e0 <-> 0 < e0) by (intros; split; intro; nra). rewrite Z, !P by auto.
      split; (intros [K|(K1 & K2 & K3)]; [left; exact K|right; repeat split; auto]); rewrite !SC in *; auto; lra. }
    rewrite EB. set (l := best_lag ols x m). assert (Hl : (l <= m)%nat) by (destruct (@best_spec (lags_aic ols x m) m); auto).
    unfold x'. rewrite affine_tvalue; auto; [lia|]. rewrite <- dependent_written. now destruct (independent_down Hl HR0).
  Qed.
  Theorem c163_pvalue x p : augmented_dickey_fuller_pval ols cdf x = Ok p <-> exists s l nobs cv, adfuller ols cdf x None true = Ok (s, p, l, nobs, cv).
  Proof.
    unfold augmented_dickey_fuller_pval. destruct (adfuller ols cdf x None true) as [[[[[s p'] l] n] cv]|e]; cbn [bind].
    - split; [intros [= <-]; eauto 6|intros (? & ? & ? & ? & [= _ <- _ _ _]); auto].
    - split; [discriminate|intros (? & ? & ? & ? & K); discriminate].
  Qed.
  Theorem c163_pvalue_raises x e : augmented_dickey_fuller_pval ols cdf x = Err e <-> e = ValueError /\ (length x < 4)%nat.
  Proof.
    rewrite <- (@c163_raises x None e : _ <-> _ /\ (length x < 2 * 0 + 4)%nat). unfold augmented_dickey_fuller_pval. destruct (adfuller ols cdf x None true) as [[[[[s p'] l] n] cv]|e']; cbn [bind]; [split; discriminate|]. split; intros [= <-]; auto.
  Qed.
  Theorem c163_p_formula s : mackinnon_p cdf s =
    if Rlt_dec s (-18.83) then 0 else if Rle_dec s (-1.61) then cdf ((38269 / 1000000 * s + 14412 / 10000) * s + 21659 / 10000) else if Rle_dec s 2.74 then cdf (((- (10368 / 1000000) * s - 12745 / 100000) * s + 93202 / 100000) * s + 17339 / 10000) else 1.
  Proof.
    unfold mackinnon_p. destruct (Rlt_dec (274 / 100) s), (Rlt_dec s (- (1883 / 100))), (Rlt_dec s (-18.83)), (Rle_dec s (- (161 / 100))), (Rle_dec s (-1.61)), (Rle_dec s 2.74); try lra; try reflexivity; f_equal; field.
  Qed.
  Hypothesis Hcdf : is_normal_cdf cdf.
  Theorem c163_p_range s : 0 <= mackinnon_p cdf s <= 1.
  Proof. unfold mackinnon_p. repeat destruct (Rlt_dec _ _); try lra. destruct (Rle_dec _ _); match goal with |- context [cdf ?v] => pose proof (nc_pos Hcdf v); pose proof (normal_lt_1 Hcdf v); lra end. Qed.
  (** a smaller statistic is stronger evidence: the p-value increases strictly between its bounds *)
  Theorem c163_p_increasing s t : - (1882 / 100) <= s -> s < t -> t <= 274 / 100 -> mackinnon_p cdf s < mackinnon_p cdf t.
  Proof.
    intros Hs Hst Ht. unfold mackinnon_p. destruct (Rlt_dec (274 / 100) s), (Rlt_dec (274 / 100) t), (Rlt_dec s (- (1883 / 100))), (Rlt_dec t (- (1883 / 100))); try lra.
    assert (G : forall u v, - (161 / 100) <= u -> u < v -> v <= 274 / 100 -> 93202 / 100000 * u - 12745 / 100000 * u ^ 2 - 10368 / 1000000 * u ^ 3 < 93202 / 100000 * v - 12745 / 100000 * v ^ 2 - 10368 / 1000000 * v ^ 3).
    { intros u v Hu Huv Hv. assert (0 < 93202 / 100000 - 12745 / 100000 * (u + v) - 10368 / 1000000 * (u ^ 2 + u * v + v ^ 2)); [|nra].
      assert (B1 : u ^ 2 <= (274 / 100 - 161 / 100) * u + 274 / 100 * (161 / 100)) by nra. assert (B2 : v ^ 2 <= (274 / 100 - 161 / 100) * v + 274 / 100 * (161 / 100)) by nra.
      nra. }
    destruct (Rle_dec s (- (161 / 100))), (Rle_dec t (- (161 / 100))); apply (normal_increasing Hcdf); try lra.
    - nra.
    - assert (A : 21659 / 10000 + 14412 / 10000 * s + 38269 / 1000000 * s ^ 2 <= 21659 / 10000 + 14412 / 10000 * (- (161 / 100)) + 38269 / 1000000 * (161 / 100) ^ 2) by nra. pose proof (G (- (161 / 100)) t ltac:(lra) ltac:(lra) Ht). lra.
    - pose proof (G s t ltac:(lra) ltac:(lra) Ht). lra.
  Qed.
End Tests.
Lemma inv_pow_lt (u v : R) k : 0 < u -> u < v -> (0 < k)%nat -> / v ^ k < / u ^ k.
Proof.
  intros Hu Huv Hk. apply Rinv_lt_contravar; [apply Rmult_lt_0_compat; apply pow_lt; lra|]. destruct k as [|k]; [lia|]. clear Hk. induction k as [|k IH]; [rewrite !pow_1; exact Huv|].
  cbn [pow] in *. apply Rmult_gt_0_lt_compat; auto; [|lra]. apply Rmult_lt_0_compat; [lra|]. apply pow_lt. lra.
Qed.
(** the critical value rises with the observations towards -2.86154 *)
Theorem c162_critical n n' : (0 < n < n')%nat -> mackinnon_5pct n < mackinnon_5pct n' < - (286154 / 100000).
Proof.
  intros [H1 H2]. apply lt_INR in H1, H2. cbn in H1. unfold mackinnon_5pct. cbv zeta. pose proof (@inv_pow_lt (INR n) (INR n') 1 H1 H2 ltac:(lia)) as K1. pose proof (@inv_pow_lt (INR n) (INR n') 2 H1 H2 ltac:(lia)) as K2. pose proof (@inv_pow_lt (INR n) (INR n') 3 H1 H2 ltac:(lia)) as K3. rewrite !pow_1 in K1.
  assert (P : 0 < INR n') by lra. pose proof (Rinv_0_lt_compat _ P). pose proof (Rinv_0_lt_compat _ (pow_lt _ 2 P)). pose proof (Rinv_0_lt_compat _ (pow_lt _ 3 P)). unfold Rdiv at 2 3 4 6 7 8. lra.
Qed.

(** a series that meets the hypotheses: independent regressors, one lag at most by default *)
Definition sample : list R := [0; 0; 1; 0; 0; 2].
Example c163_example : max_lags (length sample) None = Ok 1%nat /\ regular sample 1 /\ exists r, sadf sample 5 C 1 = Ok r.
Proof.
  assert (R1 : regular sample 1).
  { unfold regular. cbn [length sample Nat.sub plus]. intros (v & (j & Hj & Hv) & H). pose proof (H 0%nat ltac:(lia)) as H0. pose proof (H 1%nat ltac:(lia)) as H1. pose proof (H 2%nat ltac:(lia)) as H2.
    unfold sum_n, regressor, sample in H0, H1, H2. cbn in H0, H1, H2. apply Hv. destruct j as [|[|[|j]]]; [lra|lra|lra|lia]. }
  split; [reflexivity|]. split; auto. destruct (@c146_raises sample 5 C 1 ltac:(cbn; lia)) as (y & x & E & _ & H). apply H. intros s Hs. rewrite adf_rows_get_yx in E by (cbn; lia). injection E as <- <-. rewrite adf_y_length in *. cbn [length sample Nat.sub plus] in Hs.
  replace s with 0%nat by lia. rewrite Nat.sub_0_r. intros D. apply R1. unfold regular. apply dependent_written. revert D. apply dependent_ext. reflexivity.
Qed.
Example c162_example : exists s p, scan_test ols_ref (fun _ => 0) (map qz [0; 0; 1; 0; 0; 2]%Z) = Ok (s, p, 1%nat, 4%nat, mackinnon_5pct 4) /\ regular sample 1 /\ map real (map qz [0; 0; 1; 0; 0; 2]%Z) = sample.
Proof.
  do 2 eexists. split; [unfold scan_test, adfuller; cbn [map length max_lags lag_limit bind]; reflexivity|]. split; [apply c163_example|]. unfold real, sample. cbn [map]. repeat f_equal; unfold Q2R; cbn; lra.
Qed.
Print Assumptions c162_raises.
Print Assumptions c162_row.
Print Assumptions c162_row_units.
Print Assumptions c162_scan_units.
Print Assumptions c162_below_supremum.
Print Assumptions c162_critical.
Print Assumptions c163_max_lags.
Print Assumptions c163_raises.
Print Assumptions c163_lags.
Print Assumptions c163_value.
Print Assumptions c163_units.
Print Assumptions c163_pvalue.
Print Assumptions c163_pvalue_raises.
Print Assumptions c163_p_formula.
Print Assumptions c163_p_range.
Print Assumptions c163_p_increasing.
