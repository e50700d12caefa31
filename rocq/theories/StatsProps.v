(** C111-C116: series statistics, the ADF scan, the default dataset, the yield curve, simulated failure probability. *)
From Verif Require MetricsProofs.
From Verif Require Import Py RNum SysDefaultModel SysDefaultProofs SharpeModel SharpeSpec SharpeProps FracDiffModel FracDiffSpec FracDiffProofs FracDiffProps UtilsModel UtilsProps StructProps StatsModel.
From Coq Require Import Qreals Permutation Sorted.
Set Implicit Arguments.
Unset Strict Implicit.
Open Scope R_scope.

(** ** C111 Autocorrelation statistics *)
Lemma quad_nonneg_disc (a b c : R) : 0 <= a -> 0 <= b -> (forall s t, 0 <= s * s * a + 2 * s * t * c + t * t * b) -> c * c <= a * b.
Proof.
  intros Ha Hb H. destruct (Req_dec a 0) as [->|Na].
  - destruct (Req_dec c 0) as [->|Nc]; [lra|]. exfalso. specialize (H (-(b + 1) / (2 * c)) 1). replace (_ + _) with (-1) in H by (field; lra). lra.
  - specialize (H (- c) a). assert (0 <= a * (a * b - c * c)) by (replace (a * (a * b - c * c)) with (- c * - c * a + 2 * - c * a * c + a * a * b) by ring; exact H). assert (0 < a) by lra. nra.
Qed.
Lemma list_cs A (f g : A -> R) l : rsum (map (fun x => f x * g x) l) * rsum (map (fun x => f x * g x) l) <= rsum (map (fun x => f x * f x) l) * rsum (map (fun x => g x * g x) l).
Proof.
  apply quad_nonneg_disc.
  - apply rsum_nonneg. intros y Hy. apply in_map_iff in Hy. destruct Hy as (x & <- & _). apply Rle_0_sqr.
  - apply rsum_nonneg. intros y Hy. apply in_map_iff in Hy. destruct Hy as (x & <- & _). apply Rle_0_sqr.
  - intros s t. replace (_ + _) with (rsum (map (fun x => (s * f x + t * g x) * (s * f x + t * g x)) l)).
    + apply rsum_nonneg. intros y Hy. apply in_map_iff in Hy. destruct Hy as (x & <- & _). apply Rle_0_sqr.
    + rewrite <- !rsum_map_scale, <- !rsum_map_add. apply rsum_map_ext. intros. ring.
Qed.
Lemma zip_with_combine A B C (f : A -> B -> C) a b : zip_with f a b = map (fun p => f (fst p) (snd p)) (combine a b).
Proof. reflexivity. Qed.
Lemma cov_self xs : cov_sum xs xs = rsum (map (fun x => (x - rmean xs) * (x - rmean xs)) xs).
Proof.
  unfold cov_sum. f_equal. unfold zip_with. generalize (rmean xs) as m. intros m. induction xs as [|x l IH]; cbn [combine map fst snd]; [reflexivity|]. now rewrite IH.
Qed.
Lemma cov_self_nonneg xs : 0 <= cov_sum xs xs.
Proof. rewrite cov_self. apply rsum_nonneg. intros y Hy. apply in_map_iff in Hy. destruct Hy as (x & <- & _). apply Rle_0_sqr. Qed.
(** a sample with two different values has positive variance *)
Lemma cov_self_pos xs a b : In a xs -> In b xs -> a <> b -> 0 < cov_sum xs xs.
Proof.
  intros Ha Hb Hab. destruct (cov_self_nonneg xs) as [H|H]; auto. exfalso. symmetry in H. rewrite cov_self in H.
  assert (Z : forall x, In x xs -> x = rmean xs).
  { intros x Hx. assert (E : (x - rmean xs) * (x - rmean xs) = 0); [|apply Rmult_integral in E; lra].
    apply (@rsum_zero_all (map (fun x => (x - rmean xs) * (x - rmean xs)) xs)); auto; [|apply in_map_iff; eauto]. intros y Hy. apply in_map_iff in Hy. destruct Hy as (z & <- & _). apply Rle_0_sqr. }
  apply Hab. now rewrite (Z a Ha), (Z b Hb).
Qed.
Lemma cov_constant xs c : (forall x, In x xs -> x = c) -> cov_sum xs xs = 0.
Proof.
  intros H. rewrite cov_self. apply rsum_map_0. intros x Hx. assert (E : rmean xs = c); [|rewrite (H x Hx), E; ring]. rewrite <- (map_id xs), (@rmean_map_ext _ _ (fun _ => c)) by exact H. apply rmean_map_const. now destruct xs.
Qed.
Lemma cov_cs xs ys : length xs = length ys -> cov_sum xs ys * cov_sum xs ys <= cov_sum xs xs * cov_sum ys ys.
Proof.
  intros L. pose proof (@list_cs _ (fun p : R * R => fst p - rmean xs) (fun p => snd p - rmean ys) (combine xs ys)) as H. unfold cov_sum at 1 2. rewrite zip_with_combine.
  replace (cov_sum xs xs) with (rsum (map (fun p => (fst p - rmean xs) * (fst p - rmean xs)) (combine xs ys))); [replace (cov_sum ys ys) with (rsum (map (fun p => (snd p - rmean ys) * (snd p - rmean ys)) (combine xs ys))); [exact H|]|].
  - rewrite cov_self. rewrite <- (map_map snd (fun y => (y - rmean ys) * (y - rmean ys))). now rewrite combine_snd.
  - rewrite cov_self. rewrite <- (map_map fst (fun y => (y - rmean xs) * (y - rmean xs))). now rewrite combine_fst.
Qed.
Theorem c111_corr_range xs ys r : length xs = length ys -> corr xs ys = Some r -> -1 <= r <= 1.
Proof.
  intros L H. unfold corr in H. destruct (Req_EM_T _ 0) as [|N]; [discriminate|]. injection H as <-. pose proof (cov_cs L) as C. pose proof (cov_self_nonneg xs) as P1. pose proof (cov_self_nonneg ys) as P2.
  set (d := sqrt (cov_sum xs xs) * sqrt (cov_sum ys ys)) in *. assert (D : d * d = cov_sum xs xs * cov_sum ys ys).
  { unfold d. replace (_ * _ * (_ * _)) with ((sqrt (cov_sum xs xs) * sqrt (cov_sum xs xs)) * (sqrt (cov_sum ys ys) * sqrt (cov_sum ys ys))) by ring. rewrite !sqrt_sqrt; auto. }
  assert (D0 : 0 <= d) by (unfold d; apply Rmult_le_pos; apply sqrt_pos). assert (Dp : 0 < d) by lra. rewrite <- D in C. clearbody d.
  assert (B : - d <= cov_sum xs ys <= d) by (split; nra). split; apply Rmult_le_reg_r with d; auto; unfold Rdiv; rewrite Rmult_assoc, Rinv_l by lra; lra.
Qed.
Theorem c111_autocorr_range series lag r : pearson_autocorr series lag = Some r -> -1 <= r <= 1.
Proof. apply c111_corr_range. rewrite skipn_length, firstn_length. lia. Qed.
(** defined exactly when neither the head nor the tail of the series is constant *)
Definition varies (l : list R) : Prop := exists a b, In a l /\ In b l /\ a <> b.
Lemma varies_dec l : varies l \/ forall a b, In a l -> In b l -> a = b.
Proof.
  destruct l as [|x l]; [right; intros a b []|]. assert (D : (forall a, In a l -> a = x) \/ exists a, In a l /\ a <> x).
  { induction l as [|y l IH]; [left; intros a []|]. destruct (Req_dec y x) as [E|E]; [|right; exists y; split; auto; now left]. destruct IH as [IH|(a & Ha & N)]; [left; intros a [<-|Ha]; auto|right; exists a; split; auto; now right]. }
  destruct D as [D|(a & Ha & N)].
  - right. intros a b [<-|Ha] [<-|Hb]; auto; [symmetry; auto|]. now rewrite (D a Ha), (D b Hb).
  - left. exists a, x. repeat split; auto; [now right|now left].
Qed.
Lemma cov_self_varies l : 0 < cov_sum l l <-> varies l.
Proof.
  split; [|intros (a & b & Ha & Hb & N); now apply cov_self_pos with a b]. intros H. destruct (varies_dec l) as [V|V]; auto. exfalso. destruct l as [|x l]; [unfold cov_sum, zip_with in H; cbn in H; lra|]. rewrite (@cov_constant (x :: l) x) in H; [lra|]. intros y Hy. apply V; auto. now left.
Qed.
Lemma corr_defined xs ys : (exists r, corr xs ys = Some r) <-> varies xs /\ varies ys.
Proof.
  unfold corr. rewrite <- !cov_self_varies. pose proof (cov_self_nonneg xs). pose proof (cov_self_nonneg ys). destruct (Req_EM_T _ 0) as [E|N].
  - split; [intros [r Hr]; discriminate|]. intros [H1 H2]. exfalso. apply sqrt_lt_R0 in H1, H2. nra.
  - split; [|eauto]. intros _. split.
    + destruct H as [H|H]; auto. exfalso. apply N. rewrite <- H, sqrt_0. ring.
    + destruct H0 as [H0|H0]; auto. exfalso. apply N. rewrite <- H0, sqrt_0. ring.
Qed.
Theorem c111_autocorr_defined series lag : (exists r, pearson_autocorr series lag = Some r) <-> varies (skipn lag series) /\ varies (firstn (length series - lag) series).
Proof. apply corr_defined. Qed.
(** units and level do not matter *)
Lemma rmean_affine a b l : l <> [] -> rmean (map (fun x => a * x + b) l) = a * rmean l + b.
Proof. intros H. rewrite rmean_map_add, rmean_map_const by exact H. rewrite (rmean_map_scale (fun x => x)), map_id. reflexivity. Qed.
Lemma combine_map2 A B C D (f : A -> C) (g : B -> D) xs ys : combine (map f xs) (map g ys) = map (fun p => (f (fst p), g (snd p))) (combine xs ys).
Proof. revert ys. induction xs as [|x xs IH]; intros [|y ys]; cbn; auto. now rewrite IH. Qed.
Lemma cov_affine a b a' b' xs ys : length xs = length ys -> cov_sum (map (fun x => a * x + b) xs) (map (fun x => a' * x + b') ys) = a * a' * cov_sum xs ys.
Proof.
  intros L. destruct xs as [|x0 xl] eqn:Ex; [destruct ys; [unfold cov_sum, zip_with; cbn; ring|discriminate]|]. rewrite <- Ex in *. assert (xs <> []) by (subst; discriminate). assert (ys <> []) by (destruct ys; [subst; discriminate|discriminate]).
  unfold cov_sum, zip_with. rewrite !rmean_affine, combine_map2, map_map, <- rsum_map_scale by auto. apply rsum_map_ext. intros [x y] _. cbn [fst snd]. ring.
Qed.
Lemma sqrt_mult_sqr a x : 0 <= x -> sqrt (a * a * x) = Rabs a * sqrt x.
Proof. intros H. rewrite sqrt_mult by (auto; apply Rle_0_sqr). f_equal. apply sqrt_Rsqr_abs. Qed.
Lemma corr_affine a b a' b' xs ys : 0 < a * a' -> length xs = length ys -> corr (map (fun x => a * x + b) xs) (map (fun x => a' * x + b') ys) = corr xs ys.
Proof.
  intros Ha L. unfold corr. rewrite !cov_affine, !sqrt_mult_sqr by (auto; apply cov_self_nonneg). set (d := sqrt (cov_sum xs xs) * sqrt (cov_sum ys ys)). replace (Rabs a * sqrt (cov_sum xs xs) * (Rabs a' * sqrt (cov_sum ys ys))) with (a * a' * d) by (unfold d; rewrite <- (Rabs_pos_eq (a * a')) by lra; rewrite Rabs_mult; ring).
  destruct (Req_EM_T (a * a' * d) 0) as [E|E], (Req_EM_T d 0) as [E'|E']; auto.
  - exfalso. apply Rmult_integral in E. lra.
  - exfalso. apply E. rewrite E'. ring.
  - f_equal. field. split; auto. split; intros ->; lra.
Qed.
Theorem c111_autocorr_affine a b series lag : a <> 0 -> pearson_autocorr (map (fun x => a * x + b) series) lag = pearson_autocorr series lag.
Proof. intros Ha. unfold pearson_autocorr. rewrite map_length, skipn_map, firstn_map. apply corr_affine; [nra|]. rewrite skipn_length, firstn_length. lia. Qed.
Lemma corr_self xs : varies xs -> corr xs xs = Some 1.
Proof. intros V. apply cov_self_varies in V. unfold corr. rewrite sqrt_sqrt by lra. destruct (Req_EM_T _ 0); [lra|]. f_equal. field. exact n. Qed.
Theorem c111_lag_zero series : varies series -> pearson_autocorr series 0 = Some 1.
Proof. intros V. unfold pearson_autocorr. rewrite Nat.sub_0_r, firstn_all. cbn [skipn]. now apply corr_self. Qed.
(** a linear trend is perfectly autocorrelated at every lag *)
Lemma skipn_seq0 k n : skipn k (seq 0 n) = seq k (n - k).
Proof. apply nth_error_ext. intros i. rewrite nth_error_skipn. destruct (le_lt_dec (n - k) i) as [H|H]; [rewrite !(proj2 (nth_error_None _ _)); auto; rewrite seq_length; lia|]. rewrite !(nth_error_nth' _ 0%nat) by (rewrite seq_length; lia). rewrite !seq_nth by lia. reflexivity. Qed.
Lemma firstn_seq0 k n : (k <= n)%nat -> firstn k (seq 0 n) = seq 0 k.
Proof. intros H. replace n with (k + (n - k))%nat by lia. rewrite seq_app, firstn_app, seq_length, Nat.sub_diag. cbn [firstn]. rewrite app_nil_r, firstn_all2; auto. rewrite seq_length. lia. Qed.
Theorem c111_trend a b n lag : a <> 0 -> (lag + 2 <= n)%nat -> pearson_autocorr (map (fun i => a * INR i + b) (seq 0 n)) lag = Some 1.
Proof.
  intros Ha Hn. unfold pearson_autocorr. rewrite map_length, seq_length, skipn_map, firstn_map, skipn_seq0, firstn_seq0 by lia. set (ys := map (fun i => a * INR i + b) (seq 0 (n - lag))).
  assert (E : map (fun i => a * INR i + b) (seq lag (n - lag)) = map (fun x => 1 * x + a * INR lag) ys).
  { unfold ys. rewrite map_map, <- (Nat.add_0_l lag) at 1. generalize (n - lag)%nat as m, 0%nat as s. induction m as [|m IH]; intros s; cbn [seq map]; auto. rewrite <- IH. f_equal. rewrite plus_INR. ring. }
  rewrite E. rewrite <- (map_id ys) at 2. rewrite (map_ext (fun x : R => x) (fun x => 1 * x + 0)) by (intros; ring). rewrite corr_affine by (auto; lra). apply corr_self.
  exists b, (a + b). repeat split.
  - apply in_map_iff. exists 0%nat. split; [cbn; ring|apply in_seq; lia].
  - apply in_map_iff. exists 1%nat. split; [cbn; ring|apply in_seq; lia].
  - lra.
Qed.
(** Durbin-Watson: between 0 and 4, unit free, and 2 (1 - r) up to the end points, r being the uncentred first autocorrelation *)
Definition sumsq (l : list R) : R := rsum (map (fun e => e * e) l).
Lemma sumsq_nonneg l : 0 <= sumsq l.
Proof. apply rsum_nonneg. intros y Hy. apply in_map_iff in Hy. destruct Hy as (x & <- & _). apply Rle_0_sqr. Qed.
Lemma sumsq_diff_le l : forall x, sumsq (diff (x :: l)) + 2 * (x * x) <= 4 * sumsq (x :: l).
Proof.
  induction l as [|y l IH]; intros x; [unfold sumsq; cbn; nra|]. specialize (IH y). change (diff (x :: y :: l)) with ((y - x) :: diff (y :: l)). unfold sumsq in *. cbn [map rsum] in *. set (s := rsum (map (fun e => e * e) (diff (y :: l)))) in *. set (t := rsum (map (fun e => e * e) l)) in *. pose proof (Rle_0_sqr (x + y)). unfold Rsqr in *. nra.
Qed.
Theorem c111_durbin_watson_range l r : durbin_watson_stat l = Some r -> 0 <= r <= 4.
Proof.
  unfold durbin_watson_stat. intros H. change (rsum (map (fun e => e * e) l)) with (sumsq l) in H. change (rsum (map (fun d => d * d) (diff l))) with (sumsq (diff l)) in H. destruct (Req_EM_T (sumsq l) 0) as [|N]; [discriminate|]. injection H as <-. pose proof (sumsq_nonneg l). pose proof (sumsq_nonneg (diff l)). assert (P : 0 < sumsq l) by lra.
  assert (U : sumsq (diff l) <= 4 * sumsq l). { destruct l as [|x l]; [unfold sumsq in *; cbn in *; lra|]. pose proof (sumsq_diff_le l x). pose proof (Rle_0_sqr x). unfold Rsqr in *. lra. }
  split; [apply Rmult_le_pos; auto; left; now apply Rinv_0_lt_compat|]. apply Rmult_le_reg_r with (sumsq l); auto. unfold Rdiv. rewrite Rmult_assoc, Rinv_l by lra. lra.
Qed.
Theorem c111_durbin_watson_autocorr x l r : durbin_watson_stat (x :: l) = Some r ->
  let e := x :: l in let rho := rsum (zip_with Rmult l (removelast e)) / sumsq e in
  r = 2 * (1 - rho) - (x * x + last e 0 * last e 0) / sumsq e.
Proof.
  intros H e rho. unfold durbin_watson_stat in H. change (rsum (map (fun e => e * e) (x :: l))) with (sumsq e) in H. destruct (Req_EM_T (sumsq e) 0) as [|N]; [discriminate|]. injection H as <-. unfold rho.
  assert (K : sumsq (diff e) = 2 * sumsq e - 2 * rsum (zip_with Rmult l (removelast e)) - (x * x + last e 0 * last e 0)).
  { unfold e. clear. revert x. induction l as [|y l IH]; intros x; [unfold sumsq, zip_with; cbn; ring|]. change (diff (x :: y :: l)) with ((y - x) :: diff (y :: l)). change (removelast (x :: y :: l)) with (x :: removelast (y :: l)). change (last (x :: y :: l) 0) with (last (y :: l) 0). specialize (IH y). unfold sumsq, zip_with in *. cbn [combine map rsum fst snd] in *. rewrite IH. ring. }
  match goal with |- ?n / _ = _ => change n with (sumsq (diff e)) end. rewrite K. field. exact N.
Qed.
Theorem c111_durbin_watson_scale c l : c <> 0 -> durbin_watson_stat (map (fun x => c * x) l) = durbin_watson_stat l.
Proof.
  intros Hc. assert (D : diff (map (fun x => c * x) l) = map (fun x => c * x) (diff l)).
  { induction l as [|x l IH]; auto. destruct l as [|y l]; auto. cbn [map diff] in *. rewrite IH. f_equal. ring. }
  assert (S : forall m, rsum (map (fun e => e * e) (map (fun x => c * x) m)) = c * c * rsum (map (fun e => e * e) m)) by (intros m; rewrite map_map, <- rsum_map_scale; apply rsum_map_ext; intros; ring).
  unfold durbin_watson_stat. rewrite D, !S. assert (0 < c * c) by nra. destruct (Req_EM_T (c * c * _) 0) as [E|E], (Req_EM_T (rsum (map (fun e => e * e) l)) 0) as [E'|E']; auto.
  - exfalso. apply Rmult_integral in E. lra.
  - exfalso. apply E. rewrite E'. ring.
  - f_equal. field. split; auto.
Qed.
Example c111_ex : durbin_watson_stat [1; -1; 1; -1] = Some 3 /\ pearson_autocorr [1; 2; 4; 8; 16] 1 = Some 1.
Proof.
  split.
  - unfold durbin_watson_stat. cbn [map rsum diff]. destruct (Req_EM_T _ 0); [lra|]. f_equal. field.
  - unfold pearson_autocorr. cbn [length Nat.sub firstn skipn]. rewrite <- (map_id [1; 2; 4; 8]). rewrite (map_ext (fun x : R => x) (fun x => 1 * x + 0)) by (intros; ring).
    replace [2; 4; 8; 16] with (map (fun x => 2 * x + 0) [1; 2; 4; 8]) by (cbn [map]; repeat f_equal; ring). rewrite corr_affine by (auto; lra). apply corr_self. exists 1, 2. repeat split; [now left|right; now left|lra].
Qed.

(** ** C112 The ADF scan *)
Section AdfScan.
  Variable A : Type.
  Variable adf : list Qc -> res A.
  Lemma set_order_in d (v : A * option R) rows e w : NoDup (map fst rows) -> (In (e, w) (set_order d v rows) <-> (e = d /\ w = v) \/ (e <> d /\ In (e, w) rows)).
  Proof.
    induction rows as [|[h u] rows IH]; intros HD.
    - cbn. split; [intros [[= <- <-]|[]]; now left|intros [[-> ->]|[_ []]]; now left].
    - inversion HD as [|? ? Hn HD']; subst. cbn [set_order]. destruct (qeq_spec d h) as [E|E].
      + subst h. split.
        * intros [[= <- <-]|Hin]; [now left|]. right. split; [|now right]. intros ->. apply Hn. now apply (in_map fst) in Hin.
        * intros [[-> ->]|[Hne [[= <- <-]|Hin]]]; [now left|congruence|now right].
      + split.
        * intros [[= <- <-]|Hin]; [right; split; [congruence|now left]|]. apply IH in Hin; auto. destruct Hin as [?|[? ?]]; [now left|right; split; [auto|now right]].
        * intros [[-> ->]|[Hne [[= <- <-]|Hin]]]; [right; apply IH; auto|now left|right; apply IH; auto].
  Qed.
  Lemma set_order_nodup d (v : A * option R) rows : NoDup (map fst rows) -> NoDup (map fst (set_order d v rows)).
  Proof.
    induction rows as [|[h u] rows IH]; intros HD; cbn [set_order map fst]; [repeat constructor; intros []|]. inversion HD as [|? ? Hn HD']; subst. destruct (qeq_spec d h) as [E|E]; cbn [map fst]; constructor; auto.
    intros Hin. apply in_map_iff in Hin. destruct Hin as ([g w] & Eg & Hin). cbn in Eg. subst g. apply set_order_in in Hin; auto. destruct Hin as [[-> _]|[_ Hin]]; [congruence|]. apply Hn. now apply (in_map fst) in Hin.
  Qed.
  Lemma in_dec_qc (d : Qc) l : In d l \/ ~ In d l.
  Proof. destruct (in_dec Qc_eq_dec d l); auto. Qed.
  Lemma adf_fold lp l : forall rows0 rows, NoDup (map fst rows0) -> fold_left (fun acc d => do rows <- acc; do v <- adf_row adf lp d; Ok (set_order d v rows)) l (Ok rows0) = Ok rows ->
    NoDup (map fst rows) /\ forall d v, In (d, v) rows <-> (In d l /\ adf_row adf lp d = Ok v) \/ (~ In d l /\ In (d, v) rows0).
  Proof.
    induction l as [|g l IH]; intros rows0 rows HD H; cbn [fold_left] in H.
    - injection H as <-. split; auto. intros f v. cbn. tauto.
    - destruct (adf_row adf lp g) as [sc|e] eqn:Eg; cbn [bind] in H.
      + apply IH in H; [|now apply set_order_nodup]. destruct H as [H1 H2]. split; auto. intros f v. rewrite H2, set_order_in by exact HD. split.
        * intros [[Hin Hs]|[Hn [[-> ->]|[Hne Hin]]]]; [left; split; [now right|auto]|left; split; [now left|eauto]|right; split; [intros [->|?]; [congruence|contradiction]|auto]].
        * intros [[[->|Hin] E]|[Hn Hin]].
          -- rewrite Eg in E. injection E as <-. destruct (in_dec_qc f l) as [Hl|Hl]; [left; auto|right; auto].
          -- left. eauto.
          -- right. split; [intros ?; apply Hn; now right|]. right. split; auto. intros ->. apply Hn. now left.
      + exfalso. clear -H. induction l as [|a l IHl]; cbn in H; [discriminate|auto].
  Qed.
  (** the entries of the differenced series with the log prices of the same bars *)
  Definition matched (lp : list (option Qc)) (fd : list (nat * Qc)) (pairs : list (Qc * Qc)) : Prop :=
    map snd pairs = map snd fd /\ Forall2 (fun iv p => nth_error lp (fst iv) = Some (Some (fst p))) fd pairs.
  Lemma matched_exists lp d : exists pairs, matched lp (frac_diff_fixed lp d (q 1 100)) pairs /\
    map (fun o => match o with Some x => real x | None => 0 end) (map (fun iv => nth (fst iv) lp None) (frac_diff_fixed lp d (q 1 100))) = map (fun p => real (fst p)) pairs.
  Proof.
    destruct (c52_fixed_values lp d (q 1 100)) as (a & y & _ & _ & _ & H). cbv zeta in H. assert (G : forall fd, (forall i v, In (i, v) fd -> exists x, nth_error lp i = Some (Some x)) -> exists pairs, matched lp fd pairs /\ map (fun o => match o with Some x => real x | None => 0 end) (map (fun iv => nth (fst iv) lp None) fd) = map (fun p => real (fst p)) pairs).
    { induction fd as [|[i v] fd IH]; intros HF; [exists []; repeat split; constructor|]. destruct (HF i v (or_introl eq_refl)) as [x Hx]. destruct IH as (ps & [M1 M2] & M3); [intros j w Hj; apply (HF j w); now right|]. exists ((x, v) :: ps). split; [split|].
      - cbn. now rewrite M1.
      - constructor; auto.
      - cbn [map fst]. rewrite M3. f_equal. now rewrite (nth_error_nth _ _ None Hx). }
    apply G. intros i v Hin. apply H in Hin. now destruct Hin as (_ & Hx & _).
  Qed.
  (** one row per order: the test of the series differenced by this order, and the correlation with the log prices of the same bars *)
  Theorem c112_rows lp orders rows : run_adf_tests adf lp orders = Ok rows ->
    NoDup (map fst rows) /\ (forall d, In d orders <-> In d (map fst rows)) /\
    forall d a c, In (d, (a, c)) rows -> exists pairs, matched lp (frac_diff_fixed lp d (q 1 100)) pairs /\
      adf (map snd pairs) = Ok a /\ c = corr (map (fun p => real (fst p)) pairs) (map (fun p => real (snd p)) pairs).
  Proof.
    intros H0. assert (H := H0). apply adf_fold in H; [|constructor]. destruct H as [H1 H2]. split; auto. split.
    - intros d. rewrite in_map_iff. split.
      + intros Hd. assert (Ex : exists v, adf_row adf lp d = Ok v).
        { clear H1 H2. unfold run_adf_tests in H0. revert H0. generalize (@nil (Qc * (A * option R))) as r0. induction orders as [|g l IH]; intros r0 H0; [destruct Hd|]. cbn [fold_left bind] in H0. destruct (adf_row adf lp g) as [v|e] eqn:Eg; cbn [bind] in H0.
          - destruct Hd as [->|Hd]; eauto.
          - exfalso. clear -H0. induction l as [|a l IHl]; cbn in H0; [discriminate|auto]. }
        destruct Ex as [v Hv]. exists (d, v). split; auto. apply H2. auto.
      + intros ([e v] & <- & Hin). apply H2 in Hin. cbn. now destruct Hin as [[? _]|[_ []]].
    - intros d a c Hin. apply H2 in Hin. destruct Hin as [[_ E]|[_ []]]. destruct (matched_exists lp d) as (ps & M & Em). exists ps. split; auto. unfold adf_row in E. rewrite Em in E. destruct M as [M1 M2]. rewrite M1. destruct (adf _) as [a'|]; [|discriminate]. cbn [bind] in E. injection E as <- <-. split; auto. f_equal. rewrite <- (map_map snd real), <- (map_map snd real ps), M1. reflexivity.
  Qed.
  Theorem c112_corr_range lp orders rows d a r : run_adf_tests adf lp orders = Ok rows -> In (d, (a, Some r)) rows -> -1 <= r <= 1.
  Proof. intros H Hin. apply c112_rows in H. destruct H as (_ & _ & H). destruct (H _ _ _ Hin) as (ps & _ & _ & E). symmetry in E. apply c111_corr_range in E; auto. now rewrite !map_length. Qed.
End AdfScan.
(** order 0 differences nothing: the tested series holds the observed log prices, perfectly correlated with themselves *)
Lemma order_zero_values lp i v : In (i, v) (frac_diff_fixed lp 0%Qc (q 1 100)) <-> nth_error lp i = Some (Some v).
Proof.
  destruct (c52_fixed_weights 0%Qc (q 1 100) (length lp)) as (m & M & EW & B & _). assert (m = 1%nat) as ->.
  { destruct (le_lt_dec m 1) as [|Hm]; [lia|]. exfalso. specialize (B 1%nat ltac:(lia)). rewrite coeff_order0 in B by lia. vm_compute in B. apply B. reflexivity. }
  destruct (c52_fixed_values lp 0%Qc (q 1 100)) as (a & y & Ha & Hn & Hy & H). cbv zeta in H. rewrite EW, rev_length, map_length, seq_length in H. rewrite H. clear H.
  assert (V : forall x, (a <= i)%nat -> nth_error lp i = Some (Some x) -> y (i - a)%nat = x).
  { intros x Hi Hx. assert (Hlt : (a + (i - a) < length lp)%nat) by (replace (a + (i - a))%nat with i by lia; apply nth_error_Some; congruence). specialize (Hy _ Hlt). replace (a + (i - a))%nat with i in Hy by lia. destruct Hy as (j & Hj & Ej & Nj). destruct (Nat.eq_dec j i) as [->|]; [congruence|]. specialize (Nj i ltac:(lia)). congruence. }
  replace (sum_to (1 - 1) _) with (y (i - a)%nat); [|change (1 - 1)%nat with 0%nat; rewrite sum_to_0, coeff_0, Nat.sub_0_r; ring]. split.
  - intros (Hi & (x & Hx) & ->). rewrite Hx. do 2 f_equal. symmetry. apply V; [lia|exact Hx].
  - intros Hv. assert (a <= i)%nat by (destruct (le_lt_dec a i); auto; rewrite Hn in Hv by auto; discriminate). assert (i < length lp)%nat by (apply nth_error_Some; congruence). split; [lia|]. split; [eauto|]. symmetry. now apply V.
Qed.
Lemma Forall2_in_r A B (P : A -> B -> Prop) l1 l2 b : Forall2 P l1 l2 -> In b l2 -> exists a, In a l1 /\ P a b.
Proof. induction 1 as [|x y l1 l2 Hxy _ IH]; intros Hb; [destruct Hb|]. destruct Hb as [<-|Hb]; [exists x; split; [now left|auto]|]. destruct (IH Hb) as (a & Ha & Pa). exists a. split; [now right|auto]. Qed.
Theorem c112_order_zero A (adf : list Qc -> res A) lp orders rows a c : run_adf_tests adf lp orders = Ok rows -> In (0%Qc, (a, c)) rows ->
  exists xs, adf xs = Ok a /\ (forall x, In x xs <-> In (Some x) lp) /\ (varies (map real xs) -> c = Some 1).
Proof.
  intros H Hin. apply c112_rows in H. destruct H as (_ & _ & H). destruct (H _ _ _ Hin) as (ps & [M1 M2] & E & ->). exists (map snd ps). split; auto. split.
  - intros x. rewrite M1, in_map_iff. split.
    + intros ([i v] & <- & Hiv). apply order_zero_values in Hiv. now apply nth_error_In in Hiv.
    + intros Hx. apply In_nth_error in Hx. destruct Hx as [i Hi]. exists (i, x). split; auto. now apply order_zero_values.
  - assert (K : map (fun p => real (fst p)) ps = map (fun p => real (snd p)) ps).
    { assert (G : forall fd ps, (forall i v, In (i, v) fd -> nth_error lp i = Some (Some v)) -> map snd ps = map snd fd -> Forall2 (fun iv p => nth_error lp (fst iv) = Some (Some (fst p))) fd ps -> map (fun p => real (fst p)) ps = map (fun p : Qc * Qc => real (snd p)) ps).
      { clear. intros fd ps HF M1 M2. induction M2 as [|[i v] [x w] fd ps Hx M2 IH]; auto. cbn [map fst snd] in *. injection M1 as -> M1. rewrite IH; auto; [|intros j u Hj; apply HF; now right]. f_equal. rewrite (HF i v (or_introl eq_refl)) in Hx. congruence. }
      apply (G _ _ (fun i v => proj1 (order_zero_values lp i v)) M1 M2). }
    rewrite K, <- (map_map snd real). apply corr_self.
Qed.
Example c112_ex : exists rows, run_adf_tests (fun l => Ok (length l)) [Some (q 1 1); None; Some (q 2 1); Some (q 4 1)] [0%Qc; q 1 1; 0%Qc] = Ok rows /\ map fst rows = [0%Qc; q 1 1] /\ map (fun r => fst (snd r)) rows = [3%nat; 2%nat].
Proof. eexists. split; [reflexivity|]. split; reflexivity. Qed.

(** ** C113 The default dataset *)
(** a row (date, firm, yield, bond, equity) is in the dataset exactly if all four tables have such a row and the yield is not missing *)
Lemma merge_in A B (l : list (Z * A)) (r : list (Z * B)) d a b : In (d, (a, b)) (merge l r) <-> In (d, a) l /\ In (d, b) r.
Proof.
  unfold merge. rewrite in_flat_map. split.
  - intros ([d' a'] & Ha & H). apply in_map_iff in H. destruct H as ([d'' b'] & [= -> -> ->] & Hb). apply filter_In in Hb. destruct Hb as [Hb E]. cbn in E. apply Z.eqb_eq in E. subst. auto.
  - intros [Ha Hb]. exists (d, a). split; auto. apply in_map_iff. exists (d, b). split; auto. apply filter_In. split; auto. cbn. apply Z.eqb_refl.
Qed.
Theorem c113_rows F P (firm : list (Z * F)) (yields : list (Z * option P)) (bonds equities : list (Z * P)) d f y b e :
  In (d, (f, y, b, e)) (create_systematic_default_dataset firm yields bonds equities) <-> In (d, f) firm /\ In (d, y) yields /\ y <> None /\ In (d, b) bonds /\ In (d, e) equities.
Proof.
  unfold create_systematic_default_dataset. rewrite filter_In, in_map_iff. cbn [snd]. split.
  - intros [([d' [[[f' y'] b'] e']] & [= -> -> -> -> ->] & Hin) Hy]. apply merge_in in Hin. destruct Hin as [Hin He]. apply merge_in in Hin. destruct Hin as [Hin Hb]. apply merge_in in Hin. destruct Hin. repeat split; auto. destruct y; [discriminate|discriminate Hy].
  - intros (Hf & Hy & Hn & Hb & He). split; [|now destruct y]. exists (d, (((f, y), b), e)). split; auto. now rewrite !merge_in.
Qed.
(** joins keep the order of the firm's rows; with at most one row per date in the other tables no firm row is repeated *)
Lemma merge_sorted A B (l : list (Z * A)) (r : list (Z * B)) : StronglySorted Z.lt (map fst l) -> NoDup (map fst r) -> StronglySorted Z.lt (map fst (merge l r)).
Proof.
  intros HS HD. assert (F1 : forall d, (length (filter (fun b => (fst b =? d)%Z) r) <= 1)%nat).
  { intros d. clear -HD. induction r as [|[e b] r IH]; cbn; [lia|]. inversion HD as [|? ? Hn HD']; subst. destruct (Z.eqb_spec e d) as [->|]; [|auto]. cbn. replace (filter _ r) with (@nil (Z * B)); [cbn; lia|]. symmetry. clear -Hn. induction r as [|[e b] r IH]; auto. cbn in *. destruct (Z.eqb_spec e d) as [->|]; [exfalso; apply Hn; now left|]. apply IH. tauto. }
  induction l as [|[d a] l IH]; [constructor|]. cbn [map fst] in HS. inversion HS as [|? ? HS' HF]; subst. unfold merge. cbn [flat_map]. rewrite map_app. fold (merge l r). specialize (F1 d). cbn [fst snd]. destruct (filter (fun b => (fst b =? d)%Z) r) as [|x [|]]; cbn in F1; try lia; cbn [map app]; auto. constructor; auto. cbn [fst].
  apply Forall_forall. intros d' Hd'. apply in_map_iff in Hd'. destruct Hd' as ([d'' [a' b']] & <- & Hin). apply merge_in in Hin. destruct Hin as [Hin _]. rewrite Forall_forall in HF. apply HF. now apply (in_map fst) in Hin.
Qed.
Theorem c113_dates_increase F P (firm : list (Z * F)) (yields : list (Z * option P)) (bonds equities : list (Z * P)) :
  StronglySorted Z.lt (map fst firm) -> NoDup (map fst yields) -> NoDup (map fst bonds) -> NoDup (map fst equities) ->
  StronglySorted Z.lt (map fst (create_systematic_default_dataset firm yields bonds equities)).
Proof.
  intros H0 H1 H2 H3. assert (HS : StronglySorted Z.lt (map fst (merge (merge (merge firm yields) bonds) equities))) by (repeat apply merge_sorted; auto). unfold create_systematic_default_dataset. revert HS. generalize (merge (merge (merge firm yields) bonds) equities). clear.
  induction l as [|[d [[[f y] b] e]] l IH]; intros HS; [constructor|]. cbn [map fst] in HS. inversion HS as [|? ? HS' HF]; subst. cbn [map filter snd]. destruct y; auto. cbn [map fst]. constructor; auto.
  apply Forall_forall. intros x Hx. apply in_map_iff in Hx. destruct Hx as (row & <- & Hin). apply filter_In in Hin. destruct Hin as [Hin _]. apply in_map_iff in Hin. destruct Hin as ([d' [[[f' y'] b'] e']] & <- & Hin). rewrite Forall_forall in HF. apply HF. now apply (in_map fst) in Hin.
Qed.
Example c113_ex : create_systematic_default_dataset [(1%Z, 10%nat); (2%Z, 20%nat); (3%Z, 30%nat); (4%Z, 40%nat)] [(2%Z, Some 5%nat); (3%Z, None); (1%Z, Some 6%nat)] [(3%Z, 7%nat); (2%Z, 8%nat)] [(2%Z, 9%nat); (4%Z, 1%nat)] = [(2%Z, (20%nat, Some 5%nat, 8%nat, 9%nat))].
Proof. reflexivity. Qed.

(** ** C114 The yield curve goes through the term structure *)
(** contract of scipy's CubicSpline: at least two strictly increasing abscissae give an interpolating function, anything else a ValueError *)
Definition is_spline (spline : list R -> list R -> res (R -> R)) : Prop :=
  forall xs ys, length xs = length ys ->
    ((2 <= length xs)%nat /\ StronglySorted Rlt xs -> exists f, spline xs ys = Ok f /\ forall i x y, nth_error xs i = Some x -> nth_error ys i = Some y -> f x = y) /\
    (~ ((2 <= length xs)%nat /\ StronglySorted Rlt xs) -> spline xs ys = Err ValueError).
Theorem c114_through_points spline ts : is_spline spline -> (2 <= length ts)%nat -> StronglySorted Rlt (map fst ts) ->
  exists curve, interpolate_yield_curve spline ts = Ok curve /\ forall t r, In (t, r) ts -> curve t = r.
Proof.
  intros S L H. destruct (S (map fst ts) (map snd ts)) as [S1 _]; [now rewrite !map_length|]. destruct S1 as (f & E & I); [rewrite map_length; auto|]. exists f. split; auto. intros t r Hin. apply In_nth_error in Hin. destruct Hin as [i Hi]. apply (I i); now rewrite nth_error_map, Hi.
Qed.
Theorem c114_invalid spline ts : is_spline spline -> (length ts < 2)%nat \/ (exists i j t r r' u, (i < j)%nat /\ nth_error ts i = Some (t, r) /\ nth_error ts j = Some (u, r') /\ u <= t) -> interpolate_yield_curve spline ts = Err ValueError.
Proof.
  intros S H. destruct (S (map fst ts) (map snd ts)) as [_ S2]; [now rewrite !map_length|]. apply S2. rewrite map_length. intros [L HS]. destruct H as [H|(i & j & t & r & r' & u & Hij & Hi & Hj & Hu)]; [lia|].
  assert (G : forall l, StronglySorted Rlt l -> forall i j a b, (i < j)%nat -> nth_error l i = Some a -> nth_error l j = Some b -> a < b).
  { clear. induction 1 as [|x l HS IH HF]; intros i j a b Hij Hi Hj; [destruct i; discriminate|]. destruct j as [|j]; [lia|]. cbn in Hj. destruct i as [|i]; [injection Hi as <-; rewrite Forall_forall in HF; apply HF; now apply nth_error_In in Hj|]. apply (IH i j); auto. lia. }
  assert (t < u); [|lra]. apply (G _ HS i j); auto; rewrite nth_error_map; [now rewrite Hi|now rewrite Hj].
Qed.

(** ** C115 Simulated probability of failure *)
Lemma failure_perm cdf l l' freq t : Permutation l l' -> strategy_probability_of_failure cdf l freq t = strategy_probability_of_failure cdf l' freq t.
Proof.
  intros H. assert (FP : forall f, Permutation (filter f l) (filter f l')) by (intros f; now apply MetricsProofs.Permutation_filter). unfold strategy_probability_of_failure. pose proof (FP rpos) as P1. pose proof (FP (fun x => negb (rpos x))) as P2. clear FP. set (a := filter rpos l) in *. set (a' := filter rpos l') in *. set (b := filter (fun x => negb (rpos x)) l) in *. set (b' := filter (fun x => negb (rpos x)) l') in *.
  assert (E1 : rmean a = rmean a') by (unfold rmean; rewrite (rsum_perm P1), (Permutation_length P1); reflexivity). assert (E2 : rmean b = rmean b') by (unfold rmean; rewrite (rsum_perm P2), (Permutation_length P2); reflexivity).
  rewrite E1, E2, (Permutation_length P1), (Permutation_length H). destruct a, a'; auto; [apply Permutation_nil in P1; discriminate|symmetry in P1; apply Permutation_nil in P1; discriminate|]. destruct b, b'; auto; [apply Permutation_nil in P2; discriminate|symmetry in P2; apply Permutation_nil in P2; discriminate].
Qed.
(** the estimate is that of the two component samples, whatever the shuffle; a probability, increasing in the target, when gains and losses were drawn *)
Theorem c115_simulated_failure St (seed_state : Z -> St) normal shuffle cdf st mu1 mu2 s1 s2 p n freq t t' :
  (forall s m sg k, length (fst (normal s m sg k)) = k) -> (forall s l, Permutation (fst (shuffle s l)) l) -> (0 <= p)%Qc -> (p <= 1)%Qc -> is_cdf cdf -> 0 < freq -> 0 <= t < t' ->
  exists sa sb n1, let sample := fst (normal sa mu1 s1 n1) ++ fst (normal sb mu2 s2 (n - n1)%nat) in
    (n1 <= n)%nat /\ (qn n1 <= qn n * p)%Qc /\ (qn n * p < qn n1 + 1)%Qc /\
    simulate_strategy_probability_of_failure seed_state normal shuffle cdf st mu1 mu2 s1 s2 p n freq t = strategy_probability_of_failure cdf sample freq t /\
    ((exists x, In x sample /\ 0 < x) -> (exists x, In x sample /\ x < 0) ->
     exists r r', simulate_strategy_probability_of_failure seed_state normal shuffle cdf st mu1 mu2 s1 s2 p n freq t = Some r /\
       simulate_strategy_probability_of_failure seed_state normal shuffle cdf st mu1 mu2 s1 s2 p n freq t' = Some r' /\ 0 < r < 1 /\ r < r').
Proof.
  intros Hn Hs Hp0 Hp1 Hc Hf Ht. destruct (@c92_mixture_sizes St R seed_state normal shuffle st mu1 mu2 s1 s2 p n None Hn Hs Hp0 Hp1) as (sa & sb & n1 & HP & H1 & H2 & H3 & _). exists sa, sb, n1. intros sample. fold sample in HP. repeat split; auto.
  - unfold simulate_strategy_probability_of_failure. now apply failure_perm.
  - intros Hx Hy. destruct (@c87_probability_of_failure cdf sample freq t t' Hc Hf Ht Hx Hy) as (r & r' & E & E' & H). exists r, r'. unfold simulate_strategy_probability_of_failure. rewrite !(failure_perm cdf _ _ HP). auto.
Qed.

(** ** C116 The sample size in the probability of failure *)
(** REFUTED: the scale of the normal is p(1-p), not the standard deviation sqrt(p(1-p)/n) of the observed precision, so that the amount of data is ignored:
    observing the same returns k times over does not change the result *)
Lemma filter_concat_repeat A (f : A -> bool) l k : filter f (concat (repeat l k)) = concat (repeat (filter f l) k).
Proof. induction k as [|k IH]; auto. cbn. rewrite filter_app. now rewrite IH. Qed.
Lemma rmean_concat_repeat l k : rmean (concat (repeat l (S k))) = rmean l.
Proof.
  destruct l as [|x0 l0] eqn:E; [unfold rmean; replace (concat (repeat [] (S k))) with (@nil R); auto; clear; induction (S k); auto|]. rewrite <- E. assert (N : INR (length l) <> 0) by (apply not_0_INR; subst; discriminate).
  unfold rmean. replace (rsum (concat (repeat l (S k)))) with (INR (S k) * rsum l); [replace (INR (length (concat (repeat l (S k))))) with (INR (S k) * INR (length l)); [field; split; auto; apply not_0_INR; lia|]|].
  - generalize (S k) as m. induction m as [|m IH]; [cbn; ring|]. cbn [repeat concat]. rewrite app_length, plus_INR, <- IH, S_INR. ring.
  - generalize (S k) as m. induction m as [|m IH]; [cbn; ring|]. cbn [repeat concat]. rewrite rsum_app, <- IH, S_INR. ring.
Qed.
Lemma length_concat_repeat A (l : list A) k : INR (length (concat (repeat l k))) = INR k * INR (length l).
Proof. induction k as [|m IH]; [cbn; ring|]. cbn [repeat concat]. rewrite app_length, plus_INR, IH, S_INR. ring. Qed.
Theorem c116_sample_size_refuted cdf returns freq t k : returns <> [] -> strategy_probability_of_failure cdf (concat (repeat returns (S k))) freq t = strategy_probability_of_failure cdf returns freq t.
Proof.
  intros Hne. unfold strategy_probability_of_failure. rewrite !filter_concat_repeat, !rmean_concat_repeat, !length_concat_repeat. set (a := filter rpos returns). set (b := filter (fun x => negb (rpos x)) returns).
  replace (INR (S k) * INR (length a) / (INR (S k) * INR (length returns))) with (INR (length a) / INR (length returns)) by (field; split; [apply not_0_INR; destruct returns; [congruence|discriminate]|apply not_0_INR; lia]).
  assert (Z : concat (repeat (@nil R) (S k)) = []) by (clear; induction (S k); auto). destruct a as [|a0 a]; [rewrite Z; reflexivity|]. destruct b as [|b0 b]; [rewrite Z|]; reflexivity.
Qed.
(** the documented quantity: the normal probability of a precision below the threshold, with the standard error of a proportion of n outcomes.
    It differs from the code's unless the threshold is the observed precision or p(1-p)n = 1 *)
Theorem c116_standard_error_refuted cdf returns freq t r thresh : is_cdf cdf ->
  let pos := filter rpos returns in let neg := filter (fun x => negb (rpos x)) returns in let n := INR (length returns) in let p := INR (length pos) / n in
  strategy_probability_of_failure cdf returns freq t = Some r -> strategy_required_precision t freq (rmean pos) (rmean neg) = Some thresh ->
  r = cdf ((thresh - p) / sqrt (p * (1 - p) / n)) -> thresh = p \/ p * (1 - p) * n = 1.
Proof.
  intros [C1 C2] pos neg n p H HT HR. unfold strategy_probability_of_failure in H. fold pos neg n p in H. destruct pos as [|x pos'] eqn:Ep; [discriminate|]. destruct neg as [|y neg'] eqn:En; [discriminate|]. rewrite HT in H. injection H as <-.
  assert (I : (thresh - p) / (p * (1 - p)) = (thresh - p) / sqrt (p * (1 - p) / n)) by (destruct (Rtotal_order ((thresh - p) / (p * (1 - p))) ((thresh - p) / sqrt (p * (1 - p) / n))) as [L|[L|L]]; auto; apply C2 in L; lra).
  assert (LEN : n = INR (length (x :: pos')) + INR (length (y :: neg'))). { unfold n. rewrite <- plus_INR, <- Ep, <- En. f_equal. unfold pos, neg. clear. induction returns as [|a l IH]; auto. cbn. destruct (rpos a); cbn; lia. }
  assert (LP : 0 < INR (length (x :: pos'))) by (apply lt_0_INR; cbn; lia). assert (LN : 0 < INR (length (y :: neg'))) by (apply lt_0_INR; cbn; lia). assert (N : 0 < n) by lra.
  assert (P0 : 0 < p) by (apply Rdiv_lt_0_compat; lra). assert (P1 : p < 1) by (unfold p; apply Rmult_lt_reg_r with n; [lra|]; unfold Rdiv; rewrite Rmult_assoc, Rinv_l, Rmult_1_r by lra; lra). clearbody p n. clear C1 C2 HR HT LEN LP LN.
  destruct (Req_dec thresh p) as [|D]; [now left|right]. assert (V : 0 < p * (1 - p)) by nra. set (v := p * (1 - p)) in *. clearbody v. assert (Q : 0 < v / n) by now apply Rdiv_lt_0_compat. assert (S : 0 < sqrt (v / n)) by now apply sqrt_lt_R0.
  assert (E : v = sqrt (v / n)). { assert (E : / v = / sqrt (v / n)) by (unfold Rdiv at 1 2 in I; apply Rmult_eq_reg_l in I; lra). apply (f_equal Rinv) in E. now rewrite !Rinv_inv in E. }
  assert (E2 : v * v = v / n) by (rewrite <- (sqrt_sqrt (v / n)) by lra; rewrite <- E; reflexivity). apply Rmult_eq_reg_l with v; [|lra]. rewrite Rmult_1_r. replace (v * (v * n)) with (v * v * n) by ring. rewrite E2. field. lra.
Qed.
Example c116_ex : exists returns, returns <> [] /\ (exists x, In x returns /\ 0 < x) /\ (exists x, In x returns /\ x < 0).
Proof. exists [1; -1]. split; [discriminate|]. split; eexists; (split; [|]); [now left|lra|right; now left|lra]. Qed.

Print Assumptions c111_autocorr_range.
Print Assumptions c111_durbin_watson_autocorr.
Print Assumptions c112_rows.
Print Assumptions c112_order_zero.
Print Assumptions c113_rows.
Print Assumptions c113_dates_increase.
Print Assumptions c114_through_points.
Print Assumptions c115_simulated_failure.
Print Assumptions c116_sample_size_refuted.
Print Assumptions c116_standard_error_refuted.

(** ** C111 written out: Pearson's correlation of the values of a list of pairs *)
Theorem c111_corr_value A (l : list A) (f g : A -> R) : let n := INR (length l) in let mf := rsum (map f l) / n in let mg := rsum (map g l) / n in
  let sff := rsum (map (fun a => (f a - mf) ^ 2) l) in let sgg := rsum (map (fun a => (g a - mg) ^ 2) l) in
  corr (map f l) (map g l) = if Req_EM_T (sff * sgg) 0 then None else Some (rsum (map (fun a => (f a - mf) * (g a - mg)) l) / sqrt (sff * sgg)).
Proof.
  intros n mf mg sff sgg. assert (C : forall (h k : A -> R), cov_sum (map h l) (map k l) = rsum (map (fun a => (h a - rsum (map h l) / n) * (k a - rsum (map k l) / n)) l)).
  { intros h k. unfold cov_sum. rewrite zip_with_map. unfold rmean. rewrite !map_length. reflexivity. }
  unfold corr. rewrite !C. fold mf mg. assert (E1 : rsum (map (fun a => (f a - mf) * (f a - mf)) l) = sff) by (unfold sff; f_equal; apply map_ext; intro; ring). assert (E2 : rsum (map (fun a => (g a - mg) * (g a - mg)) l) = sgg) by (unfold sgg; f_equal; apply map_ext; intro; ring).
  rewrite E1, E2. assert (P1 : 0 <= sff) by (apply rsum_nonneg; intros x Hx; apply in_map_iff in Hx as (a & <- & _); apply pow2_ge_0). assert (P2 : 0 <= sgg) by (apply rsum_nonneg; intros x Hx; apply in_map_iff in Hx as (a & <- & _); apply pow2_ge_0).
  rewrite <- sqrt_mult by auto. destruct (Req_EM_T (sqrt (sff * sgg)) 0) as [Z|Z], (Req_EM_T (sff * sgg) 0) as [Z'|Z']; auto.
  - exfalso. apply Z'. apply sqrt_eq_0 in Z; auto. now apply Rmult_le_pos.
  - exfalso. apply Z. rewrite Z'. apply sqrt_0.
Qed.
Print Assumptions c111_corr_value.
(** the autocorrelation: of the pairs (x_(i+lag), x_i) *)
Theorem c111_autocorr_value series lag : (lag <= length series)%nat ->
  pearson_autocorr series lag = corr (map (fun i => nth (i + lag) series 0) (seq 0 (length series - lag))) (map (fun i => nth i series 0) (seq 0 (length series - lag))).
Proof.
  intro H. assert (S1 : forall k l, (k <= length l)%nat -> firstn k l = map (fun i => nth i l 0) (seq 0 k)).
  { intros k. induction k as [|k IH]; intros [|x l] Hk; auto; cbn in Hk; try lia. cbn [firstn seq map nth]. f_equal. rewrite IH by lia. rewrite <- seq_shift, map_map. reflexivity. }
  assert (S2 : skipn lag series = map (fun i => nth (i + lag) series 0) (seq 0 (length series - lag))).
  { transitivity (firstn (length series - lag) (skipn lag series)); [symmetry; apply firstn_all2; rewrite skipn_length; lia|]. rewrite S1 by (rewrite skipn_length; lia). apply map_ext. intro i. rewrite Nat.add_comm. clear. revert series. induction lag as [|k IH]; intros [|x l]; auto; [now destruct i|cbn [skipn plus nth]; apply IH]. }
  unfold pearson_autocorr. now rewrite S2, S1 by lia.
Qed.
Print Assumptions c111_autocorr_value.
