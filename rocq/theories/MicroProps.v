(** C81, C82, C103-C107: market microstructure features.  Theorems over the reals use the axioms of the standard real numbers, those on VPIN are closed. *)
From Coq Require Import Qreals.
From Verif Require Import Py SeriesModel SeriesProofs SeriesSpec SeriesProps BarsModel BarsProofs RNum SysDefaultModel SysDefaultProofs WeightProofs StructModel StructProps MicroModel.
Set Implicit Arguments.
Unset Strict Implicit.
Open Scope R_scope.

(** ** C81 Roll's spread *)
Theorem c81_roll_nonnegative prices : 0 <= fst (roll_effective_spread prices).
Proof. cbn [roll_effective_spread fst]. pose proof (sqrt_pos (match np_cov (removelast (diff prices)) (tl (diff prices)) with None => 0 | Some v => if Rlt_dec 0 (- v) then - v else 0 end)). lra. Qed.
Lemma removelast_firstn' A (l : list A) : removelast l = firstn (length l - 1) l.
Proof. induction l as [|x l IH]; auto. destruct l as [|y l]; auto. change (removelast (x :: y :: l)) with (x :: removelast (y :: l)). rewrite IH. cbn [length]. replace (S (S (length l)) - 1)%nat with (S (S (length l) - 1)) by lia. reflexivity. Qed.
Lemma list_seq_nth (l : list R) : l = map (fun i => nth i l 0) (seq 0 (length l)).
Proof. apply nth_ext with 0 0; [now rewrite map_length, seq_length|]. intros i Hi. rewrite (@nth_map_lt _ _ _ 0%nat) by now rewrite seq_length. now rewrite seq_nth. Qed.
(** with at least three price changes x the spread is 2 sqrt (max 0 (-c)), c the sample covariance of successive changes, and the noise variance var(x) + 2 c *)
Definition change (p : list R) (i : nat) : R := nth (S i) p 0 - nth i p 0.
Definition autocov (p : list R) : R :=
  let m := (length p - 2)%nat in let a := rmean (map (change p) (seq 0 m)) in let b := rmean (map (change p) (seq 1 m)) in
  rsum (map (fun i => (change p i - a) * (change p (S i) - b)) (seq 0 m)) / (INR m - 1).
Definition change_var (p : list R) : R :=
  let m := (length p - 1)%nat in rmean (map (fun i => (change p i - rmean (map (change p) (seq 0 m))) * (change p i - rmean (map (change p) (seq 0 m)))) (seq 0 m)).
Lemma diff_seq p : diff p = map (change p) (seq 0 (length p - 1)).
Proof. apply nth_ext with 0 0; [now rewrite diff_length, map_length, seq_length|]. intros i Hi. rewrite diff_length in Hi. rewrite diff_nth by lia. rewrite (@nth_map_lt _ _ _ 0%nat) by (rewrite seq_length; lia). now rewrite seq_nth by lia. Qed.
Lemma np_cov_autocov p : (4 <= length p)%nat -> np_cov (removelast (diff p)) (tl (diff p)) = Some (autocov p).
Proof.
  intros H. unfold np_cov. assert (E1 : removelast (diff p) = map (change p) (seq 0 (length p - 2))).
  { rewrite removelast_firstn', diff_length, diff_seq, firstn_map. f_equal. replace (length p - 1)%nat with ((length p - 2) + 1)%nat at 2 by lia. rewrite seq_app, firstn_app, firstn_all2 by (rewrite seq_length; lia). rewrite seq_length. replace (length p - 1 - 1 - (length p - 2))%nat with 0%nat by lia. cbn. apply app_nil_r. }
  assert (E2 : tl (diff p) = map (change p) (seq 1 (length p - 2))).
  { rewrite diff_seq. replace (length p - 1)%nat with (S (length p - 2)) by lia. reflexivity. }
  rewrite E1, E2, map_length, seq_length. rewrite (proj2 (Nat.ltb_ge _ _)) by lia. f_equal. unfold autocov. cbv zeta. f_equal. f_equal.
  rewrite <- (seq_shift (length p - 2) 0), (map_map S (change p)) at 1. rewrite <- (seq_shift (length p - 2) 0), (map_map S (change p)). now rewrite zip_with_map.
Qed.
Theorem c81_roll_value p : (4 <= length p)%nat -> roll_effective_spread p = (2 * sqrt (Rmax 0 (- autocov p)), Some (change_var p + 2 * autocov p)).
Proof.
  intros H. unfold roll_effective_spread. rewrite np_cov_autocov by exact H. f_equal.
  - rewrite Rmult_comm. do 2 f_equal. unfold Rmax. destruct (Rlt_dec 0 (- autocov p)), (Rle_dec 0 (- autocov p)); lra.
  - unfold np_var. destruct (diff p) as [|d l] eqn:E. { exfalso. apply (f_equal (@length R)) in E. rewrite diff_length in E. cbn in E. lia. }
    rewrite <- E. do 2 f_equal. unfold change_var. rewrite diff_seq, map_map. reflexivity.
Qed.
Theorem c81_roll_too_few p : (length p <= 3)%nat -> roll_effective_spread p = (0, None).
Proof.
  intros H. unfold roll_effective_spread, np_cov. rewrite (proj2 (Nat.ltb_lt _ _)) by (rewrite removelast_firstn', firstn_length, diff_length; lia). rewrite sqrt_0, Rmult_0_l. now destruct (np_var _).
Qed.
(** prices shifted and scaled: the spread scales, the variance scales quadratically *)
Lemma change_affine a b p i : (S i < length p)%nat -> change (map (fun v => a * v + b) p) i = a * change p i.
Proof. intros H. unfold change. rewrite !(@nth_map_lt _ _ _ 0) by lia. ring. Qed.
Lemma changes_affine a b p k m : (k + m < length p)%nat -> map (change (map (fun v => a * v + b) p)) (seq k m) = map (fun i => a * change p i) (seq k m).
Proof. intros H. apply map_ext_in. intros i Hi. apply in_seq in Hi. apply change_affine. lia. Qed.
Theorem c81_roll_affine a b p : roll_effective_spread (map (fun v => a * v + b) p) = (Rabs a * fst (roll_effective_spread p), option_map (fun v => a * a * v) (snd (roll_effective_spread p))).
Proof.
  destruct (le_lt_dec (length p) 3) as [H|H]; [rewrite !c81_roll_too_few by (rewrite ?map_length; lia); cbn; f_equal; ring|].
  assert (Ec : autocov (map (fun v => a * v + b) p) = a * a * autocov p).
  { unfold autocov. rewrite map_length. cbv zeta. rewrite !changes_affine by lia. rewrite !rmean_map_scale.
    rewrite (@rsum_map_ext _ _ (fun i => a * a * ((change p i - rmean (map (change p) (seq 0 (length p - 2)))) * (change p (S i) - rmean (map (change p) (seq 1 (length p - 2))))))).
    - rewrite rsum_map_scale. unfold Rdiv. ring.
    - intros i Hi. apply in_seq in Hi. rewrite !change_affine by lia. ring. }
  assert (Ev : change_var (map (fun v => a * v + b) p) = a * a * change_var p).
  { unfold change_var. rewrite map_length. cbv zeta. rewrite !changes_affine by lia. rewrite !rmean_map_scale.
    rewrite (@rmean_map_ext _ _ (fun i => a * a * ((change p i - rmean (map (change p) (seq 0 (length p - 1)))) * (change p i - rmean (map (change p) (seq 0 (length p - 1))))))).
    - apply rmean_map_scale.
    - intros i Hi. apply in_seq in Hi. rewrite !change_affine by lia. ring. }
  rewrite !c81_roll_value by (rewrite ?map_length; lia). cbn [fst snd option_map]. rewrite Ec, Ev. f_equal; [|f_equal; ring].
  replace (- (a * a * autocov p)) with (a * a * - autocov p) by ring. rewrite <- (Rmult_0_r (a * a)) at 1. rewrite RmaxRmult by apply Rle_0_sqr. rewrite sqrt_mult_alt by apply Rle_0_sqr.
  replace (sqrt (a * a)) with (Rabs a) by (symmetry; apply sqrt_Rsqr_abs). ring.
Qed.
Example c81_roll_ex : roll_effective_spread [0; 1; 0; 1; 0] = (2 * sqrt (4 / 3), Some (- (5 / 3))).
Proof.
  rewrite c81_roll_value by (cbn; lia). assert (E : autocov [0; 1; 0; 1; 0] = - (4 / 3)). { unfold autocov, change, rmean. cbn. field. }
  rewrite E. f_equal; [do 2 f_equal; rewrite Rmax_right; lra|]. f_equal. unfold change_var, change, rmean. cbn. field.
Qed.
(** ** C103 Roll's noise variance *)
(** REFUTED: the estimated variance of the efficient price can be negative *)
Theorem c103_noise_variance_negative_refuted : exists p v, snd (roll_effective_spread p) = Some v /\ v < 0.
Proof. exists [0; 1; 0; 1; 0], (- (5 / 3)). rewrite c81_roll_ex. split; [reflexivity|lra]. Qed.
Lemma change_var_nonneg p : (2 <= length p)%nat -> 0 <= change_var p.
Proof. intros H. unfold change_var. apply rmean_nonneg; [destruct (length p - 1)%nat eqn:E; [lia|discriminate]|]. intros x Hx. apply in_map_iff in Hx. destruct Hx as (i & <- & _). apply Rle_0_sqr. Qed.
(** a positive spread takes half its square out of the variance of the price changes; without spread the estimate is non-negative *)
Theorem c103_decomposition p : (4 <= length p)%nat -> 0 < fst (roll_effective_spread p) -> snd (roll_effective_spread p) = Some (change_var p - fst (roll_effective_spread p) * fst (roll_effective_spread p) / 2).
Proof.
  intros H. rewrite c81_roll_value by exact H. cbn [fst snd]. intros Hp. assert (Hc : 0 < - autocov p).
  { destruct (Rle_lt_dec (- autocov p) 0) as [Hn|Hn]; auto. rewrite Rmax_left in Hp by exact Hn. rewrite sqrt_0 in Hp. lra. }
  rewrite Rmax_right by lra. f_equal. replace (2 * sqrt (- autocov p) * (2 * sqrt (- autocov p)) / 2) with (2 * (sqrt (- autocov p) * sqrt (- autocov p))) by field. rewrite sqrt_sqrt by lra. ring.
Qed.
Theorem c103_no_spread p v : fst (roll_effective_spread p) = 0 -> snd (roll_effective_spread p) = Some v -> 0 <= v.
Proof.
  destruct (le_lt_dec (length p) 3) as [H|H]; [rewrite c81_roll_too_few by exact H; discriminate|]. rewrite c81_roll_value by lia. cbn [fst snd]. intros Hs [= <-]. pose proof (@change_var_nonneg p ltac:(lia)).
  destruct (Rle_lt_dec 0 (autocov p)) as [Hc|Hc]; [lra|]. exfalso. rewrite Rmax_right in Hs by lra. pose proof (sqrt_lt_R0 (- autocov p)). lra.
Qed.

(** ** Rolling windows *)
Lemma rolling_nth w f l t (g : nat -> R) : (1 <= w)%nat -> (w <= S t)%nat -> (t < length l)%nat -> (forall i, (S t - w <= i <= t)%nat -> nth_error l i = Some (Some (g i))) ->
  nth_error (rolling w f l) t = Some (Some (f (map g (seq (S t - w) w)))).
Proof.
  intros Hw Ht Hl Hg. unfold rolling. rewrite nth_error_map, (nth_error_nth' (seq 0 (length l)) (n := t) 0%nat) by (rewrite seq_length; exact Hl). rewrite seq_nth by exact Hl. cbn [option_map plus].
  rewrite (proj2 (Nat.ltb_ge _ _)) by exact Ht. replace (firstn w (skipn (S t - w) l)) with (map (fun i => Some (g i)) (seq (S t - w) w)); [now rewrite all_some_map|].
  apply nth_error_ext. intros j. destruct (le_lt_dec w j) as [Hj|Hj].
  - rewrite !(proj2 (nth_error_None _ _)); auto; rewrite ?map_length, ?seq_length, ?firstn_length; lia.
  - rewrite nth_error_firstn_lt by exact Hj. rewrite nth_error_skipn, nth_error_map, (nth_error_nth' (seq (S t - w) w) (n := j) 0%nat) by (rewrite seq_length; exact Hj). rewrite seq_nth by exact Hj. cbn [option_map]. rewrite Hg by lia. reflexivity.
Qed.
Lemma rolling_early w f l t : (S t < w)%nat -> (t < length l)%nat -> nth_error (rolling w f l) t = Some None.
Proof. intros Ht Hl. unfold rolling. rewrite nth_error_map, (nth_error_nth' (seq 0 (length l)) (n := t) 0%nat) by (rewrite seq_length; exact Hl). rewrite seq_nth by exact Hl. cbn [option_map plus]. now rewrite (proj2 (Nat.ltb_lt _ _)). Qed.
Lemma rolling_missing w f l t i : (w <= S t)%nat -> (t < length l)%nat -> (S t - w <= i <= t)%nat -> nth_error l i = Some None -> nth_error (rolling w f l) t = Some None.
Proof.
  intros Ht Hl Hi HN. unfold rolling. rewrite nth_error_map, (nth_error_nth' (seq 0 (length l)) (n := t) 0%nat) by (rewrite seq_length; exact Hl). rewrite seq_nth by exact Hl. cbn [option_map plus]. rewrite (proj2 (Nat.ltb_ge _ _)) by exact Ht.
  rewrite all_some_none; auto. apply nth_error_In with (n := (i - (S t - w))%nat). rewrite nth_error_firstn_lt by lia. rewrite nth_error_skipn. now replace (S t - w + (i - (S t - w)))%nat with i by lia.
Qed.
Lemma rolling_length w f l : length (rolling w f l) = length l.
Proof. unfold rolling. now rewrite map_length, seq_length. Qed.
Lemma list_of_nth (A : Type) (l : list A) (F : nat -> A) : (forall t, (t < length l)%nat -> nth_error l t = Some (F t)) -> l = map F (seq 0 (length l)).
Proof.
  intros H. apply nth_error_ext. intros t. destruct (le_lt_dec (length l) t) as [Ht|Ht]; [rewrite !(proj2 (nth_error_None _ _)); auto; rewrite ?map_length, ?seq_length; lia|].
  rewrite H by exact Ht. rewrite nth_error_map, (nth_error_nth' (seq 0 (length l)) (n := t) 0%nat) by (rewrite seq_length; exact Ht). now rewrite seq_nth.
Qed.
Definition barn (bars : list hl_bar) (i : nat) : hl_bar := nth i bars (1, 1).
Lemma barn_nth bars i : (i < length bars)%nat -> nth_error bars i = Some (barn bars i).
Proof. intros H. now apply nth_error_nth'. Qed.

(** ** C105 High-low volatility *)
(** from bar window - 1 on: the root of the mean squared log range of the last [window] bars, divided by 2 sqrt (ln 2); missing before *)
Theorem c105_value bars w : (1 <= w)%nat ->
  high_low_volatility bars w = map (fun t => if (S t <? w)%nat then None else
    Some (sqrt (rmean (map (fun i => (ln (fst (barn bars i)) - ln (snd (barn bars i))) * (ln (fst (barn bars i)) - ln (snd (barn bars i)))) (seq (S t - w) w)) / (4 * ln 2)))) (seq 0 (length bars)).
Proof.
  intros Hw. unfold high_low_volatility. set (src := map (fun b : hl_bar => Some ((ln (fst b) - ln (snd b)) * (ln (fst b) - ln (snd b)))) bars). assert (HL : length src = length bars) by apply map_length.
  rewrite (@list_of_nth _ (rolling w rmean src) (fun t => if (S t <? w)%nat then None else Some (rmean (map (fun i => (ln (fst (barn bars i)) - ln (snd (barn bars i))) * (ln (fst (barn bars i)) - ln (snd (barn bars i)))) (seq (S t - w) w))))).
  - rewrite rolling_length, HL, map_map. apply map_ext. intros t. now destruct (S t <? w)%nat.
  - intros t Ht. rewrite rolling_length in Ht. destruct (S t <? w)%nat eqn:E.
    + apply rolling_early; auto. now apply Nat.ltb_lt.
    + apply Nat.ltb_ge in E. apply (@rolling_nth w rmean src t (fun i => (ln (fst (barn bars i)) - ln (snd (barn bars i))) * (ln (fst (barn bars i)) - ln (snd (barn bars i))))); auto.
      intros i Hi. unfold src. rewrite nth_error_map, barn_nth by lia. reflexivity.
Qed.
Theorem c105_nonnegative bars w v : In (Some v) (high_low_volatility bars w) -> 0 <= v.
Proof. unfold high_low_volatility. intros H. apply in_map_iff in H. destruct H as ([m|] & [= <-] & _). apply sqrt_pos. Qed.
(** the unit of the prices does not matter *)
Theorem c105_scale_invariant bars w c : (1 <= w)%nat -> 0 < c -> (forall b, In b bars -> 0 < fst b /\ 0 < snd b) -> high_low_volatility (map (fun b => (c * fst b, c * snd b)) bars) w = high_low_volatility bars w.
Proof.
  intros Hw Hc HB. unfold high_low_volatility. do 2 f_equal. rewrite map_map. apply map_ext_in. intros b Hb. destruct (HB b Hb). cbn [fst snd]. f_equal. rewrite !ln_mult by assumption. ring.
Qed.
(** bars of constant range h/l: the estimate is ln (h/l) / (2 sqrt (ln 2)) *)
Theorem c105_constant_range bars w r v : (1 <= w)%nat -> 0 <= r -> (forall b, In b bars -> ln (fst b) - ln (snd b) = r) -> In (Some v) (high_low_volatility bars w) -> v = r / (2 * sqrt (ln 2)).
Proof.
  intros Hw Hr HB. rewrite c105_value by exact Hw. intros H. apply in_map_iff in H. destruct H as (t & E & Ht). apply in_seq in Ht. destruct (S t <? w)%nat eqn:Et; [discriminate|]. apply Nat.ltb_ge in Et. injection E as <-.
  rewrite (@rmean_map_ext _ _ (fun _ => r * r)).
  - rewrite rmean_map_const by (destruct w; [lia|discriminate]). assert (H2 : 0 < ln 2) by (rewrite <- ln_1; apply ln_increasing; lra).
    rewrite sqrt_div_alt by lra. rewrite sqrt_square by exact Hr. rewrite sqrt_mult_alt by lra. replace 4 with (2 * 2) by ring. rewrite sqrt_square by lra. reflexivity.
  - intros i Hi. apply in_seq in Hi. change (S t - w <= i < S t - w + w)%nat in Hi. assert (Hin : In (barn bars i) bars) by (unfold barn; apply nth_In; cbn [plus] in Ht; lia). rewrite (HB _ Hin). reflexivity.
Qed.
Example c105_ex : In (Some (sqrt (rmean [(ln 4 - ln 2) * (ln 4 - ln 2); (ln 6 - ln 3) * (ln 6 - ln 3)] / (4 * ln 2)))) (high_low_volatility [(4, 2); (6, 3)] 2).
Proof. rewrite c105_value by lia. cbn. right. left. reflexivity. Qed.

(** ** C104 Corwin-Schultz *)
Definition range2 (bars : list hl_bar) (i : nat) : R := ln (fst (barn bars i) / snd (barn bars i)) * ln (fst (barn bars i) / snd (barn bars i)).
(** mean over the last [w] pairs of bars of the sum of squared log ranges; squared log range of the last two bars together *)
Definition cs_beta (bars : list hl_bar) (w t : nat) : R := rmean (map (fun j => range2 bars (j - 1) + range2 bars j) (seq (S t - w) w)).
Definition cs_gamma (bars : list hl_bar) (t : nat) : R :=
  let r := ln (Rmax (fst (barn bars (t - 1))) (fst (barn bars t)) / Rmin (snd (barn bars (t - 1))) (snd (barn bars t))) in r * r.
Lemma rolling2 f l t g : (1 <= t)%nat -> (t < length l)%nat -> (forall i, (i < length l)%nat -> nth_error l i = Some (Some (g i))) -> nth_error (rolling 2 f l) t = Some (Some (f [g (t - 1)%nat; g t])).
Proof. intros H1 Hl Hg. rewrite (@rolling_nth 2 f l t g); auto; try lia. - replace (S t - 2)%nat with (t - 1)%nat by lia. cbn [seq map]. replace (S (t - 1)) with t by lia. reflexivity. - intros i Hi. apply Hg. lia. Qed.
Lemma get_beta_eq bars w : (1 <= w)%nat -> get_beta bars w = map (fun t => if (t <? w)%nat then None else Some (cs_beta bars w t)) (seq 0 (length bars)).
Proof.
  intros Hw. unfold get_beta. set (src := map (fun b : hl_bar => Some (ln (fst b / snd b) * ln (fst b / snd b))) bars). assert (HL : length src = length bars) by apply map_length.
  assert (Hsrc : forall i, (i < length src)%nat -> nth_error src i = Some (Some (range2 bars i))) by (intros i Hi; unfold src; rewrite nth_error_map, barn_nth by lia; reflexivity).
  rewrite (@list_of_nth _ (rolling w rmean (rolling 2 rsum src)) (fun t => if (t <? w)%nat then None else Some (cs_beta bars w t))) at 1.
  - now rewrite !rolling_length, HL.
  - intros t Ht. rewrite !rolling_length in Ht. assert (H0 : nth_error (rolling 2 rsum src) 0 = Some None) by (apply rolling_early; lia).
    destruct (t <? w)%nat eqn:E.
    + apply Nat.ltb_lt in E. destruct (le_lt_dec w (S t)) as [Hs|Hs]; [apply rolling_missing with 0%nat; rewrite ?rolling_length; auto; lia|apply rolling_early; rewrite ?rolling_length; auto].
    + apply Nat.ltb_ge in E. rewrite (@rolling_nth w rmean (rolling 2 rsum src) t (fun j => range2 bars (j - 1) + range2 bars j)); rewrite ?rolling_length; auto; try lia.
      intros i Hi. rewrite (@rolling2 rsum src i (range2 bars)) by (auto; lia). cbn [rsum]. do 2 f_equal. ring.
Qed.
Lemma get_gamma_eq bars : get_gamma bars = map (fun t => if (t =? 0)%nat then None else Some (cs_gamma bars t)) (seq 0 (length bars)).
Proof.
  unfold get_gamma. set (hs := map (fun b : hl_bar => Some (fst b)) bars). set (ls := map (fun b : hl_bar => Some (snd b)) bars).
  assert (Hh : length hs = length bars) by apply map_length. assert (Hl : length ls = length bars) by apply map_length.
  assert (Ih : forall i, (i < length hs)%nat -> nth_error hs i = Some (Some (fst (barn bars i)))) by (intros i Hi; unfold hs; rewrite nth_error_map, barn_nth by lia; reflexivity).
  assert (Il : forall i, (i < length ls)%nat -> nth_error ls i = Some (Some (snd (barn bars i)))) by (intros i Hi; unfold ls; rewrite nth_error_map, barn_nth by lia; reflexivity).
  assert (LL : length (rolling 2 maxR hs) = length (rolling 2 minR ls)) by (rewrite !rolling_length; congruence).
  rewrite (@list_of_nth _ (zip_with _ (rolling 2 maxR hs) (rolling 2 minR ls)) (fun t => if (t =? 0)%nat then None else Some (cs_gamma bars t))) at 1.
  - rewrite zip_with_length by exact LL. now rewrite rolling_length, Hh.
  - intros t Ht. rewrite zip_with_length in Ht by exact LL. rewrite rolling_length in Ht. destruct (t =? 0)%nat eqn:E.
    + apply Nat.eqb_eq in E. subst t. erewrite zip_with_nth; [|apply rolling_early; lia|apply rolling_early; lia]. reflexivity.
    + apply Nat.eqb_neq in E. erewrite zip_with_nth; [|apply (@rolling2 maxR hs t (fun i => fst (barn bars i))); auto; lia|apply (@rolling2 minR ls t (fun i => snd (barn bars i))); auto; lia]. reflexivity.
Qed.
Lemma combine_seq_map A (F : nat -> A) k n : combine (seq k n) (map F (seq k n)) = map (fun t => (t, F t)) (seq k n).
Proof. revert k. induction n as [|n IH]; intros k; cbn; auto. f_equal. apply IH. Qed.
(** the estimates: one row per bar from bar [window] on, each with the first bar it uses as start time *)
Theorem c104_rows bars w : (1 <= w)%nat ->
  corwin_schultz bars w = (map (fun t => (t, 2 * (exp (alpha_of (cs_beta bars w t) (cs_gamma bars t)) - 1) / (1 + exp (alpha_of (cs_beta bars w t) (cs_gamma bars t))), (t - w)%nat)) (seq w (length bars - w)),
                           map (fun t => (t, Some (cs_volatility (cs_beta bars w t) (cs_gamma bars t)))) (seq w (length bars - w))).
Proof.
  intros Hw. unfold corwin_schultz. rewrite get_beta_eq, get_gamma_eq, zip_with_map, combine_seq_map by exact Hw. cbv zeta. set (N := length bars).
  set (F := fun t : nat => (t, (if (t <? w)%nat then None else Some (cs_beta bars w t), if (t =? 0)%nat then None else Some (cs_gamma bars t)))).
  assert (Ea : flat_map (fun r => match both (fst (snd r)) (snd (snd r)) with Some (b, g) => [(fst r, alpha_of b g)] | None => [] end) (map F (seq 0 N)) = map (fun t => (t, alpha_of (cs_beta bars w t) (cs_gamma bars t))) (seq w (N - w))).
  { assert (Hlow : forall k n, (k + n <= w)%nat -> flat_map (fun r => match both (fst (snd r)) (snd (snd r)) with Some (b, g) => [(fst r, alpha_of b g)] | None => [] end) (map F (seq k n)) = []).
    { intros k n. revert k. induction n as [|n IH]; intros k Hk; auto. cbn [seq map flat_map]. rewrite IH by lia. unfold F. cbn [fst snd]. rewrite (proj2 (Nat.ltb_lt _ _)) by lia. reflexivity. }
    assert (Hhigh : forall k n, (w <= k)%nat -> flat_map (fun r => match both (fst (snd r)) (snd (snd r)) with Some (b, g) => [(fst r, alpha_of b g)] | None => [] end) (map F (seq k n)) = map (fun t => (t, alpha_of (cs_beta bars w t) (cs_gamma bars t))) (seq k n)).
    { intros k n. revert k. induction n as [|n IH]; intros k Hk; auto. cbn [seq map flat_map]. rewrite IH by lia. unfold F. cbn [fst snd]. rewrite (proj2 (Nat.ltb_ge _ _)) by lia. rewrite (proj2 (Nat.eqb_neq k 0)) by lia. reflexivity. }
    destruct (le_lt_dec N w) as [HN|HN]; [rewrite Hlow by lia; replace (N - w)%nat with 0%nat by lia; reflexivity|].
    replace N with (w + (N - w))%nat at 1 by lia. rewrite seq_app, map_app, flat_map_app, Hlow, Hhigh by lia. reflexivity. }
  rewrite Ea. f_equal.
  - rewrite map_map, map_length, seq_length. cbn [fst snd]. assert (Es : firstn (N - w) (seq 0 N) = map (fun t => (t - w)%nat) (seq w (N - w))).
    { replace N with ((N - w) + (N - (N - w)))%nat at 2 by lia. rewrite seq_app, firstn_app, firstn_all2 by (rewrite seq_length; lia). rewrite seq_length, Nat.sub_diag. cbn [firstn]. rewrite app_nil_r.
      apply nth_error_ext. intros i. destruct (le_lt_dec (N - w) i) as [Hi|Hi]; [rewrite !(proj2 (nth_error_None _ _)); auto; rewrite ?map_length, ?seq_length; lia|].
      rewrite nth_error_map, !(nth_error_nth' (seq _ (N - w)) (n := i) 0%nat) by (rewrite seq_length; exact Hi). rewrite !seq_nth by exact Hi. cbn [option_map]. f_equal. lia. }
    rewrite Es, combine_map_same. reflexivity.
  - set (G := fun r : nat * (option R * option R) => match snd r with (None, _) => [] | (b, g) => [(fst r, option_map (fun bg => cs_volatility (fst bg) (snd bg)) (both b g))] end).
    assert (Hlow : forall k n, (k + n <= w)%nat -> flat_map G (map F (seq k n)) = []).
    { intros k n. revert k. induction n as [|n IH]; intros k Hk; auto. cbn [seq map flat_map]. rewrite IH by lia. unfold F, G. cbn [fst snd]. rewrite (proj2 (Nat.ltb_lt _ _)) by lia. reflexivity. }
    assert (Hhigh : forall k n, (w <= k)%nat -> flat_map G (map F (seq k n)) = map (fun t => (t, Some (cs_volatility (cs_beta bars w t) (cs_gamma bars t)))) (seq k n)).
    { intros k n. revert k. induction n as [|n IH]; intros k Hk; auto. cbn [seq map flat_map]. rewrite IH by lia. unfold F, G. cbn [fst snd]. rewrite (proj2 (Nat.ltb_ge _ _)) by lia. rewrite (proj2 (Nat.eqb_neq k 0)) by lia. reflexivity. }
    destruct (le_lt_dec N w) as [HN|HN]; [rewrite Hlow by lia; replace (N - w)%nat with 0%nat by lia; reflexivity|].
    replace N with (w + (N - w))%nat at 1 by lia. rewrite seq_app, map_app, flat_map_app, Hlow, Hhigh by lia. reflexivity.
Qed.
Lemma alpha_of_nonneg b g : 0 <= alpha_of b g.
Proof. unfold alpha_of. destruct (Rlt_dec _ 0); lra. Qed.
(** spreads are fractions of the price between 0 and 200%, whatever the bars *)
Theorem c81_corwin_schultz_range bars w t s i : In (t, s, i) (fst (corwin_schultz bars w)) -> 0 <= s < 2.
Proof.
  unfold corwin_schultz. cbn [fst]. intros H. apply in_combine_l in H. apply in_map_iff in H. destruct H as ([t' a] & [= -> <-] & H). apply in_flat_map in H. destruct H as (r & _ & H). destruct (both _ _) as [[b g]|]; [|destruct H].
  destruct H as [[= <- <-]|[]]. cbn [snd]. pose proof (alpha_of_nonneg b g) as Ha. set (a := alpha_of b g) in *. assert (1 <= exp a) by (destruct Ha as [Ha| <-]; [left; rewrite <- exp_0; now apply exp_increasing|rewrite exp_0; lra]).
  split; [apply Rmult_le_pos; [lra|left; apply Rinv_0_lt_compat; lra]|]. apply Rmult_lt_reg_r with (1 + exp a); [lra|]. unfold Rdiv. rewrite Rmult_assoc, Rinv_l, Rmult_1_r by lra. lra.
Qed.
Theorem c104_volatility_nonnegative bars w t v : In (t, Some v) (snd (corwin_schultz bars w)) -> 0 <= v.
Proof.
  unfold corwin_schultz. cbn [snd]. intros H. apply in_flat_map in H. destruct H as (r & _ & H). destruct (snd r) as [[b|] [g|]]; cbn [both option_map fst snd] in H; try solve [destruct H as [H|[]]; discriminate H|destruct H].
  destruct H as [H|[]]. assert (Hv : v = cs_volatility b g) by congruence. subst v. unfold cs_volatility. destruct (Rlt_dec _ 0); lra.
Qed.
(** quotes with a fixed bid and ask that are both hit in every bar: the spread is recovered exactly and the volatility is zero *)
Lemma cs_denom_sq : cs_denom = (sqrt 2 - 1) * (sqrt 2 - 1).
Proof. unfold cs_denom. pose proof (sqrt_sqrt 2 ltac:(lra)). lra. Qed.
Lemma sqrt2_gt1 : 1 < sqrt 2.
Proof. rewrite <- sqrt_1 at 1. apply sqrt_lt_1_alt. lra. Qed.
Lemma sqrt_denom h : 0 <= h -> sqrt (h / cs_denom) = sqrt h / (sqrt 2 - 1).
Proof. intros H. pose proof sqrt2_gt1. rewrite cs_denom_sq. rewrite sqrt_div_alt by (apply Rmult_lt_0_compat; lra). rewrite sqrt_square by lra. reflexivity. Qed.
Theorem c104_pure_spread_exact bars w ask bid : (1 <= w)%nat -> 0 < bid -> bid <= ask -> (forall b, In b bars -> b = (ask, bid)) ->
  (forall t s i, In (t, s, i) (fst (corwin_schultz bars w)) -> s = (ask - bid) / ((ask + bid) / 2)) /\ (forall t v, In (t, Some v) (snd (corwin_schultz bars w)) -> v = 0).
Proof.
  intros Hw Hb Hab HB. rewrite c104_rows by exact Hw. cbn [fst snd]. set (r := ln (ask / bid)).
  assert (Hr : 0 <= r). { unfold r. rewrite <- ln_1. assert (1 <= ask / bid) by (apply Rmult_le_reg_r with bid; auto; unfold Rdiv; rewrite Rmult_assoc, Rinv_l by lra; lra). destruct H as [H|H]; [left; apply ln_increasing; lra|rewrite <- H; lra]. }
  assert (Hbar : forall i, (i < length bars)%nat -> barn bars i = (ask, bid)) by (intros i Hi; apply HB, nth_In; exact Hi).
  assert (Hbeta : forall t, (w <= t < length bars)%nat -> cs_beta bars w t = 2 * (r * r)).
  { intros t Ht. unfold cs_beta. rewrite (@rmean_map_ext _ _ (fun _ => 2 * (r * r))); [apply rmean_map_const; destruct w; [lia|discriminate]|]. intros j Hj. apply in_seq in Hj. unfold range2. rewrite !Hbar by lia. cbn [fst snd]. fold r. ring. }
  assert (Hgamma : forall t, (1 <= t < length bars)%nat -> cs_gamma bars t = r * r).
  { intros t Ht. unfold cs_gamma. rewrite !Hbar by lia. cbn [fst snd]. rewrite Rmax_left, Rmin_left by lra. reflexivity. }
  pose proof sqrt2_gt1 as H2. pose proof (sqrt_sqrt 2 ltac:(lra)) as H22.
  assert (Ebeta : sqrt (2 * (r * r)) = sqrt 2 * r) by (rewrite sqrt_mult_alt by lra; now rewrite sqrt_square by exact Hr).
  assert (E4 : sqrt (2 * (2 * (r * r))) = 2 * r) by (replace (2 * (2 * (r * r))) with ((2 * r) * (2 * r)) by ring; apply sqrt_square; lra).
  split.
  - intros t s i H. apply in_map_iff in H. destruct H as (t' & [= -> <- <-] & Ht). apply in_seq in Ht. rewrite Hbeta, Hgamma by lia.
    assert (Ea : alpha_of (2 * (r * r)) (r * r) = r).
    { unfold alpha_of. rewrite E4, Ebeta, sqrt_denom by apply Rle_0_sqr. rewrite sqrt_square by exact Hr. rewrite cs_denom_sq.
      replace ((2 * r - sqrt 2 * r) / ((sqrt 2 - 1) * (sqrt 2 - 1)) - r / (sqrt 2 - 1)) with r; [destruct (Rlt_dec r 0); lra|].
      replace (2 * r) with (sqrt 2 * sqrt 2 * r) by (rewrite H22; ring). field. lra. }
    rewrite Ea. unfold r. rewrite exp_ln by (apply Rdiv_lt_0_compat; lra). field. lra.
  - intros t v H. apply in_map_iff in H. destruct H as (t' & [= -> <-] & Ht). apply in_seq in Ht. rewrite Hbeta, Hgamma by lia.
    unfold cs_volatility. set (k2 := sqrt (8 / PI)). assert (Hk : 0 < k2) by (apply sqrt_lt_R0, Rdiv_lt_0_compat; [lra|apply PI_RGT_0]).
    replace (r * r / (k2 * k2 * cs_denom)) with ((r / k2) * (r / k2) / cs_denom) by (rewrite cs_denom_sq; field; lra). rewrite sqrt_denom by apply Rle_0_sqr. rewrite sqrt_square by (apply Rmult_le_pos; [lra|left; now apply Rinv_0_lt_compat]).
    rewrite Ebeta, cs_denom_sq. assert (Hi : / sqrt 2 * sqrt 2 = 1) by (apply Rinv_l; lra).
    replace ((/ sqrt 2 - 1) * (sqrt 2 * r)) with ((1 - sqrt 2) * r) by (replace ((/ sqrt 2 - 1) * (sqrt 2 * r)) with ((/ sqrt 2 * sqrt 2 - sqrt 2) * r) by ring; rewrite Hi; reflexivity). replace ((1 - sqrt 2) * r / (k2 * ((sqrt 2 - 1) * (sqrt 2 - 1))) + r / k2 / (sqrt 2 - 1)) with 0; [destruct (Rlt_dec 0 0); lra|]. field. lra.
Qed.
(** the unit of the prices does not matter *)
Theorem c104_scale_invariant bars w c : (1 <= w)%nat -> 0 < c -> (forall b, In b bars -> 0 < fst b /\ 0 < snd b) -> corwin_schultz (map (fun b => (c * fst b, c * snd b)) bars) w = corwin_schultz bars w.
Proof.
  intros Hw Hc HB. assert (Hbar : forall i, (i < length bars)%nat -> barn (map (fun b => (c * fst b, c * snd b)) bars) i = (c * fst (barn bars i), c * snd (barn bars i))).
  { intros i Hi. unfold barn. rewrite (nth_indep _ (1, 1) ((fun b : hl_bar => (c * fst b, c * snd b)) (1, 1))) by now rewrite map_length. exact (map_nth (fun b : hl_bar => (c * fst b, c * snd b)) bars (1, 1) i). }
  assert (Hpos : forall i, (i < length bars)%nat -> 0 < fst (barn bars i) /\ 0 < snd (barn bars i)) by (intros i Hi; apply HB, nth_In; exact Hi).
  assert (Hq : forall u v, 0 < v -> c * u / (c * v) = u / v) by (intros; field; lra).
  assert (Hb : forall t, (w <= t < length bars)%nat -> cs_beta (map (fun b => (c * fst b, c * snd b)) bars) w t = cs_beta bars w t).
  { intros t Ht. unfold cs_beta. apply rmean_map_ext. intros j Hj. apply in_seq in Hj. unfold range2. rewrite !Hbar by lia. cbn [fst snd]. rewrite !Hq by (apply Hpos; lia). reflexivity. }
  assert (Hg : forall t, (1 <= t < length bars)%nat -> cs_gamma (map (fun b => (c * fst b, c * snd b)) bars) t = cs_gamma bars t).
  { intros t Ht. unfold cs_gamma. rewrite !Hbar by lia. cbn [fst snd]. rewrite RmaxRmult by lra. replace (Rmin (c * snd (barn bars (t - 1))) (c * snd (barn bars t))) with (c * Rmin (snd (barn bars (t - 1))) (snd (barn bars t))).
    - rewrite Hq; auto. apply Rmin_pos; apply Hpos; lia.
    - unfold Rmin. destruct (Rle_dec (snd (barn bars (t - 1))) (snd (barn bars t))), (Rle_dec (c * snd (barn bars (t - 1))) (c * snd (barn bars t))); auto; exfalso; nra. }
  rewrite !c104_rows by exact Hw. rewrite !map_length. f_equal; apply map_ext_in; intros t Ht; apply in_seq in Ht.
  - rewrite Hb, Hg by lia. reflexivity.
  - rewrite Hb, Hg by lia. reflexivity.
Qed.
(** each estimate uses the bars from its start time to its own time only *)
Theorem c104_window bars bars' w t s i : (1 <= w)%nat -> In (t, s, i) (fst (corwin_schultz bars w)) -> (t < length bars')%nat -> (forall j, (i <= j <= t)%nat -> nth_error bars' j = nth_error bars j) -> In (t, s, i) (fst (corwin_schultz bars' w)).
Proof.
  intros Hw. rewrite !c104_rows by exact Hw. cbn [fst]. intros H Ht HE. apply in_map_iff in H. destruct H as (t' & [= -> <- <-] & H). apply in_seq in H. apply in_map_iff. exists t. split; [|apply in_seq; lia].
  assert (Hbar : forall j, (t - w <= j <= t)%nat -> barn bars' j = barn bars j).
  { intros j Hj. specialize (HE j Hj). rewrite !barn_nth in HE by lia. congruence. }
  assert (Eb : cs_beta bars' w t = cs_beta bars w t) by (unfold cs_beta; apply rmean_map_ext; intros j Hj; apply in_seq in Hj; unfold range2; rewrite !Hbar by lia; reflexivity).
  assert (Eg : cs_gamma bars' t = cs_gamma bars t) by (unfold cs_gamma; rewrite !Hbar by lia; reflexivity). rewrite Eb, Eg. reflexivity.
Qed.
Example c104_ex : exists s, In (2%nat, s, 1%nat) (fst (corwin_schultz [(4, 2); (4, 2); (4, 2)] 1)) /\ s = 2 / 3.
Proof.
  destruct (@c104_pure_spread_exact [(4, 2); (4, 2); (4, 2)] 1 4 2) as [A _]; try lia; try lra; [intros b Hb; cbn in Hb; intuition congruence|].
  exists (2 / 3). split; auto. rewrite c104_rows by lia. cbn [fst map seq length]. right. left. f_equal. f_equal. erewrite (A 2%nat _ 1%nat); [field|]. rewrite c104_rows by lia. cbn [fst map seq length]. right. left. reflexivity.
Qed.

(** ** C106 Price impact regressions *)
Lemma impact_pairs A (l : list A) fy fx v : impact (map fy l) (map fx l) = Ok v -> l <> [] /\ exists a, ols (map fy l) (map fx l) = Ok (a, v).
Proof. unfold impact. destruct l as [|p l]; [discriminate|]. cbn [map]. destruct (ols _ _) as [[a b]|] eqn:E; cbn [bind snd]; [|discriminate]. intros [= <-]. split; [discriminate|]. exists a. reflexivity. Qed.
Lemma const_of_sxx A (l : list A) (fx : A -> R) : rsum (map (fun a => (fx a - rmean (map fx l)) * (fx a - rmean (map fx l))) l) = 0 -> forall a, In a l -> fx a = rmean (map fx l).
Proof.
  intros E a Ha. assert (Hz : (fx a - rmean (map fx l)) * (fx a - rmean (map fx l)) = 0).
  { apply (@rsum_zero_all (map (fun a => (fx a - rmean (map fx l)) * (fx a - rmean (map fx l))) l)); [intros y Hy; apply in_map_iff in Hy; destruct Hy as (z & <- & _); apply Rle_0_sqr|exact E|]. apply in_map_iff. now exists a. }
  apply Rmult_integral in Hz. lra.
Qed.
(** the returned slope is that of a least-squares line *)
Theorem c106_least_squares A (l : list A) (fy fx : A -> R) v : impact (map fy l) (map fx l) = Ok v ->
  exists a, forall a' b', rsum (map (fun r => (fy r - (a + v * fx r)) * (fy r - (a + v * fx r))) l) <= rsum (map (fun r => (fy r - (a' + b' * fx r)) * (fy r - (a' + b' * fx r))) l).
Proof.
  intros H. apply impact_pairs in H. destruct H as (Hl & a & H). exists a. intros a' b'. unfold ols in H. rewrite map_map in H. destruct (Req_EM_T _ 0) as [E0|E0].
  - destruct (Req_EM_T _ 0) as [Em|]; [|discriminate]. injection H as <- <-. pose proof (const_of_sxx E0) as Hx. rewrite Em in Hx.
    apply (@sse_split A fy fx l (fun r => fy r - rmean (map fy l))); [intros r _; ring|now apply sum_centered|].
    apply rsum_map_0. intros r Hr. rewrite Hx by exact Hr. ring.
  - injection H as <- <-. unfold ols_beta. rewrite zip_with_map, map_map.
    eapply (@sse_split A fy fx l); [intros r _; reflexivity| |].
    + now apply ols_resid_sum.
    + now apply ols_resid_orth.
Qed.
(** data on a line gives its slope, unless the regressor is constant *)
Theorem c106_exact_recovery A (l : list A) (fx : A -> R) a v : (exists r r', In r l /\ In r' l /\ fx r <> fx r') -> impact (map (fun r => a + v * fx r) l) (map fx l) = Ok v.
Proof.
  intros (r & r' & Hr & Hr' & Hne). assert (Hl : l <> []) by (destruct l; [destruct Hr|discriminate]). unfold impact. destruct (map fx l) as [|x0 xs] eqn:Em; [destruct l; [congruence|discriminate]|]. rewrite <- Em. clear Em x0 xs.
  unfold ols. rewrite map_map. destruct (Req_EM_T _ 0) as [E0|E0]; [exfalso; pose proof (const_of_sxx E0) as Hx; apply Hne; rewrite !Hx by assumption; reflexivity|]. cbn [bind snd]. f_equal. unfold ols_beta. rewrite zip_with_map, map_map.
  rewrite (@rmean_map_add _ (fun _ => a) (fun r => v * fx r)), rmean_map_const, rmean_map_scale by exact Hl.
  rewrite (@rsum_map_ext _ _ (fun r => v * ((fx r - rmean (map fx l)) * (fx r - rmean (map fx l))))) by (intros; ring). rewrite rsum_map_scale. field. exact E0.
Qed.
(** a constant non-zero regressor raises IndexError, a zero one gives no impact *)
Theorem c106_constant_regressor A (l : list A) (fy : A -> R) c : l <> [] -> impact (map fy l) (map (fun _ => c) l) = if Req_EM_T c 0 then Ok 0 else Err IndexError.
Proof.
  intros Hl. unfold impact. destruct (map (fun _ => c) l) as [|x0 xs] eqn:Em; [destruct l; [congruence|discriminate]|]. rewrite <- Em. clear Em x0 xs. unfold ols. rewrite map_map, rmean_map_const by exact Hl.
  rewrite (@rsum_map_0 _ (fun _ => (c - c) * (c - c))) by (intros; ring). destruct (Req_EM_T 0 0); [|congruence]. destruct (Req_EM_T c 0); reflexivity.
Qed.
(** Kyle: the price change from each tick to the next against the next tick's volume signed by its tick-rule flag *)
Definition tk (ticks : list tick) (i : nat) : tick := nth i ticks (Tick 0 0%Qc 0%Qc).
Definition flag (ticks : list tick) (b0 : Qc) (i : nat) : Qc := nth i (tick_rule (map t_price ticks) b0) 0%Qc.
Theorem c106_kyle_rows ticks b0 : kyle_lambda ticks b0 =
  impact (map (fun i => inj (t_price (tk ticks (S i))) - inj (t_price (tk ticks i))) (seq 0 (length ticks - 1))) (map (fun i => inj (t_vol (tk ticks (S i))) * inj (flag ticks b0 (S i))) (seq 0 (length ticks - 1))).
Proof.
  unfold kyle_lambda. f_equal.
  - rewrite diff_seq, map_length. apply map_ext_in. intros i Hi. apply in_seq in Hi. unfold change. rewrite !(@nth_map_lt _ _ _ (Tick 0 0%Qc 0%Qc)) by lia. reflexivity.
  - set (b := tick_rule (map t_price ticks) b0). assert (Hb : length b = length ticks) by (unfold b; now rewrite tick_rule_length, map_length).
    assert (E : zip_with (fun t bi => inj (t_vol t) * inj bi) ticks b = map (fun i => inj (t_vol (tk ticks i)) * inj (flag ticks b0 i)) (seq 0 (length ticks))).
    { rewrite (@list_of_nth _ (zip_with (fun t bi => inj (t_vol t) * inj bi) ticks b) (fun i => inj (t_vol (tk ticks i)) * inj (flag ticks b0 i))) at 1; [now rewrite zip_with_length by auto|].
      intros i Hi. rewrite zip_with_length in Hi by auto. apply zip_with_nth with (x := tk ticks i) (y := flag ticks b0 i); apply nth_error_nth'; fold b; lia. }
    rewrite E. destruct (length ticks) as [|n]; auto. cbn [seq map tl]. replace (S n - 1)%nat with n by lia. rewrite <- seq_shift, map_map. reflexivity.
Qed.
Theorem c106_kyle_exact ticks b0 a v : (forall i, (S i < length ticks)%nat -> inj (t_price (tk ticks (S i))) - inj (t_price (tk ticks i)) = a + v * (inj (t_vol (tk ticks (S i))) * inj (flag ticks b0 (S i)))) ->
  (exists i j, (S i < length ticks)%nat /\ (S j < length ticks)%nat /\ inj (t_vol (tk ticks (S i))) * inj (flag ticks b0 (S i)) <> inj (t_vol (tk ticks (S j))) * inj (flag ticks b0 (S j))) -> kyle_lambda ticks b0 = Ok v.
Proof.
  intros H (i & j & Hi & Hj & Hne). rewrite c106_kyle_rows. rewrite (map_ext_in _ (fun i => a + v * (inj (t_vol (tk ticks (S i))) * inj (flag ticks b0 (S i))))) by (intros k Hk; apply in_seq in Hk; apply H; lia).
  apply (@c106_exact_recovery _ (seq 0 (length ticks - 1)) (fun i => inj (t_vol (tk ticks (S i))) * inj (flag ticks b0 (S i)))). exists i, j. repeat split; auto; apply in_seq; lia.
Qed.
(** Amihud: absolute log returns of the closes against the dollar volume of the bar *)
Definition ab (bars : list (R * R * R)) (i : nat) : R * R * R := nth i bars (1, 1, 1).
Theorem c106_amihud_rows bars : amihud_lambda bars =
  impact (map (fun i => Rabs (ln (fst (fst (ab bars (S i)))) - ln (fst (fst (ab bars i))))) (seq 0 (length bars - 1))) (map (fun i => snd (fst (ab bars (S i))) * snd (ab bars (S i))) (seq 0 (length bars - 1))).
Proof.
  unfold amihud_lambda. f_equal.
  - rewrite diff_seq, map_map, map_length. apply map_ext_in. intros i Hi. apply in_seq in Hi. unfold change. rewrite !(@nth_map_lt _ _ _ (1, 1, 1)) by lia. reflexivity.
  - assert (E : map (fun b => snd (fst b) * snd b) bars = map (fun i => snd (fst (ab bars i)) * snd (ab bars i)) (seq 0 (length bars))).
    { rewrite (@list_of_nth _ (map (fun b => snd (fst b) * snd b) bars) (fun i => snd (fst (ab bars i)) * snd (ab bars i))) at 1; [now rewrite map_length|]. intros i Hi. rewrite map_length in Hi. rewrite nth_error_map, (nth_error_nth' bars (n := i) (1, 1, 1)) by exact Hi. reflexivity. }
    rewrite E. destruct (length bars) as [|n]; auto. cbn [seq map tl]. replace (S n - 1)%nat with n by lia. rewrite <- seq_shift, map_map. reflexivity.
Qed.
(** bars of equal dollar volume (such as exact dollar bars) make it raise *)
Theorem c106_amihud_equal_dollar_volume bars c : (2 <= length bars)%nat -> c <> 0 -> (forall b, In b bars -> snd (fst b) * snd b = c) -> amihud_lambda bars = Err IndexError.
Proof.
  intros H2 Hc HB. rewrite c106_amihud_rows. rewrite (map_ext_in (fun i => snd (fst (ab bars (S i))) * snd (ab bars (S i))) (fun _ => c)) by (intros i Hi; apply in_seq in Hi; apply HB, nth_In; lia).
  rewrite c106_constant_regressor by (destruct (length bars - 1)%nat eqn:E; [lia|discriminate]). destruct (Req_EM_T c 0); [contradiction|reflexivity].
Qed.
Theorem c106_kyle_constant_signed_volume ticks b0 c : (2 <= length ticks)%nat -> c <> 0 -> (forall i, (1 <= i < length ticks)%nat -> inj (t_vol (tk ticks i)) * inj (flag ticks b0 i) = c) -> kyle_lambda ticks b0 = Err IndexError.
Proof.
  intros H2 Hc HB. rewrite c106_kyle_rows. rewrite (map_ext_in (fun i => inj (t_vol (tk ticks (S i))) * inj (flag ticks b0 (S i))) (fun _ => c)) by (intros i Hi; apply in_seq in Hi; apply HB; lia).
  rewrite c106_constant_regressor by (destruct (length ticks - 1)%nat eqn:E; [lia|discriminate]). destruct (Req_EM_T c 0); [contradiction|reflexivity].
Qed.
(** Hasbrouck: one row per bar after the first *)
Lemma zssorted_ext l l' : zssorted l -> zssorted l' -> (forall k, In k l <-> In k l') -> l = l'.
Proof.
  revert l'. induction l as [|a l IH]; intros l' S S' HE.
  - destruct l' as [|b l']; auto. exfalso. apply (HE b). now left.
  - destruct l' as [|b l']; [exfalso; apply (HE a); now left|]. inversion S as [|? ? Sl Fl]; subst. inversion S' as [|? ? Sl' Fl']; subst. rewrite Forall_forall in Fl, Fl'.
    assert (a = b). { destruct (proj1 (HE a)) as [->|Ha]; [now left|auto|]. destruct (proj2 (HE b)) as [->|Hb]; [now left|auto|]. apply Fl in Hb. apply Fl' in Ha. lia. }
    subst b. f_equal. apply IH; auto. intros k. split; intros Hk.
    + destruct (proj1 (HE k)) as [<-|H]; [now right| |auto]. apply Fl in Hk. lia.
    + destruct (proj2 (HE k)) as [<-|H]; [now right| |auto]. apply Fl' in Hk. lia.
Qed.
Theorem c106_hasbrouck_rows ids ticks b0 : length ids = length ticks -> exists keys, zssorted keys /\ (forall k, In k keys <-> In k ids) /\
  let prices := fun k => rows_of k (combine ids (map (fun t => inj (t_price t)) ticks)) in
  let flows := fun k => rows_of k (combine ids (zip_with (fun t bi => sqrt (inj (t_vol t) * inj (t_price t)) * inj bi) ticks (tick_rule (map t_price ticks) b0))) in
  hasbrouck_lambda ids ticks b0 = impact (map (fun i => ln (last (prices (nth (S i) keys 0%Z)) 0) - ln (last (prices (nth i keys 0%Z)) 0)) (seq 0 (length keys - 1))) (map (fun i => rsum (flows (nth (S i) keys 0%Z))) (seq 0 (length keys - 1))).
Proof.
  intros HL. set (pr := combine ids (map (fun t => inj (t_price t)) ticks)). set (fl := combine ids (zip_with (fun t bi => sqrt (inj (t_vol t) * inj (t_price t)) * inj bi) ticks (tick_rule (map t_price ticks) b0))).
  destruct (groupby_spec pr) as (S1 & K1 & R1). destruct (groupby_spec fl) as (S2 & K2 & R2).
  assert (Fp : map fst pr = ids) by (apply combine_fst; now rewrite map_length).
  assert (Ff : map fst fl = ids) by (apply combine_fst; rewrite zip_with_length; [auto|now rewrite tick_rule_length, map_length]).
  rewrite Fp in K1. rewrite Ff in K2. set (keys := map fst (groupby pr)) in *.
  assert (Ek : map fst (groupby fl) = keys) by (apply zssorted_ext; auto; intros k; rewrite K1, K2; reflexivity).
  exists keys. split; auto. split; auto. cbv zeta. unfold hasbrouck_lambda. fold pr. fold fl.
  assert (Ep : map (fun g => last (snd g) 0) (groupby pr) = map (fun k => last (rows_of k pr) 0) keys).
  { unfold keys. rewrite map_map. apply map_ext_in. intros [k rs] Hin. cbn [fst snd]. now rewrite (R1 k rs Hin). }
  assert (Ex : map (fun g => rsum (snd g)) (groupby fl) = map (fun k => rsum (rows_of k fl)) keys).
  { rewrite <- Ek. rewrite map_map. apply map_ext_in. intros [k rs] Hin. cbn [fst snd]. now rewrite (R2 k rs Hin). }
  rewrite Ep, Ex, map_map. f_equal.
  - rewrite diff_seq, map_length. apply map_ext_in. intros i Hi. apply in_seq in Hi. unfold change. rewrite !(@nth_map_lt _ _ _ 0%Z) by lia. reflexivity.
  - assert (E : map (fun k => rsum (rows_of k fl)) keys = map (fun i => rsum (rows_of (nth i keys 0%Z) fl)) (seq 0 (length keys))).
    { rewrite (@list_of_nth _ (map (fun k => rsum (rows_of k fl)) keys) (fun i => rsum (rows_of (nth i keys 0%Z) fl))) at 1; [now rewrite map_length|]. intros i Hi. rewrite map_length in Hi. rewrite nth_error_map, (nth_error_nth' keys (n := i) 0%Z) by exact Hi. reflexivity. }
    rewrite E. destruct (length keys) as [|n]; auto. cbn [seq map tl]. replace (S n - 1)%nat with n by lia. rewrite <- seq_shift, map_map. reflexivity.
Qed.
(** a single tick or bar, or none, leaves nothing to regress *)
Theorem c106_no_rows (ticks : list tick) (bars : list (R * R * R)) ids b0 : (length ticks <= 1 -> kyle_lambda ticks b0 = Err ValueError /\ hasbrouck_lambda ids ticks b0 = Err ValueError)%nat /\
  ((length bars <= 1)%nat -> amihud_lambda bars = Err ValueError).
Proof.
  split.
  - intro H. destruct ticks as [|t [|t' ts]]; [| |cbn in H; lia]; split; try reflexivity; unfold hasbrouck_lambda; destruct ids as [|i [|i2 ids]]; reflexivity.
  - intro H. destruct bars as [|t [|t' ts]]; [reflexivity|reflexivity|cbn in H; lia].
Qed.
Print Assumptions c106_no_rows.
Example c106_ex : impact (map (fun x => 1 + 3 * x) [1; 2; 5]) (map (fun x => x) [1; 2; 5]) = Ok 3.
Proof. apply (@c106_exact_recovery R [1; 2; 5] (fun x => x) 1 3). exists 1, 2. cbn. repeat split; auto. lra. Qed.

(** ** C82, C107 VPIN *)
Lemma nth_error_combine_some A B (a : list A) (b : list B) i x y : nth_error a i = Some x -> nth_error b i = Some y -> nth_error (combine a b) i = Some (x, y).
Proof. revert b i. induction a as [|u a IH]; intros [|v b] [|i] Ha Hb; try discriminate; cbn in *; [congruence|auto]. Qed.
Open Scope Qc_scope.
Definition bar_volume (ids : list Z) (ticks : list tick) (k : Z) : Qc := qsum (rows_of k (combine ids (map t_vol ticks))).
Lemma tick_net_abs v b : 0 <= v -> qabs (tick_net v b) <= v.
Proof.
  intros Hv. unfold tick_net. destruct (qeq_spec b 1) as [E1|], (qeq_spec b (-1)) as [E|].
  - exfalso. subst b. discriminate E.
  - rewrite qabs_pos; qlra.
  - rewrite qabs_neg; qlra.
  - rewrite qabs_pos; qlra.
Qed.
Lemma net_volumes_in ids ticks b0 k s : In (k, s) (net_volumes ids ticks b0) -> s = qsum (rows_of k (combine ids (zip_with tick_net (map t_vol ticks) (tick_rule (map t_price ticks) b0)))).
Proof. unfold net_volumes. intros H. apply in_map_iff in H. destruct H as ([k' rs] & [= -> <-] & H). cbn [snd]. f_equal. now apply (proj2 (proj2 (groupby_spec _))). Qed.
Lemma net_le_volume_aux ids : forall vs bs k, (length vs = length bs)%nat -> (forall v, In v vs -> 0 <= v) -> qabs (qsum (rows_of k (combine ids (zip_with tick_net vs bs)))) <= qsum (rows_of k (combine ids vs)).
Proof.
  induction ids as [|i ids IH]; intros vs bs k HL HV; [change (qabs 0 <= 0); rewrite qabs_pos; qlra|]. destruct vs as [|v vs], bs as [|b bs]; try discriminate.
  unfold zip_with, rows_of in *. cbn [combine map filter fst snd]. assert (HI := IH vs bs k ltac:(cbn in HL; lia) ltac:(intros; apply HV; now right)). destruct (i =? k)%Z; auto. cbn [map snd qsum].
  pose proof (qabs_triangle (tick_net v b) (qsum (map snd (filter (fun kr => (fst kr =? k)%Z) (combine ids (map (fun xy => tick_net (fst xy) (snd xy)) (combine vs bs))))))). assert (qabs (tick_net v b) <= v) by (apply tick_net_abs, HV; now left). qlra.
Qed.
Lemma net_le_volume ids ticks b0 k s : (forall t, In t ticks -> 0 <= t_vol t) -> In (k, s) (net_volumes ids ticks b0) -> qabs s <= bar_volume ids ticks k.
Proof.
  intros HV H. apply net_volumes_in in H. subst s. apply net_le_volume_aux; [now rewrite tick_rule_length, !map_length|]. intros v Hv. apply in_map_iff in Hv. destruct Hv as (t & <- & Ht). auto.
Qed.
Lemma qsum_firstn_skipn_abs (l : list Qc) n k M : 0 <= M -> (forall x, In x l -> qabs x <= M) -> qabs (qsum (firstn n (skipn k l))) <= qn n * M.
Proof.
  intros HM H. assert (G : forall l', (forall x, In x l' -> qabs x <= M) -> qabs (qsum l') <= qn (length l') * M).
  { intros l' H'. rewrite <- (map_id l') at 1. eapply Qcle_trans; [apply qsum_map_abs|]. rewrite <- qsum_map_const. apply qsum_map_le. intros x Hx. cbn beta. auto. }
  eapply Qcle_trans; [apply G|].
  - intros x Hx. apply H. assert (In x (skipn k l)) by (rewrite <- (firstn_skipn n (skipn k l)); apply in_or_app; now left). rewrite <- (firstn_skipn k l). apply in_or_app. now right.
  - apply Qcmult_le_compat_r; auto. apply qn_le. rewrite firstn_length. lia.
Qed.
Lemma vpin_in ids ticks V n b0 k v : In (k, Some v) (vpin ids ticks V n b0) -> qn n * V <> 0 /\ exists t, v = qabs (qsum (firstn n (skipn t (map snd (net_volumes ids ticks b0))))) / (qn n * V).
Proof.
  unfold vpin. intros H. apply in_combine_r in H. apply in_map_iff in H. destruct H as ([s|] & E & H); [|discriminate]. unfold rolling_sum in H. apply in_map_iff in H. destruct H as (t & E' & _). destruct (S t <? n)%nat; [discriminate|]. injection E' as <-.
  unfold np_div in E. destruct (qeq_spec (qn n * V) 0); [discriminate|]. injection E as <-. split; auto. now exists (S t - n)%nat.
Qed.
Lemma vpin_le ids ticks V n b0 k v M : (1 <= n)%nat -> 0 < V -> 0 <= M -> (forall t, In t ticks -> 0 <= t_vol t) -> (forall j, In j ids -> bar_volume ids ticks j <= M) -> In (k, Some v) (vpin ids ticks V n b0) -> 0 <= v /\ v <= M / V.
Proof.
  intros Hn HV HM Hvol Hbar H. apply vpin_in in H. destruct H as (Hne & t & ->). assert (Hqn : 0 < qn n) by (apply qn_pos; lia). assert (Hd : 0 < qn n * V) by qnra.
  assert (HA : forall x, In x (map snd (net_volumes ids ticks b0)) -> qabs x <= M).
  { intros x Hx. apply in_map_iff in Hx. destruct Hx as ([j s] & <- & Hin). cbn [snd]. eapply Qcle_trans; [eapply net_le_volume; eauto|]. apply Hbar. unfold net_volumes in Hin. apply in_map_iff in Hin. destruct Hin as (g & [= <- _] & Hg).
    apply (in_map fst) in Hg. apply (proj1 (proj1 (proj2 (groupby_spec (combine ids (zip_with tick_net (map t_vol ticks) (tick_rule (map t_price ticks) b0))))) (fst g))) in Hg. apply in_map_iff in Hg. destruct Hg as ([j' z] & Ej & Hc). apply in_combine_l in Hc. cbn in Ej. now subst. }
  pose proof (@qsum_firstn_skipn_abs (map snd (net_volumes ids ticks b0)) n t M HM HA) as HB. set (s := qabs (qsum (firstn n (skipn t (map snd (net_volumes ids ticks b0)))))) in *. assert (0 <= s) by apply qabs_nonneg.
  split.
  - apply Qcdiv_nonneg; auto.
  - apply Qcdiv_le_iff; auto. replace (M / V * (qn n * V)) with (qn n * M); [exact HB|]. field. now apply Qc_pos_neq.
Qed.
(** if no bar holds more than [volume_per_bar] (as documented: every bar has that volume) VPIN is a fraction *)
Theorem c82_under_guard ids ticks V n b0 k v : (1 <= n)%nat -> 0 < V -> (forall t, In t ticks -> 0 <= t_vol t) -> (forall j, In j ids -> bar_volume ids ticks j <= V) -> In (k, Some v) (vpin ids ticks V n b0) -> 0 <= v /\ v <= 1.
Proof. intros Hn HV Hvol Hbar H. destruct (@vpin_le ids ticks V n b0 k v V) as [A B]; auto; [now apply Qclt_le_weak|]. split; auto. replace 1 with (V / V); auto. field. now apply Qc_pos_neq. Qed.
(** REFUTED for the library's own volume bars: three ticks of volume 3 in bars of volume 5 *)
Definition lumpy := [Tick 0 1 3; Tick 1 2 3; Tick 2 3 3].
Theorem c82_volume_bars_refuted : exists ticks freq k v, (forall t, In t ticks -> 0 < t_vol t /\ t_vol t <= freq) /\ 0 < freq /\ In (k, Some v) (vpin (cum_bar_ids (map t_vol ticks) freq) ticks freq 1 1) /\ 1 < v.
Proof. exists lumpy, 5, 1%Z, (6 / 5). repeat split; try (destruct H as [<-|[<-|[<-|[]]]]; reflexivity); try (destruct H as [<-|[<-|[<-|[]]]]; discriminate). vm_compute. right. now left. Qed.
(** the excess is bounded by the largest tick: a volume bar holds at most [freq] plus one tick *)
Definition from_vol (f acc : Qc) (k : Z) (l : list Qc) : Qc := qsum (rows_of k (combine (map (fun c => qfloor (c / f)) (cumsum_from acc l)) l)).
Lemma from_vol_cons f acc k x l : from_vol f acc k (x :: l) = (if (qfloor ((acc + x) / f) =? k)%Z then x else 0) + from_vol f (acc + x) k l.
Proof. unfold from_vol, rows_of. cbn [cumsum_from map combine filter fst snd]. destruct (_ =? k)%Z; cbn [map qsum snd]; qlra. Qed.
Lemma from_vol_past f k : 0 < f -> forall l acc, (forall x, In x l -> 0 <= x) -> qz (k + 1) * f <= acc -> from_vol f acc k l = 0.
Proof.
  intros Hf. induction l as [|y l IH]; intros a HV Ha; [reflexivity|]. rewrite from_vol_cons. assert (Hy : 0 <= y) by (apply HV; now left). rewrite IH by (try (intros; apply HV; now right); qlra).
  destruct (Z.eqb_spec (qfloor ((a + y) / f)) k) as [E|E]; [|qlra]. exfalso. assert (Hq : qz (k + 1) <= (a + y) / f) by (apply Qcdiv_ge_iff; auto; qlra). apply qfloor_ge in Hq. lia.
Qed.
Lemma from_vol_inside f k : 0 < f -> forall l acc, (forall x, In x l -> 0 <= x) -> acc <= qz (k + 1) * f -> from_vol f acc k l <= qz (k + 1) * f - acc.
Proof.
  intros Hf. induction l as [|x l IH]; intros acc HV Hacc; [cbn; qlra|]. rewrite from_vol_cons. assert (Hx : 0 <= x) by (apply HV; now left). assert (HV' : forall y, In y l -> 0 <= y) by (intros; apply HV; now right).
  destruct (Qclt_le_dec (qz (k + 1) * f) (acc + x)) as [Hgt|Hle].
  - rewrite from_vol_past by (auto; qlra). destruct (Z.eqb_spec (qfloor ((acc + x) / f)) k) as [E|E]; [|qlra]. exfalso. assert (Hq : qz (k + 1) <= (acc + x) / f) by (apply Qcdiv_ge_iff; auto; qlra). apply qfloor_ge in Hq. lia.
  - specialize (IH (acc + x) HV' Hle). destruct (_ =? k)%Z; qlra.
Qed.
Lemma from_vol_bound f k M : 0 < f -> 0 <= M -> forall l acc, (forall x, In x l -> 0 <= x /\ x <= M) -> from_vol f acc k l <= f + M.
Proof.
  intros Hf HM. induction l as [|x l IH]; intros acc HV; [cbn; qlra|]. destruct (HV x (or_introl eq_refl)) as [Hx HxM]. assert (HV' : forall y, In y l -> 0 <= y /\ y <= M) by (intros; apply HV; now right).
  rewrite from_vol_cons. destruct (Z.eqb_spec (qfloor ((acc + x) / f)) k) as [E|E]; [|specialize (IH (acc + x) HV'); qlra].
  pose proof (qfloor_le ((acc + x) / f)) as H1. pose proof (qfloor_lt ((acc + x) / f)) as H2. rewrite E in H1, H2. apply Qcdiv_ge_iff in H1; auto. apply Qcdiv_lt_iff in H2; auto.
  assert (Hk : qz (k + 1) * f = qz k * f + f) by (rewrite qz_add; ring). pose proof (@from_vol_inside f k Hf l (acc + x) ltac:(intros; apply HV'; auto)) as HI. assert (acc + x <= qz (k + 1) * f) by (rewrite Hk; qlra). specialize (HI H). rewrite Hk in HI. qlra.
Qed.
Theorem c82_volume_bar_bound ticks freq n b0 k v M : (1 <= n)%nat -> 0 < freq -> (forall t, In t ticks -> 0 <= t_vol t /\ t_vol t <= M) -> In (k, Some v) (vpin (cum_bar_ids (map t_vol ticks) freq) ticks freq n b0) -> 0 <= v /\ v <= 1 + M / freq.
Proof.
  intros Hn Hf HV H. destruct ticks as [|t0 ticks]; [vm_compute in H; contradiction|]. assert (HM : 0 <= M) by (destruct (HV t0 (or_introl eq_refl)); qlra).
  replace (1 + M / freq) with ((freq + M) / freq) by (field; now apply Qc_pos_neq).
  eapply vpin_le; eauto; [qlra|intros t Ht; now apply HV|]. intros j _. unfold bar_volume. apply (@from_vol_bound freq j M Hf HM (map t_vol (t0 :: ticks)) 0). intros x Hx. apply in_map_iff in Hx. destruct Hx as (t & <- & Ht). now apply HV.
Qed.
Example c82_guard_ex : (forall j, In j [0; 0; 1]%Z -> bar_volume [0; 0; 1]%Z lumpy j <= 6) /\ exists v, In (0%Z, Some v) (vpin [0; 0; 1]%Z lumpy 6 1 1) /\ v = 1.
Proof. split; [intros j [<-|[<-|[<-|[]]]]; discriminate|]. eexists. split; [vm_compute; left; reflexivity|apply Qc_is_canon; reflexivity]. Qed.

(** C107: the documented quantity (Easley et al.): mean over the last n bars of |buy volume - sell volume| over the bar volume; flows are signed by the tick rule *)
Definition bar_flow (ids : list Z) (ticks : list tick) (b0 : Qc) (k : Z) : Qc := qsum (rows_of k (combine ids (zip_with Qcmult (tick_rule (map t_price ticks) b0) (map t_vol ticks)))).
Lemma zip_net_flow vs : forall bs, (forall b, In b bs -> b = 1 \/ b = - (1)) -> zip_with tick_net vs bs = zip_with Qcmult bs vs.
Proof.
  unfold zip_with. induction vs as [|v vs IH]; intros [|b bs] H; auto. cbn [combine map fst snd]. f_equal; [|apply IH; intros; apply H; now right]. destruct (H b (or_introl eq_refl)) as [->| ->]; unfold tick_net.
  - destruct (qeq_spec 1 1), (qeq_spec 1 (-1)); try congruence; try (exfalso; discriminate). qlra.
  - destruct (qeq_spec (- (1)) 1), (qeq_spec (- (1)) (-1)); try (exfalso; discriminate); try (exfalso; apply n0; reflexivity). qlra.
Qed.
(** the net volumes are the signed flows of the bars, one per bar id in increasing order *)
Theorem c107_net_volumes ids ticks b0 : length ids = length ticks -> b0 = 1 \/ b0 = - (1) ->
  zssorted (map fst (net_volumes ids ticks b0)) /\ (forall k, In k (map fst (net_volumes ids ticks b0)) <-> In k ids) /\ (forall k s, In (k, s) (net_volumes ids ticks b0) -> s = bar_flow ids ticks b0 k).
Proof.
  intros HL Hb. set (rows := combine ids (zip_with tick_net (map t_vol ticks) (tick_rule (map t_price ticks) b0))). assert (Ek : map fst (net_volumes ids ticks b0) = map fst (groupby rows)) by (unfold net_volumes; rewrite map_map; reflexivity).
  destruct (groupby_spec rows) as (S1 & K1 & R1). rewrite Ek. split; auto. split.
  - intros k. rewrite K1. unfold rows. rewrite combine_fst; [reflexivity|]. rewrite zip_with_length; rewrite ?map_length, ?tick_rule_length, ?map_length; auto.
  - intros k s H. apply net_volumes_in in H. subst s. unfold bar_flow. rewrite zip_net_flow; auto. intros b Hin. apply (proj2 (c14_tick_rule_values (map t_price ticks) b0)) in Hin. destruct Hin as [->|[->| ->]]; auto.
Qed.
(** REFUTED for n > 1: the absolute value is taken after summing the n bars, so opposite imbalances cancel *)
Definition mean_imbalance (V : Qc) (flows : list Qc) : Qc := qsum (map qabs flows) / (qn (length flows) * V).
Theorem c107_cancellation_refuted : exists ids ticks v, vpin ids ticks 1 2 1 = [(0%Z, None); (1%Z, Some v)] /\ v = 0 /\ mean_imbalance 1 (map snd (net_volumes ids ticks 1)) = 1.
Proof. exists [0; 1]%Z, [Tick 0 2 1; Tick 1 1 1]. eexists. split; [vm_compute; reflexivity|]. split; apply Qc_is_canon; vm_compute; reflexivity. Qed.
(** it is never above the documented value, and equals it for n = 1 or when the n bars lean the same way *)
Theorem c107_at_most_documented (V : Qc) (flows : list Qc) : 0 < V -> flows <> [] -> qabs (qsum flows) / (qn (length flows) * V) <= mean_imbalance V flows.
Proof.
  intros HV Hne. assert (Hq : 0 < qn (length flows)) by (apply qn_pos; destruct flows; [congruence|cbn; lia]). assert (Hd : 0 < qn (length flows) * V) by qnra. unfold mean_imbalance. apply Qcdiv_le_iff; auto. rewrite Qcdiv_mul_cancel by now apply Qc_pos_neq.
  rewrite <- (map_id flows) at 1. apply (@qsum_map_abs Qc (fun x => x)).
Qed.
Theorem c107_same_side (V : Qc) (flows : list Qc) : (forall x, In x flows -> 0 <= x) \/ (forall x, In x flows -> x <= 0) -> qabs (qsum flows) / (qn (length flows) * V) = mean_imbalance V flows.
Proof.
  intros H. unfold mean_imbalance. f_equal. destruct H as [H|H].
  - rewrite qabs_pos by now apply qsum_nonneg. f_equal. rewrite <- (map_id flows) at 1. apply map_ext_in. intros x Hx. now rewrite qabs_pos by auto.
  - induction flows as [|x l IH]; [rewrite qabs_pos; [reflexivity|cbn; qlra]|]. cbn [map qsum]. rewrite <- IH by (intros; apply H; now right). assert (Hx : x <= 0) by (apply H; now left).
    assert (Hl : qsum l <= 0). { clear IH. assert (Hl' : forall y, In y l -> y <= 0) by (intros; apply H; now right). clear H. induction l as [|y l IHl]; [cbn; qlra|]. cbn [qsum]. assert (y <= 0) by (apply Hl'; now left). assert (qsum l <= 0) by (apply IHl; intros; apply Hl'; now right). qlra. }
    rewrite !qabs_neg by qlra. ring.
Qed.
(** the reported values: bar t gets the window of the n bars ending with it *)
Theorem c107_value ids ticks V n b0 t k : (1 <= n)%nat -> 0 < V -> nth_error (map fst (net_volumes ids ticks b0)) t = Some k ->
  nth_error (vpin ids ticks V n b0) t = Some (k, if (S t <? n)%nat then None else Some (qabs (qsum (firstn n (skipn (S t - n) (map snd (net_volumes ids ticks b0))))) / (qn n * V))).
Proof.
  intros Hn HV Hk. assert (Ht : (t < length (net_volumes ids ticks b0))%nat) by (rewrite <- (map_length fst); apply nth_error_Some; congruence). unfold vpin. apply nth_error_combine_some; auto.
  rewrite nth_error_map. unfold rolling_sum. rewrite nth_error_map, (nth_error_nth' (seq 0 _) (n := t) 0%nat) by (rewrite seq_length, map_length; exact Ht). rewrite seq_nth by (rewrite map_length; exact Ht). cbn [option_map plus].
  destruct (S t <? n)%nat; auto. unfold np_div. destruct (qeq_spec (qn n * V) 0) as [E|E]; auto. exfalso. assert (0 < qn n) by (apply qn_pos; lia). assert (0 < qn n * V) by qnra. rewrite E in H0. now apply (Qclt_not_eq 0 0).
Qed.
Print Assumptions c81_roll_nonnegative.
Print Assumptions c81_roll_value.
Print Assumptions c81_roll_too_few.
Print Assumptions c81_roll_affine.
Print Assumptions c103_noise_variance_negative_refuted.
Print Assumptions c103_decomposition.
Print Assumptions c103_no_spread.
Print Assumptions c105_value.
Print Assumptions c105_nonnegative.
Print Assumptions c105_scale_invariant.
Print Assumptions c105_constant_range.
Print Assumptions c104_rows.
Print Assumptions c81_corwin_schultz_range.
Print Assumptions c104_volatility_nonnegative.
Print Assumptions c104_pure_spread_exact.
Print Assumptions c104_scale_invariant.
Print Assumptions c104_window.
Print Assumptions c106_least_squares.
Print Assumptions c106_exact_recovery.
Print Assumptions c106_constant_regressor.
Print Assumptions c106_kyle_rows.
Print Assumptions c106_kyle_exact.
Print Assumptions c106_amihud_rows.
Print Assumptions c106_amihud_equal_dollar_volume.
Print Assumptions c106_kyle_constant_signed_volume.
Print Assumptions c106_hasbrouck_rows.
Print Assumptions c82_under_guard.
Print Assumptions c82_volume_bars_refuted.
Print Assumptions c82_volume_bar_bound.
Print Assumptions c107_net_volumes.
Print Assumptions c107_cancellation_refuted.
Print Assumptions c107_at_most_documented.
Print Assumptions c107_same_side.
Print Assumptions c107_value.

Open Scope R_scope.
(** ** C104 written out: Corwin and Schultz's estimators from beta and gamma, cut off at 0 *)
Theorem c104_value bars w t : (1 <= w)%nat -> (w <= t < length bars)%nat ->
  let beta := cs_beta bars w t in let gamma := cs_gamma bars t in let c := 3 - 2 * sqrt 2 in
  let alpha := Rmax 0 ((sqrt (2 * beta) - sqrt beta) / c - sqrt (gamma / c)) in
  nth_error (fst (corwin_schultz bars w)) (t - w) = Some (t, 2 * (exp alpha - 1) / (1 + exp alpha), (t - w)%nat) /\
  nth_error (snd (corwin_schultz bars w)) (t - w) = Some (t, Some (Rmax 0 ((/ sqrt 2 - 1) * sqrt beta / (sqrt (8 / PI) * c) + sqrt (gamma / (8 / PI * c))))).
Proof.
  intros Hw Ht beta gamma c alpha. rewrite c104_rows by auto. cbn [fst snd]. fold beta gamma.
  assert (EA : alpha_of beta gamma = alpha) by (unfold alpha_of, alpha, cs_denom; fold c; unfold Rmax; destruct (Rlt_dec _ 0), (Rle_dec 0 _); lra).
  assert (E8 : sqrt (8 / PI) * sqrt (8 / PI) = 8 / PI) by (apply sqrt_sqrt; left; apply Rdiv_lt_0_compat; [lra|apply PI_RGT_0]).
  assert (EV : cs_volatility beta gamma = Rmax 0 ((/ sqrt 2 - 1) * sqrt beta / (sqrt (8 / PI) * c) + sqrt (gamma / (8 / PI * c)))) by (unfold cs_volatility, cs_denom; fold c; rewrite E8; unfold Rmax; destruct (Rlt_dec _ 0), (Rle_dec 0 _); lra).
  split.
  - rewrite nth_error_map, nth_error_nth' with (d := 0%nat) by (rewrite seq_length; lia). rewrite seq_nth by lia. cbn [option_map]. replace (w + (t - w))%nat with t by lia. fold beta gamma. now rewrite EA.
  - rewrite nth_error_map, nth_error_nth' with (d := 0%nat) by (rewrite seq_length; lia). rewrite seq_nth by lia. cbn [option_map]. replace (w + (t - w))%nat with t by lia. fold beta gamma. now rewrite EV.
Qed.
Print Assumptions c104_value.
