(** C153: the Gaussian filter that smooths the implied densities. *)
From Verif Require Import Py RNum StructModel StructProps RegModel RegProofs RecProps Normal OptionModel RootModel KDEModel KDEProps CurveModel.
Set Implicit Arguments.
Unset Strict Implicit.
Open Scope R_scope.

(** ** sums *)
Lemma sum_n_split a b f : sum_n (a + b) f = sum_n a f + sum_n b (fun i => f (a + i)%nat).
Proof. induction b as [|b IH]; [rewrite Nat.add_0_r; unfold sum_n at 3; cbn; ring|]. rewrite Nat.add_succ_r, !sum_n_last, IH. ring. Qed.
Lemma sum_n_reverse n f : sum_n n (fun i => f (n - 1 - i)%nat) = sum_n n f.
Proof.
  revert f. induction n as [|n IH]; intro f; [reflexivity|]. rewrite sum_n_last. rewrite (sum_n_S n f). replace (S n - 1 - n)%nat with 0%nat by lia.
  rewrite (@sum_n_ext n _ (fun i => f (S (n - 1 - i)))) by (intros i Hi; f_equal; lia). rewrite (IH (fun i => f (S i))). ring.
Qed.
Lemma sum_n_list l : sum_n (length l) (fun i => nth i l 0) = rsum l.
Proof. unfold sum_n. induction l as [|a l IH]; [reflexivity|]. cbn [length seq map rsum]. rewrite <- seq_shift, map_map. cbn [nth]. now rewrite IH. Qed.
Lemma sum_n_const n c : sum_n n (fun _ => c) = INR n * c.
Proof. induction n as [|n IH]; [unfold sum_n; cbn; ring|]. rewrite sum_n_last, IH, S_INR. ring. Qed.
Lemma sum_n_le n f g : (forall i, (i < n)%nat -> f i <= g i) -> sum_n n f <= sum_n n g.
Proof. induction n as [|n IH]; intro H; [unfold sum_n; cbn; lra|]. rewrite !sum_n_last. apply Rplus_le_compat; [apply IH; auto|apply H; lia]. Qed.
Lemma offsets_sum r F : rsum (map F (offsets r)) = sum_n (2 * r + 1) (fun j => F (Z.of_nat j - Z.of_nat r)%Z).
Proof. unfold offsets, sum_n. now rewrite map_map. Qed.
Lemma offsets_symmetric r F : rsum (map (fun d => F (- d)%Z) (offsets r)) = rsum (map F (offsets r)).
Proof. rewrite !offsets_sum. rewrite <- (sum_n_reverse (2 * r + 1)). apply sum_n_ext. intros j Hj. f_equal. lia. Qed.

(** ** reflection *)
Section REFLECT.
  Variable l : list R.
  Let n := length l.
  Hypothesis NE : (0 < n)%nat.
  Let h (z : Z) : R := nth (reflect n z) l 0.
  Lemma reflect_lt z : (reflect n z < n)%nat.
  Proof. unfold reflect. pose proof (Z.mod_pos_bound z (2 * Z.of_nat n) ltac:(lia)). destruct (Z.ltb_spec (z mod (2 * Z.of_nat n)) (Z.of_nat n)); lia. Qed.
  Lemma reflect_period z : reflect n (z + 2 * Z.of_nat n) = reflect n z.
  Proof. unfold reflect. replace (z + 2 * Z.of_nat n)%Z with (z + 1 * (2 * Z.of_nat n))%Z by lia. now rewrite Z.mod_add by lia. Qed.
  Lemma reflect_mirror z : reflect n (- 1 - z) = reflect n z.
  Proof.
    unfold reflect. set (N := (2 * Z.of_nat n)%Z). assert (HN : (0 < N)%Z) by (unfold N; lia). pose proof (Z.mod_pos_bound z N HN) as B. pose proof (Z.div_mod z N ltac:(lia)) as D.
    assert (E : ((- 1 - z) mod N = N - 1 - z mod N)%Z) by (symmetry; apply Z.mod_unique_pos with (q := (- (z / N) - 1)%Z); lia). rewrite E.
    destruct (Z.ltb_spec (z mod N) (Z.of_nat n)), (Z.ltb_spec (N - 1 - z mod N) (Z.of_nat n)); unfold N in *; lia.
  Qed.
  Lemma reflect_inside i : (i < n)%nat -> reflect n (Z.of_nat i) = i /\ reflect n (Z.of_nat (n + i)) = (n - 1 - i)%nat.
  Proof.
    intro Hi. unfold reflect. rewrite !Z.mod_small by lia. split.
    - destruct (Z.ltb_spec (Z.of_nat i) (Z.of_nat n)); lia.
    - destruct (Z.ltb_spec (Z.of_nat (n + i)) (Z.of_nat n)); lia.
  Qed.
  Lemma period_step a : sum_n (2 * n) (fun i => h (a + 1 + Z.of_nat i)) = sum_n (2 * n) (fun i => h (a + Z.of_nat i)).
  Proof.
    replace (2 * n)%nat with (S (2 * n - 1)) by lia. rewrite sum_n_last, (sum_n_S (2 * n - 1)).
    rewrite (@sum_n_ext (2 * n - 1) (fun i => h (a + 1 + Z.of_nat i)) (fun j => h (a + Z.of_nat (S j)))) by (intros i _; f_equal; lia).
    replace (h (a + 1 + Z.of_nat (2 * n - 1))) with (h (a + Z.of_nat 0)); [ring|]. unfold h. f_equal. rewrite <- (reflect_period (a + Z.of_nat 0)). f_equal. lia.
  Qed.
  Lemma period_sum a : sum_n (2 * n) (fun i => h (a + Z.of_nat i)) = 2 * rsum l.
  Proof.
    assert (S0 : sum_n (2 * n) (fun i => h (0 + Z.of_nat i)) = 2 * rsum l).
    { replace (2 * n)%nat with (n + n)%nat by lia. rewrite sum_n_split. rewrite (@sum_n_ext n _ (fun i => nth i l 0)) by (intros i Hi; unfold h; cbn [Z.add]; now rewrite (proj1 (reflect_inside Hi))).
      rewrite (@sum_n_ext n (fun i => h (0 + Z.of_nat (n + i))) (fun i => nth (n - 1 - i) l 0)) by (intros i Hi; unfold h; cbn [Z.add]; now rewrite (proj2 (reflect_inside Hi))).
      rewrite (sum_n_reverse n (fun i => nth i l 0)). unfold n. rewrite sum_n_list. ring. }
    destruct (Z.le_gt_cases 0 a) as [Ha|Ha].
    - revert a Ha. apply natlike_ind; auto. intros a Ha IH. unfold Z.succ. now rewrite period_step.
    - assert (G : forall b, (0 <= b)%Z -> sum_n (2 * n) (fun i => h (- b + Z.of_nat i)) = 2 * rsum l).
      { apply natlike_ind; [exact S0|]. intros b Hb IH. rewrite <- period_step. replace (- Z.succ b + 1)%Z with (- b)%Z by lia. exact IH. }
      specialize (G (- a)%Z ltac:(lia)). now rewrite Z.opp_involutive in G.
  Qed.
  Lemma shifts_balance d : sum_n n (fun i => h (Z.of_nat i + d)) + sum_n n (fun i => h (Z.of_nat i + - d)) = 2 * rsum l.
  Proof.
    rewrite <- (period_sum (d - Z.of_nat n)). replace (2 * n)%nat with (n + n)%nat by lia. rewrite sum_n_split, Rplus_comm. f_equal.
    - rewrite <- (sum_n_reverse n). apply sum_n_ext. intros i Hi. unfold h. f_equal. rewrite <- reflect_mirror. f_equal. lia.
    - apply sum_n_ext. intros i Hi. f_equal. lia.
  Qed.
End REFLECT.

(** ** C153 *)
Lemma radius_positive sigma : 0 < sigma -> (0 <= filter_radius sigma)%Z.
Proof.
  intro H. unfold filter_radius. destruct (Rle_dec 0 (4 * sigma + 1 / 2)) as [C|C]; [|lra]. destruct (base_Int_part (4 * sigma + 1 / 2)) as [_ B].
  assert (-1 < Int_part (4 * sigma + 1 / 2))%Z; [|lia]. apply lt_IZR. lra.
Qed.
Lemma bump_pos sigma d : 0 < bump sigma d. Proof. apply exp_pos. Qed.
Lemma bump_even sigma d : bump sigma (- d) = bump sigma d.
Proof. unfold bump. rewrite opp_IZR. do 2 f_equal. ring. Qed.
Lemma bumps_pos sigma r : 0 < rsum (map (bump sigma) (offsets r)).
Proof.
  unfold offsets. replace (2 * r + 1)%nat with (S (2 * r)) by lia. cbn [seq map rsum]. pose proof (bump_pos sigma (Z.of_nat 0 - Z.of_nat r)).
  assert (0 <= rsum (map (bump sigma) (map (fun j => (Z.of_nat j - Z.of_nat r)%Z) (seq 1 (2 * r))))); [|lra]. apply rsum_nonneg. intros y Hy. apply in_map_iff in Hy. destruct Hy as (d & <- & _). left. apply bump_pos.
Qed.
Lemma filter_spec sigma l f : gaussian_filter1d sigma l = Ok f -> exists (w : Z -> R) r, (forall d, 0 < w d) /\ (forall d, w (- d)%Z = w d) /\ rsum (map w (offsets r)) = 1 /\
  length f = length l /\ forall i, (i < length l)%nat -> nth i f 0 = rsum (map (fun d => w d * nth (reflect (length l) (Z.of_nat i + d)) l 0) (offsets r)).
Proof.
  intro H. unfold gaussian_filter1d in H. destruct (Req_EM_T sigma 0) as [|Z]; [discriminate|]. destruct (filter_radius sigma <? 0)%Z; [discriminate|]. injection H as <-. set (r := Z.to_nat (filter_radius sigma)).
  set (T := rsum (map (bump sigma) (offsets r))). assert (PT : 0 < T) by apply bumps_pos. exists (fun d => bump sigma d / T), r. split; [intro d; apply Rdiv_lt_0_compat; auto; apply bump_pos|]. split; [intro d; now rewrite bump_even|].
  split; [|split; [now rewrite map_length, seq_length|]].
  - assert (E : rsum (map (fun d => bump sigma d / T) (offsets r)) = / T * rsum (map (bump sigma) (offsets r))) by (rewrite <- rsum_map_scale; apply rsum_map_ext; intros; unfold Rdiv; ring). rewrite E. fold T. apply Rinv_l. lra.
  - intros i Hi. set (G := fun i => rsum (map (fun d => bump sigma d / T * nth (reflect (length l) (Z.of_nat i + d)) l 0) (offsets r))). rewrite nth_indep with (d' := G 0%nat) by (now rewrite map_length, seq_length). rewrite (map_nth G), seq_nth by auto. reflexivity.
Qed.
(** a positive width always works; zero divides by zero, and -3/8 or less leaves no weights *)
Theorem c153_raises sigma l : (0 < sigma -> exists f, gaussian_filter1d sigma l = Ok f) /\ (gaussian_filter1d sigma l = Err ZeroDivisionError <-> sigma = 0) /\
  (gaussian_filter1d sigma l = Err RuntimeError <-> sigma <= - 3 / 8) /\ forall e, gaussian_filter1d sigma l = Err e -> e = ZeroDivisionError \/ e = RuntimeError.
Proof.
  assert (RN : (filter_radius sigma <? 0)%Z = true <-> sigma <= - 3 / 8).
  { unfold filter_radius. destruct (Rle_dec 0 (4 * sigma + 1 / 2)) as [C|C].
    - destruct (base_Int_part (4 * sigma + 1 / 2)) as [_ B]. assert (-1 < Int_part (4 * sigma + 1 / 2))%Z by (apply lt_IZR; lra). split; [intro Q; apply Z.ltb_lt in Q; lia|lra].
    - destruct (base_Int_part (- (4 * sigma + 1 / 2))) as [B1 B2]. set (I := Int_part (- (4 * sigma + 1 / 2))) in *. split; intro Q.
      + apply Z.ltb_lt in Q. assert (1 <= IZR I) by (apply IZR_le; lia). lra.
      + apply Z.ltb_lt. assert (0 < I)%Z by (apply lt_IZR; lra). lia. }
  unfold gaussian_filter1d. destruct (Req_EM_T sigma 0) as [->|Z].
  - split; [lra|]. split; [tauto|]. split; [split; [discriminate|lra]|]. intros e [= <-]. auto.
  - destruct (filter_radius sigma <? 0)%Z eqn:E.
    + assert (sigma <= - 3 / 8) by now apply RN. split; [lra|]. split; [split; [discriminate|contradiction]|]. split; [tauto|]. intros e [= <-]. auto.
    + split; [eauto|]. split; [split; [discriminate|contradiction]|]. split; [split; [discriminate|intro C; apply RN in C; congruence]|discriminate].
Qed.
(** the total is kept *)
Theorem c153_total sigma l f : gaussian_filter1d sigma l = Ok f -> length f = length l /\ rsum f = rsum l.
Proof.
  intro H. destruct (filter_spec H) as (w & r & _ & Ev & W1 & HL & HN). split; auto. destruct (Nat.eq_dec (length l) 0) as [Z|NZ].
  - destruct l; [|discriminate]. destruct f; [reflexivity|discriminate].
  - rewrite <- (sum_n_list f), HL. set (n := length l) in *. set (W := fun d => sum_n n (fun i => nth (reflect n (Z.of_nat i + d)) l 0)).
    assert (E : sum_n n (fun i => nth i f 0) = rsum (map (fun d => w d * W d) (offsets r))).
    { rewrite (@sum_n_ext n _ _ HN). rewrite (@sum_n_ext n _ (fun i => sum_n (2 * r + 1) (fun j => w (Z.of_nat j - Z.of_nat r)%Z * nth (reflect n (Z.of_nat i + (Z.of_nat j - Z.of_nat r))) l 0))) by (intros i _; apply offsets_sum).
      rewrite sum_n_swap, offsets_sum. apply sum_n_ext. intros j _. unfold W. now rewrite <- sum_n_scale. }
    assert (E' : sum_n n (fun i => nth i f 0) = rsum (map (fun d => w d * W (- d)%Z) (offsets r))).
    { rewrite E, <- offsets_symmetric. apply rsum_map_ext. intros d _. now rewrite Ev. }
    assert (T : 2 * sum_n n (fun i => nth i f 0) = 2 * rsum l); [|lra].
    replace (2 * sum_n n (fun i => nth i f 0)) with (sum_n n (fun i => nth i f 0) + sum_n n (fun i => nth i f 0)) by ring. rewrite E at 1. rewrite E', <- rsum_map_add.
    replace (2 * rsum l) with (2 * rsum l * rsum (map w (offsets r))) by (rewrite W1; ring). rewrite <- rsum_map_scale. apply rsum_map_ext. intros d _. rewrite <- Rmult_plus_distr_l. change (W d + W (- d)%Z) with (sum_n (length l) (fun i => nth (reflect (length l) (Z.of_nat i + d)) l 0) + sum_n (length l) (fun i => nth (reflect (length l) (Z.of_nat i + - d)) l 0)). rewrite (@shifts_balance l ltac:(fold n; lia) d). ring.
Qed.
(** every smoothed value lies between the bounds of the values *)
Theorem c153_bounds sigma l f a b : gaussian_filter1d sigma l = Ok f -> (forall x, In x l -> a <= x <= b) -> forall y, In y f -> a <= y <= b.
Proof.
  intros H HB y Hy. destruct (filter_spec H) as (w & r & Pw & _ & W1 & HL & HN). destruct (In_nth f y 0 Hy) as (i & Hi & <-). rewrite HL in Hi. rewrite HN by auto.
  assert (V : forall d, a <= nth (reflect (length l) (Z.of_nat i + d)) l 0 <= b) by (intro d; apply HB, nth_In, reflect_lt; lia).
  rewrite offsets_sum in W1 |- *. split.
  - rewrite <- (Rmult_1_r a), <- W1, <- sum_n_scale. apply sum_n_le. intros j _. rewrite Rmult_comm. apply Rmult_le_compat_l; [left; apply Pw|apply V].
  - rewrite <- (Rmult_1_r b), <- W1, <- sum_n_scale. apply sum_n_le. intros j _. rewrite (Rmult_comm b). apply Rmult_le_compat_l; [left; apply Pw|apply V].
Qed.
(** it depends linearly on the values *)
Theorem c153_linear sigma l1 l2 f1 f2 al be : length l1 = length l2 -> gaussian_filter1d sigma l1 = Ok f1 -> gaussian_filter1d sigma l2 = Ok f2 ->
  exists f, gaussian_filter1d sigma (map (fun p => al * fst p + be * snd p) (combine l1 l2)) = Ok f /\ forall i, (i < length l1)%nat -> nth i f 0 = al * nth i f1 0 + be * nth i f2 0.
Proof.
  intros HL H1 H2. set (l := map (fun p => al * fst p + be * snd p) (combine l1 l2)). assert (LL : length l = length l1) by (unfold l; rewrite map_length, combine_length; lia).
  unfold gaussian_filter1d in *. destruct (Req_EM_T sigma 0); [discriminate|]. destruct (filter_radius sigma <? 0)%Z; [discriminate|]. injection H1 as <-. injection H2 as <-.
  eexists. split; [reflexivity|]. intros i Hi. set (off := offsets _). set (T := rsum (map (bump sigma) off)).
  set (G := fun (l : list R) i => rsum (map (fun d => bump sigma d / T * nth (reflect (length l) (Z.of_nat i + d)) l 0) off)).
  assert (N : forall l, (i < length l)%nat -> nth i (map (fun i => G l i) (seq 0 (length l))) 0 = G l i) by (intros l' Hl; rewrite nth_indep with (d' := G l' 0%nat) by (now rewrite map_length, seq_length); rewrite (map_nth (G l')), seq_nth by auto; reflexivity).
  fold (G l) (G l1) (G l2). rewrite !N by lia. unfold G. rewrite <- !rsum_map_scale, <- rsum_map_add. apply rsum_map_ext. intros d _. rewrite LL, <- HL. set (k := reflect (length l1) (Z.of_nat i + d)). assert (Hk : (k < length l1)%nat) by (apply reflect_lt; lia).
  unfold l. rewrite nth_indep with (d' := (fun p => al * fst p + be * snd p) (0, 0)) by (rewrite map_length, combine_length; lia). rewrite (@map_nth _ _ (fun p => al * fst p + be * snd p)), combine_nth by lia. cbn [fst snd]. ring.
Qed.
(** ** smoothed densities *)
Section SMOOTHED.
  Variables (phi cdf : R -> R) (brentq : (R -> R) -> R -> R -> res R) (spline : list R -> list R -> res ((R -> R) * (R -> R))) (choose : list (R * R) -> nat -> list R).
  Theorem c153_densities q t r n w vs s0 ty raw : 0 < w -> implied_discrete_pdf cdf brentq spline gaussian_filter1d q t r n None vs s0 ty = Ok raw ->
    exists l, implied_discrete_pdf cdf brentq spline gaussian_filter1d q t r n (Some w) vs s0 ty = Ok l /\ map fst l = map fst raw /\ rsum (map snd l) = rsum (map snd raw) /\ (forall k x, In (k, x) l -> 0 <= x) /\
      forall a b, (forall k x, In (k, x) raw -> a <= x <= b) -> forall k x, In (k, x) l -> a <= x <= b.
  Proof.
    intros Hw HR. destruct q as [|o q]. { injection HR as <-. exists []. cbn. repeat split; auto; intros; contradiction. }
    pose proof (@c119_smoothed cdf brentq spline gaussian_filter1d (o :: q) t r n w vs s0 ty) as S. rewrite HR in S. destruct (S ltac:(discriminate)) as [_ S']. destruct (proj1 (c153_raises w (map snd raw)) Hw) as (f & Hf).
    destruct (c153_total Hf) as [LF TF]. rewrite map_length in LF. destruct (S' f Hf LF) as (l & El & E1 & E2). exists l. split; auto. split; auto. split; [congruence|].
    assert (B : forall a b, (forall k x, In (k, x) raw -> a <= x <= b) -> forall k x, In (k, x) l -> a <= x <= b).
    { intros a b Hab k x Hin. apply (c153_bounds Hf). { intros u Hu. apply in_map_iff in Hu. destruct Hu as ([k0 x0] & <- & Hu). eapply Hab. exact Hu. } rewrite <- E2. apply in_map_iff. exists (k, x). auto. }
    split; auto. assert (NN : forall k x, In (k, x) raw -> 0 <= x).
    { intros k x Hin. destruct (@c119_discrete_pdf cdf brentq spline gaussian_filter1d (o :: q) t r n vs s0 ty raw ltac:(discriminate) HR) as (pts & cv & _ & _ & HI & _). apply (HI k x Hin). }
    intros k x Hin. apply (B 0 (rsum (map snd raw)) ) with (k := k); auto. intros k0 x0 H0. split; [eapply NN; exact H0|]. clear - H0 NN. induction raw as [|[k1 x1] raw IH]; [destruct H0|]. cbn.
    assert (0 <= rsum (map snd raw)) by (apply rsum_nonneg; intros y Hy; apply in_map_iff in Hy; destruct Hy as ([k2 x2] & <- & Hy); apply (NN k2); now right).
    destruct H0 as [[= -> ->]|H0]; [lra|]. pose proof (NN k1 x1 (or_introl eq_refl)). assert (x0 <= rsum (map snd raw)) by (apply IH; auto; intros; eapply NN; right; eauto). lra.
  Qed.
End SMOOTHED.
(** one unit of mass in the middle of three *)
Example filter_ex : exists f, gaussian_filter1d 1 [0; 1; 0] = Ok f /\ length f = 3%nat /\ rsum f = 1 /\ forall y, In y f -> 0 <= y <= 1.
Proof.
  destruct (proj1 (c153_raises 1 [0; 1; 0]) ltac:(lra)) as (f & Hf). exists f. destruct (c153_total Hf) as [L T]. split; auto. split; auto. split; [rewrite T; cbn; ring|]. apply (c153_bounds Hf). intros x [<-|[<-|[<-|[]]]]; lra.
Qed.
(** the filter written out: Gaussian weights at whole distances up to four standard deviations, over the list extended by reflection at both ends *)
Definition extends (l : list R) (ext : Z -> R) : Prop := (forall i, (i < length l)%nat -> ext (Z.of_nat i) = nth i l 0) /\ (forall z, ext (- 1 - z)%Z = ext z) /\ forall z, ext (z + 2 * Z.of_nat (length l))%Z = ext z.
Lemma extends_reflect l ext z : (0 < length l)%nat -> extends l ext -> ext z = nth (reflect (length l) z) l 0.
Proof.
  intros NE (H1 & H2 & H3). set (n := length l) in *. assert (P : forall k, (0 <= k)%Z -> forall z, ext (z + k * (2 * Z.of_nat n))%Z = ext z).
  { apply (natlike_ind (fun k => forall z, ext (z + k * (2 * Z.of_nat n))%Z = ext z)); [intro y; f_equal; lia|]. intros k Hk IH y. rewrite <- (IH y), <- (H3 (y + k * (2 * Z.of_nat n))%Z). f_equal. lia. }
  assert (PM : ext z = ext (z mod (2 * Z.of_nat n))%Z).
  { pose proof (Z.div_mod z (2 * Z.of_nat n) ltac:(lia)) as D. set (k := (z / (2 * Z.of_nat n))%Z) in *. set (m := (z mod (2 * Z.of_nat n))%Z) in *. destruct (Z.le_gt_cases 0 k) as [Hk|Hk].
    - rewrite <- (P k Hk m). f_equal. lia.
    - rewrite <- (P (- k)%Z ltac:(lia) z). f_equal. lia. }
  rewrite PM. unfold reflect. pose proof (Z.mod_pos_bound z (2 * Z.of_nat n) ltac:(lia)) as B. set (m := (z mod (2 * Z.of_nat n))%Z) in *. destruct (Z.ltb_spec m (Z.of_nat n)) as [L|L].
  - rewrite <- H1 by lia. f_equal. lia.
  - rewrite <- H1 by lia. rewrite <- H2, <- (H3 (- 1 - m)%Z). f_equal. lia.
Qed.
Theorem c153_value sigma l f ext r i : gaussian_filter1d sigma l = Ok f -> extends l ext -> (i < length l)%nat -> 0 < sigma -> INR r <= 4 * sigma + 1 / 2 < INR r + 1 ->
  let g := fun j => exp (- ((INR j - INR r) / sigma) ^ 2 / 2) in
  nth i f 0 = sum_n (2 * r + 1) (fun j => g j * ext (Z.of_nat i + Z.of_nat j - Z.of_nat r)%Z) / sum_n (2 * r + 1) g.
Proof.
  intros H HE Hi Hs Hr g. unfold gaussian_filter1d in H. destruct (Req_EM_T sigma 0); [lra|]. assert (ER : filter_radius sigma = Z.of_nat r).
  { unfold filter_radius. destruct (Rle_dec 0 (4 * sigma + 1 / 2)) as [C|C]; [|lra]. symmetry. rewrite !INR_IZR_INZ in Hr. destruct (base_Int_part (4 * sigma + 1 / 2)) as [B1 B2]. set (p := Int_part (4 * sigma + 1 / 2)) in *.
    assert (Z.of_nat r < p + 1)%Z by (apply lt_IZR; rewrite plus_IZR; lra). assert (p < Z.of_nat r + 1)%Z by (apply lt_IZR; rewrite plus_IZR; lra). lia. }
  rewrite ER, (proj2 (Z.ltb_ge _ _)), Nat2Z.id in H by lia. injection H as <-.
  rewrite nth_indep with (d' := (fun i => rsum (map (fun d => bump sigma d / rsum (map (bump sigma) (offsets r)) * nth (reflect (length l) (Z.of_nat i + d)) l 0) (offsets r))) 0%nat) by (rewrite map_length, seq_length; auto).
  rewrite (map_nth (fun i => rsum (map (fun d => bump sigma d / rsum (map (bump sigma) (offsets r)) * nth (reflect (length l) (Z.of_nat i + d)) l 0) (offsets r)))), seq_nth by auto. cbn [Nat.add].
  assert (EB : forall j, bump sigma (Z.of_nat j - Z.of_nat r) = g j) by (intro j; unfold bump, g; f_equal; rewrite minus_IZR, <- !INR_IZR_INZ; field; lra).
  rewrite !offsets_sum. rewrite (@sum_n_ext _ (fun j => bump sigma (Z.of_nat j - Z.of_nat r)) g) by (intros; apply EB). unfold Rdiv at 2. rewrite Rmult_comm, <- sum_n_scale. apply sum_n_ext. intros j _. rewrite EB.
  rewrite (@extends_reflect l ext _ ltac:(lia) HE). unfold Rdiv. replace (Z.of_nat i + Z.of_nat j - Z.of_nat r)%Z with (Z.of_nat i + (Z.of_nat j - Z.of_nat r))%Z by lia. ring.
Qed.
Example extends_ex : extends [1; 2] (fun z => if (z mod 4 <? 1)%Z then 1 else if (z mod 4 <? 3)%Z then 2 else 1).
Proof.
  split; [|split].
  - intros [|[|i]] Hi; cbn in Hi; try lia; reflexivity.
  - intro z. assert (E : ((-1 - z) mod 4 = 3 - z mod 4)%Z) by (pose proof (Z.mod_pos_bound z 4 ltac:(lia)); pose proof (Z.div_mod z 4 ltac:(lia)); symmetry; apply Z.mod_unique_pos with (q := (- (z / 4) - 1)%Z); lia). rewrite E. pose proof (Z.mod_pos_bound z 4 ltac:(lia)).
    destruct (Z.ltb_spec (3 - z mod 4) 1), (Z.ltb_spec (3 - z mod 4) 3), (Z.ltb_spec (z mod 4) 1), (Z.ltb_spec (z mod 4) 3); auto; lia.
  - intro z. cbn [length]. replace (z + 2 * Z.of_nat 2)%Z with (z + 1 * 4)%Z by lia. now rewrite Z.mod_add by lia.
Qed.
Print Assumptions c153_value.
Print Assumptions c153_raises.
Print Assumptions c153_total.
Print Assumptions c153_bounds.
Print Assumptions c153_linear.
Print Assumptions c153_densities.
