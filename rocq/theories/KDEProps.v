(** C117-C121: the probability of backtest overfitting, and the distribution implied by option prices. *)
From Verif Require Import Py RNum Normal CombModel CombSpec CombProofs CombProps OptionModel OptionProps KDEModel.
From Coq Require Import Lia.
Set Implicit Arguments.
Unset Strict Implicit.
Open Scope R_scope.

(** [v] is the integral of [f] from [lo] ([None]: minus infinity) to [x] *)
Definition vanishes (F : R -> R) : Prop := forall eps, 0 < eps -> exists y0, forall y, y <= y0 -> Rabs (F y) < eps.
Definition integral_of (f : R -> R) (lo : option R) (x v : R) : Prop :=
  exists F, (forall y, derivable_pt_lim F y (f y)) /\ match lo with Some a => v = F x - F a | None => vanishes F /\ v = F x end.

(** Scott's bandwidth, and the density estimate with normal kernels of that bandwidth *)
Definition scott (ls : list R) : R :=
  let n := INR (length ls) in let m := rsum ls / n in sqrt (rsum (map (fun l => (l - m) ^ 2) ls) / (n - 1)) * Rpower n (- / 5).
Definition density_estimate (phi : R -> R) (ls : list R) (x : R) : R := rsum (map (fun l => phi ((x - l) / scott ls) / scott ls) ls) / INR (length ls).

(** ** The normal distribution function *)
Section NORMAL.
  Variable cdf phi : R -> R.
  Hypothesis N : is_normal_cdf cdf.
  Hypothesis D : forall x, derivable_pt_lim cdf x (phi x).
  Lemma phi_pos x : 0 < phi x.
  Proof.
    destruct (nc_derivative N) as (c & Hc & Hd). rewrite (uniqueness_limite _ _ _ _ (D x) (Hd x)). apply Rmult_lt_0_compat; auto. apply bell_pos.
  Qed.
  Lemma cdf_lt a b : a < b -> cdf a < cdf b.
  Proof. apply (@strictly_increasing_of_derivative cdf phi); auto. apply phi_pos. Qed.
  Lemma cdf_le a b : a <= b -> cdf a <= cdf b.
  Proof. intros [H| ->]; [left; now apply cdf_lt|right; reflexivity]. Qed.
  Lemma cdf_half : cdf 0 = / 2.
  Proof. pose proof (nc_symmetry N 0) as H. rewrite Ropp_0 in H. lra. Qed.
  Lemma cdf_below_1 x : cdf x < 1.
  Proof. pose proof (nc_symmetry N x). pose proof (nc_pos N (- x)). lra. Qed.
  Lemma cdf_vanishes : vanishes cdf.
  Proof.
    intros eps He. destruct (nc_limit N He) as [y0 H]. exists y0. intros y Hy. pose proof (nc_pos N y). rewrite Rabs_pos_eq by lra. pose proof (cdf_le Hy). lra.
  Qed.

  (** ** The mixture of normal distribution functions centred at the data *)
  Definition mix (xs : list R) (h x : R) : R := rsum (map (fun c => cdf ((x - c) / h)) xs) / INR (length xs).
  Lemma kernel_derivative h c y : 0 < h -> derivable_pt_lim (fun y => cdf ((y - c) / h)) y (phi ((y - c) / h) / h).
  Proof.
    intros Hh. unfold Rdiv at 2. apply (derivable_pt_lim_comp (fun y => (y - c) / h) cdf); [|apply D].
    replace (/ h) with ((1 - 0) * / h) by (field; lra).
    apply (derivable_pt_lim_ext (fun y => / h * (y - c))). { intro z. field. lra. }
    replace ((1 - 0) * / h) with (/ h * (1 - 0)) by ring. apply (derivable_pt_lim_scal (fun y => y - c)). apply (derivable_pt_lim_minus id (fun _ => c)); [apply derivable_pt_lim_id|apply derivable_pt_lim_const].
  Qed.
  Lemma sum_derivative (F f : R -> R -> R) xs y : (forall c, In c xs -> derivable_pt_lim (F c) y (f c y)) -> derivable_pt_lim (fun y => rsum (map (fun c => F c y) xs)) y (rsum (map (fun c => f c y) xs)).
  Proof.
    induction xs as [|c xs IH]; intros H; cbn [map rsum fold_right]; [apply derivable_pt_lim_const|].
    apply (derivable_pt_lim_plus (F c) (fun y => rsum (map (fun c => F c y) xs))); [apply H; now left|apply IH; intros; apply H; now right].
  Qed.
  Lemma mix_derivative xs h y : 0 < h -> derivable_pt_lim (mix xs h) y (kde_pdf phi xs h y).
  Proof.
    intros Hh. unfold mix, kde_pdf. apply (derivable_pt_lim_ext (fun y => / INR (length xs) * rsum (map (fun c => cdf ((y - c) / h)) xs))); [intro; unfold Rdiv; ring|].
    match goal with |- derivable_pt_lim _ _ (?a / ?b) => replace (a / b) with (/ b * a) by (unfold Rdiv; ring) end. apply (derivable_pt_lim_scal (fun y => rsum (map (fun c => cdf ((y - c) / h)) xs))).
    apply (@sum_derivative (fun c y => cdf ((y - c) / h)) (fun c y => phi ((y - c) / h) / h)). intros. now apply kernel_derivative.
  Qed.
  Lemma vanishes_sum (F : R -> R -> R) xs : (forall c, In c xs -> vanishes (F c)) -> vanishes (fun y => rsum (map (fun c => F c y) xs)).
  Proof.
    induction xs as [|c xs IH]; intros H eps He; [exists 0; intros; cbn; rewrite Rabs_R0; auto|].
    destruct (H c (or_introl eq_refl) (eps / 2)) as [y1 H1]; [lra|]. destruct (IH (fun d Hd => H d (or_intror Hd)) (eps / 2)) as [y2 H2]; [lra|].
    exists (Rmin y1 y2). intros y Hy. change (rsum (map (fun c0 => F c0 y) (c :: xs))) with (F c y + rsum (map (fun c0 => F c0 y) xs)). eapply Rle_lt_trans; [apply Rabs_triang|]. assert (y <= y1) by (eapply Rle_trans; [exact Hy|apply Rmin_l]). assert (y <= y2) by (eapply Rle_trans; [exact Hy|apply Rmin_r]).
    specialize (H1 y H0). specialize (H2 y H3). lra.
  Qed.
  Lemma mix_vanishes xs h : 0 < h -> vanishes (mix xs h).
  Proof.
    intros Hh. destruct xs as [|x0 xs0] eqn:E.
    { intros eps He. exists 0. intros. unfold mix. cbn. unfold Rdiv. rewrite Rmult_0_l, Rabs_R0. auto. }
    rewrite <- E. assert (Hn : 0 < INR (length xs)) by (apply INR_length_pos; congruence).
    assert (V : vanishes (fun y => rsum (map (fun c => cdf ((y - c) / h)) xs))).
    { apply (@vanishes_sum (fun c y => cdf ((y - c) / h))). intros c _ eps He. destruct (cdf_vanishes He) as [y0 H0]. exists (y0 * h + c). intros y Hy. apply H0.
      apply Rmult_le_reg_r with h; auto. unfold Rdiv. rewrite Rmult_assoc, Rinv_l by lra. lra. }
    intros eps He. destruct (V (eps * INR (length xs))) as [y0 H0]; [now apply Rmult_lt_0_compat|]. exists y0. intros y Hy. specialize (H0 y Hy). unfold mix, Rdiv. rewrite Rabs_mult, (Rabs_pos_eq (/ _)) by (left; now apply Rinv_0_lt_compat).
    apply Rmult_lt_reg_r with (INR (length xs)); auto. rewrite Rmult_assoc, Rinv_l by lra. lra.
  Qed.
  Lemma integral_unique f F lo x v : (forall y, derivable_pt_lim F y (f y)) -> integral_of f lo x v -> match lo with Some a => v = F x - F a | None => vanishes F -> v = F x end.
  Proof.
    intros HF (G & HG & H). assert (K : forall a b, F a - G a = F b - G b).
    { apply (@constant_of_derivative (fun y => F y - G y)). intro y. replace 0 with (f y - f y) by ring. now apply (derivable_pt_lim_minus F G). }
    destruct lo as [a|].
    - specialize (K x a). lra.
    - destruct H as [V ->]. intros V'. apply Rminus_diag_uniq. apply Classical_Prop.NNPP. intros HN.
      set (e := Rabs (G x - F x)). assert (He : 0 < e) by now apply Rabs_pos_lt. destruct (V (e / 2)) as [y1 H1]; [lra|]. destruct (V' (e / 2)) as [y2 H2]; [lra|].
      set (y := Rmin y1 y2). specialize (H1 y (Rmin_l _ _)). specialize (H2 y (Rmin_r _ _)). specialize (K x y).
      assert (e <= Rabs (G y) + Rabs (F y)); [|lra]. unfold e. replace (G x - F x) with (G y + - F y) by lra. rewrite <- (Rabs_Ropp (F y)). apply Rabs_triang.
  Qed.
  Lemma kde_integral xs h lo x v : 0 < h -> integral_of (kde_pdf phi xs h) lo x v -> v = mix xs h x - match lo with Some a => mix xs h a | None => 0 end.
  Proof.
    intros Hh H. pose proof (@integral_unique _ (mix xs h) lo x v (fun y => @mix_derivative xs h y Hh) H) as U. destruct lo; auto. rewrite U; [ring|now apply mix_vanishes].
  Qed.
End NORMAL.

(** ** The bandwidth *)
Lemma squares_zero xs m : rsum (map (fun x => (x - m) * (x - m)) xs) = 0 <-> forall x, In x xs -> x = m.
Proof.
  split.
  - intros H x Hx. assert (Z : (x - m) * (x - m) = 0).
    { apply (@rsum_zero_all (map (fun x => (x - m) * (x - m)) xs)); auto; [|now apply (in_map (fun x => (x - m) * (x - m)))]. intros y Hy. apply in_map_iff in Hy. destruct Hy as (z & <- & _). apply Rle_0_sqr. }
    apply Rmult_integral in Z. lra.
  - intros H. apply rsum_map_0. intros x Hx. rewrite (H x Hx). ring.
Qed.
Lemma squares_nonneg xs m : 0 <= rsum (map (fun x => (x - m) * (x - m)) xs).
Proof. apply rsum_nonneg. intros y Hy. apply in_map_iff in Hy. destruct Hy as (z & <- & _). apply Rle_0_sqr. Qed.
Lemma bandwidth_ok xs h : kde_bandwidth xs = Ok h ->
  (1 < length xs)%nat /\ 0 < h /\ h = sqrt (rsum (map (fun x => (x - rmean xs) * (x - rmean xs)) xs) / (INR (length xs) - 1)) * Rpower (INR (length xs)) (- / 5) /\ ~ (forall x, In x xs -> x = rmean xs).
Proof.
  unfold kde_bandwidth. destruct (Nat.leb_spec (length xs) 1) as [|L]; [discriminate|]. destruct (Req_EM_T _ 0) as [|NZ]; [discriminate|]. intros [= <-].
  assert (L1 : 1 < INR (length xs)) by (apply (lt_INR 1); exact L). split; [exact L|]. pose proof (squares_nonneg xs (rmean xs)) as SN.
  assert (H0 : ~ (forall x, In x xs -> x = rmean xs)). { intros A. apply NZ. rewrite (proj2 (squares_zero xs _) A). unfold Rdiv. ring. }
  assert (H1 : rsum (map (fun x => (x - rmean xs) * (x - rmean xs)) xs) <> 0) by (intros Z; apply H0; now apply squares_zero).
  split; [|now split]. apply Rmult_lt_0_compat; [|apply exp_pos]. apply sqrt_lt_R0. apply Rmult_lt_0_compat; [lra|]. apply Rinv_0_lt_compat. lra.
Qed.
Lemma scott_bandwidth xs h : kde_bandwidth xs = Ok h -> scott xs = h.
Proof.
  intros B. destruct (bandwidth_ok B) as (_ & _ & -> & _). unfold scott, rmean. do 4 f_equal. apply map_ext. intro. ring.
Qed.
Lemma rmean_equal xs c : xs <> [] -> (forall x, In x xs -> x = c) -> rmean xs = c.
Proof.
  intros NE H. rewrite <- (map_id xs). rewrite (@rmean_map_ext _ (fun x => x) (fun _ => c)); auto. now apply rmean_map_const.
Qed.
Lemma bandwidth_raises xs : (forall x y, In x xs -> In y xs -> x = y) -> kde_bandwidth xs = Err ValueError.
Proof.
  intros H. unfold kde_bandwidth. destruct (Nat.leb_spec (length xs) 1) as [|L]; auto. destruct (Req_EM_T _ 0) as [|NZ]; auto. exfalso. apply NZ.
  destruct xs as [|x0 xs0] eqn:E; [cbn in L; lia|]. rewrite <- E in *. assert (I : In x0 xs) by (rewrite E; now left). rewrite (@rmean_equal xs x0); [|congruence|intros; now apply H].
  rewrite (proj2 (squares_zero xs x0)); [unfold Rdiv; ring|]. intros; now apply H.
Qed.
Lemma bandwidth_defined xs : (1 < length xs)%nat -> ~ (forall x y, In x xs -> In y xs -> x = y) -> exists h, kde_bandwidth xs = Ok h.
Proof.
  intros L H. unfold kde_bandwidth. destruct (Nat.leb_spec (length xs) 1) as [|_]; [lia|]. destruct (Req_EM_T _ 0) as [Z|NZ]; [|eauto]. exfalso. apply H.
  assert (L1 : 1 < INR (length xs)) by (apply (lt_INR 1); exact L).
  assert (Z' : rsum (map (fun x => (x - rmean xs) * (x - rmean xs)) xs) = 0). { apply Rmult_integral in Z. destruct Z as [Z|Z]; auto. exfalso. assert (0 < / (INR (length xs) - 1)) by (apply Rinv_0_lt_compat; lra). lra. }
  rewrite squares_zero in Z'. intros x y Hx Hy. rewrite (Z' x Hx), (Z' y Hy). reflexivity.
Qed.
Lemma rsum_map_lt A (f g : A -> R) l : (forall x, In x l -> f x <= g x) -> (exists x, In x l /\ f x < g x) -> rsum (map f l) < rsum (map g l).
Proof.
  intros H (x & Hx & Hlt). destruct (@rsum_map_le _ f g l H) as [|E]; auto. exfalso.
  assert (Z : rsum (map (fun a => g a - f a) l) = 0) by (rewrite rsum_map_sub; lra).
  assert (g x - f x = 0); [|lra]. apply (@rsum_zero_all (map (fun a => g a - f a) l)); auto; [|now apply (in_map (fun a => g a - f a))].
  intros y Hy. apply in_map_iff in Hy. destruct Hy as (a & <- & Ha). specialize (H a Ha). lra.
Qed.

(** ** C117 Probability of backtest overfitting *)
Section PBO.
  Variable cdf phi : R -> R.
  Hypothesis N : is_normal_cdf cdf.
  Hypothesis D : forall x, derivable_pt_lim cdf x (phi x).
  Variable quad : (R -> R) -> option R -> R -> R.
  Variable row : Type.
  Variable eval_fn : list row -> list Qc.
  Variable argsort : list Qc -> list nat.

  (** the probability is the average over the combinations of the normal distribution function at minus the logit over the bandwidth *)
  Theorem c117_pbo_value perm n_strats n_parts p logits tr te :
    compute_pbo quad phi eval_fn argsort perm n_strats n_parts = Ok (p, logits, tr, te) ->
    integral_of (density_estimate phi logits) None 0 (quad (density_estimate phi logits) None 0) ->
    0 < scott logits /\ p = rsum (map (fun l => cdf (- l / scott logits)) logits) / INR (length logits).
  Proof.
    intros E0 Q. unfold compute_pbo in E0. destruct (compute_pbo_ranks eval_fn argsort perm n_parts) as [rs|]; [|discriminate]. cbn [bind] in E0.
    destruct (kde_bandwidth _) as [h0|] eqn:B; [|discriminate]. cbn [bind] in E0. injection E0 as E1 E2 _ _. rewrite E2 in *. clear E2. rename logits into ls. subst p. destruct (bandwidth_ok B) as (L & Hh & Eh & _).
    pose proof (scott_bandwidth B) as E. unfold density_estimate in Q. rewrite E in *. split; auto. unfold rv_cdf. cbn [kde_a kde_f].
    pose proof (@kde_integral cdf phi N D ls h0 None 0 _ Hh Q) as KI. unfold kde_pdf. rewrite KI.
    rewrite Rminus_0_r. unfold mix. f_equal. apply rsum_map_ext. intros l _. f_equal. f_equal. ring.
  Qed.
  (** hence a probability strictly between 0 and 1 *)
  Theorem c117_pbo_is_probability perm n_strats n_parts p logits tr te :
    compute_pbo quad phi eval_fn argsort perm n_strats n_parts = Ok (p, logits, tr, te) ->
    integral_of (density_estimate phi logits) None 0 (quad (density_estimate phi logits) None 0) -> 0 < p < 1.
  Proof.
    intros E Q. destruct (c117_pbo_value E Q) as [Hh V]. rewrite V.
    assert (NE : logits <> []).
    { unfold compute_pbo in E. destruct (compute_pbo_ranks eval_fn argsort perm n_parts) as [rs|]; [|discriminate]. cbn [bind] in E.
      destruct (kde_bandwidth _) as [h0|] eqn:B; [|discriminate]. cbn [bind] in E. injection E as _ <- _ _. destruct (bandwidth_ok B) as (L & _). intros C. rewrite C in L. cbn in L. lia. }
    assert (Hn : 0 < INR (length logits)) by now apply INR_length_pos. split.
    - apply Rmult_lt_0_compat; [|now apply Rinv_0_lt_compat]. apply rsum_pos; [destruct logits; [congruence|discriminate]|]. intros y Hy. apply in_map_iff in Hy. destruct Hy as (l & <- & _). apply (nc_pos N).
    - apply Rmult_lt_reg_r with (INR (length logits)); auto. unfold Rdiv. rewrite Rmult_assoc, Rinv_l by lra. rewrite Rmult_1_r, (Rmult_comm 1), <- (@rsum_map_const _ logits 1). apply rsum_map_lt; [intros; left; apply (cdf_below_1 N)|].
      destruct logits as [|l ls]; [congruence|]. exists l. split; [now left|apply (cdf_below_1 N)].
  Qed.
  (** what is returned besides the probability: one logit and one pair of performances per combination *)
  Theorem c117_pbo_records perm n_strats n_parts p logits tr te :
    compute_pbo quad phi eval_fn argsort perm n_strats n_parts = Ok (p, logits, tr, te) ->
    exists rs, compute_pbo_ranks eval_fn argsort perm n_parts = Ok rs /\
      logits = map (fun r => ln (INR (fst (fst r)) / INR n_strats / (1 - INR (fst (fst r)) / INR n_strats) + / 1000)) rs /\
      tr = map (fun r => snd (fst r)) rs /\ te = map snd rs.
  Proof.
    unfold compute_pbo. destruct (compute_pbo_ranks eval_fn argsort perm n_parts) as [rs|]; [|discriminate]. cbn [bind].
    destruct (kde_bandwidth _) as [h0|]; [|discriminate]. cbn [bind]. intros E. injection E as _ <- <- <-. exists rs. repeat split.
  Qed.
End PBO.

Lemma ln_inj a b : 0 < a -> 0 < b -> ln a = ln b -> a = b.
Proof. intros Ha Hb E. rewrite <- (exp_ln a), <- (exp_ln b) by auto. now rewrite E. Qed.
Lemma odds_eq rank N : (rank < N)%nat -> INR rank / INR N / (1 - INR rank / INR N) = INR rank / (INR N - INR rank).
Proof. intros H. assert (INR rank < INR N) by now apply lt_INR. pose proof (pos_INR rank). field. lra. Qed.
Lemma odds_nonneg rank N : (rank < N)%nat -> 0 <= INR rank / (INR N - INR rank).
Proof. intros H. assert (INR rank < INR N) by now apply lt_INR. apply Rmult_le_pos; [apply pos_INR|]. left. apply Rinv_0_lt_compat. lra. Qed.
Lemma rank_logit_inj a b N : (a < N)%nat -> (b < N)%nat -> rank_logit a N = rank_logit b N -> a = b.
Proof.
  intros Ha Hb E. unfold rank_logit in E. cbv zeta in E. rewrite !odds_eq in E by auto. pose proof (odds_nonneg Ha). pose proof (odds_nonneg Hb).
  apply ln_inj in E; try lra. assert (A : INR a < INR N) by now apply lt_INR. assert (B : INR b < INR N) by now apply lt_INR.
  assert (E' : INR a / (INR N - INR a) = INR b / (INR N - INR b)) by lra. apply INR_eq.
  assert (C : INR a * (INR N - INR b) = INR b * (INR N - INR a)).
  { replace (INR a) with (INR a / (INR N - INR a) * (INR N - INR a)) at 1 by (field; lra). rewrite E'. field. lra. }
  assert (0 < INR N) by (pose proof (pos_INR a); lra). apply Rmult_eq_reg_r with (INR N); lra.
Qed.

(** when the strategy selected in sample lands below the median out of sample in every combination the probability exceeds a half;
    when it never does the probability is below a half *)
Theorem c117_median cdf phi quad row (eval_fn : list row -> list Qc) argsort perm n_strats n_parts rs p logits tr te :
  is_normal_cdf cdf -> (forall x, derivable_pt_lim cdf x (phi x)) ->
  compute_pbo quad phi eval_fn argsort perm n_strats n_parts = Ok (p, logits, tr, te) ->
  integral_of (density_estimate phi logits) None 0 (quad (density_estimate phi logits) None 0) ->
  compute_pbo_ranks eval_fn argsort perm n_parts = Ok rs -> (n_strats <= 1999)%nat -> (forall r, In r rs -> (fst (fst r) < n_strats)%nat) ->
  ((forall r, In r rs -> (2 * fst (fst r) < n_strats)%nat) -> / 2 < p) /\
  ((forall r, In r rs -> (n_strats <= 2 * fst (fst r))%nat) -> p < / 2).
Proof.
  intros N D E Q ER HN HR. destruct (c117_pbo_value N D E Q) as [Hh V]. set (h := scott logits) in *.
  assert (HH : (1 < length logits)%nat /\ logits = map (fun r => rank_logit (fst (fst r)) n_strats) rs /\ ~ (forall x, In x logits -> x = rmean logits)).
  { unfold compute_pbo in E. rewrite ER in E. cbn [bind] in E.
    destruct (kde_bandwidth _) as [h0|] eqn:B; [|discriminate]. cbn [bind] in E. injection E as _ <- _ _. destruct (bandwidth_ok B) as (L & _ & _ & NA). repeat split; auto. }
  destruct HH as (L & EL & NA). assert (NE : logits <> []) by (intros C; rewrite C in L; cbn in L; lia). assert (Hn : 0 < INR (length logits)) by now apply INR_length_pos.
  assert (Half : / 2 = rsum (map (fun _ : R => / 2) logits) / INR (length logits)) by (rewrite rsum_map_const; field; lra).
  assert (S : forall l, l <= 0 -> / 2 <= cdf (- l / h)).
  { intros l Hl. rewrite <- (cdf_half N). apply (cdf_le N D). apply Rmult_le_pos; [lra|left; now apply Rinv_0_lt_compat]. }
  assert (S1 : forall l, l < 0 -> / 2 < cdf (- l / h)).
  { intros l Hl. rewrite <- (cdf_half N). apply (cdf_lt N D). apply Rmult_lt_0_compat; [lra|now apply Rinv_0_lt_compat]. }
  assert (S2 : forall l, 0 < l -> cdf (- l / h) < / 2).
  { intros l Hl. rewrite <- (cdf_half N). apply (cdf_lt N D). assert (0 < l / h) by (apply Rmult_lt_0_compat; [lra|now apply Rinv_0_lt_compat]). unfold Rdiv in *. lra. }
  assert (DIV : forall a b, a < b -> a / INR (length logits) < b / INR (length logits)) by (intros; apply Rmult_lt_compat_r; auto; now apply Rinv_0_lt_compat).
  split; intros H; rewrite V; rewrite Half; apply DIV.
  - assert (Neg : forall l, In l logits -> l <= 0). { intros l Hl. rewrite EL in Hl. apply in_map_iff in Hl. destruct Hl as (r & <- & Hr). apply c33_logit_sign; auto. }
    apply rsum_map_lt; [intros l Hl; apply S; auto|]. apply Classical_Prop.NNPP. intros C. apply NA.
    assert (Z : forall l, In l logits -> l = 0). { intros l Hl. destruct (Neg l Hl) as [G|G]; auto. exfalso. apply C. exists l. split; auto. }
    intros x Hx. rewrite (@rmean_equal logits 0); auto.
  - assert (Pos : forall l, In l logits -> 0 < l). { intros l Hl. rewrite EL in Hl. apply in_map_iff in Hl. destruct Hl as (r & <- & Hr). apply Rnot_le_lt. rewrite c33_logit_sign; auto. specialize (H r Hr). lia. }
    apply rsum_map_lt; [intros l Hl; left; apply S2; auto|]. destruct logits as [|l ls]; [congruence|]. exists l. split; [now left|]. apply S2, Pos. now left.
Qed.

Lemma binom_pos n k : (k <= n)%nat -> (1 <= binom n k)%nat.
Proof. revert k. induction n as [|n IH]; intros [|k] H; cbn [binom]; try lia. specialize (IH k). lia. Qed.
Lemma Forall2_in_r A B (P : A -> B -> Prop) l l' b : Forall2 P l l' -> In b l' -> exists a, P a b.
Proof. induction 1 as [|a b0 l l' HP HF IH]; intros H; [destruct H|]. destruct H as [->|H]; eauto. Qed.

(** the estimate needs two different ranks: it raises exactly when the selected strategy has the same out-of-sample rank in every combination *)
Theorem c117_raises_iff quad phi row (eval_fn : list row -> list Qc) argsort perm m n_strats :
  (1 <= m)%nat -> (1 <= n_strats)%nat -> (forall l, sorts_ascending l (argsort l)) -> (forall r, length (eval_fn r) = n_strats) ->
  exists rs, compute_pbo_ranks eval_fn argsort perm (2 * m) = Ok rs /\
    ((exists v, compute_pbo quad phi eval_fn argsort perm n_strats (2 * m) = Ok v) <-> exists r r', In r rs /\ In r' rs /\ fst (fst r) <> fst (fst r')) /\
    (compute_pbo quad phi eval_fn argsort perm n_strats (2 * m) = Err ValueError <-> forall r r', In r rs -> In r' rs -> fst (fst r) = fst (fst r')).
Proof.
  intros Hm Hs HA HL. destruct (@c32_pbo_total _ eval_fn argsort perm m n_strats Hm Hs HL) as (rs & E & Len). exists rs. split; auto.
  assert (RB : forall r, In r rs -> (fst (fst r) < n_strats)%nat).
  { pose proof (@c32_pbo_records _ eval_fn argsort perm (2 * m) rs HA (fun r1 r2 => eq_trans (HL r1) (eq_sym (HL r2))) E) as F. intros r Hr. destruct (Forall2_in_r F Hr) as (c & train & test & best & _ & _ & _ & _ & _ & Hlt & _). now rewrite HL in Hlt. }
  assert (L2 : (1 < length rs)%nat).
  { rewrite Len. destruct m as [|m']; [lia|]. replace (2 * S m')%nat with (S (S (2 * m')))%nat by lia. cbn [binom]. pose proof (@binom_pos (S (2 * m')) m'). pose proof (@binom_pos (S (2 * m')) (S m')). cbn [binom] in *. lia. }
  unfold compute_pbo. rewrite E. cbn [bind]. set (ls := map (fun r => rank_logit (fst (fst r)) n_strats) rs).
  assert (Lls : (1 < length ls)%nat) by (unfold ls; now rewrite map_length).
  assert (EQ : (forall x y, In x ls -> In y ls -> x = y) <-> forall r r', In r rs -> In r' rs -> fst (fst r) = fst (fst r')).
  { split.
    - intros H r r' Hr Hr'. apply rank_logit_inj with n_strats; auto. apply H; unfold ls; apply in_map_iff; eauto.
    - intros H x y Hx Hy. unfold ls in *. apply in_map_iff in Hx, Hy. destruct Hx as (r & <- & Hr). destruct Hy as (r' & <- & Hr'). now rewrite (H r r'). }
  destruct (Classical_Prop.classic (forall r r', In r rs -> In r' rs -> fst (fst r) = fst (fst r'))) as [A|A].
  - rewrite (@bandwidth_raises ls (proj2 EQ A)). cbn [bind]. split; split; auto.
    + intros [v C]. discriminate.
    + intros (r & r' & Hr & Hr' & NE). exfalso. apply NE. auto.
  - destruct (@bandwidth_defined ls Lls) as [h ->]; [now rewrite EQ|]. cbn [bind]. split; split; eauto; try discriminate; try (intros; exfalso; auto; fail).
    intros _. apply Classical_Prop.NNPP. intros C. apply A. intros r r' Hr Hr'. destruct (Nat.eq_dec (fst (fst r)) (fst (fst r'))); auto. exfalso. apply C. exists r, r'. auto.
Qed.

Lemma count_all_true A (f : A -> bool) l : (forall x, In x l -> f x = true) -> count f l = length l.
Proof. unfold count. induction l as [|a l IH]; intros H; auto. cbn. rewrite (H a) by now left. cbn. now rewrite IH by (intros; apply H; now right). Qed.
Lemma count_all_but A (f : A -> bool) l : forall b y, nth_error l b = Some y -> f y = false -> (forall i x, i <> b -> nth_error l i = Some x -> f x = true) -> count f l = (length l - 1)%nat.
Proof.
  induction l as [|a l IH]; intros [|b] y Hb Hy H; try discriminate; cbn in Hb.
  - injection Hb as ->. change (count f (y :: l)) with (length (filter f (y :: l))). cbn [filter]. rewrite Hy. cbn [length]. rewrite Nat.sub_succ, Nat.sub_0_r. apply count_all_true. intros x Hx. apply In_nth_error in Hx. destruct Hx as [i Hi]. apply (H (S i)); auto.
  - change (count f (a :: l)) with (length (filter f (a :: l))). cbn [filter]. rewrite (H 0%nat a) by auto. cbn [length]. change (length (filter f l)) with (count f l). rewrite (IH b y Hb Hy); [|intros i x Hi Hx; apply (H (S i)); auto]. assert (b < length l)%nat by (apply nth_error_Some; congruence). lia.
Qed.

(** A strategy that beats every other on every sample should have the smallest probability of overfitting; the estimate raises instead *)
Theorem c117_dominant_refuted quad phi row (eval_fn : list row -> list Qc) argsort perm m n_strats b :
  (1 <= m)%nat -> (b < n_strats)%nat -> (forall l, sorts_ascending l (argsort l)) -> (forall r, length (eval_fn r) = n_strats) ->
  (forall r i x y, i <> b -> nth_error (eval_fn r) i = Some x -> nth_error (eval_fn r) b = Some y -> (x < y)%Qc) ->
  compute_pbo quad phi eval_fn argsort perm n_strats (2 * m) = Err ValueError.
Proof.
  intros Hm Hb HA HL HD. destruct (@c117_raises_iff quad phi _ eval_fn argsort perm m n_strats Hm ltac:(lia) HA HL) as (rs & E & _ & RI). apply RI. clear RI.
  assert (R : forall r, In r rs -> fst (fst r) = (n_strats - 1)%nat).
  { pose proof (@c32_pbo_records _ eval_fn argsort perm (2 * m) rs HA (fun r1 r2 => eq_trans (HL r1) (eq_sym (HL r2))) E) as F. intros r Hr.
    destruct (Forall2_in_r F Hr) as (c & train & test & best & _ & _ & H1 & H2 & H3 & Hlt & H4 & _). rewrite HL in *.
    assert (best = b). { destruct (Nat.eq_dec best b) as [|NE]; auto. exfalso. destruct (nth_error (eval_fn train) b) as [y|] eqn:EY; [|apply nth_error_None in EY; rewrite HL in EY; lia].
      pose proof (HD train best _ y NE H1 EY). assert (y <= snd (fst r))%Qc by (apply H2; eapply nth_error_In; exact EY). apply (Qclt_not_le _ _ H H0). }
    subst best. rewrite (@count_all_but _ _ _ b (snd r) H3), HL in H4; [lia| |].
    - destruct (qlt_spec (snd r) (snd r)) as [C|]; auto. exfalso. revert C. apply Qcle_not_lt, Qcle_refl.
    - intros i x NE Hx. destruct (qlt_spec x (snd r)) as [|C]; auto. exfalso. apply C. eapply (HD test i); eauto. }
  intros r r' Hr Hr'. now rewrite (R r Hr), (R r' Hr').
Qed.

(** ** The implied distribution of the underlying *)
Section IMPLIED.
  Variable cdf phi : R -> R.
  Variable brentq : (R -> R) -> R -> R -> res R.
  Variable spline : list R -> list R -> res ((R -> R) * (R -> R)).
  Variable smooth : R -> list R -> res (list R).
  Variable choose : list (R * R) -> nat -> list R.

  Definition side_result t r n_interpolate w vs s0 ty (quotes : option (list (R * R))) (l : option (list (R * R))) : Prop :=
    match quotes, l with
    | None, None => True
    | Some q, Some l => implied_discrete_pdf cdf brentq spline smooth q t r n_interpolate w vs s0 ty = Ok l
    | _, _ => False
    end.
  Lemma distribution_ok calls puts t r s0 d n w vs m rv pdf r' :
    implied_underlying_distribution phi cdf brentq spline smooth choose calls puts t r s0 d n w vs m = Ok (rv, pdf, r') ->
    exists pc pp probs h, side_result t r' n w vs s0 Call calls pc /\ side_result t r' n w vs s0 Put puts pp /\ sampling_probs pc pp = Some probs /\
      rsum (map snd match pc with Some a => a | None => [] end) + rsum (map snd match pp with Some b => b | None => [] end) <> 0 /\
      kde_bandwidth (choose probs m) = Ok h /\ rv = {| kde_f := kde_pdf phi (choose probs m) h; kde_a := Some 0 |} /\ pdf = kde_pdf phi (choose probs m) h /\
      match r with Some r => r' = r | None => exists s cs ps, s0 = Some s /\ calls = Some cs /\ puts = Some ps /\
        fst (implied_risk_free_rate (map (fun o => (fst o, Some (snd o))) cs) (map (fun o => (fst o, Some (snd o))) ps) s t d) = Some r' end.
  Proof.
    unfold implied_underlying_distribution. intros H.
    match type of H with bind ?X _ = _ => destruct X as [rr|] eqn:ER; [|discriminate] end. cbn [bind] in H.
    match type of H with bind ?X _ = _ => destruct X as [pc|] eqn:EC; [|discriminate] end. cbn [bind] in H.
    match type of H with bind ?X _ = _ => destruct X as [pp|] eqn:EP; [|discriminate] end. cbn [bind] in H.
    destruct (sampling_probs pc pp) as [probs|] eqn:ES; [|discriminate]. destruct (Req_EM_T _ 0) as [|NZ]; [discriminate|].
    destruct (kde_bandwidth (choose probs m)) as [h|] eqn:B; [|discriminate]. cbn [bind] in H. injection H as <- <- <-.
    exists pc, pp, probs, h. split; [|split; [|split; [auto|split; [auto|split; [auto|split; [reflexivity|split; [reflexivity|]]]]]]].
    - destruct calls as [q|]; [|injection EC as <-; exact I]. destruct (implied_discrete_pdf _ _ _ _ q _ _ _ _ _ _ _) as [l|] eqn:E; [|discriminate]. injection EC as <-. exact E.
    - destruct puts as [q|]; [|injection EP as <-; exact I]. destruct (implied_discrete_pdf _ _ _ _ q _ _ _ _ _ _ _) as [l|] eqn:E; [|discriminate]. injection EP as <-. exact E.
    - destruct r as [r|]; [injection ER as <-; reflexivity|]. destruct s0 as [s|]; [|discriminate]. destruct puts as [ps|]; [|discriminate]. destruct calls as [cs|]; [|discriminate].
      destruct (fst (implied_risk_free_rate _ _ s t d)) as [r1|] eqn:E; [|discriminate]. injection ER as <-. exists s, cs, ps. auto.
  Qed.

  (** *** C118: what is returned *)
  Hypothesis N : is_normal_cdf cdf.
  Hypothesis D : forall x, derivable_pt_lim cdf x (phi x).
  (** the density estimate of the samples, everywhere for the density and from 0 upwards for the random variable; the density is positive at
      every price, negative ones included *)
  Theorem c118_densities calls puts t r s0 d n w vs m rv pdf r' :
    implied_underlying_distribution phi cdf brentq spline smooth choose calls puts t r s0 d n w vs m = Ok (rv, pdf, r') ->
    exists probs, forall x, pdf x = density_estimate phi (choose probs m) x /\ 0 < pdf x /\ rv_pdf rv x = if Rlt_dec x 0 then 0 else pdf x.
  Proof.
    intros H. destruct (distribution_ok H) as (pc & pp & probs & h & _ & _ & _ & _ & B & -> & -> & _). exists probs. intros x.
    destruct (bandwidth_ok B) as (L & Hh & _). split; [|split; [|reflexivity]].
    - unfold density_estimate. rewrite (scott_bandwidth B). reflexivity.
    - set (xs := choose probs m) in *. assert (NE : xs <> []) by (intros C; rewrite C in L; cbn in L; lia).
      apply Rmult_lt_0_compat; [|apply Rinv_0_lt_compat; now apply INR_length_pos]. apply rsum_pos; [destruct xs; [congruence|discriminate]|].
      intros y Hy. apply in_map_iff in Hy. destruct Hy as (l & <- & _). apply Rmult_lt_0_compat; [apply (phi_pos N D)|now apply Rinv_0_lt_compat].
  Qed.
  Theorem c118_cdf_value quad calls puts t r s0 d n w vs m rv pdf r' x :
    implied_underlying_distribution phi cdf brentq spline smooth choose calls puts t r s0 d n w vs m = Ok (rv, pdf, r') ->
    integral_of pdf (Some 0) x (quad pdf (Some 0) x) ->
    exists probs, let xs := choose probs m in 0 < scott xs /\
      rv_cdf quad rv x = if Rle_dec x 0 then 0 else rsum (map (fun c => cdf ((x - c) / scott xs) - cdf (- c / scott xs)) xs) / INR (length xs).
  Proof.
    intros H Q. destruct (distribution_ok H) as (pc & pp & probs & h & _ & _ & _ & _ & B & -> & -> & _). exists probs. cbv zeta.
    destruct (bandwidth_ok B) as (L & Hh & _). rewrite (scott_bandwidth B). split; auto. unfold rv_cdf. cbn [kde_a kde_f]. destruct (Rle_dec x 0); auto.
    pose proof (@kde_integral cdf phi N D _ h (Some 0) x _ Hh Q) as KI. cbv beta iota in KI. rewrite KI. unfold mix. rewrite rsum_map_sub.
    rewrite (@rsum_map_ext _ (fun c => cdf ((0 - c) / h)) (fun c => cdf (- c / h))); [|intros c _; do 2 f_equal; ring].
    match goal with |- ?a / ?k - ?b / ?k = _ => set (A := a); set (B0 := b) end. unfold Rdiv. ring.
  Qed.
  (** The random variable is not a probability distribution: its distribution function stays below 1 by a fixed amount,
      the mass that the estimate puts on negative prices *)
  Theorem c118_mass_refuted quad calls puts t r s0 d n w vs m rv pdf r' :
    implied_underlying_distribution phi cdf brentq spline smooth choose calls puts t r s0 d n w vs m = Ok (rv, pdf, r') ->
    (forall x, integral_of pdf (Some 0) x (quad pdf (Some 0) x)) ->
    exists lost, 0 < lost /\ forall x, rv_cdf quad rv x < 1 - lost.
  Proof.
    intros H Q. destruct (distribution_ok H) as (pc & pp & probs & h & _ & _ & _ & _ & B & -> & -> & _). set (xs := choose probs m) in *.
    destruct (bandwidth_ok B) as (L & Hh & _). assert (NE : xs <> []) by (intros C; rewrite C in L; cbn in L; lia). pose proof (INR_length_pos NE) as Hn.
    assert (P0 : forall x, 0 < mix cdf xs h x < 1).
    { intro x. split.
      - apply Rmult_lt_0_compat; [|now apply Rinv_0_lt_compat]. apply rsum_pos; [destruct xs; [congruence|discriminate]|]. intros y Hy. apply in_map_iff in Hy. destruct Hy as (l & <- & _). apply (nc_pos N).
      - apply Rmult_lt_reg_r with (INR (length xs)); auto. unfold mix, Rdiv. rewrite Rmult_assoc, Rinv_l by lra. rewrite Rmult_1_r, (Rmult_comm 1), <- (@rsum_map_const _ xs 1). apply rsum_map_lt; [intros; left; apply (cdf_below_1 N)|].
        destruct xs as [|l ls]; [congruence|]. exists l. split; [now left|apply (cdf_below_1 N)]. }
    exists (mix cdf xs h 0). split; [apply P0|]. intros x. unfold rv_cdf. cbn [kde_a kde_f]. pose proof (P0 x). pose proof (P0 0). destruct (Rle_dec x 0); [lra|].
    pose proof (@kde_integral cdf phi N D xs h (Some 0) x _ Hh (Q x)) as KI. cbv beta iota in KI. rewrite KI. lra.
  Qed.
End IMPLIED.

(** ** C119 From quotes to sampling probabilities *)
Section QUOTES.
  Variable cdf phi : R -> R.
  Variable brentq : (R -> R) -> R -> R -> res R.
  Variable spline : list R -> list R -> res ((R -> R) * (R -> R)).
  Variable smooth : R -> list R -> res (list R).
  Variable choose : list (R * R) -> nat -> list R.

  Lemma discrete_pdf_ok q t r n vs s0 ty l : q <> [] -> implied_discrete_pdf cdf brentq spline smooth q t r n None vs s0 ty = Ok l ->
    exists pts curve, spline (map fst pts) (map snd pts) = Ok curve /\
      price_points cdf brentq spline q (linspace (rlmin (map fst q)) (rlmax (map fst q)) match n with Some m => m | None => (length q * 3)%nat end) t r vs s0 ty = Ok pts /\
      l = discrete_pdf (snd curve) (map fst q) t r n.
  Proof.
    intros NE. unfold implied_discrete_pdf. destruct q as [|o q0] eqn:EQ; [congruence|]. rewrite <- EQ in *. cbv zeta. intros H.
    match type of H with bind ?X _ = _ => destruct X as [pts|] eqn:EP; [|discriminate] end. cbn [bind] in H.
    match type of H with bind ?X _ = _ => destruct X as [curve|] eqn:ES; [|discriminate] end. cbn [bind] in H. injection H as <-.
    exists pts, curve. split; auto. split; auto. unfold discrete_pdf. rewrite map_length. clear EP. destruct (map fst q) eqn:EM; [rewrite EQ in EM; discriminate|reflexivity].
  Qed.
  (** without smoothing, every entry is the discounted-back second derivative of the curve through the quotes, non-negative, at a strike
      inside the quoted range; in price space the curve goes through the quotes themselves *)
  Theorem c119_discrete_pdf q t r n vs s0 ty l : q <> [] -> implied_discrete_pdf cdf brentq spline smooth q t r n None vs s0 ty = Ok l ->
    exists pts curve, spline (map fst pts) (map snd pts) = Ok curve /\ (vs = false -> pts = q) /\
      (forall k x, In (k, x) l -> 0 <= x /\ x = exp (r * t) * snd curve k /\ exists k1 k2 p1 p2, In (k1, p1) q /\ In (k2, p2) q /\ k1 <= k <= k2) /\
      (forall m i kmin kmax, n = Some m -> (1 < m)%nat -> (i < m)%nat -> In kmin (map fst q) -> In kmax (map fst q) -> (forall k p, In (k, p) q -> kmin <= k <= kmax) ->
         let k := kmin + INR i * ((kmax - kmin) / INR (m - 1)) in 0 <= snd curve k -> In (k, exp (r * t) * snd curve k) l).
  Proof.
    intros NE H. destruct (discrete_pdf_ok NE H) as (pts & curve & ES & EP & ->). exists pts, curve. split; auto. split; [intros ->; cbn in EP; congruence|]. split.
    - intros k x Hin. destruct (c96_pdf_nonnegative Hin) as (H0 & H1 & k1 & k2 & I1 & I2 & I3). split; auto. split; auto. apply in_map_iff in I1, I2. destruct I1 as ([a b] & <- & I1). destruct I2 as ([a' b'] & <- & I2). exists a, a', b, b'. auto.
    - intros m i kmin kmax -> Hm Hi H1 H2 H3 k Hk. apply c96_pdf_complete; auto; [destruct q; [congruence|discriminate]|]. intros k0 Hk0. apply in_map_iff in Hk0. destruct Hk0 as ([a b] & <- & I0). eapply H3. exact I0.
  Qed.
  Theorem c119_no_quotes t r n w vs s0 ty : implied_discrete_pdf cdf brentq spline smooth [] t r n w vs s0 ty = Ok [].
  Proof. reflexivity. Qed.
  (** the price samples are drawn with non-negative probabilities that sum to one, from strikes inside the quoted ranges *)
  Theorem c119_sampling calls puts t r s0 d n vs m rv pdf r' :
    implied_underlying_distribution phi cdf brentq spline smooth choose calls puts t r s0 d n None vs m = Ok (rv, pdf, r') ->
    exists probs, (forall x, pdf x = density_estimate phi (choose probs m) x) /\ rsum (map snd probs) = 1 /\
      forall k p, In (k, p) probs -> 0 <= p /\ exists q k1 k2 p1 p2, (calls = Some q \/ puts = Some q) /\ In (k1, p1) q /\ In (k2, p2) q /\ k1 <= k <= k2.
  Proof.
    intros H. destruct (distribution_ok H) as (pc & pp & probs & h & HC & HP & ES & NZ & B & _ & -> & _). exists probs.
    split; [intros x; unfold density_estimate; rewrite (scott_bandwidth B); reflexivity|].
    assert (SIDE : forall ty quotes l, side_result cdf brentq spline smooth t r' n None vs s0 ty quotes (Some l) -> forall k x, In (k, x) l -> 0 <= x /\ exists q k1 k2 p1 p2, quotes = Some q /\ In (k1, p1) q /\ In (k2, p2) q /\ k1 <= k <= k2).
    { intros ty quotes l HS k x Hin. destruct quotes as [q|]; [|destruct HS]. cbn [side_result] in HS. destruct q as [|o q0] eqn:EQ; [injection HS as <-; destruct Hin|]. rewrite <- EQ in *.
      destruct (@c119_discrete_pdf q t r' n vs s0 ty l) as (pts & curve & _ & _ & HIN & _); [congruence|exact HS|]. destruct (HIN k x Hin) as (H0 & _ & k1 & k2 & p1 & p2 & H1). split; auto. exists q, k1, k2, p1, p2. tauto. }
    set (all := match pc with Some a => a | None => [] end ++ match pp with Some b => b | None => [] end).
    assert (POS : forall k x, In (k, x) all -> 0 <= x /\ exists q k1 k2 p1 p2, (calls = Some q \/ puts = Some q) /\ In (k1, p1) q /\ In (k2, p2) q /\ k1 <= k <= k2).
    { intros k x Hin. apply in_app_or in Hin. destruct Hin as [Hin|Hin].
      - destruct pc as [a|]; [|destruct Hin]. destruct (SIDE _ _ _ HC k x Hin) as (H0 & q & k1 & k2 & p1 & p2 & H1). split; auto. exists q, k1, k2, p1, p2. tauto.
      - destruct pp as [a|]; [|destruct Hin]. destruct (SIDE _ _ _ HP k x Hin) as (H0 & q & k1 & k2 & p1 & p2 & H1). split; auto. exists q, k1, k2, p1, p2. tauto. }
    assert (SUM : 0 < rsum (map snd all)).
    { assert (NN : 0 <= rsum (map snd all)). { apply rsum_nonneg. intros y Hy. apply in_map_iff in Hy. destruct Hy as ([k x] & <- & Hin). apply (POS k x Hin). }
      destruct NN as [|Z]; auto. exfalso. apply NZ. rewrite <- rsum_app, <- map_app. fold all. auto. }
    destruct (@c96_sampling_distribution pc pp probs ES) as (S1 & S2 & S3); [intros k x Hin; apply (POS k x Hin)|exact SUM|]. split; auto.
    intros k p Hin. split; [eapply S2; exact Hin|]. assert (Hk : In k (map fst all)) by (fold all in S3; rewrite <- S3; apply in_map_iff; exists (k, p); auto).
    apply in_map_iff in Hk. destruct Hk as ([k0 x] & <- & Hx). apply (POS k0 x Hx).
  Qed.
  (** smoothing replaces the densities by their smoothed values and keeps the strikes; what it raises is raised *)
  Theorem c119_smoothed q t r n w vs s0 ty :
    match implied_discrete_pdf cdf brentq spline smooth q t r n None vs s0 ty with
    | Ok raw => q <> [] -> (forall e, smooth w (map snd raw) = Err e -> implied_discrete_pdf cdf brentq spline smooth q t r n (Some w) vs s0 ty = Err e) /\
        forall f, smooth w (map snd raw) = Ok f -> length f = length raw ->
          exists l, implied_discrete_pdf cdf brentq spline smooth q t r n (Some w) vs s0 ty = Ok l /\ map fst l = map fst raw /\ map snd l = f
    | Err e => implied_discrete_pdf cdf brentq spline smooth q t r n (Some w) vs s0 ty = Err e
    end.
  Proof.
    unfold implied_discrete_pdf. destruct q as [|o q]; [intros []; reflexivity|]. set (qs := o :: q).
    destruct (price_points _ _ _ _ _ _ _ _ _ _) as [pts|e]; cbn [bind]; auto. destruct (spline _ _) as [curve|e]; cbn [bind]; auto. intros _.
    set (raw := filter _ _). split; [intros e ->; reflexivity|]. intros f -> L. cbn [bind]. eexists. split; [reflexivity|]. rewrite <- (map_length fst raw) in L.
    revert L. generalize (map fst raw). clear. intros a. revert f. induction a as [|x a IH]; intros [|y b] L; cbn in *; try lia; auto.
    destruct (IH b) as [E1 E2]; [lia|]. now rewrite E1, E2.
  Qed.
  (** quotes without any probability mass cannot be sampled *)
  Theorem c119_no_mass q1 q2 l1 l2 t r s0 d n w vs m :
    implied_discrete_pdf cdf brentq spline smooth q1 t r n w vs s0 Call = Ok l1 -> implied_discrete_pdf cdf brentq spline smooth q2 t r n w vs s0 Put = Ok l2 ->
    let dist := fun calls puts => implied_underlying_distribution phi cdf brentq spline smooth choose calls puts t (Some r) s0 d n w vs m in
    (rsum (map snd l1) = 0 -> dist (Some q1) None = Err ValueError) /\
    (rsum (map snd l2) = 0 -> dist None (Some q2) = Err ValueError) /\
    (rsum (map snd l1) + rsum (map snd l2) = 0 -> dist (Some q1) (Some q2) = Err ValueError).
  Proof.
    intros E1 E2 dist. unfold dist, implied_underlying_distribution. cbn [bind]. rewrite E1, E2. cbn [bind sampling_probs option_map].
    repeat split; intros H; (destruct (Req_EM_T _ 0) as [|N]; [reflexivity|exfalso; apply N]); cbn [map rsum]; try exact H; rewrite H; lra.
  Qed.
  (** the rate: the one supplied, or the median of the parity rates of strikes quoted on both sides *)
  Theorem c119_rate calls puts t r s0 d n w vs m rv pdf r' :
    implied_underlying_distribution phi cdf brentq spline smooth choose calls puts t r s0 d n w vs m = Ok (rv, pdf, r') ->
    match r with Some r => r' = r | None => exists s cs ps, s0 = Some s /\ calls = Some cs /\ puts = Some ps /\
      fst (implied_risk_free_rate (map (fun o => (fst o, Some (snd o))) cs) (map (fun o => (fst o, Some (snd o))) ps) s t d) = Some r' end.
  Proof. intros H. destruct (distribution_ok H) as (pc & pp & probs & h & _ & _ & _ & _ & _ & _ & _ & HR). exact HR. Qed.
  (** arguments that cannot be used *)
  Theorem c119_exceptions calls puts t r s0 d n w vs m :
    let dist := fun calls puts r s0 vs => implied_underlying_distribution phi cdf brentq spline smooth choose calls puts t r s0 d n w vs m in
    dist calls puts None None vs = Err ValueError /\
    (forall s, dist calls None None (Some s) vs = Err ValueError) /\
    (forall s ps, dist None (Some ps) None (Some s) vs = Err TypeError) /\
    dist None None (Some r) s0 vs = Err RuntimeError /\
    (forall cs, cs <> [] -> dist (Some cs) puts (Some r) None true = Err TypeError) /\
    (forall cs ps s, (forall k p p', In (k, p) cs -> ~ In (k, p') ps) -> dist (Some cs) (Some ps) None (Some s) vs = Err ValueError).
  Proof.
    cbv zeta. repeat split.
    - intros cs NE. unfold implied_underlying_distribution. cbn [bind]. unfold implied_discrete_pdf at 1. destruct cs as [|o cs]; [congruence|]. cbn [price_points bind]. reflexivity.
    - intros cs ps s Hno. unfold implied_underlying_distribution. 
      assert (E : quote_matches (map (fun o : R * R => (fst o, Some (snd o))) cs) (map (fun o : R * R => (fst o, Some (snd o))) ps) = []).
      { unfold quote_matches. induction cs as [|[k p] cs IH]; auto. cbn [map flat_map fst snd]. rewrite IH; [|intros k0 p0 p' H0; apply (Hno k0 p0); now right]. rewrite app_nil_r.
        assert (G : forall ps', incl ps' ps -> flat_map (fun p0 : R * option R => match snd p0 with Some pp => if Req_EM_T k (fst p0) then [(k, p, pp)] else [] | None => [] end) (map (fun o : R * R => (fst o, Some (snd o))) ps') = []).
        { induction ps' as [|[k' p'] ps' IH']; intros HI; auto. cbn [map flat_map fst snd]. destruct (Req_EM_T k k') as [->|]; [exfalso; apply (Hno k' p p'); [now left|apply HI; now left]|]. apply IH'. intros x Hx. apply HI. now right. }
        apply G. apply incl_refl. }
      unfold implied_risk_free_rate, quote_pairs. rewrite E. reflexivity.
  Qed.
End QUOTES.

(** ** C120 Interpolating in volatility space *)
Definition through_points (spline : list R -> list R -> res ((R -> R) * (R -> R))) : Prop :=
  forall xs ys c, spline xs ys = Ok c -> forall i x y, nth_error xs i = Some x -> nth_error ys i = Some y -> fst c x = y.
Definition keeps_constants (spline : list R -> list R -> res ((R -> R) * (R -> R))) : Prop :=
  forall xs ys c v, spline xs ys = Ok c -> (forall y, In y ys -> y = v) -> forall x, fst c x = v.
Definition exact_root (brentq : (R -> R) -> R -> R -> res R) : Prop := forall f a b x, brentq f a b = Ok x -> a <= x <= b /\ f x = 0.
Section VOLATILITY.
  Variable cdf : R -> R.
  Variable brentq : (R -> R) -> R -> R -> res R.
  Variable spline : list R -> list R -> res ((R -> R) * (R -> R)).
  (** one price per strike of the grid, each a Black-Scholes price *)
  Theorem c120_points q ks t r s ty pts : price_points cdf brentq spline q ks t r true (Some s) ty = Ok pts ->
    map fst pts = ks /\ forall k p, In (k, p) pts -> exists sigma, bsm_option_price cdf ty s k r sigma t None 0 false = Ok p.
  Proof.
    unfold price_points. cbn [bind]. destruct (mapM _ q) as [iv|]; [|discriminate]. cbn [bind]. destruct (spline (map fst q) iv) as [c|]; [|discriminate]. cbn [bind]. intros [= <-].
    rewrite map_map, map_id. split; auto. intros k p Hin. apply in_map_iff in Hin. destruct Hin as (k0 & [= -> <-] & _). exists (fst c k). reflexivity.
  Qed.
  (** the curve goes through the quotes whose strikes are on the grid *)
  Theorem c120_reproduces_quotes q ks t r s ty pts k p : exact_root brentq -> through_points spline ->
    price_points cdf brentq spline q ks t r true (Some s) ty = Ok pts -> In (k, p) q -> In k ks -> In (k, p) pts.
  Proof.
    intros HB HS. unfold price_points. cbn [bind]. destruct (mapM _ q) as [iv|] eqn:EM; [|discriminate]. cbn [bind]. destruct (spline (map fst q) iv) as [c|] eqn:ES; [|discriminate]. cbn [bind]. intros [= <-] Hq Hk.
    apply In_nth_error in Hq. destruct Hq as [i Hi]. apply mapM_ok in EM.
    assert (G : exists v, nth_error iv i = Some v /\ implied_volatility brentq (fun sigma => bsm_value cdf ty s k r sigma t) p (1 / 100) 1 = Ok v).
    { clear -EM Hi. revert i Hi. induction EM as [|o v q iv Ho EM IH]; intros i Hi; [destruct i; discriminate|]. destruct i as [|i]; [injection Hi as ->; exists v; auto|]. apply (IH i). exact Hi. }
    destruct G as (v & Hv & E). unfold implied_volatility in E. apply HB in E. destruct E as [_ E].
    apply in_map_iff. exists k. split; auto. f_equal. rewrite (HS _ _ _ ES i k v); [lra| |exact Hv]. now rewrite nth_error_map, Hi.
  Qed.
  (** quotes that share one volatility between the root finder's bounds give Black-Scholes prices at that volatility on the whole grid *)
  Theorem c120_flat_smile q ks t r s ty sigma pts : is_normal_cdf cdf -> exact_root brentq -> keeps_constants spline -> 0 < s -> 0 < t -> 0 < sigma ->
    (forall k p, In (k, p) q -> 0 < k /\ bsm_option_price cdf ty s k r sigma t None 0 false = Ok p) ->
    price_points cdf brentq spline q ks t r true (Some s) ty = Ok pts ->
    forall k p, In (k, p) pts -> In k ks /\ bsm_option_price cdf ty s k r sigma t None 0 false = Ok p.
  Proof.
    intros NC HB HS Hs Ht Hsig HQ. unfold price_points. cbn [bind]. destruct (mapM _ q) as [iv|] eqn:EM; [|discriminate]. cbn [bind]. destruct (spline (map fst q) iv) as [c|] eqn:ES; [|discriminate]. cbn [bind]. intros [= <-].
    assert (IV : forall y, In y iv -> y = sigma).
    { apply mapM_ok in EM. clear ES. induction EM as [|[k p] v q iv Ho EM IH]; intros y Hy; [destruct Hy|]. destruct Hy as [<-|Hy]; [|apply IH; auto; intros; apply HQ; now right].
      destruct (HQ k p (or_introl eq_refl)) as [Hk E]. cbn [fst snd] in Ho. unfold implied_volatility in Ho. apply HB in Ho. destruct Ho as [Hr Ho].
      assert (Hv : 0 < v) by lra. assert (EV : bsm_option_price cdf ty s k r v t None 0 false = Ok p). { change (bsm_option_price cdf ty s k r v t None 0 false) with (Ok (bsm_value cdf ty s k r v t)). f_equal. lra. }
      destruct (Rtotal_order v sigma) as [HL|[HE|HL]]; auto; exfalso.
      - pose proof (@c72_monotone_volatility cdf ty s k r v sigma t None 0 false p p NC ltac:(cbn; auto) Hk Hv HL Ht (or_introl eq_refl) EV E). lra.
      - pose proof (@c72_monotone_volatility cdf ty s k r sigma v t None 0 false p p NC ltac:(cbn; auto) Hk Hsig HL Ht (or_introl eq_refl) E EV). lra. }
    intros k p Hin. apply in_map_iff in Hin. destruct Hin as (k0 & [= -> <-] & Hk). split; auto. rewrite (HS _ _ _ sigma ES IV). reflexivity.
  Qed.
  (** a quote no volatility between 1% and 100% explains makes the call raise whatever the root finder raises *)
  Theorem c120_root_error q ks t r s ty e : q <> [] -> (forall f a b, brentq f a b = Err e) -> price_points cdf brentq spline q ks t r true (Some s) ty = Err e.
  Proof. intros NE H. unfold price_points. cbn [bind]. destruct q as [|o q]; [congruence|]. cbn [mapM]. unfold implied_volatility at 1. rewrite H. reflexivity. Qed.
End VOLATILITY.

(** ** C121 The weight of a price range *)
Lemma linspace_length a b n : length (linspace a b n) = n.
Proof. unfold linspace. destruct (Nat.eqb_spec n 1) as [->|]; auto. now rewrite map_length, seq_length. Qed.
Lemma filter_all A (f : A -> bool) l : (forall x, In x l -> f x = true) -> filter f l = l.
Proof. induction l as [|a l IH]; intros H; auto. cbn. rewrite (H a) by now left. f_equal. apply IH. intros; apply H; now right. Qed.
Lemma discrete_pdf_flat (f2 : R -> R) v ks t r : ks <> [] -> (forall x, f2 x = v) -> 0 < v -> 
  length (discrete_pdf f2 ks t r None) = (length ks * 3)%nat /\ forall k x, In (k, x) (discrete_pdf f2 ks t r None) -> x = exp (r * t) * v.
Proof.
  intros NE Hf Hv. unfold discrete_pdf. destruct ks as [|k0 ks0] eqn:E; [congruence|]. rewrite <- E.
  set (g := map (fun k => (k, exp (r * t) * f2 k)) (linspace (rlmin ks) (rlmax ks) (length ks * 3))).
  assert (P : forall e, In e g -> snd e = exp (r * t) * v). { intros e He. apply in_map_iff in He. destruct He as (k & <- & _). cbn. now rewrite Hf. }
  rewrite filter_all.
  - unfold g at 1. rewrite map_length, linspace_length. split; auto. intros k x Hin. exact (P _ Hin).
  - intros e He. rewrite (P e He). destruct (Rle_dec _ _) as [|C]; auto. exfalso. apply C. left. apply Rmult_lt_0_compat; auto. apply exp_pos.
Qed.
Lemma rsum_map_all A (f : A -> R) l c : (forall a, In a l -> f a = c) -> rsum (map f l) = INR (length l) * c.
Proof. intros H. rewrite <- rsum_map_const. apply rsum_map_ext. auto. Qed.
(** The samples should fall in each range with the probability the density gives it.  For a flat density the probability of the calls' range is
    the calls' share of the quotes, whatever the ranges are *)
Theorem c121_range_share_refuted phi cdf brentq spline smooth choose cs ps t r s0 d m rv pdf r' cc cp v :
  cs <> [] -> ps <> [] -> spline (map fst cs) (map snd cs) = Ok cc -> spline (map fst ps) (map snd ps) = Ok cp ->
  0 < v -> (forall x, snd cc x = v) -> (forall x, snd cp x = v) ->
  implied_underlying_distribution phi cdf brentq spline smooth choose (Some cs) (Some ps) t r s0 d None None false m = Ok (rv, pdf, r') ->
  exists pc pp, (forall x, pdf x = density_estimate phi (choose (pc ++ pp) m) x) /\
    (forall k w, In (k, w) pc -> exists k1 k2, In k1 (map fst cs) /\ In k2 (map fst cs) /\ k1 <= k <= k2) /\
    (forall k w, In (k, w) pp -> exists k1 k2, In k1 (map fst ps) /\ In k2 (map fst ps) /\ k1 <= k <= k2) /\
    rsum (map snd pc) = INR (length cs) / (INR (length cs) + INR (length ps)) /\ rsum (map snd pp) = INR (length ps) / (INR (length cs) + INR (length ps)).
Proof.
  intros NC NP SC SP Hv FC FP H. destruct (distribution_ok H) as (lc & lp & probs & h & HC & HP & ES & NZ & B & _ & -> & _).
  destruct lc as [lc|]; [|destruct HC]. destruct lp as [lp|]; [|destruct HP]. cbn [side_result] in HC, HP.
  destruct (discrete_pdf_ok NC HC) as (pts & c1 & S1 & P1 & EL1). injection P1 as <-. rewrite SC in S1. injection S1 as <-.
  destruct (discrete_pdf_ok NP HP) as (pts & c2 & S2 & P2 & EL2). injection P2 as <-. rewrite SP in S2. injection S2 as <-.
  assert (NC' : map fst cs <> []) by (destruct cs; [congruence|discriminate]). assert (NP' : map fst ps <> []) by (destruct ps; [congruence|discriminate]).
  destruct (@discrete_pdf_flat _ v _ t r' NC' FC Hv) as [L1 V1]. destruct (@discrete_pdf_flat _ v _ t r' NP' FP Hv) as [L2 V2]. rewrite <- EL1 in L1, V1. rewrite <- EL2 in L2, V2. rewrite map_length in L1, L2.
  assert (Hv' : 0 < exp (r' * t) * v) by (apply Rmult_lt_0_compat; auto; apply exp_pos). set (c := exp (r' * t) * v) in *.
  assert (N1 : 0 < INR (length cs)) by now apply INR_length_pos. assert (N2 : 0 < INR (length ps)) by now apply INR_length_pos.
  assert (T : rsum (map snd (lc ++ lp)) = 3 * (INR (length cs) + INR (length ps)) * c).
  { rewrite map_app, rsum_app, (@rsum_map_all _ snd lc c), (@rsum_map_all _ snd lp c); [|intros [k x] Hin; exact (V2 k x Hin)|intros [k x] Hin; exact (V1 k x Hin)]. rewrite L1, L2, !mult_INR. cbn [INR]. ring. }
  cbn [sampling_probs option_map] in ES. injection ES as <-.
  set (norm := fun e : R * R => (fst e, snd e / rsum (map snd (lc ++ lp)))). fold norm in B. exists (map norm lc), (map norm lp). rewrite <- map_app. split; [intros x; unfold density_estimate; rewrite (scott_bandwidth B); reflexivity|].
  assert (RNG : forall cv q l, (forall k x, In (k, x) l -> 0 <= x /\ x = exp (r' * t) * cv k /\ exists kmin kmax, In kmin (map fst q) /\ In kmax (map fst q) /\ kmin <= k <= kmax) -> forall k w, In (k, w) (map norm l) -> exists k1 k2, In k1 (map (@fst R R) q) /\ In k2 (map (@fst R R) q) /\ k1 <= k <= k2).
  { intros cv q l HL k w Hin. apply in_map_iff in Hin. destruct Hin as ([k0 x] & [= <- _] & Hin). destruct (HL k0 x Hin) as (_ & _ & HH). exact HH. }
  split; [apply (RNG (snd cc)); intros k x Hin; rewrite EL1 in Hin; exact (c96_pdf_nonnegative Hin)|]. split; [apply (RNG (snd cp)); intros k x Hin; rewrite EL2 in Hin; exact (c96_pdf_nonnegative Hin)|].
  rewrite !map_map. cbn [norm snd]. rewrite T. split.
  - rewrite (@rsum_map_all _ _ lc (c / (3 * (INR (length cs) + INR (length ps)) * c))); [|intros [k x] Hin; cbn [snd]; rewrite (V1 k x Hin); reflexivity]. rewrite L1, mult_INR. cbn [INR]. field. lra.
  - rewrite (@rsum_map_all _ _ lp (c / (3 * (INR (length cs) + INR (length ps)) * c))); [|intros [k x] Hin; cbn [snd]; rewrite (V2 k x Hin); reflexivity]. rewrite L2, mult_INR. cbn [INR]. field. lra.
Qed.

(** ** Cases that meet the hypotheses *)
(** three strategies on two observations: selected on one row, judged on the other, the ranks are 0 and 1 *)
Definition ex_rows : list (list Qc) := [[q 2 1; q 1 1; q 0 1]; [q 0 1; q 2 1; q 1 1]].
Definition ex_eval (rows : list (list Qc)) : list Qc := match rows with r :: _ => r | [] => [q 0 1; q 0 1; q 0 1] end.
Definition ex_argsort (l : list Qc) : list nat := match l with x :: y :: _ => if qlt x y then [0; 2; 1]%nat else [2; 1; 0]%nat | _ => [] end.
Example c117_ex : exists cdf phi quad p tr te, let logits := [rank_logit 0 3; rank_logit 1 3] in
  is_normal_cdf cdf /\ (forall x, derivable_pt_lim cdf x (phi x)) /\ compute_pbo quad phi ex_eval ex_argsort ex_rows 3 2 = Ok (p, logits, tr, te) /\
  integral_of (density_estimate phi logits) None 0 (quad (density_estimate phi logits) None 0) /\ / 2 < p.
Proof.
  destruct normal_cdf_exists as [cdf N]. destruct (nc_derivative N) as (c & Hc & D). set (logits := [rank_logit 0 3; rank_logit 1 3]).
  assert (NEQ : rank_logit 0 3 <> rank_logit 1 3) by (intros E; apply rank_logit_inj in E; lia).
  destruct (@bandwidth_defined logits) as [h B]; [cbn; lia|intros H; apply NEQ; apply H; [now left|right; now left]|].
  set (phi := fun x => c * bell x). set (quad := fun (_ : R -> R) (_ : option R) (_ : R) => mix cdf logits h 0).
  destruct (bandwidth_ok B) as (_ & Hh & _).
  assert (ER : exists tr te, compute_pbo_ranks ex_eval ex_argsort ex_rows 2 = Ok [(0%nat, fst tr, fst te); (1%nat, snd tr, snd te)]) by (exists (q 2 1, q 2 1), (q 0 1, q 1 1); vm_compute; repeat f_equal; apply Qc_is_canon; reflexivity).
  destruct ER as (tr & te & ER).
  assert (E : compute_pbo quad phi ex_eval ex_argsort ex_rows 3 2 = Ok (mix cdf logits h 0, logits, [fst tr; snd tr], [fst te; snd te])).
  { unfold compute_pbo. rewrite ER. cbn [bind map fst snd]. fold logits. rewrite B. reflexivity. }
  assert (Q : integral_of (density_estimate phi logits) None 0 (quad (density_estimate phi logits) None 0)).
  { exists (mix cdf logits h). split; [|split; [now apply (mix_vanishes N D)|reflexivity]]. intro y. unfold density_estimate. rewrite (scott_bandwidth B). exact (@mix_derivative cdf phi D logits h y Hh). }
  exists cdf, phi, quad, (mix cdf logits h 0), [fst tr; snd tr], [fst te; snd te]. split; auto. split; auto. split; auto. split; auto.
  destruct (@c117_median cdf phi quad _ ex_eval ex_argsort ex_rows 3 2 _ _ _ _ _ N D E Q ER) as [G _]; [lia| |apply G]; intros r [<-|[<-|[]]]; cbn; lia.
Qed.
(** a stable [argsort] exists *)
Fixpoint ex_insert (x : Qc * nat) (l : list (Qc * nat)) : list (Qc * nat) := match l with [] => [x] | y :: l' => if qle (fst x) (fst y) then x :: l else y :: ex_insert x l' end.
Definition ex_sort (l : list Qc) : list nat := map snd (fold_right ex_insert [] (combine l (seq 0 (length l)))).
Lemma ex_insert_perm x l : Permutation (ex_insert x l) (x :: l).
Proof. induction l as [|y l IH]; auto. cbn. destruct (qle (fst x) (fst y)); auto. rewrite IH. apply perm_swap. Qed.
Lemma ex_insert_sorted x l : StronglySorted (fun a b => (fst a <= fst b)%Qc) l -> StronglySorted (fun a b : Qc * nat => (fst a <= fst b)%Qc) (ex_insert x l).
Proof.
  induction 1 as [|y l HS IH HF]; cbn; [repeat constructor|]. destruct (qle_spec (fst x) (fst y)) as [H|H].
  - constructor; [now constructor|]. constructor; auto. eapply Forall_impl; [|exact HF]. intros a Ha. eapply Qcle_trans; eauto.
  - constructor; auto. eapply Permutation_Forall; [symmetry; apply ex_insert_perm|]. constructor; auto. apply Qclt_le_weak. now apply Qcnot_le_lt.
Qed.
Example c117_argsort : forall l, sorts_ascending l (ex_sort l).
Proof.
  intros l. assert (P : Permutation (fold_right ex_insert [] (combine l (seq 0 (length l)))) (combine l (seq 0 (length l)))).
  { generalize (combine l (seq 0 (length l))). intros c. induction c as [|x c IH]; auto. cbn. rewrite ex_insert_perm. now constructor. }
  assert (S : StronglySorted (fun a b : Qc * nat => (fst a <= fst b)%Qc) (fold_right ex_insert [] (combine l (seq 0 (length l))))).
  { generalize (combine l (seq 0 (length l))). intros c. induction c as [|x c IH]; [constructor|]. now apply ex_insert_sorted. }
  split.
  - unfold ex_sort. rewrite P. rewrite combine_snd; [reflexivity|]. now rewrite seq_length.
  - unfold ex_sort. set (c := fold_right _ _ _) in *. assert (V : forall i a x, nth_error (map snd c) i = Some a -> nth_error l a = Some x -> exists e, nth_error c i = Some e /\ fst e = x).
    { intros i a x Hi Hx. rewrite nth_error_map in Hi. destruct (nth_error c i) as [e|] eqn:E; [|discriminate]. injection Hi as <-. exists e. split; auto.
      apply nth_error_In in E. apply (Permutation_in _ P) in E. apply In_nth_error in E. destruct E as [j Ej]. destruct e as [v a]. cbn [fst snd] in *.
      assert (HJ : nth_error l j = Some v /\ nth_error (seq 0 (length l)) j = Some a).
      { clear -Ej. revert Ej. generalize (seq 0 (length l)). revert j. induction l as [|y l IH]; intros j s Ej; [destruct j; discriminate|]. destruct s as [|z s]; [destruct j; discriminate|]. destruct j as [|j]; [injection Ej as -> ->; auto|]. apply (IH j s). exact Ej. }
      destruct HJ as [H1 H2]. assert (j < length l)%nat by (apply nth_error_Some; congruence). rewrite (nth_error_nth' _ 0%nat) in H2 by (now rewrite seq_length). rewrite seq_nth in H2 by auto. injection H2 as <-. cbn in Hx. congruence. }
    intros i j a b x y Hij Hi Hj Hx Hy. destruct (V i a x Hi Hx) as (e & He & <-). destruct (V j b y Hj Hy) as (e' & He' & <-).
    clear -S Hij He He'. revert i j Hij He He'. induction S as [|z s HS IH HF]; intros i j Hij He He'; [destruct i; discriminate|]. destruct j as [|j]; [lia|]. destruct i as [|i]; [injection He as ->; rewrite Forall_forall in HF; apply HF; eapply nth_error_In; exact He'|]. apply (IH i j); auto. lia.
Qed.
(** one strategy earns 1 and the other 0 on every sample *)
Example c117_dominant_ex : forall quad phi, compute_pbo quad phi (fun _ : list unit => [q 1 1; q 0 1]) ex_sort [tt; tt; tt; tt] 2 4 = Err ValueError.
Proof.
  intros. apply (@c117_dominant_refuted quad phi _ (fun _ : list unit => [q 1 1; q 0 1]) ex_sort [tt; tt; tt; tt] 2 2 0); auto; [apply c117_argsort|].
  intros _ [|[|i]] x y Hi Hx Hy; cbn in Hx, Hy; try congruence; [|destruct i; discriminate]. injection Hx as <-. injection Hy as <-. reflexivity.
Qed.
(** quotes with a flat density: two calls over a wide range and three puts over a narrow one; two fifths of the samples are in the wide one *)
Example c121_ex : forall cdf phi brentq smooth, exists rv pdf,
  let spline := fun _ _ : list R => Ok (fun x : R => x * x / 2, fun _ : R => 1) in let choose := fun (_ : list (R * R)) (_ : nat) => [1; 2] in
  implied_underlying_distribution phi cdf brentq spline smooth choose (Some [(0, 1); (100, 1)]) (Some [(100, 1); (101, 1); (102, 1)]) 1 (Some 0) None 0 None None false 2 = Ok (rv, pdf, 0).
Proof.
  intros. destruct (@bandwidth_defined [1; 2]) as [h B]; [cbn; lia|intros H; specialize (H 1 2 ltac:(now left) ltac:(right; now left)); lra|].
  do 2 eexists. cbv zeta. unfold implied_underlying_distribution. cbn [bind]. unfold implied_discrete_pdf. cbn [price_points bind snd]. set (F := fun e : R * R => if Rle_dec 0 (snd e) then true else false).
  match goal with |- context [sampling_probs (Some ?a) (Some ?b)] => set (A := a); set (A' := b) end. cbn [sampling_probs option_map].
  assert (FL : forall g, (forall e, In e g -> snd e = exp (0 * 1) * 1) -> 0 <= rsum (map snd (filter F g)) /\ (g <> [] -> 0 < rsum (map snd (filter F g)))).
  { intros g Hg. assert (K : exp (0 * 1) * 1 = 1) by (rewrite Rmult_0_l, exp_0; ring). rewrite filter_all; [|intros e He; unfold F; rewrite (Hg e He), K; destruct (Rle_dec 0 1); auto; lra].
    rewrite (@rsum_map_all _ snd g 1); [|intros a Ha; rewrite (Hg a Ha); exact K]. rewrite Rmult_1_r. split; [apply pos_INR|]. intros NE. now apply INR_length_pos. }
  assert (GA : 0 < rsum (map snd A)). { apply FL; [intros e He; apply in_map_iff in He; destruct He as (k & <- & _); reflexivity|discriminate]. }
  assert (GB : 0 <= rsum (map snd A')). { apply FL. intros e He; apply in_map_iff in He; destruct He as (k & <- & _); reflexivity. }
  destruct (Req_EM_T _ 0) as [Z|_]; [lra|]. rewrite B. reflexivity.
Qed.
(** a flat smile at a volatility of one half *)
Example c120_ex : forall cdf, exists brentq spline, exact_root brentq /\ keeps_constants spline /\ through_points spline /\
  let price := fun k => bsm_value cdf Call 1 k 0 (1 / 2) 1 in
  price_points cdf brentq spline [(1, price 1); (2, price 2)] [1; 3 / 2; 2] 1 0 true (Some 1) Call = Ok [(1, price 1); (3 / 2, price (3 / 2)); (2, price 2)].
Proof.
  intros cdf. exists (fun f a b => if Req_EM_T (f (1 / 2)) 0 then (if Rle_dec a (1 / 2) then if Rle_dec (1 / 2) b then Ok (1 / 2) else Err ValueError else Err ValueError) else Err ValueError).
  exists (fun xs ys => match ys with [y; y'] => if Req_EM_T y y' then Ok (fun _ => y, fun _ => 0) else Err ValueError | _ => Err ValueError end).
  split; [|split; [|split]].
  - intros f a b x. destruct (Req_EM_T _ 0); [|discriminate]. destruct (Rle_dec a _); [|discriminate]. destruct (Rle_dec _ b); [|discriminate]. intros [= <-]. auto.
  - intros xs ys c v. destruct ys as [|y [|y' [|]]]; try discriminate. destruct (Req_EM_T y y'); [|discriminate]. intros [= <-] H x. cbn. apply H. now left.
  - intros xs ys c. destruct ys as [|y [|y' [|]]]; try discriminate. destruct (Req_EM_T y y') as [->|]; [|discriminate]. intros [= <-] [|[|[|i]]] x z _ H; cbn in *; congruence.
  - intros price. unfold price_points, implied_volatility. cbn [bind mapM map fst snd]. destruct (Req_EM_T _ 0) as [_|C]; [|exfalso; apply C; unfold price; ring]. destruct (Rle_dec (1 / 100) (1 / 2)); [|lra]. destruct (Rle_dec (1 / 2) 1); [|lra]. cbn [bind].
    destruct (Req_EM_T _ 0) as [_|C]; [|exfalso; apply C; unfold price; ring]. cbn [bind]. destruct (Req_EM_T (1 / 2) (1 / 2)); [|lra]. reflexivity.
Qed.
Print Assumptions c117_pbo_value.
Print Assumptions c117_pbo_is_probability.
Print Assumptions c117_pbo_records.
Print Assumptions c117_median.
Print Assumptions c117_raises_iff.
Print Assumptions c117_dominant_refuted.
Print Assumptions c118_densities.
Print Assumptions c118_cdf_value.
Print Assumptions c118_mass_refuted.
Print Assumptions c119_discrete_pdf.
Print Assumptions c119_no_quotes.
Print Assumptions c119_sampling.
Print Assumptions c119_smoothed.
Print Assumptions c119_no_mass.
Print Assumptions c119_rate.
Print Assumptions c119_exceptions.
Print Assumptions c120_points.
Print Assumptions c120_reproduces_quotes.
Print Assumptions c120_flat_smile.
Print Assumptions c120_root_error.
Print Assumptions c121_range_share_refuted.
