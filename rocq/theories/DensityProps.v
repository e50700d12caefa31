(** C152, C153: densities implied by quotes, with scipy's spline and filter. *)
From Verif Require Import Py RNum StatsModel StatsProps StructModel StructProps RegModel RegProofs RecProps Normal OptionModel OptionProps RootModel RootProps KDEModel KDEProps CurveModel CurveProofs CurveProps FilterProps.
Set Implicit Arguments.
Unset Strict Implicit.
Open Scope R_scope.

Section DENSITY.
  Variables (phi cdf : R -> R) (brentq : (R -> R) -> R -> R -> res R) (choose : list (R * R) -> nat -> list R).
  Notation pdf_of := (implied_discrete_pdf cdf brentq cubic_spline gaussian_filter1d).
  Lemma price_space q t r n s0 ty : q <> [] -> pdf_of q t r n None false s0 ty = do cv <- cubic_spline (map fst q) (map snd q); Ok (discrete_pdf (snd cv) (map fst q) t r n).
  Proof.
    intro NE. unfold implied_discrete_pdf. destruct q as [|o q0] eqn:EQ; [congruence|]. rewrite <- EQ in *. cbn [price_points bind]. destruct (cubic_spline _ _) as [cv|]; cbn [bind]; auto. f_equal.
    unfold discrete_pdf. rewrite map_length. destruct (map fst q) eqn:EM; [rewrite EQ in EM; discriminate|reflexivity].
  Qed.
  (** quotes must come with increasing strikes, at least two *)
  Theorem c152_raises q t r n s0 ty : q <> [] -> (pdf_of q t r n None false s0 ty = Err ValueError <-> ((length q < 2)%nat \/ ~ in_order (map fst q))) /\ forall e, pdf_of q t r n None false s0 ty = Err e -> e = ValueError.
  Proof.
    intro NE. rewrite price_space by auto. destruct (c151_raises (map fst q) (map snd q)) as [HI HV]. rewrite !map_length in HI. destruct (cubic_spline _ _) as [cv|e]; cbn [bind].
    - split; [|discriminate]. split; [discriminate|]. intros H. exfalso. assert (C : @Ok ((R -> R) * (R -> R)) cv = Err ValueError) by (apply HI; tauto). discriminate.
    - split; [|intros e' [= <-]; now apply HV]. rewrite (HV e eq_refl) in *. split; auto. intros _. destruct (proj1 HI eq_refl) as [H|[H|H]]; auto.
  Qed.
  Lemma bracket (x : nat -> R) m v : x 0%nat <= v <= x (S m) -> exists i, (i <= m)%nat /\ x i <= v <= x (S i).
  Proof.
    induction m as [|m IH]; intro H; [exists 0%nat; auto|]. destruct (Rle_dec v (x (S m))) as [C|C].
    - destruct IH as (i & Hi & B); [lra|]. exists i. split; auto.
    - exists (S m). split; auto. lra.
  Qed.
  Lemma in_order_ends xs k : in_order xs -> In k xs -> nth 0 xs 0 <= k <= nth (length xs - 1) xs 0.
  Proof.
    intros H Hk. destruct (In_nth xs k 0 Hk) as (i & Hi & <-).
    assert (M : forall j d, (j + d < length xs)%nat -> nth j xs 0 <= nth (j + d) xs 0).
    { intros j. induction d as [|d IH]; intro Hd; [rewrite Nat.add_0_r; lra|]. pose proof (IH ltac:(lia)). pose proof (H (j + d)%nat ltac:(lia)). replace (j + S d)%nat with (S (j + d)) by lia. lra. }
    split; [apply (M 0%nat i); lia|]. replace (length xs - 1)%nat with (i + (length xs - 1 - i))%nat by lia. apply M. lia.
  Qed.
  (** in price space the density at a strike lies, linearly, between those at the neighbouring quoted strikes *)
  Theorem c152_between q t r n s0 ty l cv k w : pdf_of q t r n None false s0 ty = Ok l -> cubic_spline (map fst q) (map snd q) = Ok cv -> In (k, w) l ->
    exists i k1 k2 p1 p2, nth_error q i = Some (k1, p1) /\ nth_error q (S i) = Some (k2, p2) /\ k1 <= k <= k2 /\ k1 < k2 /\
      w = exp (r * t) * snd cv k1 + (exp (r * t) * snd cv k2 - exp (r * t) * snd cv k1) * ((k - k1) / (k2 - k1)).
  Proof.
    intros HP HC Hin. assert (NE : q <> []) by (intros ->; cbn in HP; injection HP as <-; destruct Hin). rewrite price_space, HC in HP by auto. cbn [bind] in HP. injection HP as <-.
    destruct (c96_pdf_nonnegative Hin) as (_ & -> & kmin & kmax & I1 & I2 & IK). destruct (spline_inv HC) as (Hn & HL & Hx & _). rewrite map_length in Hn, Hx.
    assert (IO : in_order (map fst q)) by (intros i Hi; rewrite map_length in Hi; pose proof (Hx i Hi) as Q; unfold gap in Q; lra).
    pose proof (in_order_ends IO I1) as B1. pose proof (in_order_ends IO I2) as B2. rewrite map_length in B1, B2.
    destruct (@bracket (fun i => nth i (map fst q) 0) (length q - 2) k) as (i & Hi & B). { replace (S (length q - 2)) with (length q - 1)%nat by lia. lra. }
    assert (Hi2 : (i + 1 < length q)%nat) by lia. pose proof (Hx i Hi2) as G. unfold gap in G.
    destruct (nth_error q i) as [[k1 p1]|] eqn:E1; [|apply nth_error_None in E1; lia]. destruct (nth_error q (S i)) as [[k2 p2]|] eqn:E2; [|apply nth_error_None in E2; lia].
    assert (N1 : nth i (map fst q) 0 = k1) by (apply nth_error_nth; now rewrite nth_error_map, E1). assert (N2 : nth (S i) (map fst q) 0 = k2) by (apply nth_error_nth; now rewrite nth_error_map, E2). rewrite N1, N2 in *.
    exists i, k1, k2, p1, p2. repeat split; auto; try lra. rewrite (@c151_curvature_between (map fst q) (map snd q) cv i k HC) by (rewrite ?map_length, ?N1, ?N2; auto). rewrite N1, N2. ring.
  Qed.
  (** so no strike of the grid is dropped if the curve is convex at the quotes *)
  Theorem c152_complete q t r m s0 ty cv : cubic_spline (map fst q) (map snd q) = Ok cv -> (forall k p, In (k, p) q -> 0 <= snd cv k) ->
    exists l, pdf_of q t r (Some m) None false s0 ty = Ok l /\ length l = m.
  Proof.
    intros HC HP. assert (NE : q <> []) by (intros ->; cbn in HC; discriminate). rewrite price_space, HC by auto. cbn [bind]. eexists. split; [reflexivity|].
    destruct (spline_inv HC) as (Hn & HL & Hx & _). rewrite map_length in Hn, Hx. assert (IO : in_order (map fst q)) by (intros i Hi; rewrite map_length in Hi; pose proof (Hx i Hi) as Q; unfold gap in Q; lra).
    unfold discrete_pdf. destruct (map fst q) as [|k0 ks] eqn:EM; [apply map_eq_nil in EM; congruence|]. rewrite <- EM in *. clear EM.
    rewrite filter_all; [now rewrite map_length, linspace_length|]. intros e He. apply in_map_iff in He. destruct He as (k & <- & Hk). cbn [snd].
    destruct (@c96_pdf_nonnegative (fun _ => 1) (map fst q) 0 0 (Some m) k (exp (0 * 0) * 1)) as (_ & _ & kmin & kmax & I1 & I2 & IK).
    { unfold discrete_pdf. destruct (map fst q) eqn:EM; [apply map_eq_nil in EM; congruence|]. rewrite <- EM in *. apply filter_In. split; [apply in_map_iff; exists k; auto|]. cbn [snd]. destruct (Rle_dec _ _) as [|C]; auto. exfalso. apply C. pose proof (exp_pos (0 * 0)). lra. }
    pose proof (in_order_ends IO I1) as B1. pose proof (in_order_ends IO I2) as B2. rewrite map_length in B1, B2.
    destruct (@bracket (fun i => nth i (map fst q) 0) (length q - 2) k) as (i & Hi & B). { replace (S (length q - 2)) with (length q - 1)%nat by lia. lra. }
    assert (Hi2 : (i + 1 < length q)%nat) by lia. pose proof (Hx i Hi2) as G. unfold gap in G.
    assert (P : forall j, (j < length q)%nat -> 0 <= snd cv (nth j (map fst q) 0)). { intros j Hj. assert (Q : In (nth j (map fst q) 0) (map fst q)) by (apply nth_In; rewrite map_length; auto). apply in_map_iff in Q. destruct Q as ([a b] & <- & Q). eapply HP. exact Q. }
    pose proof (P i ltac:(lia)) as P1. pose proof (P (S i) ltac:(lia)) as P2. destruct (Rle_dec 0 (exp (r * t) * snd cv k)) as [|C]; auto. exfalso. apply C. apply Rmult_le_pos; [left; apply exp_pos|].
    rewrite (@c151_curvature_between (map fst q) (map snd q) cv i k HC) by (rewrite ?map_length; auto). set (a := snd cv (nth i (map fst q) 0)) in *. set (b := snd cv (nth (S i) (map fst q) 0)) in *. set (k1 := nth i (map fst q) 0) in *. set (k2 := nth (S i) (map fst q) 0) in *.
    assert (F : 0 <= (k - k1) / (k2 - k1) <= 1). { split; [apply Rmult_le_pos; [lra|left; apply Rinv_0_lt_compat; lra]|]. apply Rmult_le_reg_r with (k2 - k1); [lra|]. unfold Rdiv. rewrite Rmult_assoc, Rinv_l by lra. lra. } nra.
  Qed.
  (** two quotes: a line, without any mass, so there is nothing to sample from *)
  Theorem c152_two_quotes k1 p1 k2 p2 t r s0 d n m : k1 < k2 -> implied_underlying_distribution phi cdf brentq cubic_spline gaussian_filter1d choose (Some [(k1, p1); (k2, p2)]) None t (Some r) s0 d n None false m = Err ValueError.
  Proof.
    intro H. set (q := [(k1, p1); (k2, p2)]). destruct (cubic_spline (map fst q) (map snd q)) as [cv|e] eqn:HC.
      assert (Z : forall v, snd cv v = 0).
      { intro v. destruct (@c151_polynomials (map fst q) (map snd q) cv (p1 - (p2 - p1) / (k2 - k1) * k1) ((p2 - p1) / (k2 - k1)) 0 0 HC) with (v := v) as [_ E]; auto; [|rewrite E; ring].
        intros [|[|i]] Hi; cbn in *; try lia; field; lra. }
      assert (HP : exists l, pdf_of q t r n None false s0 Call = Ok l /\ rsum (map snd l) = 0).
      { rewrite price_space, HC by discriminate. cbn [bind]. eexists. split; [reflexivity|].
        match goal with |- rsum (map snd ?L) = 0 => assert (A : forall e, In e L -> snd e = 0) end.
        { intros [k x] Hin. destruct (c96_pdf_nonnegative Hin) as (_ & -> & _). cbn. rewrite Z. ring. }
        rewrite (@rsum_map_all _ snd _ 0 A). ring. }
      destruct HP as (l & HP & HS). destruct (@c119_no_mass cdf phi brentq cubic_spline gaussian_filter1d choose q [] l [] t r s0 d n None false m HP eq_refl) as (C & _). now apply C.
    - exfalso. destruct (c151_raises (map fst q) (map snd q)) as [HI HV]. rewrite HC in HI, HV. rewrite (HV e eq_refl) in HI. destruct (proj1 HI eq_refl) as [C|[C|C]]; cbn in C; try lia. apply C. intros [|i] Hi; cbn in *; [lra|lia].
  Qed.
  (** also after smoothing, the samples are drawn with probabilities: non-negative, summing to one, at strikes between the quoted ones *)
  Theorem c153_sampling calls puts t r s0 d n w vs m rv pdf r' : 0 < w ->
    implied_underlying_distribution phi cdf brentq cubic_spline gaussian_filter1d choose calls puts t r s0 d n (Some w) vs m = Ok (rv, pdf, r') ->
    exists probs, (forall x, pdf x = density_estimate phi (choose probs m) x) /\ rsum (map snd probs) = 1 /\
      forall k p, In (k, p) probs -> 0 <= p /\ exists q k1 k2 p1 p2, (calls = Some q \/ puts = Some q) /\ In (k1, p1) q /\ In (k2, p2) q /\ k1 <= k <= k2.
  Proof.
    intros Hw H. destruct (distribution_ok H) as (pc & pp & probs & h & HC & HP & ES & NZ & B & _ & -> & _). exists probs.
    split; [intros x; unfold density_estimate; rewrite (scott_bandwidth B); reflexivity|].
    assert (SIDE : forall ty quotes l, side_result cdf brentq cubic_spline gaussian_filter1d t r' n (Some w) vs s0 ty quotes (Some l) -> forall k x, In (k, x) l -> 0 <= x /\ exists q k1 k2 p1 p2, quotes = Some q /\ In (k1, p1) q /\ In (k2, p2) q /\ k1 <= k <= k2).
    { intros ty quotes l HS k x Hin. destruct quotes as [q|]; [|destruct HS]. cbn [side_result] in HS. destruct q as [|o q0] eqn:EQ; [injection HS as <-; destruct Hin|]. rewrite <- EQ in *. assert (NE : q <> []) by congruence.
      pose proof (@c119_smoothed cdf brentq cubic_spline gaussian_filter1d q t r' n w vs s0 ty) as S. destruct (implied_discrete_pdf cdf brentq cubic_spline gaussian_filter1d q t r' n None vs s0 ty) as [raw|e] eqn:ER; [|congruence].
      destruct (@c153_densities cdf brentq cubic_spline q t r' n w vs s0 ty raw Hw ER) as (l' & EL & EK & _ & NN & _). rewrite HS in EL. injection EL as <-. split; [eapply NN; exact Hin|].
      assert (Hk : In k (map fst raw)) by (rewrite <- EK; apply in_map_iff; exists (k, x); auto). apply in_map_iff in Hk. destruct Hk as ([k0 x0] & <- & Hk). cbn [fst].
      destruct (@c119_discrete_pdf cdf brentq cubic_spline gaussian_filter1d q t r' n vs s0 ty raw NE ER) as (pts & curve & _ & _ & HIN & _). destruct (HIN k0 x0 Hk) as (_ & _ & k1 & k2 & p1 & p2 & H1). exists q, k1, k2, p1, p2. tauto. }
    set (all := match pc with Some a => a | None => [] end ++ match pp with Some b => b | None => [] end).
    assert (POS : forall k x, In (k, x) all -> 0 <= x /\ exists q k1 k2 p1 p2, (calls = Some q \/ puts = Some q) /\ In (k1, p1) q /\ In (k2, p2) q /\ k1 <= k <= k2).
    { intros k x Hin. apply in_app_or in Hin. destruct Hin as [Hin|Hin].
      - destruct pc as [a|]; [|destruct Hin]. destruct (SIDE _ _ _ HC k x Hin) as (H0 & q & k1 & k2 & p1 & p2 & H1). split; auto. exists q, k1, k2, p1, p2. tauto.
      - destruct pp as [a|]; [|destruct Hin]. destruct (SIDE _ _ _ HP k x Hin) as (H0 & q & k1 & k2 & p1 & p2 & H1). split; auto. exists q, k1, k2, p1, p2. tauto. }
    assert (SUM : 0 < rsum (map snd all)).
    { assert (NN : 0 <= rsum (map snd all)). { apply rsum_nonneg. intros y Hy. apply in_map_iff in Hy. destruct Hy as ([k x] & <- & Hin). apply (POS k x Hin). }
      destruct NN as [|Z]; auto. exfalso. apply NZ. rewrite <- rsum_app, <- map_app. fold all. auto. }
    destruct (@c96_sampling_distribution pc pp probs ES) as (S1 & S2 & S3); [intros k x Hin; apply (POS k x Hin)|exact SUM|]. split; auto.
    intros k p Hin. split; [eapply S2; exact Hin|]. assert (Hk : In k (map fst all)) by (fold all in S3; rewrite <- S3; apply in_map_iff; exists (k, p); auto).
    apply in_map_iff in Hk. destruct Hk as ([k0 x] & <- & Hx). apply (POS k0 x Hx).
  Qed.
End DENSITY.

(** ** C152, as stated: quotes without arbitrage (falling, convex, steps of less than the strike) keep the whole grid *)
Definition no_butterfly (q : list (R * R)) : Prop := forall i k1 p1 k2 p2 k3 p3, nth_error q i = Some (k1, p1) -> nth_error q (S i) = Some (k2, p2) ->
  (k1 < k2 /\ 0 < p2 < p1 /\ p1 - p2 < k2 - k1) /\ (nth_error q (S (S i)) = Some (k3, p3) -> (p2 - p1) / (k2 - k1) < (p3 - p2) / (k3 - k2)).
Theorem c152_convex_refuted cdf brentq s0 ty : exists q l, no_butterfly q /\ implied_discrete_pdf cdf brentq cubic_spline gaussian_filter1d q 1 0 (Some 4%nat) None false s0 ty = Ok l /\
  (exists p, In (4, p) q) /\ ~ exists w, In (4, w) l.
Proof.
  set (q := [(1, 16 / 20); (2, 7 / 20); (3, 4 / 20); (4, 2 / 20)]). exists q.
  destruct (cubic_spline (map fst q) (map snd q)) as [cv|e] eqn:HC.
  - eexists. split; [|split; [rewrite price_space, HC by discriminate; reflexivity|]].
    + intros i k1 p1 k2 p2 k3 p3 H1 H2. destruct i as [|[|[|i]]]; cbn in H1, H2; try (destruct i; discriminate); injection H1 as <- <-; injection H2 as <- <-; (split; [lra|]); cbn; intros [= <- <-]; lra.
    + split; [exists (2 / 20); cbn; auto|]. intros (w & Hin). destruct (c96_pdf_nonnegative Hin) as (H0 & -> & _).
      destruct (@c151_polynomials (map fst q) (map snd q) cv (36 / 20) (- 163 / 120) (8 / 20) (- 5 / 120) HC) with (v := 4) as [_ E]; [|cbn; lia|discriminate|].
      * clear Hin H0. intros [|[|[|[|i]]]] Hi; cbn in Hi |- *; try lia; lra.
      * rewrite E in H0. rewrite Rmult_0_l, exp_0 in H0. lra.
  - exfalso. destruct (c151_raises (map fst q) (map snd q)) as [HI HV]. rewrite HC in HI, HV. rewrite (HV e eq_refl) in HI. destruct (proj1 HI eq_refl) as [C|[C|C]]; cbn in C; try lia. apply C. intros [|[|[|i]]] Hi; cbn in Hi |- *; try lia; lra.
Qed.
(** ** The yield curve (C114) with scipy's spline *)
Definition spline_curve (xs ys : list R) : res (R -> R) := do c <- cubic_spline xs ys; Ok (fst c).
Lemma sorted_in_order xs : StronglySorted Rlt xs <-> in_order xs.
Proof.
  induction xs as [|x xs IH]; [split; [intros _ i Hi; cbn in Hi; lia|constructor]|]. split.
  - intro H. inversion H as [|? ? HS HF]; subst. intros [|i] Hi; cbn in Hi |- *; [|apply (proj1 IH HS); lia]. rewrite Forall_forall in HF. apply HF. apply nth_In. lia.
  - intro H. assert (IO : in_order xs) by (intros i Hi; apply (H (S i)); cbn; lia). constructor; [now apply IH|]. apply Forall_forall. intros y Hy. destruct (In_nth xs y 0 Hy) as (i & Hi & <-).
    assert (B : x < nth 0 xs 0) by (apply (H 0%nat); cbn; lia). destruct (@in_order_ends xs (nth i xs 0) IO (nth_In _ _ Hi)). lra.
Qed.
Theorem c151_is_spline : is_spline spline_curve.
Proof.
  intros xs ys HL. destruct (c151_raises xs ys) as [HI HV]. unfold spline_curve. split.
  - intros [H2 HS]. apply sorted_in_order in HS. destruct (cubic_spline xs ys) as [c|e] eqn:HC; [|exfalso; rewrite (HV e eq_refl) in HI; destruct (proj1 HI eq_refl) as [C|[C|C]]; auto; lia].
    exists (fst c). split; auto. intros i x y Hx Hy. apply (@c151_through_points xs ys c HC i x y Hx Hy).
  - intro H. rewrite (proj2 HI); auto. destruct (Nat.lt_ge_cases (length xs) 2) as [|G]; auto. right. right. intro C. apply H. split; auto. now apply sorted_in_order.
Qed.
(** rates on a straight line, or a parabola or cubic if there are enough of them, stay on it, also beyond the last maturity *)
Theorem c151_yield_curve ts p q r u : (2 <= length ts)%nat -> in_order (map fst ts) -> (forall t y, In (t, y) ts -> y = p + q * t + r * t ^ 2 + u * t ^ 3) -> ((length ts <= 3)%nat -> u = 0) -> (length ts = 2%nat -> r = 0) ->
  exists curve, interpolate_yield_curve spline_curve ts = Ok curve /\ forall t, curve t = p + q * t + r * t ^ 2 + u * t ^ 3.
Proof.
  intros H2 IO HQ HU HR. unfold interpolate_yield_curve, spline_curve. destruct (cubic_spline (map fst ts) (map snd ts)) as [cv|e] eqn:HC; cbn [bind].
  - eexists. split; [reflexivity|]. intro t. apply (@c151_polynomials (map fst ts) (map snd ts) cv p q r u HC); rewrite ?map_length; auto.
    intros i Hi. destruct (nth_error ts i) as [[k y]|] eqn:E; [|apply nth_error_None in E; lia].
    rewrite (@nth_error_nth _ (map fst ts) i k 0) by now rewrite nth_error_map, E. rewrite (@nth_error_nth _ (map snd ts) i y 0) by now rewrite nth_error_map, E. exact (HQ k y (nth_error_In _ _ E)).
  - exfalso. destruct (c151_raises (map fst ts) (map snd ts)) as [HI HV]. rewrite HC in HI, HV. rewrite (HV e eq_refl) in HI. rewrite !map_length in HI. destruct (proj1 HI eq_refl) as [C|[C|C]]; try lia. contradiction.
Qed.
(** interpolated rates do not stay between the quoted ones: rates of 2%, 2% and 6% for one, four and five years give -0.25% for two and a half years *)
Theorem c151_between_refuted : exists ts curve, StronglySorted Rlt (map fst ts) /\ (forall t y, In (t, y) ts -> 2 / 100 <= y <= 6 / 100) /\ interpolate_yield_curve spline_curve ts = Ok curve /\
  exists t, nth 0 (map fst ts) 0 < t < nth (length ts - 1) (map fst ts) 0 /\ curve t < 0.
Proof.
  set (ts := [(1, 2 / 100); (4, 2 / 100); (5, 6 / 100)]). assert (IO : in_order (map fst ts)) by (intros [|[|i]] Hi; cbn in Hi |- *; try lia; lra).
  destruct (@c151_yield_curve ts (6 / 100) (- 5 / 100) (1 / 100) 0) as (curve & HC & E); auto; [cbn; lia|intros t y [[= <- <-]|[[= <- <-]|[[= <- <-]|[]]]]; lra|discriminate|].
  exists ts, curve. split; [now apply sorted_in_order|]. split; [intros t y [[= <- <-]|[[= <- <-]|[[= <- <-]|[]]]]; lra|]. split; auto. exists (5 / 2). cbn [ts length map fst nth Nat.sub]. split; [lra|]. rewrite E. lra.
Qed.
(** ** Examples *)
(** prices on a parabola: the spline is the parabola, its second derivative one everywhere *)
Lemma parabola_spline k0 q : (2 < length q)%nat -> in_order (map fst q) -> (forall k p, In (k, p) q -> p = (k - k0) ^ 2 / 2) ->
  exists cv, cubic_spline (map fst q) (map snd q) = Ok cv /\ forall v, fst cv v = (v - k0) ^ 2 / 2 /\ snd cv v = 1.
Proof.
  intros HN IO HQ. destruct (cubic_spline (map fst q) (map snd q)) as [cv|e] eqn:HC.
  - exists cv. split; auto. intro v. destruct (@c151_polynomials (map fst q) (map snd q) cv (k0 ^ 2 / 2) (- k0) (1 / 2) 0 HC) with (v := v) as [E1 E2]; auto; [|intro C; rewrite map_length in C; lia|split; [rewrite E1; field|rewrite E2; lra]].
    intros i Hi. rewrite map_length in Hi. destruct (nth_error q i) as [[k p]|] eqn:E; [|apply nth_error_None in E; lia].
    rewrite (@nth_error_nth _ (map fst q) i k 0) by now rewrite nth_error_map, E. rewrite (@nth_error_nth _ (map snd q) i p 0) by now rewrite nth_error_map, E. rewrite (HQ k p (nth_error_In _ _ E)). field.
  - exfalso. destruct (c151_raises (map fst q) (map snd q)) as [HI HV]. rewrite HC in HI, HV. rewrite (HV e eq_refl) in HI. rewrite !map_length in HI. destruct (proj1 HI eq_refl) as [C|[C|C]]; try lia. contradiction.
Qed.
Definition quotes_ex : list (R * R) := [(0, 2); (1, 1 / 2); (2, 0)].
Example c151_ex : exists cv, cubic_spline (map fst quotes_ex) (map snd quotes_ex) = Ok cv /\ fst cv (1 / 2) = 9 / 8 /\ snd cv (1 / 2) = 1.
Proof.
  destruct (@parabola_spline 2 quotes_ex) as (cv & HC & E); [cbn; lia|intros [|[|i]] Hi; cbn in Hi |- *; try lia; lra|intros k p [[= <- <-]|[[= <- <-]|[[= <- <-]|[]]]]; lra|].
  exists cv. split; auto. destruct (E (1 / 2)) as [-> ->]. split; lra.
Qed.
Example c152_ex cdf brentq : exists l, implied_discrete_pdf cdf brentq cubic_spline gaussian_filter1d quotes_ex 1 0 (Some 5%nat) None false None Call = Ok l /\ length l = 5%nat /\ forall k w, In (k, w) l -> w = 1.
Proof.
  destruct (@parabola_spline 2 quotes_ex) as (cv & HC & E); [cbn; lia|intros [|[|i]] Hi; cbn in Hi |- *; try lia; lra|intros k p [[= <- <-]|[[= <- <-]|[[= <- <-]|[]]]]; lra|].
  destruct (@c152_complete cdf brentq quotes_ex 1 0 5 None Call cv HC) as (l & HL & LL); [intros k p _; rewrite (proj2 (E k)); lra|]. exists l. split; auto. split; auto. intros k w Hin.
  destruct (@c152_between cdf brentq quotes_ex 1 0 (Some 5%nat) None Call l cv k w HL HC Hin) as (i & k1 & k2 & p1 & p2 & _ & _ & _ & _ & ->). rewrite (proj2 (E k1)), (proj2 (E k2)), Rmult_0_l, exp_0. ring.
Qed.
(** three calls over a range of a hundred and four puts over a range of three, on parabolas of the same curvature: the wide range gets three sevenths of the samples *)
Definition wide_calls : list (R * R) := [(0, 5000); (50, 1250); (100, 0)].
Definition narrow_puts : list (R * R) := [(100, 0); (101, 1 / 2); (102, 2); (103, 9 / 2)].
Theorem c121_quoted_refuted phi cdf brentq choose t r s0 d m rv pdf r' :
  implied_underlying_distribution phi cdf brentq cubic_spline gaussian_filter1d choose (Some wide_calls) (Some narrow_puts) t r s0 d None None false m = Ok (rv, pdf, r') ->
  exists pc pp, (forall x, pdf x = density_estimate phi (choose (pc ++ pp) m) x) /\ (forall k w, In (k, w) pc -> 0 <= k <= 100) /\ (forall k w, In (k, w) pp -> 100 <= k <= 103) /\ rsum (map snd pc) = 3 / 7 /\ rsum (map snd pp) = 4 / 7.
Proof.
  intro H. destruct (@parabola_spline 100 wide_calls) as (cc & HC & EC); [cbn; lia|intros [|[|i]] Hi; cbn in Hi |- *; try lia; lra|intros k p [[= <- <-]|[[= <- <-]|[[= <- <-]|[]]]]; lra|].
  destruct (@parabola_spline 100 narrow_puts) as (cp & HP & EP); [cbn; lia|intros [|[|[|i]]] Hi; cbn in Hi |- *; try lia; lra|intros k p [[= <- <-]|[[= <- <-]|[[= <- <-]|[[= <- <-]|[]]]]]; lra|].
  destruct (@c121_range_share_refuted phi cdf brentq cubic_spline gaussian_filter1d choose wide_calls narrow_puts t r s0 d m rv pdf r' cc cp 1) as (pc & pp & E1 & E2 & E3 & E4 & E5); auto; try discriminate; [lra|intro; apply EC|intro; apply EP|].
  exists pc, pp. split; auto. cbn [length wide_calls narrow_puts] in E4, E5. replace (INR 3) with 3 in E4, E5 by (cbn; ring). replace (INR 4) with 4 in E4, E5 by (cbn; ring). split; [|split; [|split; lra]].
  - intros k w Hin. destruct (E2 k w Hin) as (k1 & k2 & H1 & H2 & H3). assert (B : forall x, In x (map fst wide_calls) -> 0 <= x <= 100) by (intros x [<-|[<-|[<-|[]]]]; cbn; lra). pose proof (B _ H1). pose proof (B _ H2). lra.
  - intros k w Hin. destruct (E3 k w Hin) as (k1 & k2 & H1 & H2 & H3). assert (B : forall x, In x (map fst narrow_puts) -> 100 <= x <= 103) by (intros x [<-|[<-|[<-|[<-|[]]]]]; cbn; lra). pose proof (B _ H1). pose proof (B _ H2). lra.
Qed.
(** such distributions exist, with or without smoothing *)
Example distribution_ex phi cdf brentq w : (forall s, w = Some s -> 0 < s) -> exists rv pdf, let choose := fun (_ : list (R * R)) (_ : nat) => [1; 2] in
  implied_underlying_distribution phi cdf brentq cubic_spline gaussian_filter1d choose (Some wide_calls) (Some narrow_puts) 1 (Some 0) None 0 None w false 2 = Ok (rv, pdf, 0).
Proof.
  intros Hw. set (choose := fun (_ : list (R * R)) (_ : nat) => [1; 2]). destruct (@bandwidth_defined [1; 2]) as [h B]; [cbn; lia|intros H; specialize (H 1 2 ltac:(now left) ltac:(right; now left)); lra|].
  assert (S : forall q ty, (exists cv, cubic_spline (map fst q) (map snd q) = Ok cv /\ forall v, fst cv v = (v - 100) ^ 2 / 2 /\ snd cv v = 1) -> q <> [] ->
    exists l, implied_discrete_pdf cdf brentq cubic_spline gaussian_filter1d q 1 0 None w false None ty = Ok l /\ 0 < rsum (map snd l)).
  { intros q ty (cv & HC & E) NE. assert (NE' : map fst q <> []) by (destruct q; [congruence|discriminate]).
    destruct (@discrete_pdf_flat (snd cv) 1 (map fst q) 1 0 NE' (fun v => proj2 (E v)) ltac:(lra)) as [L1 L2].
    set (raw := discrete_pdf (snd cv) (map fst q) 1 0 None) in *. assert (HR : implied_discrete_pdf cdf brentq cubic_spline gaussian_filter1d q 1 0 None None false None ty = Ok raw) by (rewrite price_space, HC by auto; reflexivity).
    assert (SR : 0 < rsum (map snd raw)). { rewrite (@rsum_map_all _ snd raw 1); [|intros [k x] Hin; cbn; rewrite (L2 k x Hin), Rmult_0_l, exp_0; ring]. rewrite L1, Rmult_1_r. apply lt_0_INR. destruct q; [congruence|]. cbn. lia. }
    destruct w as [s|]; [|eauto]. destruct (@c153_densities cdf brentq cubic_spline q 1 0 None s false None ty raw (Hw s eq_refl) HR) as (l & HL & _ & TS & _). exists l. split; auto. now rewrite TS. }
  destruct (S wide_calls Call) as (lc & EC & SC); [apply parabola_spline; [cbn; lia|intros [|[|i]] Hi; cbn in Hi |- *; try lia; lra|intros k p [[= <- <-]|[[= <- <-]|[[= <- <-]|[]]]]; lra]|discriminate|].
  destruct (S narrow_puts Put) as (lp & EP & SP); [apply parabola_spline; [cbn; lia|intros [|[|[|i]]] Hi; cbn in Hi |- *; try lia; lra|intros k p [[= <- <-]|[[= <- <-]|[[= <- <-]|[[= <- <-]|[]]]]]; lra]|discriminate|].
  do 2 eexists. cbv zeta. unfold implied_underlying_distribution. cbn [bind]. rewrite EC. cbn [bind]. rewrite EP. cbn [bind sampling_probs option_map]. destruct (Req_EM_T _ 0) as [Z|_]; [exfalso; clear - Z SC SP; lra|]. unfold choose. rewrite B. reflexivity.
Qed.
Print Assumptions c152_raises.
Print Assumptions c152_between.
Print Assumptions c152_complete.
Print Assumptions c152_two_quotes.
Print Assumptions c152_convex_refuted.
Print Assumptions c153_sampling.
Print Assumptions c121_quoted_refuted.
Print Assumptions c151_is_spline.
Print Assumptions c151_yield_curve.
Print Assumptions c151_between_refuted.
