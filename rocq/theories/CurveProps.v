(** C151, C152: scipy's cubic spline through the quotes. *)
From Verif Require Import Py RNum StructModel StructProps RegModel RegProofs RecProps Normal OptionModel OptionProps RootModel RootProps KDEModel KDEProps CurveModel CurveProofs.
Set Implicit Arguments.
Unset Strict Implicit.
Open Scope R_scope.

(** ** one-sided powers are smooth *)
Lemma quadratic_remainder f u d C : (forall h, Rabs h <= 1 -> Rabs (f (u + h) - f u - h * d) <= C * (h * h)) -> derivable_pt_lim f u d.
Proof.
  intros H eps He. assert (HC : 0 < Rabs C + 1) by (pose proof (Rabs_pos C); lra). assert (Hd : 0 < Rmin 1 (eps / (Rabs C + 1))) by (apply Rmin_glb_lt; [lra|now apply Rdiv_lt_0_compat]).
  exists (mkposreal _ Hd). cbn. intros h Hh Hl. pose proof (Rmin_l 1 (eps / (Rabs C + 1))). pose proof (Rmin_r 1 (eps / (Rabs C + 1))). specialize (H h ltac:(lra)).
  replace ((f (u + h) - f u) / h - d) with ((f (u + h) - f u - h * d) / h) by (field; exact Hh). unfold Rdiv. rewrite Rabs_mult, Rabs_inv. pose proof (Rabs_pos_lt h Hh) as Ph.
  apply Rmult_lt_reg_r with (Rabs h); auto. rewrite Rmult_assoc, Rinv_l, Rmult_1_r by lra. eapply Rle_lt_trans; [exact H|].
  replace (h * h) with (Rabs h * Rabs h) by (rewrite <- Rabs_mult; apply Rabs_pos_eq; nra). pose proof (Rle_abs C).
  assert (Rabs h * (Rabs C + 1) < eps). { apply Rmult_lt_reg_r with (/ (Rabs C + 1)); [now apply Rinv_0_lt_compat|]. rewrite Rmult_assoc, Rinv_r, Rmult_1_r by lra. unfold Rdiv in *. lra. }
  nra.
Qed.
Lemma cube_smooth u : derivable_pt_lim (fun u => Rmax 0 u ^ 3) u (3 * Rmax 0 u ^ 2).
Proof.
  apply (@quadratic_remainder _ _ _ (3 * Rabs u + 3)). intros h Hh. pose proof (Rle_abs h). pose proof (Rle_abs (- h)) as Q. rewrite Rabs_Ropp in Q.
  destruct (Rle_dec 0 u) as [Hu|Hu]; destruct (Rle_dec 0 (u + h)) as [Hv|Hv]; [rewrite !Rmax_right by lra|rewrite (Rmax_right 0 u), (Rmax_left 0 (u + h)) by lra|rewrite (Rmax_left 0 u), (Rmax_right 0 (u + h)) by lra|rewrite !Rmax_left by lra].
  - rewrite (Rabs_pos_eq u) by lra. replace ((u + h) ^ 3 - u ^ 3 - h * (3 * u ^ 2)) with (h * h * (3 * u + h)) by ring. rewrite Rabs_mult, (Rabs_pos_eq (h * h)) by nra. rewrite (Rmult_comm (3 * u + 3)). apply Rmult_le_compat_l; [nra|]. apply Rabs_le. lra.
  - rewrite (Rabs_pos_eq u) by lra. replace (0 ^ 3 - u ^ 3 - h * (3 * u ^ 2)) with (u * u * (- u - 3 * h)) by ring. rewrite Rabs_mult, (Rabs_pos_eq (u * u)) by nra. rewrite (Rmult_comm (3 * u + 3)). apply Rmult_le_compat; try nra; [apply Rabs_pos|]. apply Rabs_le. lra.
  - rewrite (Rabs_left u) by lra. replace ((u + h) ^ 3 - 0 ^ 3 - h * (3 * 0 ^ 2)) with ((u + h) * (u + h) * (u + h)) by ring. rewrite Rabs_pos_eq by (assert (0 <= (u + h) * (u + h)) by nra; nra). assert ((u + h) * (u + h) <= h * h) by nra. assert (0 <= (u + h) * (u + h)) by nra. nra.
  - replace (0 ^ 3 - 0 ^ 3 - h * (3 * 0 ^ 2)) with 0 by ring. rewrite Rabs_R0. pose proof (Rabs_pos u). nra.
Qed.
Lemma square_smooth u : derivable_pt_lim (fun u => Rmax 0 u ^ 2) u (2 * Rmax 0 u).
Proof.
  apply (@quadratic_remainder _ _ _ 1). intros h Hh.
  destruct (Rle_dec 0 u) as [Hu|Hu]; destruct (Rle_dec 0 (u + h)) as [Hv|Hv]; [rewrite !Rmax_right by lra|rewrite (Rmax_right 0 u), (Rmax_left 0 (u + h)) by lra|rewrite (Rmax_left 0 u), (Rmax_right 0 (u + h)) by lra|rewrite !Rmax_left by lra]; apply Rabs_le; split; nra.
Qed.
Lemma derivable_shift f a v d : derivable_pt_lim f (v - a) d -> derivable_pt_lim (fun v => f (v - a)) v d.
Proof. intros H eps He. destruct (H eps He) as (del & D). exists del. intros h Hh Hl. specialize (D h Hh Hl). now replace (v + h - a) with (v - a + h) by ring. Qed.
Lemma derivable_ext f g v d : (forall u, f u = g u) -> derivable_pt_lim f v d -> derivable_pt_lim g v d.
Proof. intros E H eps He. destruct (H eps He) as (del & D). exists del. intros h Hh Hl. rewrite <- !E. now apply D. Qed.
Lemma derivable_sum A (F F' : A -> R -> R) v l : (forall j, derivable_pt_lim (F j) v (F' j v)) -> derivable_pt_lim (fun v => rsum (map (fun j => F j v) l)) v (rsum (map (fun j => F' j v) l)).
Proof.
  intro H. induction l as [|j l IH]; cbn; [apply derivable_pt_lim_const|]. apply (derivable_pt_lim_plus (F j) (fun v => rsum (map (fun j => F j v) l))); auto.
Qed.
Lemma cubic_derivative a b c d w v : derivable_pt_lim (fun v => a * (v - w) ^ 3 + b * (v - w) ^ 2 + c * (v - w) + d) v (3 * a * (v - w) ^ 2 + 2 * b * (v - w) + c).
Proof.
  apply (@quadratic_remainder _ _ _ (Rabs a * (3 * Rabs (v - w) + 1) + Rabs b)). intros h Hh. replace (v + h - w) with (v - w + h) by ring. set (u := v - w).
  match goal with |- Rabs ?X <= _ => replace X with (h * h * (a * (3 * u + h) + b)) by ring end. rewrite Rabs_mult, (Rabs_pos_eq (h * h)), (Rmult_comm (_ + _)) by nra. apply Rmult_le_compat_l; [nra|].
  eapply Rle_trans; [apply Rabs_triang|]. apply Rplus_le_compat_r. rewrite Rabs_mult. apply Rmult_le_compat_l; [apply Rabs_pos|]. eapply Rle_trans; [apply Rabs_triang|]. rewrite Rabs_mult, (Rabs_pos_eq 3) by lra. lra.
Qed.

(** ** strictly increasing lists *)
Lemma strictly_increasing_iff l : strictly_increasing l = true <-> forall i, (i + 1 < length l)%nat -> nth i l 0 < nth (S i) l 0.
Proof.
  unfold strictly_increasing. induction l as [|a [|b l] IH]; [split; auto; cbn; lia|split; auto; cbn; lia|].
  cbn [tl combine forallb fst snd]. destruct (Rlt_dec a b) as [H|H].
  - cbn [andb]. cbn [tl] in IH. rewrite IH. split.
    + intros Q [|i] Hi; [exact H|]. apply (Q i). cbn [length] in *. lia.
    + intros Q i Hi. apply (Q (S i)). cbn [length] in *. lia.
  - cbn [andb]. split; [discriminate|]. intro Q. specialize (Q 0%nat ltac:(cbn [length]; lia)). cbn in Q. lra.
Qed.

(** ** C151 *)
Definition in_order (l : list R) : Prop := forall i, (i + 1 < length l)%nat -> nth i l 0 < nth (S i) l 0.
(** it raises exactly for fewer than two knots, another number of ordinates, or knots that do not increase *)
Theorem c151_raises xs ys : (cubic_spline xs ys = Err ValueError <-> ((length xs < 2)%nat \/ length ys <> length xs \/ ~ in_order xs)) /\ forall e, cubic_spline xs ys = Err e -> e = ValueError.
Proof.
  unfold cubic_spline. destruct (Nat.ltb_spec (length xs) 2) as [H|H]; [split; [split; auto|now intros e [= <-]]|].
  destruct (Nat.eqb_spec (length ys) (length xs)) as [HL|HL]; cbn [negb]; [|split; [split; auto|now intros e [= <-]]].
  destruct (strictly_increasing xs) eqn:E; cbn [negb].
  - rewrite strictly_increasing_iff in E. destruct (@knot_slopes_ok (length xs) (fun i => nth i xs 0) (fun i => nth i ys 0) H) as (s & ->); [intros i Hi; unfold gap; pose proof (E i Hi); lra|]. cbn [bind].
    split; [split; [discriminate|]|discriminate]. intros [C|[C|C]]; [lia|contradiction|contradiction].
  - split; [|now intros e [= <-]]. split; auto. intros _. right. right. intro C. apply strictly_increasing_iff in C. congruence.
Qed.
Lemma spline_inv xs ys c : cubic_spline xs ys = Ok c -> let n := length xs in let x := fun i => nth i xs 0 in let y := fun i => nth i ys 0 in
  (2 <= n)%nat /\ length ys = n /\ (forall i, (i + 1 < n)%nat -> 0 < gap x i) /\ exists s, spline_slopes n x y s /\ (forall v, fst c v = piece x y s (interval x (n - 2) v) v) /\ (forall v, snd c v = piece2 x y s (interval x (n - 2) v) v).
Proof.
  intros H n x y. unfold cubic_spline in H. fold n x y in H. destruct (Nat.ltb_spec n 2); [discriminate|]. destruct (Nat.eqb_spec (length ys) n) as [HL|HL]; cbn [negb] in H; [|discriminate].
  destruct (strictly_increasing xs) eqn:E; cbn [negb] in H; [|discriminate]. rewrite strictly_increasing_iff in E. destruct (knot_slopes n x y) as [s|] eqn:ES; cbn [bind] in H; [|discriminate]. injection H as <-.
  split; auto. split; auto. split; [intros i Hi; unfold gap, x; pose proof (E i Hi); lra|]. exists s. split; [now apply knot_slopes_spec|]. split; reflexivity.
Qed.
(** the curve passes through the points *)
Theorem c151_through_points : through_points cubic_spline.
Proof.
  intros xs ys c H i v w Hi Hw. destruct (spline_inv H) as (Hn & HL & Hx & s & Hs & E & _). rewrite E. set (n := length xs) in *. set (x := fun i => nth i xs 0) in *. set (y := fun i => nth i ys 0) in *.
  assert (Li : (i < n)%nat) by (apply nth_error_Some; congruence). replace v with (x i) by (unfold x; now apply nth_error_nth). replace w with (y i) by (unfold y; now apply nth_error_nth).
  destruct (@interval_spec n x Hn (n - 2) (x i)) as (A & B & C). set (j := interval x (n - 2) (x i)) in *.
  destruct (Nat.eq_dec i (n - 1)) as [Ei|Ei].
  - assert (j = n - 2)%nat. { destruct (Nat.eq_dec j (n - 2)); auto. pose proof (C (n - 2)%nat ltac:(lia)). pose proof (@x_increasing n x Hn Hx (n - 2) i ltac:(lia) ltac:(lia)). lra. }
    replace i with (S j) by lia. apply (@piece_right n); auto. lia.
  - assert (j = i). { destruct (Nat.lt_trichotomy j i) as [Q|[Q|Q]]; auto; exfalso; [pose proof (C i ltac:(lia)); lra|]. destruct B as [B|B]; [lia|]. pose proof (@x_increasing n x Hn Hx i j Q ltac:(lia)). lra. }
    subst j. rewrite H0. apply piece_left.
Qed.
(** it is twice continuously differentiable everywhere, with the returned second derivative *)
Theorem c151_smooth xs ys c : cubic_spline xs ys = Ok c -> exists d, forall v, derivable_pt_lim (fst c) v (d v) /\ derivable_pt_lim d v (snd c v) /\ continuity_pt (snd c) v.
Proof.
  intro H. destruct (spline_inv H) as (Hn & HL & Hx & s & Hs & E & E2). set (n := length xs) in *. set (x := fun i => nth i xs 0) in *. set (y := fun i => nth i ys 0) in *.
  pose proof (fun v => eq_trans (E v) (curve_formula Hn Hx Hs v)) as F. pose proof (fun v => eq_trans (E2 v) (curve2_formula Hn Hx Hs v)) as F2. cbv beta in F, F2.
  exists (fun v => (3 * piece_c0 x y s 0 * (v - x 0%nat) ^ 2 + 2 * piece_c1 x y s 0 * (v - x 0%nat) + s 0%nat) + sum_n (n - 2) (fun j => jump x y s j * (3 * Rmax 0 (v - x (S j)) ^ 2))). intro v. split; [|split].
  - apply (derivable_ext (fun u => eq_sym (F u))). apply (derivable_pt_lim_plus (piece x y s 0) (fun v => sum_n (n - 2) (fun j => jump x y s j * Rmax 0 (v - x (S j)) ^ 3))); [apply cubic_derivative|].
    apply (@derivable_sum nat (fun j v => jump x y s j * Rmax 0 (v - x (S j)) ^ 3) (fun j v => jump x y s j * (3 * Rmax 0 (v - x (S j)) ^ 2))). intro j. apply (derivable_pt_lim_scal (fun v => Rmax 0 (v - x (S j)) ^ 3)). apply (@derivable_shift (fun u => Rmax 0 u ^ 3)), cube_smooth.
  - rewrite F2. apply (derivable_pt_lim_plus (fun v => 3 * piece_c0 x y s 0 * (v - x 0%nat) ^ 2 + 2 * piece_c1 x y s 0 * (v - x 0%nat) + s 0%nat) (fun v => sum_n (n - 2) (fun j => jump x y s j * (3 * Rmax 0 (v - x (S j)) ^ 2)))).
    + unfold piece2. pose proof (@cubic_derivative 0 (3 * piece_c0 x y s 0) (2 * piece_c1 x y s 0) (s 0%nat) (x 0%nat) v) as Q.
      match type of Q with derivable_pt_lim _ _ ?l => replace l with (6 * piece_c0 x y s 0 * (v - x 0%nat) + 2 * piece_c1 x y s 0) in Q by ring end. eapply derivable_ext; [|exact Q]. intro u. cbv beta. ring.
    + apply (@derivable_sum nat (fun j v => jump x y s j * (3 * Rmax 0 (v - x (S j)) ^ 2)) (fun j v => jump x y s j * (6 * Rmax 0 (v - x (S j))))). intro j. apply (derivable_pt_lim_scal (fun v => 3 * Rmax 0 (v - x (S j)) ^ 2)).
      replace (6 * Rmax 0 (v - x (S j))) with (3 * (2 * Rmax 0 (v - x (S j)))) by ring. apply (derivable_pt_lim_scal (fun v => Rmax 0 (v - x (S j)) ^ 2)). apply (@derivable_shift (fun u => Rmax 0 u ^ 2)), square_smooth.
  - assert (LC : forall l, continuity_pt (fun v => rsum (map (fun j => jump x y s j * (6 * Rmax 0 (v - x (S j)))) l)) v).
    { induction l as [|j l IH]; cbn; [apply continuity_pt_const; intros ? ?; reflexivity|]. apply (continuity_pt_plus (fun v => jump x y s j * (6 * Rmax 0 (v - x (S j))))); auto.
      apply (continuity_pt_scal (fun v => 6 * Rmax 0 (v - x (S j)))). apply (continuity_pt_scal (fun v => Rmax 0 (v - x (S j)))).
      intros eps He. exists eps. split; auto. intros u [_ Hu]. cbn in *. unfold R_dist in *. eapply Rle_lt_trans; [|exact Hu]. unfold Rmax. apply Rabs_le.
      pose proof (Rle_abs (u - v)). pose proof (Rle_abs (- (u - v))) as Q. rewrite Rabs_Ropp in Q. destruct (Rle_dec 0 (u - x (S j))), (Rle_dec 0 (v - x (S j))); split; lra. }
    assert (CG : continuity_pt (fun v => piece2 x y s 0 v + sum_n (n - 2) (fun j => jump x y s j * (6 * Rmax 0 (v - x (S j))))) v).
    { apply (continuity_pt_plus (piece2 x y s 0)); [|apply LC]. apply derivable_continuous_pt. exists (6 * piece_c0 x y s 0). unfold piece2.
      pose proof (@cubic_derivative 0 0 (6 * piece_c0 x y s 0) (2 * piece_c1 x y s 0) (x 0%nat) v) as Q. match type of Q with derivable_pt_lim _ _ ?l => replace l with (6 * piece_c0 x y s 0) in Q by ring end. eapply derivable_ext; [|exact Q]. intro u. cbv beta. ring. }
    intros eps He. destruct (CG eps He) as (d & Hd & Q). exists d. split; auto. intros u Hu. specialize (Q u Hu). cbn in *. unfold R_dist in *. rewrite !F2. exact Q.
Qed.
(** ** the only such curve: cubic between neighbouring knots, twice differentiable at the inner ones, one cubic on the first two gaps and one on
    the last two (three knots: a parabola, two: a line) *)
Record not_a_knot (x y : nat -> R) (n : nat) (a b c d : nat -> R) : Prop := {
  nk_value : forall i, (i + 1 < n)%nat -> a i = y i /\ a i + b i * (x (S i) - x i) + c i * (x (S i) - x i) ^ 2 + d i * (x (S i) - x i) ^ 3 = y (S i);
  nk_slope : forall i, (i + 2 < n)%nat -> b i + 2 * c i * (x (S i) - x i) + 3 * d i * (x (S i) - x i) ^ 2 = b (S i);
  nk_curvature : forall i, (i + 2 < n)%nat -> c i + 3 * d i * (x (S i) - x i) = c (S i);
  nk_ends : (4 <= n)%nat -> d 0%nat = d 1%nat /\ d (n - 3)%nat = d (n - 2)%nat;
  nk_parabola : (n <= 3)%nat -> forall i, (i + 1 < n)%nat -> d i = 0;
  nk_line : n = 2%nat -> c 0%nat = 0 }.
Theorem c151_unique xs ys cv a b c d : cubic_spline xs ys = Ok cv -> let x := fun i => nth i xs 0 in not_a_knot x (fun i => nth i ys 0) (length xs) a b c d ->
  forall i v, (i + 1 < length xs)%nat -> (i = 0%nat \/ x i <= v) -> ((i + 2)%nat = length xs \/ v < x (S i)) ->
    fst cv v = a i + b i * (v - x i) + c i * (v - x i) ^ 2 + d i * (v - x i) ^ 3 /\ snd cv v = 2 * c i + 6 * d i * (v - x i).
Proof.
  intros H x NK. destruct (spline_inv H) as (Hn & HL & Hx & s & Hs & E & E2). set (n := length xs) in *. fold x in Hx, Hs, E, E2. set (y := fun i => nth i ys 0) in *.
  set (s' := fun i => if (i =? n - 1)%nat then b (n - 2)%nat + 2 * c (n - 2)%nat * gap x (n - 2) + 3 * d (n - 2)%nat * gap x (n - 2) ^ 2 else b i).
  assert (B0 : forall i, (i + 1 < n)%nat -> s' i = b i) by (intros i Hi; unfold s'; destruct (Nat.eqb_spec i (n - 1)); [lia|reflexivity]).
  assert (B1 : forall i, (i + 1 < n)%nat -> s' (S i) = b i + 2 * c i * gap x i + 3 * d i * gap x i ^ 2).
  { intros i Hi. unfold s'. destruct (Nat.eqb_spec (S i) (n - 1)) as [Q|Q]; [now replace (n - 2)%nat with i by lia|]. symmetry. apply (nk_slope NK). lia. }
  assert (M : forall i, (i + 1 < n)%nat -> secant_slope x y i = b i + c i * gap x i + d i * gap x i ^ 2).
  { intros i Hi. pose proof (Hx i Hi). destruct (nk_value NK Hi) as [V0 V1]. fold (gap x i) in V1. unfold secant_slope. rewrite <- V1, <- V0. field. lra. }
  assert (CU : forall i, (i + 2 < n)%nat -> c i + 3 * d i * gap x i = c (S i)) by (intros i Hi; apply (nk_curvature NK Hi)).
  assert (S' : spline_slopes n x y s').
  { constructor.
    - intros i Hi. unfold inner_row. rewrite (M i), (M (S i)), B0, (B1 (S i)), (B1 i) by lia. pose proof (CU i Hi) as Q. pose proof (nk_slope NK Hi) as QS. fold (gap x i) in QS. rewrite <- QS, <- Q. ring.
    - intro N2. pose proof (nk_line NK N2) as Z. pose proof (nk_parabola NK ltac:(lia) (i := 0%nat) ltac:(lia)) as Z'. rewrite (M 0%nat), (B0 0%nat), (B1 0%nat) by lia. rewrite Z, Z'. split; ring.
    - intro N3. pose proof (nk_parabola NK ltac:(lia) (i := 0%nat) ltac:(lia)) as Z. pose proof (nk_parabola NK ltac:(lia) (i := 1%nat) ltac:(lia)) as Z'. rewrite (M 0%nat), (M 1%nat), (B0 0%nat), (B1 1%nat), (B0 1%nat) by lia.
      pose proof (nk_slope NK (i := 0%nat) ltac:(lia)) as QS. fold (gap x 0) in QS. rewrite <- QS. rewrite Z, Z'. pose proof (CU 0%nat ltac:(lia)) as Q. rewrite Z in Q. split; [ring|]. rewrite <- Q. ring.
    - intro H4. rewrite (M 0%nat), (M 1%nat), (B0 0%nat), (B0 1%nat) by lia. destruct (nk_ends NK H4) as [Z _]. pose proof (nk_slope NK (i := 0%nat) ltac:(lia)) as QS. fold (gap x 0) in QS. pose proof (CU 0%nat ltac:(lia)) as Q. rewrite <- Z, <- QS, <- Q.
      pose proof (Hx 0%nat ltac:(lia)). pose proof (Hx 1%nat ltac:(lia)). replace (x 2%nat - x 0%nat) with (gap x 0 + gap x 1) by (unfold gap; ring). field. lra.
    - intros k Hk H4. replace (k + 1)%nat with (S k) by lia. replace (k + 2)%nat with (S (S k)) by lia. rewrite (M k), (M (S k)), (B1 (S k)), (B0 (S k)) by lia. destruct (nk_ends NK H4) as [_ Z]. replace (n - 3)%nat with k in Z by lia. replace (n - 2)%nat with (S k) in Z by lia.
      pose proof (nk_slope NK (i := k) ltac:(lia)) as QS. fold (gap x k) in QS. pose proof (CU k ltac:(lia)) as Q. rewrite <- Z, <- QS, <- Q.
      pose proof (Hx k ltac:(lia)). pose proof (Hx (S k) ltac:(lia)). replace (x (S (S k)) - x k) with (gap x k + gap x (S k)) by (unfold gap; ring). field. lra. }
  pose proof (slopes_unique Hn Hx Hs S') as EQ. intros i v Hi Hl Hr.
  assert (EI : interval x (n - 2) v = i).
  { destruct (@interval_spec n x Hn (n - 2) v) as (A & B & C). set (j := interval x (n - 2) v) in *. destruct (Nat.lt_trichotomy j i) as [Q|[Q|Q]]; auto; exfalso.
    - pose proof (C i ltac:(lia)). destruct Hl as [->|Hl]; [lia|lra].
    - destruct B as [B|B]; [lia|]. destruct Hr as [Hr|Hr]; [lia|]. pose proof (@x_monotone n x Hn Hx (S i) j Q ltac:(lia)). lra. }
  rewrite E, E2, EI. pose proof (Hx i Hi). destruct (nk_value NK Hi) as [V0 _].
  assert (T0 : piece_c0 x y s i = d i). { unfold piece_c0, piece_t. rewrite !EQ, (B0 i), (B1 i), (M i) by lia. field. lra. }
  assert (T1 : piece_c1 x y s i = c i). { unfold piece_c1, piece_t. rewrite !EQ, (B0 i), (B1 i), (M i) by lia. field. lra. }
  unfold piece, piece2. rewrite T0, T1, EQ, (B0 i) by lia. fold (y i) in V0. rewrite <- V0. split; ring.
Qed.
(** so it reproduces lines, with three points parabolas and with four or more cubics, beyond the knots as well *)
Theorem c151_polynomials xs ys cv p q r t : cubic_spline xs ys = Ok cv -> (forall i, (i < length xs)%nat -> nth i ys 0 = p + q * nth i xs 0 + r * nth i xs 0 ^ 2 + t * nth i xs 0 ^ 3) ->
  ((length xs <= 3)%nat -> t = 0) -> (length xs = 2%nat -> r = 0) -> forall v, fst cv v = p + q * v + r * v ^ 2 + t * v ^ 3 /\ snd cv v = 2 * r + 6 * t * v.
Proof.
  intros H HP H3 H2 v. destruct (spline_inv H) as (Hn & HL & Hx & _). set (n := length xs) in *. set (x := fun i => nth i xs 0) in *.
  destruct (@interval_spec n x Hn (n - 2) v) as (A & B & C). set (i := interval x (n - 2) v) in *.
  destruct (@c151_unique xs ys cv (fun i => p + q * x i + r * x i ^ 2 + t * x i ^ 3) (fun i => q + 2 * r * x i + 3 * t * x i ^ 2) (fun i => r + 3 * t * x i) (fun _ => t) H) with (i := i) (v := v) as [E1 E2].
  - fold n x. constructor; intros.
    + pose proof (HP i0 ltac:(lia)) as P0. pose proof (HP (S i0) ltac:(lia)) as P1. fold (x i0) in P0. fold (x (S i0)) in P1. rewrite P0, P1. split; [reflexivity|ring].
    + ring.
    + ring.
    + auto.
    + now apply H3.
    + rewrite H3 by lia. rewrite H2 by auto. ring.
  - fold n. lia.
  - destruct B as [B|B]; auto.
  - fold n. destruct (Nat.eq_dec (i + 2) n) as [Q|Q]; auto. right. apply C. lia.
  - change (nth i xs 0) with (x i) in E1, E2. rewrite E1, E2. split; ring.
Qed.
Theorem c151_keeps_constants : keeps_constants cubic_spline.
Proof.
  intros xs ys c w H HC v. destruct (@c151_polynomials xs ys c w 0 0 0 H) with (v := v) as [E _]; auto; [|rewrite E; ring].
  intros i Hi. destruct (spline_inv H) as (_ & HL & _). rewrite (HC (nth i ys 0)); [ring|]. apply nth_In. lia.
Qed.
(** it depends linearly on the ordinates *)
Theorem c151_linear xs ys zs al be cy cz : cubic_spline xs ys = Ok cy -> cubic_spline xs zs = Ok cz ->
  exists c, cubic_spline xs (map (fun p => al * fst p + be * snd p) (combine ys zs)) = Ok c /\ forall v, fst c v = al * fst cy v + be * fst cz v /\ snd c v = al * snd cy v + be * snd cz v.
Proof.
  intros HY HZ. set (ws := map (fun p => al * fst p + be * snd p) (combine ys zs)). destruct (spline_inv HY) as (Hn & LY & Hx & s & Sy & Ey & Ey2). destruct (spline_inv HZ) as (_ & LZ & _ & s' & Sz & Ez & Ez2).
  set (n := length xs) in *. set (x := fun i => nth i xs 0) in *. set (y := fun i => nth i ys 0) in *. set (z := fun i => nth i zs 0) in *.
  assert (LW : length ws = n) by (unfold ws; rewrite map_length, combine_length; lia).
  destruct (cubic_spline xs ws) as [c|e] eqn:HW.
  2:{ exfalso. destruct (c151_raises xs ws) as [HI HV]. rewrite HW in HI, HV. rewrite (HV e eq_refl) in HI. destruct (proj1 HI eq_refl) as [C|[C|C]]; [lia|fold n in C; lia|]. apply C. intros i Hi. pose proof (Hx i Hi) as Q. unfold gap, x in Q. lra. }
  exists c. split; auto. destruct (spline_inv HW) as (_ & _ & _ & s2 & Sw & Ew & Ew2). fold n x in Sw, Ew, Ew2. set (w := fun i => nth i ws 0) in *.
  assert (W : forall i, (i < n)%nat -> w i = al * y i + be * z i) by (intros i Hi; unfold w, y, z, ws; rewrite nth_indep with (d' := (fun p => al * fst p + be * snd p) (0, 0)) by (rewrite map_length, combine_length; lia); rewrite (@map_nth _ _ (fun p => al * fst p + be * snd p)), combine_nth by lia; reflexivity).
  assert (SL : forall i, (i + 1 < n)%nat -> secant_slope x w i = al * secant_slope x y i + be * secant_slope x z i) by (intros i Hi; unfold secant_slope; rewrite !W by lia; pose proof (Hx i Hi); field; lra).
  assert (SS : spline_slopes n x w (fun i => al * s i + be * s' i)).
  { constructor.
    - intros i Hi. pose proof (sl_inner Sy Hi) as P. pose proof (sl_inner Sz Hi) as Q. apply (f_equal (Rmult al)) in P. apply (f_equal (Rmult be)) in Q. unfold inner_row in *. rewrite !SL by lia. lra.
    - intro N2. destruct (sl_two Sy N2) as [-> ->]. destruct (sl_two Sz N2) as [-> ->]. rewrite SL by lia. auto.
    - intro N3. destruct (sl_three Sy N3) as [P1 P2]. destruct (sl_three Sz N3) as [Q1 Q2]. apply (f_equal (Rmult al)) in P1, P2. apply (f_equal (Rmult be)) in Q1, Q2. rewrite !SL by lia. split; lra.
    - intro H4. pose proof (sl_first Sy H4) as P. pose proof (sl_first Sz H4) as Q. rewrite !SL by lia. pose proof (Hx 0%nat ltac:(lia)) as G0. pose proof (Hx 1%nat ltac:(lia)) as G1. assert (D : x 2%nat - x 0%nat <> 0) by (unfold gap in *; lra).
      replace (gap x 1 * (al * s 0%nat + be * s' 0%nat) + (x 2%nat - x 0%nat) * (al * s 1%nat + be * s' 1%nat)) with (al * (gap x 1 * s 0%nat + (x 2%nat - x 0%nat) * s 1%nat) + be * (gap x 1 * s' 0%nat + (x 2%nat - x 0%nat) * s' 1%nat)) by ring.
      rewrite P, Q. field. exact D.
    - intros k Hk H4. pose proof (sl_last Sy Hk H4) as P. pose proof (sl_last Sz Hk H4) as Q. rewrite !SL by lia. pose proof (Hx k ltac:(lia)) as G0. pose proof (Hx (S k) ltac:(lia)) as G1. replace (k + 2)%nat with (S (S k)) in * by lia. assert (D : x (S (S k)) - x k <> 0) by (unfold gap in *; lra).
      replace (gap x k * (al * s (S (S k)) + be * s' (S (S k))) + (x (S (S k)) - x k) * (al * s (k + 1)%nat + be * s' (k + 1)%nat)) with (al * (gap x k * s (S (S k)) + (x (S (S k)) - x k) * s (k + 1)%nat) + be * (gap x k * s' (S (S k)) + (x (S (S k)) - x k) * s' (k + 1)%nat)) by ring.
      rewrite P, Q. field. exact D. }
  pose proof (slopes_unique Hn Hx Sw SS) as EQ. intro v. rewrite Ew, Ew2, Ey, Ey2, Ez, Ez2. destruct (@interval_spec n x Hn (n - 2) v) as (A & _). set (i := interval x (n - 2) v) in *.
  pose proof (Hx i ltac:(lia)). unfold piece, piece2, piece_c0, piece_c1, piece_t. rewrite !EQ, SL, W by lia. split; field; lra.
Qed.
(** between neighbouring knots the second derivative lies between its values at them *)
Theorem c151_curvature_between xs ys cv i v : cubic_spline xs ys = Ok cv -> (i + 1 < length xs)%nat -> nth i xs 0 <= v <= nth (S i) xs 0 ->
  snd cv v = snd cv (nth i xs 0) + (snd cv (nth (S i) xs 0) - snd cv (nth i xs 0)) * ((v - nth i xs 0) / (nth (S i) xs 0 - nth i xs 0)).
Proof.
  intros H Hi Hv. destruct (spline_inv H) as (Hn & HL & Hx & s & Hs & _ & E2). set (n := length xs) in *. set (x := fun i => nth i xs 0) in *. set (y := fun i => nth i ys 0) in *. change (nth i xs 0) with (x i) in *. change (nth (S i) xs 0) with (x (S i)) in *.
  assert (G : forall u, x i <= u <= x (S i) -> snd cv u = piece2 x y s i u).
  { intros u Hu. rewrite E2. destruct (@interval_spec n x Hn (n - 2) u) as (A & B & C). set (j := interval x (n - 2) u) in *. destruct (Nat.lt_trichotomy j i) as [Q|[Q|Q]]; [|now rewrite Q|].
    - pose proof (C i ltac:(lia)). lra.
    - destruct B as [B|B]; [lia|]. assert (j = S i). { destruct (Nat.eq_dec j (S i)); auto. pose proof (@x_increasing n x Hn Hx (S i) j ltac:(lia) ltac:(lia)). lra. }
      rewrite H0 in *. rewrite (@piece2_next n x y s Hn Hx Hs) by lia. replace (u - x (S i)) with 0 by lra. ring. }
  pose proof (Hx i Hi) as P. unfold gap in P. rewrite !G by lra. unfold piece2. field. lra.
Qed.
Print Assumptions c151_raises.
Print Assumptions c151_through_points.
Print Assumptions c151_smooth.
Print Assumptions c151_unique.
Print Assumptions c151_polynomials.
Print Assumptions c151_keeps_constants.
Print Assumptions c151_linear.
Print Assumptions c151_curvature_between.
