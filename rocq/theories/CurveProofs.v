(** Proofs about the cubic spline: the system for its slopes has one solution, and the pieces fit. *)
From Verif Require Import Py RNum StructModel StructProps RegModel RegProofs RecProps RootModel KDEModel CurveModel.
Set Implicit Arguments.
Unset Strict Implicit.
Open Scope R_scope.

Lemma sum_one n a u (s : nat -> R) : (a < n)%nat -> sum_n n (fun j => (if (j =? a)%nat then u else 0) * s j) = u * s a.
Proof.
  intro H. rewrite (@sum_n_ext n _ (fun j => u * ((if (a =? j)%nat then 1 else 0) * s j))).
  - rewrite sum_n_scale, sum_n_delta by auto. reflexivity.
  - intros j _. rewrite (Nat.eqb_sym j a). destruct (a =? j)%nat; ring.
Qed.
Lemma sum_two n a b u v (s : nat -> R) : (a < n)%nat -> (b < n)%nat -> a <> b -> sum_n n (fun j => (if (j =? a)%nat then u else if (j =? b)%nat then v else 0) * s j) = u * s a + v * s b.
Proof.
  intros Ha Hb Hab. rewrite (@sum_n_ext n _ (fun j => (if (j =? a)%nat then u else 0) * s j + (if (j =? b)%nat then v else 0) * s j)).
  - rewrite sum_n_add, !sum_one by auto. reflexivity.
  - intros j _. destruct (Nat.eqb_spec j a) as [->|]; [|ring]. destruct (Nat.eqb_spec a b); [contradiction|ring].
Qed.
Lemma sum_three n a b c u v w (s : nat -> R) : (a < n)%nat -> (b < n)%nat -> (c < n)%nat -> a <> b -> a <> c -> b <> c ->
  sum_n n (fun j => (if (j =? a)%nat then u else if (j =? b)%nat then v else if (j =? c)%nat then w else 0) * s j) = u * s a + v * s b + w * s c.
Proof.
  intros Ha Hb Hc Hab Hac Hbc. rewrite (@sum_n_ext n _ (fun j => (if (j =? a)%nat then u else 0) * s j + (if (j =? b)%nat then v else if (j =? c)%nat then w else 0) * s j)).
  - rewrite sum_n_add, sum_one, sum_two by auto. ring.
  - intros j _. destruct (Nat.eqb_spec j a) as [->|]; [|ring]. destruct (Nat.eqb_spec a b); [contradiction|]. destruct (Nat.eqb_spec a c); [contradiction|ring].
Qed.

(** what the rows of the systems say *)
Definition inner_row (x s : nat -> R) (i : nat) : R := gap x (S i) * s i + 2 * (gap x i + gap x (S i)) * s (S i) + gap x i * s (S (S i)).
Lemma matrix_first n x s : (4 <= n)%nat -> sum_n n (fun j => slope_matrix n x 0 j * s j) = gap x 1 * s 0%nat + (x 2%nat - x 0%nat) * s 1%nat.
Proof. intro H. unfold slope_matrix. cbn [Nat.eqb]. apply sum_two; lia. Qed.
Lemma matrix_last n x s k : n = (k + 3)%nat -> (4 <= n)%nat -> sum_n n (fun j => slope_matrix n x (k + 2) j * s j) = gap x k * s (k + 2)%nat + (x (k + 2)%nat - x k) * s (k + 1)%nat.
Proof.
  intros -> H. unfold slope_matrix. destruct (Nat.eqb_spec (k + 2) 0); [lia|]. destruct (Nat.eqb_spec (k + 2) (k + 3 - 1)); [|lia].
  replace (k + 3 - 1)%nat with (k + 2)%nat by lia. replace (k + 3 - 2)%nat with (k + 1)%nat by lia. replace (k + 3 - 3)%nat with k by lia. apply sum_two; lia.
Qed.
Lemma matrix_inner n x s i : (i + 2 < n)%nat -> sum_n n (fun j => slope_matrix n x (S i) j * s j) = inner_row x s i.
Proof.
  intro H. unfold slope_matrix, inner_row. destruct (Nat.eqb_spec (S i) 0); [lia|]. destruct (Nat.eqb_spec (S i) (n - 1)); [lia|]. replace (S i - 1)%nat with i by lia. replace (S i + 1)%nat with (S (S i)) by lia.
  apply sum_three; lia.
Qed.
Lemma rhs_last n x y k : n = (k + 3)%nat -> slope_rhs n x y (k + 2) = let d := x (k + 2)%nat - x k in (gap x (k + 1) ^ 2 * secant_slope x y k + (2 * d + gap x (k + 1)) * gap x k * secant_slope x y (k + 1)) / d.
Proof.
  intros ->. unfold slope_rhs. destruct (Nat.eqb_spec (k + 2) 0); [lia|]. destruct (Nat.eqb_spec (k + 2) (k + 3 - 1)); [|lia].
  replace (k + 3 - 1)%nat with (k + 2)%nat by lia. replace (k + 3 - 2)%nat with (k + 1)%nat by lia. replace (k + 3 - 3)%nat with k by lia. reflexivity.
Qed.
Lemma rhs_inner n x y i : (i + 2 < n)%nat -> slope_rhs n x y (S i) = 3 * (gap x (S i) * secant_slope x y i + gap x i * secant_slope x y (S i)).
Proof. intro H. unfold slope_rhs. destruct (Nat.eqb_spec (S i) 0); [lia|]. destruct (Nat.eqb_spec (S i) (n - 1)); [lia|]. now replace (S i - 1)%nat with i by lia. Qed.

(** ** one solution *)
Lemma largest (s : nat -> R) k : exists j, (1 <= j <= S k)%nat /\ forall i, (1 <= i <= S k)%nat -> Rabs (s i) <= Rabs (s j).
Proof.
  induction k as [|k (j & Hj & IH)].
  - exists 1%nat. split; [lia|]. intros i Hi. replace i with 1%nat by lia. lra.
  - destruct (Rle_dec (Rabs (s j)) (Rabs (s (S (S k))))) as [L|L].
    + exists (S (S k)). split; [lia|]. intros i Hi. destruct (Nat.eq_dec i (S (S k))) as [->|]; [lra|]. eapply Rle_trans; [apply IH; lia|exact L].
    + exists j. split; [lia|]. intros i Hi. destruct (Nat.eq_dec i (S (S k))) as [->|]; [lra|]. apply IH. lia.
Qed.
Lemma system_regular n x : (4 <= n)%nat -> (forall i, (i + 1 < n)%nat -> 0 < gap x i) -> regular n (slope_matrix n x).
Proof.
  intros Hn Hx s Hs.
  assert (exists k, n = (k + 4)%nat) as (k & ->) by (exists (n - 4)%nat; lia).
  assert (I : forall i, (i + 2 < k + 4)%nat -> inner_row x s i = 0) by (intros i Hi; rewrite <- (@matrix_inner (k + 4)) by lia; apply Hs; lia).
  assert (F : gap x 1 * s 0%nat + (x 2%nat - x 0%nat) * s 1%nat = 0) by (rewrite <- (@matrix_first (k + 4)) by lia; apply Hs; lia).
  assert (L : gap x (k + 1) * s (k + 3)%nat + (x (k + 3)%nat - x (k + 1)%nat) * s (k + 2)%nat = 0).
  { pose proof (@matrix_last (k + 4) x s (k + 1) ltac:(lia) Hn) as Q. replace (k + 1 + 2)%nat with (k + 3)%nat in Q by lia. replace (k + 1 + 1)%nat with (k + 2)%nat in Q by lia. rewrite <- Q. apply Hs. lia. }
  assert (D0 : x 2%nat - x 0%nat = gap x 0 + gap x 1) by (unfold gap; ring).
  assert (DL : x (k + 3)%nat - x (k + 1)%nat = gap x (k + 1) + gap x (k + 2)) by (unfold gap; replace (S (k + 2)) with (k + 3)%nat by lia; replace (S (k + 1)) with (k + 2)%nat by lia; ring).
  rewrite D0 in F. rewrite DL in L. pose proof (Hx 0%nat ltac:(lia)) as H0. pose proof (Hx 1%nat ltac:(lia)) as H1. pose proof (Hx (k + 1)%nat ltac:(lia)) as Hk1. pose proof (Hx (k + 2)%nat ltac:(lia)) as Hk2.
  assert (G1 : (gap x 0 + gap x 1) * s 1%nat = - (gap x 0 * s 2%nat)) by (pose proof (I 0%nat ltac:(lia)) as Q; unfold inner_row in Q; lra).
  assert (GL : (gap x (k + 1) + gap x (k + 2)) * s (k + 2)%nat = - (gap x (k + 2) * s (k + 1)%nat)).
  { pose proof (I (k + 1)%nat ltac:(lia)) as Q. unfold inner_row in Q. replace (S (S (k + 1))) with (k + 3)%nat in Q by lia. replace (S (k + 1)) with (k + 2)%nat in Q by lia. lra. }
  destruct (largest s (k + 1)) as (j & Hj & Hmax).
  assert (Z : Rabs (s j) = 0).
  { pose proof (Rabs_pos (s j)) as P.
    assert (B : forall a b u v, 0 < a -> 0 < b -> (a + b) * u = - (a * v) -> Rabs v <= Rabs u -> Rabs u = 0).
    { intros a b u v Ha Hb E V. assert (EA : (a + b) * Rabs u = a * Rabs v). { rewrite <- (Rabs_pos_eq (a + b)) at 1 by lra. rewrite <- (Rabs_pos_eq a) at 2 by lra. rewrite <- !Rabs_mult, E, Rabs_Ropp. reflexivity. } pose proof (Rabs_pos u). nra. }
    destruct (Nat.eq_dec j 1) as [->|N1]; [apply (B _ _ _ _ H0 H1 G1); apply Hmax; lia|].
    destruct (Nat.eq_dec j (k + 2)) as [->|N2]. { rewrite Rplus_comm in GL. apply (B _ _ _ _ Hk2 Hk1 GL). apply Hmax. lia. }
    destruct j as [|j]; [lia|]. pose proof (I j ltac:(lia)) as Q. unfold inner_row in Q. pose proof (Hx j ltac:(lia)) as P1. pose proof (Hx (S j) ltac:(lia)) as P2.
    pose proof (Hmax j ltac:(lia)) as M1. pose proof (Hmax (S (S j)) ltac:(lia)) as M2.
    assert (E : 2 * (gap x j + gap x (S j)) * Rabs (s (S j)) <= gap x (S j) * Rabs (s j) + gap x j * Rabs (s (S (S j)))).
    { rewrite <- (Rabs_pos_eq (2 * (gap x j + gap x (S j)))) by lra. rewrite <- Rabs_mult. replace (2 * (gap x j + gap x (S j)) * s (S j)) with (- (gap x (S j) * s j + gap x j * s (S (S j)))) by lra. rewrite Rabs_Ropp.
      eapply Rle_trans; [apply Rabs_triang|]. rewrite !Rabs_mult, !(Rabs_pos_eq (gap x _)) by lra. lra. }
    nra. }
  assert (Zi : forall i, (1 <= i <= k + 2)%nat -> s i = 0).
  { intros i Hi. pose proof (Hmax i ltac:(lia)) as M. rewrite Z in M. pose proof (Rabs_pos (s i)). destruct (Req_dec (s i) 0) as [|C]; auto. apply Rabs_pos_lt in C. lra. }
  intros i Hi. destruct (Nat.eq_dec i 0) as [->|N0].
  - rewrite (Zi 1%nat) in F by lia. nra.
  - destruct (Nat.eq_dec i (k + 3)) as [->|N3]; [|apply Zi; lia]. rewrite (Zi (k + 2)%nat) in L by lia. nra.
Qed.
Lemma parabola_rows x s : sum_n 3 (fun j => parabola_matrix x 0 j * s j) = s 0%nat + s 1%nat /\ sum_n 3 (fun j => parabola_matrix x 1 j * s j) = inner_row x s 0 /\ sum_n 3 (fun j => parabola_matrix x 2 j * s j) = s 1%nat + s 2%nat.
Proof. unfold sum_n, rsum, parabola_matrix, inner_row. cbn. repeat split; ring. Qed.
Lemma parabola_regular x : 0 < gap x 0 -> 0 < gap x 1 -> regular 3 (parabola_matrix x).
Proof.
  intros H0 H1 s Hs. destruct (parabola_rows x s) as (R0 & R1 & R2). rewrite Hs in R0, R1, R2 by lia. unfold inner_row in R1.
  assert (s 1%nat = 0) by nra. intros [|[|[|i]]] Hi; try lia; lra.
Qed.
(** the slopes, for at least two knots in order *)
Record spline_slopes (n : nat) (x y s : nat -> R) : Prop := {
  sl_inner : forall i, (i + 2 < n)%nat -> inner_row x s i = 3 * (gap x (S i) * secant_slope x y i + gap x i * secant_slope x y (S i));
  sl_two : n = 2%nat -> s 0%nat = secant_slope x y 0 /\ s 1%nat = secant_slope x y 0;
  sl_three : n = 3%nat -> s 0%nat + s 1%nat = 2 * secant_slope x y 0 /\ s 1%nat + s 2%nat = 2 * secant_slope x y 1;
  sl_first : (4 <= n)%nat -> gap x 1 * s 0%nat + (x 2%nat - x 0%nat) * s 1%nat = ((gap x 0 + 2 * (x 2%nat - x 0%nat)) * gap x 1 * secant_slope x y 0 + gap x 0 ^ 2 * secant_slope x y 1) / (x 2%nat - x 0%nat);
  sl_last : forall k, n = (k + 3)%nat -> (4 <= n)%nat -> gap x k * s (k + 2)%nat + (x (k + 2)%nat - x k) * s (k + 1)%nat =
     (gap x (k + 1) ^ 2 * secant_slope x y k + (2 * (x (k + 2)%nat - x k) + gap x (k + 1)) * gap x k * secant_slope x y (k + 1)) / (x (k + 2)%nat - x k) }.
Lemma knot_slopes_spec n x y s : (2 <= n)%nat -> knot_slopes n x y = Ok s -> spline_slopes n x y s.
Proof.
  intros Hn H. unfold knot_slopes in H. destruct (Nat.eqb_spec n 2) as [->|N2].
  - injection H as <-. constructor; intros; try lia. auto.
  - destruct (Nat.eqb_spec n 3) as [->|N3].
    + destruct (gesv 3 _ _) as [s'|] eqn:E; [|discriminate]. injection H as ->. pose proof (gesv_correct E) as C. destruct (parabola_rows x s) as (R0 & R1 & R2).
      constructor; try lia.
      * intros [|i] Hi; [|lia]. rewrite <- R1, C by lia. unfold parabola_rhs. cbn. ring.
      * intros _. split; [rewrite <- R0, C by lia; reflexivity|rewrite <- R2, C by lia; reflexivity].
    + destruct (gesv n _ _) as [s'|] eqn:E; [|discriminate]. injection H as ->. pose proof (gesv_correct E) as C. constructor; try lia.
      * intros i Hi. rewrite <- (@matrix_inner n) by lia. rewrite C by lia. now apply rhs_inner.
      * intro H4. rewrite <- (@matrix_first n) by lia. rewrite C by lia. reflexivity.
      * intros k -> H4. rewrite <- (@matrix_last (k + 3)) by lia. rewrite C by lia. now rewrite rhs_last.
Qed.
Lemma knot_slopes_ok n x y : (2 <= n)%nat -> (forall i, (i + 1 < n)%nat -> 0 < gap x i) -> exists s, knot_slopes n x y = Ok s.
Proof.
  intros Hn Hx. unfold knot_slopes. destruct (Nat.eqb_spec n 2) as [->|N2]; [eexists; reflexivity|]. destruct (Nat.eqb_spec n 3) as [->|N3].
  - destruct (@gesv_some 3 _ (parabola_rhs x y) (@parabola_regular x (Hx 0%nat ltac:(lia)) (Hx 1%nat ltac:(lia)))) as (s & ->). eauto.
  - destruct (@gesv_some n _ (slope_rhs n x y) (@system_regular n x ltac:(lia) Hx)) as (s & ->). eauto.
Qed.
(** any solution of the equations is the one found *)
Lemma slopes_unique n x y s s' : (2 <= n)%nat -> (forall i, (i + 1 < n)%nat -> 0 < gap x i) -> spline_slopes n x y s -> spline_slopes n x y s' -> forall i, (i < n)%nat -> s i = s' i.
Proof.
  intros Hn Hx A B. destruct (Nat.eq_dec n 2) as [->|N2].
  - destruct (sl_two A eq_refl), (sl_two B eq_refl). intros [|[|i]] Hi; try lia; congruence.
  - assert (Z : forall i, (i < n)%nat -> (fun i => s i - s' i) i = 0).
    { destruct (Nat.eq_dec n 3) as [->|N3].
      - apply (@parabola_regular x (Hx 0%nat ltac:(lia)) (Hx 1%nat ltac:(lia))). destruct (parabola_rows x (fun i => s i - s' i)) as (R0 & R1 & R2). destruct (sl_three A eq_refl), (sl_three B eq_refl).
        pose proof (@sl_inner _ _ _ _ A 0%nat ltac:(lia)) as IA. pose proof (@sl_inner _ _ _ _ B 0%nat ltac:(lia)) as IB. unfold inner_row in *.
        intros [|[|[|i]]] Hi; try lia; [rewrite R0; lra|rewrite R1; lra|rewrite R2; lra].
      - apply (@system_regular n x ltac:(lia) Hx). intros i Hi. destruct (Nat.eq_dec i 0) as [->|I0].
        + rewrite matrix_first by lia. pose proof (sl_first A ltac:(lia)). pose proof (sl_first B ltac:(lia)). lra.
        + destruct i as [|i]; [lia|]. destruct (Nat.eq_dec (S i) (n - 1)) as [E|IL].
          * assert (exists k, n = (k + 3)%nat) as (k & Ek) by (exists (n - 3)%nat; lia). replace (S i) with (k + 2)%nat by lia. rewrite matrix_last by lia. pose proof (@sl_last _ _ _ _ A k Ek ltac:(lia)). pose proof (@sl_last _ _ _ _ B k Ek ltac:(lia)). lra.
          * rewrite matrix_inner by lia. pose proof (@sl_inner _ _ _ _ A i ltac:(lia)) as IA. pose proof (@sl_inner _ _ _ _ B i ltac:(lia)) as IB. unfold inner_row in *. lra. }
    intros i Hi. specialize (Z i Hi). cbv beta in Z. lra.
Qed.

(** ** the pieces fit *)
Section PIECES.
  Variables (n : nat) (x y s : nat -> R).
  Hypothesis Hn : (2 <= n)%nat.
  Hypothesis Hx : forall i, (i + 1 < n)%nat -> 0 < gap x i.
  Hypothesis Hs : spline_slopes n x y s.
  Lemma piece_left i : piece x y s i (x i) = y i.
  Proof. unfold piece. replace (x i - x i) with 0 by ring. ring. Qed.
  Lemma piece_right i : (i + 1 < n)%nat -> piece x y s i (x (S i)) = y (S i).
  Proof. intro H. pose proof (Hx H). unfold piece, piece_c0, piece_c1, piece_t, secant_slope. fold (gap x i). field. lra. Qed.
  (** neighbouring pieces differ by a cube from the knot between them *)
  Lemma piece_next i v : (i + 2 < n)%nat -> piece x y s (S i) v = piece x y s i v + (piece_c0 x y s (S i) - piece_c0 x y s i) * (v - x (S i)) ^ 3.
  Proof.
    intro H. pose proof (@Hx i ltac:(lia)) as P. pose proof (@Hx (S i) ltac:(lia)) as P'. pose proof (sl_inner Hs H) as E. unfold inner_row in E.
    unfold piece, piece_c0, piece_c1, piece_t. replace (v - x i) with (v - x (S i) + gap x i) by (unfold gap; ring).
    replace (y (S i)) with (y i + gap x i * secant_slope x y i) by (unfold secant_slope; field; lra).
    set (h := gap x i) in *. set (h' := gap x (S i)) in *. set (m := secant_slope x y i) in *. set (m' := secant_slope x y (S i)) in *. set (u := v - x (S i)). set (a := s i) in *. set (b := s (S i)) in *. set (c := s (S (S i))) in *.
    assert (Ec : c = (3 * (h' * m + h * m') - h' * a - 2 * (h + h') * b) / h) by (apply Rmult_eq_reg_l with h; [|lra]; field_simplify_eq; [lra|lra]).
    clearbody c h h' m m' u a b. subst c. field. lra.
  Qed.
  Lemma piece2_next i v : (i + 2 < n)%nat -> piece2 x y s (S i) v = piece2 x y s i v + (piece_c0 x y s (S i) - piece_c0 x y s i) * (6 * (v - x (S i))).
  Proof.
    intro H. pose proof (@Hx i ltac:(lia)) as P. pose proof (@Hx (S i) ltac:(lia)) as P'. pose proof (sl_inner Hs H) as E. unfold inner_row in E.
    unfold piece2, piece_c0, piece_c1, piece_t. replace (v - x i) with (v - x (S i) + gap x i) by (unfold gap; ring).
    set (h := gap x i) in *. set (h' := gap x (S i)) in *. set (m := secant_slope x y i) in *. set (m' := secant_slope x y (S i)) in *. set (u := v - x (S i)). set (a := s i) in *. set (b := s (S i)) in *. set (c := s (S (S i))) in *.
    assert (Ec : c = (3 * (h' * m + h * m') - h' * a - 2 * (h + h') * b) / h) by (apply Rmult_eq_reg_l with h; [|lra]; field_simplify_eq; [lra|lra]).
    clearbody c h h' m m' u a b. subst c. field. lra.
  Qed.
  (** not-a-knot: the first two pieces are one cubic, and so are the last two; two knots: a line; three: a parabola *)
  Lemma first_not_a_knot : (4 <= n)%nat -> piece_c0 x y s 1 = piece_c0 x y s 0.
  Proof.
    intro H. pose proof (@Hx 0%nat ltac:(lia)) as P. pose proof (@Hx 1%nat ltac:(lia)) as P'. pose proof (@sl_inner _ _ _ _ Hs 0%nat ltac:(lia)) as E. pose proof (sl_first Hs H) as F. unfold inner_row in E.
    replace (x 2%nat - x 0%nat) with (gap x 0 + gap x 1) in F by (unfold gap; ring). unfold piece_c0, piece_t.
    set (h := gap x 0) in *. set (h' := gap x 1) in *. set (m := secant_slope x y 0) in *. set (m' := secant_slope x y 1) in *. set (a := s 0%nat) in *. set (b := s 1%nat) in *. set (c := s 2%nat) in *.
    assert (Ec : c = (3 * (h' * m + h * m') - h' * a - 2 * (h + h') * b) / h) by (apply Rmult_eq_reg_l with h; [|lra]; field_simplify_eq; [lra|lra]).
    assert (Ea : a = (((h + 2 * (h + h')) * h' * m + h ^ 2 * m') / (h + h') - (h + h') * b) / h') by (apply Rmult_eq_reg_l with h'; [|lra]; rewrite <- F; field; lra).
    clearbody a c h h' m m' b. subst c. subst a. field. lra.
  Qed.
  Lemma last_not_a_knot k : n = (k + 3)%nat -> (4 <= n)%nat -> piece_c0 x y s (S k) = piece_c0 x y s k.
  Proof.
    intros Hk H. pose proof (@Hx k ltac:(lia)) as P. pose proof (@Hx (S k) ltac:(lia)) as P'. pose proof (@sl_inner _ _ _ _ Hs k ltac:(lia)) as E. pose proof (sl_last Hs Hk H) as F. unfold inner_row in E.
    replace (k + 1)%nat with (S k) in F by lia. replace (k + 2)%nat with (S (S k)) in F by lia. replace (x (S (S k)) - x k) with (gap x k + gap x (S k)) in F by (unfold gap; ring). unfold piece_c0, piece_t.
    set (h := gap x k) in *. set (h' := gap x (S k)) in *. set (m := secant_slope x y k) in *. set (m' := secant_slope x y (S k)) in *. set (a := s k) in *. set (b := s (S k)) in *. set (c := s (S (S k))) in *.
    assert (Ea : a = (3 * (h' * m + h * m') - h * c - 2 * (h + h') * b) / h') by (apply Rmult_eq_reg_l with h'; [|lra]; field_simplify_eq; [lra|lra]).
    assert (Ec : c = ((h' ^ 2 * m + (2 * (h + h') + h') * h * m') / (h + h') - (h + h') * b) / h) by (apply Rmult_eq_reg_l with h; [|lra]; rewrite <- F; field; lra).
    clearbody a c h h' m m' b. subst a. subst c. field. lra.
  Qed.
  Lemma two_knots : n = 2%nat -> piece_c0 x y s 0 = 0 /\ piece_c1 x y s 0 = 0.
  Proof. intro H. pose proof (@Hx 0%nat ltac:(lia)). destruct (sl_two Hs H) as [A B]. unfold piece_c0, piece_c1, piece_t. rewrite A, B. split; field; lra. Qed.
  Lemma three_knots : n = 3%nat -> piece_c0 x y s 0 = 0 /\ piece_c0 x y s 1 = 0.
  Proof. intro H. pose proof (@Hx 0%nat ltac:(lia)). pose proof (@Hx 1%nat ltac:(lia)). destruct (sl_three Hs H) as [A B]. unfold piece_c0, piece_t. rewrite A, B. split; field; lra. Qed.

  (** ** one formula: the first piece plus a one-sided cube at every inner knot *)
  Definition jump (i : nat) : R := piece_c0 x y s (S i) - piece_c0 x y s i.
  Lemma interval_spec k v : (interval x k v <= k)%nat /\ (interval x k v = 0%nat \/ x (interval x k v) <= v) /\ forall j, (interval x k v < j <= k)%nat -> v < x j.
  Proof.
    induction k as [|k IH]; [cbn; repeat split; auto; lia|]. cbn [interval]. destruct (Rle_dec (x (S k)) v) as [H|H].
    - repeat split; auto. lia.
    - destruct IH as (A & B & C). repeat split; auto. intros j Hj. destruct (Nat.eq_dec j (S k)) as [->|]; [lra|]. apply C. lia.
  Qed.
  Lemma x_increasing i j : (i < j)%nat -> (j < n)%nat -> x i < x j.
  Proof.
    induction 1 as [|j Hij IH]; intro Hj.
    - pose proof (@Hx i ltac:(lia)). unfold gap in *. lra.
    - pose proof (@Hx j ltac:(lia)). unfold gap in *. pose proof (IH ltac:(lia)). lra.
  Qed.
  Lemma x_monotone i j : (i <= j)%nat -> (j < n)%nat -> x i <= x j.
  Proof. intros H Hj. destruct (Nat.eq_dec i j) as [->|]; [lra|]. left. apply x_increasing; lia. Qed.
  Lemma pieces_sum i v : (i <= n - 2)%nat -> piece x y s i v = piece x y s 0 v + sum_n i (fun j => jump j * (v - x (S j)) ^ 3).
  Proof.
    induction i as [|i IH]; intro H; [unfold sum_n; cbn; ring|]. rewrite piece_next by lia. rewrite IH by lia. rewrite sum_n_last. unfold jump. ring.
  Qed.
  Lemma pieces2_sum i v : (i <= n - 2)%nat -> piece2 x y s i v = piece2 x y s 0 v + sum_n i (fun j => jump j * (6 * (v - x (S j)))).
  Proof.
    induction i as [|i IH]; intro H; [unfold sum_n; cbn; ring|]. rewrite piece2_next by lia. rewrite IH by lia. rewrite sum_n_last. unfold jump. ring.
  Qed.
  Lemma cut_sum i v f : (i <= n - 2)%nat -> (i = 0%nat \/ x i <= v) -> (forall j, (i < j <= n - 2)%nat -> v < x j) -> (forall u, u <= 0 -> f (Rmax 0 u) = 0) -> (forall u, 0 <= u -> Rmax 0 u = u) ->
    sum_n (n - 2) (fun j => jump j * f (Rmax 0 (v - x (S j)))) = sum_n i (fun j => jump j * f (v - x (S j))).
  Proof.
    intros Hi Hl Hr H0 H1.
    assert (E : forall d, (i + d <= n - 2)%nat -> sum_n (i + d) (fun j => jump j * f (Rmax 0 (v - x (S j)))) = sum_n i (fun j => jump j * f (v - x (S j)))).
    { induction d as [|d IH]; intro Hd.
      - rewrite Nat.add_0_r. apply sum_n_ext. intros j Hj. rewrite H1; auto. destruct Hl as [->|Hl]; [lia|]. pose proof (@x_monotone (S j) i ltac:(lia) ltac:(lia)). lra.
      - replace (i + S d)%nat with (S (i + d)) by lia. rewrite sum_n_last, IH by lia. rewrite H0; [ring|]. pose proof (Hr (S (i + d)) ltac:(lia)). lra. }
    replace (n - 2)%nat with (i + (n - 2 - i))%nat by lia. apply E. lia.
  Qed.
  Lemma curve_formula v : piece x y s (interval x (n - 2) v) v = piece x y s 0 v + sum_n (n - 2) (fun j => jump j * Rmax 0 (v - x (S j)) ^ 3).
  Proof.
    destruct (interval_spec (n - 2) v) as (A & B & C). rewrite pieces_sum by auto. f_equal. symmetry. apply (@cut_sum _ v (fun u => u ^ 3)); auto.
    - intros u Hu. rewrite Rmax_left by lra. ring.
    - intros u Hu. now apply Rmax_right.
  Qed.
  Lemma curve2_formula v : piece2 x y s (interval x (n - 2) v) v = piece2 x y s 0 v + sum_n (n - 2) (fun j => jump j * (6 * Rmax 0 (v - x (S j)))).
  Proof.
    destruct (interval_spec (n - 2) v) as (A & B & C). rewrite pieces2_sum by auto. f_equal. symmetry. apply (@cut_sum _ v (fun u => 6 * u)); auto.
    - intros u Hu. rewrite Rmax_left by lra. ring.
    - intros u Hu. now apply Rmax_right.
  Qed.
End PIECES.
