(** C108, C154, C155: rank correlations and the Jarque-Bera test. *)
From Verif Require Import Py RNum TauModel.
Set Implicit Arguments.
Unset Strict Implicit.
Open Scope R_scope.

Definition sgn (x : R) : R := if Rlt_dec 0 x then 1 else if Rlt_dec x 0 then -1 else 0.
Lemma r_eqb_spec a b : reflect (a = b) (r_eqb a b).
Proof. unfold r_eqb. destruct (Req_EM_T a b); constructor; auto. Qed.
Lemma r_ltb_spec a b : reflect (a < b) (r_ltb a b).
Proof. unfold r_ltb. destruct (Rlt_dec a b); constructor; auto. Qed.
Lemma in_pairs A (l : list A) a b : In (a, b) (pairs l) <-> exists i j, (i < j)%nat /\ nth_error l i = Some a /\ nth_error l j = Some b.
Proof.
  induction l as [|c l IH]; cbn [pairs].
  - split; [intros []|]. intros (i & j & _ & H & _). destruct i; discriminate.
  - rewrite in_app_iff, in_map_iff, IH. split.
    + intros [(d & [= <- <-] & Hd)|(i & j & H & Hi & Hj)].
      * destruct (In_nth_error _ _ Hd) as (j & Hj). exists 0%nat, (S j). repeat split; auto. lia.
      * exists (S i), (S j). repeat split; auto. lia.
    + intros ([|i] & [|j] & H & Hi & Hj); try lia.
      * left. injection Hi as <-. exists b. split; auto. eapply nth_error_In. exact Hj.
      * right. exists i, j. repeat split; auto. lia.
Qed.
Lemma sgn_cases r : (0 < r /\ sgn r = 1) \/ (r < 0 /\ sgn r = -1) \/ (r = 0 /\ sgn r = 0).
Proof. unfold sgn. destruct (Rlt_dec 0 r); auto. destruct (Rlt_dec r 0); auto. right. right. split; auto. lra. Qed.

Section VALUE.
  Variables (A : Type) (x y : A -> R) (w : A -> A -> R).
  Definition sx a b := sgn (x a - x b).
  Definition sy a b := sgn (y a - y b).
  Definition psum (f : A -> A -> R) (l : list A) : R := rsum (map (fun p => w (fst p) (snd p) * f (fst p) (snd p)) (pairs l)).
  Lemma pair_weight_psum test l : pair_weight w test l = psum (fun a b => if test a b then 1 else 0) l.
  Proof. unfold pair_weight, psum. apply rsum_map_ext. intros [a b] _. cbn. destruct (test a b); ring. Qed.
  Lemma tie_x a b : (if x_tie x a b then 1 else 0) = 1 - sx a b * sx a b.
  Proof. unfold x_tie, sx. destruct (r_eqb_spec (x a) (x b)); destruct (sgn_cases (x a - x b)) as [[? ->]|[[? ->]|[? ->]]]; lra. Qed.
  Lemma tie_y a b : (if y_tie y a b then 1 else 0) = 1 - sy a b * sy a b.
  Proof. unfold y_tie, sy. destruct (r_eqb_spec (y a) (y b)); destruct (sgn_cases (y a - y b)) as [[? ->]|[[? ->]|[? ->]]]; lra. Qed.
  Lemma sign_product a b : 1 - ((if y_tie y a b then 1 else 0) + (if x_tie x a b then 1 else 0) - (if x_tie x a b && y_tie y a b then 1 else 0)) - 2 * (if discordant x y a b then 1 else 0) = sx a b * sy a b.
  Proof.
    unfold x_tie, y_tie, discordant, sx, sy. destruct (r_eqb_spec (x a) (x b)), (r_eqb_spec (y a) (y b)), (r_ltb_spec (x a) (x b)), (r_ltb_spec (y b) (y a)), (r_ltb_spec (x b) (x a)), (r_ltb_spec (y a) (y b)); cbn [andb orb]; try lra;
    destruct (sgn_cases (x a - x b)) as [[? ->]|[[? ->]|[? ->]]]; destruct (sgn_cases (y a - y b)) as [[? ->]|[[? ->]|[? ->]]]; lra.
  Qed.
  Lemma psum_lin c d f g l : psum (fun a b => c * f a b + d * g a b) l = c * psum f l + d * psum g l.
  Proof. unfold psum. rewrite <- !rsum_map_scale, <- rsum_map_add. apply rsum_map_ext. intros [a b] _. cbn. ring. Qed.
  Lemma psum_ext f g l : (forall a b, In (a, b) (pairs l) -> f a b = g a b) -> psum f l = psum g l.
  Proof. intro H. unfold psum. apply rsum_map_ext. intros [a b] Hab. cbn. now rewrite (H a b). Qed.
  Definition X l := psum (fun a b => sx a b * sx a b) l.
  Definition Y l := psum (fun a b => sy a b * sy a b) l.
  Definition S l := psum (fun a b => sx a b * sy a b) l.
  Lemma x_part l : total w l - pair_weight w (x_tie x) l = X l.
  Proof. unfold total. rewrite !pair_weight_psum. unfold X. transitivity (1 * psum (fun _ _ => 1) l + (-1) * psum (fun a b => if x_tie x a b then 1 else 0) l); [ring|]. rewrite <- psum_lin. apply psum_ext. intros a b _. rewrite tie_x. ring. Qed.
  Lemma y_part l : total w l - pair_weight w (y_tie y) l = Y l.
  Proof. unfold total. rewrite !pair_weight_psum. unfold Y. transitivity (1 * psum (fun _ _ => 1) l + (-1) * psum (fun a b => if y_tie y a b then 1 else 0) l); [ring|]. rewrite <- psum_lin. apply psum_ext. intros a b _. rewrite tie_y. ring. Qed.
  Lemma s_part l : total w l - (pair_weight w (y_tie y) l + pair_weight w (x_tie x) l - pair_weight w (fun a b => x_tie x a b && y_tie y a b) l) - 2 * pair_weight w (discordant x y) l = S l.
  Proof.
    unfold total. rewrite !pair_weight_psum. unfold S.
    transitivity (1 * psum (fun a b => 1 * 1 + (-1) * (if y_tie y a b then 1 else 0)) l + 1 * psum (fun a b => 1 * (1 * (if x_tie x a b && y_tie y a b then 1 else 0) + (-1) * (if x_tie x a b then 1 else 0)) + (-2) * (if discordant x y a b then 1 else 0)) l).
    - rewrite !psum_lin. ring.
    - rewrite <- psum_lin. apply psum_ext. intros a b _. rewrite <- sign_product. ring.
  Qed.
  Hypothesis Hw : forall a b, 0 < w a b.
  Lemma psum_nonneg f l : (forall a b, In (a, b) (pairs l) -> 0 <= f a b) -> 0 <= psum f l.
  Proof. intro H. apply rsum_nonneg. intros v Hv. apply in_map_iff in Hv. destruct Hv as ([a b] & <- & Hab). cbn. apply Rmult_le_pos; [left; apply Hw|auto]. Qed.
  Lemma psum_zero f l : (forall a b, In (a, b) (pairs l) -> 0 <= f a b) -> psum f l = 0 -> forall a b, In (a, b) (pairs l) -> f a b = 0.
  Proof.
    intros H Z a b Hab. assert (P : w a b * f a b = 0).
    { apply (@rsum_zero_all _) with (x := w a b * f a b) in Z; auto; [|apply in_map_iff; exists (a, b); auto]. intros v Hv. apply in_map_iff in Hv. destruct Hv as ([c d] & <- & Hcd). cbn. apply Rmult_le_pos; [left; apply Hw|auto]. }
    pose proof (Hw a b). nra.
  Qed.
  Lemma sq_nonneg l : 0 <= X l /\ 0 <= Y l.
  Proof. split; apply psum_nonneg; intros; nra. Qed.
  Lemma X_minus_S l : 0 <= X l - S l /\ 0 <= Y l - S l /\ 0 <= X l + S l /\ 0 <= Y l + S l.
  Proof.
    assert (E : forall c f, (f = X \/ f = Y) -> (c = 1 \/ c = -1) -> 0 <= 1 * f l + c * S l).
    { intros c f [->| ->] [->| ->]; unfold X, Y, S; rewrite <- psum_lin; apply psum_nonneg; intros a b _; unfold sx, sy; destruct (sgn_cases (x a - x b)) as [[? ->]|[[? ->]|[? ->]]]; destruct (sgn_cases (y a - y b)) as [[? ->]|[[? ->]|[? ->]]]; lra. }
    pose proof (E 1 X (or_introl eq_refl) (or_introl eq_refl)). pose proof (E (-1) X (or_introl eq_refl) (or_intror eq_refl)). pose proof (E 1 Y (or_intror eq_refl) (or_introl eq_refl)). pose proof (E (-1) Y (or_intror eq_refl) (or_intror eq_refl)). lra.
  Qed.
  Lemma root_bounds a b s : 0 < a -> 0 < b -> - a <= s <= a -> - b <= s <= b -> -1 <= s / sqrt a / sqrt b <= 1.
  Proof.
    intros Ha Hb H1 H2. assert (P : 0 < sqrt a * sqrt b) by (apply Rmult_lt_0_compat; now apply sqrt_lt_R0). assert (Q : s * s <= a * b) by nra.
    assert (Q2 : Rabs s <= sqrt a * sqrt b). { rewrite <- sqrt_mult by lra. rewrite <- (sqrt_Rsqr_abs s). apply sqrt_le_1_alt. exact Q. }
    pose proof (Rle_abs s) as B1. pose proof (Rle_abs (- s)) as B2. rewrite Rabs_Ropp in B2. replace (s / sqrt a / sqrt b) with (s / (sqrt a * sqrt b)) by (field; split; apply Rgt_not_eq; now apply sqrt_lt_R0).
    split; apply Rmult_le_reg_r with (sqrt a * sqrt b); auto; unfold Rdiv; rewrite Rmult_assoc, Rinv_l by lra; lra.
  Qed.
  Lemma tau_value_eq l : 0 < X l -> 0 < Y l -> tau_value x y w l = S l / sqrt (X l) / sqrt (Y l).
  Proof.
    intros HX HY. unfold tau_value. rewrite x_part, y_part, s_part. pose proof (X_minus_S l). pose proof (@root_bounds (X l) (Y l) (S l) HX HY ltac:(lra) ltac:(lra)) as B.
    rewrite Rmax_right by lra. apply Rmin_right. lra.
  Qed.
  Lemma tau_value_range l : -1 <= tau_value x y w l <= 1.
  Proof. unfold tau_value. split; [apply Rmin_glb; [lra|apply Rmax_l]|apply Rmin_l]. Qed.
  Lemma root_one a b s : 0 < a -> 0 < b -> - a <= s <= a -> - b <= s <= b -> (s / sqrt a / sqrt b = 1 <-> (s = a /\ s = b)).
  Proof.
    intros Ha Hb H1 H2. pose proof (sqrt_lt_R0 a Ha) as Pa. pose proof (sqrt_lt_R0 b Hb) as Pb. pose proof (sqrt_sqrt a ltac:(lra)) as Sa. pose proof (sqrt_sqrt b ltac:(lra)) as Sb. set (p := sqrt a) in *. set (q := sqrt b) in *.
    replace (s / p / q) with (s / (p * q)) by (field; lra). assert (PQ : 0 < p * q) by nra. split.
    - intro E. assert (E2 : s = p * q) by (replace s with (s / (p * q) * (p * q)) by (field; lra); rewrite E; ring). destruct (Rtotal_order p q) as [L|[L|L]]; [exfalso; nra| |exfalso; nra]. rewrite L in *. split; lra.
    - intros [E1 E2]. assert (Epq : p = q) by (unfold p, q; f_equal; lra). rewrite Epq. replace s with (q * q) by lra. field. lra.
  Qed.
  Lemma tau_one l : 0 < X l -> 0 < Y l -> (tau_value x y w l = 1 <-> forall a b, In (a, b) (pairs l) -> sx a b = sy a b).
  Proof.
    intros HX HY. rewrite tau_value_eq by auto. pose proof (X_minus_S l) as B. rewrite root_one by (auto; lra). split.
    - intros [E1 E2]. assert (Z1 : psum (fun a b => 1 * (sx a b * sx a b) + (-1) * (sx a b * sy a b)) l = 0) by (rewrite psum_lin; fold (X l) (S l); lra).
      assert (Z2 : psum (fun a b => 1 * (sy a b * sy a b) + (-1) * (sx a b * sy a b)) l = 0) by (rewrite psum_lin; fold (Y l) (S l); lra).
      intros a b Hab. apply psum_zero with (a := a) (b := b) in Z1; auto; [|intros c d _; unfold sx, sy; destruct (sgn_cases (x c - x d)) as [[? ->]|[[? ->]|[? ->]]]; destruct (sgn_cases (y c - y d)) as [[? ->]|[[? ->]|[? ->]]]; lra].
      apply psum_zero with (a := a) (b := b) in Z2; auto; [|intros c d _; unfold sx, sy; destruct (sgn_cases (x c - x d)) as [[? ->]|[[? ->]|[? ->]]]; destruct (sgn_cases (y c - y d)) as [[? ->]|[[? ->]|[? ->]]]; lra].
      revert Z1 Z2. unfold sx, sy. destruct (sgn_cases (x a - x b)) as [[? ->]|[[? ->]|[? ->]]]; destruct (sgn_cases (y a - y b)) as [[? ->]|[[? ->]|[? ->]]]; lra.
    - intro H. split; apply psum_ext; intros a b Hab; rewrite (H a b Hab); ring.
  Qed.
  Lemma X_pos l : 0 < X l <-> exists a b, In (a, b) (pairs l) /\ x a <> x b.
  Proof.
    destruct (sq_nonneg l) as [HX _]. split.
    - intro P. apply Classical_Prop.NNPP. intro C. assert (Z : X l = 0); [|lra]. unfold X. transitivity (psum (fun _ _ => 0) l); [|unfold psum; apply rsum_map_0; intros [a b] _; cbn; ring].
      apply psum_ext. intros a b Hab. assert (E : x a = x b) by (destruct (Req_dec (x a) (x b)); auto; exfalso; apply C; eauto). unfold sx. rewrite E. replace (x b - x b) with 0 by ring. destruct (sgn_cases 0) as [[? _]|[[? _]|[_ ->]]]; lra.
    - intros (a & b & Hab & NE). destruct HX as [|Z]; auto. exfalso. symmetry in Z. apply psum_zero with (a := a) (b := b) in Z; auto; [|intros; nra]. unfold sx in Z. destruct (sgn_cases (x a - x b)) as [[? E]|[[? E]|[? E]]]; rewrite E in Z; lra.
  Qed.
End VALUE.
Section SWAP.
  Variables (A : Type) (x y : A -> R) (w : A -> A -> R).
  Hypothesis Hw : forall a b, 0 < w a b.
  Lemma X_Y l : X y w l = Y y w l.
  Proof. reflexivity. Qed.
  Lemma tau_swap l : 0 < X x w l -> 0 < Y y w l -> tau_value y x w l = tau_value x y w l.
  Proof.
    intros HX HY. rewrite !tau_value_eq by auto. replace (S y x w l) with (S x y w l) by (apply psum_ext; intros; unfold sx, sy; ring). change (X y w l) with (Y y w l). change (Y x w l) with (X x w l). field. split; apply Rgt_not_eq; now apply sqrt_lt_R0.
  Qed.
  Lemma sgn_opp r : sgn (- r) = - sgn r.
  Proof. destruct (sgn_cases r) as [[? ->]|[[? ->]|[? ->]]]; destruct (sgn_cases (- r)) as [[? ->]|[[? ->]|[? ->]]]; lra. Qed.
  Lemma Y_opp l : Y (fun a => - y a) w l = Y y w l.
  Proof. apply psum_ext. intros a b _. unfold sy. replace (- y a - - y b) with (- (y a - y b)) by ring. rewrite sgn_opp. ring. Qed.
  Lemma tau_opp l : 0 < X x w l -> 0 < Y y w l -> tau_value x (fun a => - y a) w l = - tau_value x y w l.
  Proof.
    intros HX HY. rewrite (@tau_value_eq _ x y w Hw l) by auto. rewrite (@tau_value_eq _ x (fun a => - y a) w Hw l) by (rewrite ?Y_opp; auto). rewrite Y_opp.
    assert (E : S x (fun a => - y a) w l = - S x y w l).
    { unfold S. transitivity ((-1) * psum w (fun a b => sx x a b * sy y a b) l + 0 * psum w (fun a b => sx x a b * sy y a b) l); [|ring]. rewrite <- psum_lin. apply psum_ext. intros a b _. unfold sx, sy. replace (- y a - - y b) with (- (y a - y b)) by ring. rewrite sgn_opp. ring. }
    rewrite E. field. split; apply Rgt_not_eq; now apply sqrt_lt_R0.
  Qed.
  Lemma tau_minus_one l : 0 < X x w l -> 0 < Y y w l -> (tau_value x y w l = -1 <-> forall a b, In (a, b) (pairs l) -> sx x a b = - sy y a b).
  Proof.
    intros HX HY. pose proof (@tau_one _ x (fun a => - y a) w Hw l HX) as T. rewrite Y_opp in T. specialize (T HY). rewrite tau_opp in T by auto.
    assert (E : forall a b, sy (fun a => - y a) a b = - sy y a b) by (intros a b; unfold sy; replace (- y a - - y b) with (- (y a - y b)) by ring; apply sgn_opp).
    split; [intro H; intros a b Hab; rewrite <- E; apply T; auto; lra|]. intro H. assert (- tau_value x y w l = 1) by (apply T; intros a b Hab; rewrite E; auto). lra.
  Qed.
End SWAP.

(** ** Spec vocabulary *)
Definition all_equal (l : list R) : Prop := exists c, forall v, In v l -> v = c.
Definition same_order (xs ys : list R) : Prop := forall i j a b c d, nth_error xs i = Some a -> nth_error xs j = Some b -> nth_error ys i = Some c -> nth_error ys j = Some d -> (a < b <-> c < d).
Definition opposite_order (xs ys : list R) : Prop := forall i j a b c d, nth_error xs i = Some a -> nth_error xs j = Some b -> nth_error ys i = Some c -> nth_error ys j = Some d -> (a < b <-> d < c).
(** sum of the products of the signs of the differences of all pairs of positions *)
Definition sign_products (A : Type) (u : A -> A -> R) (f g : A -> R) (l : list A) : R := rsum (map (fun a => rsum (map (fun b => u a b * (sgn (f a - f b) * sgn (g a - g b))) l)) l).

Section LISTS.
  Variables (A : Type) (x y : A -> R) (w : A -> A -> R).
  Hypothesis Hw : forall a b, 0 < w a b.
  Lemma not_equal_pair l : (exists a b, In (a, b) (pairs l) /\ x a <> x b) <-> ~ all_equal (map x l).
  Proof.
    split.
    - intros (a & b & Hab & NE) (c & H). apply in_pairs in Hab. destruct Hab as (i & j & _ & Hi & Hj). apply NE. rewrite (H (x a)), (H (x b)); auto; apply in_map; eapply nth_error_In; eauto.
    - intro H. destruct l as [|a l]; [exfalso; apply H; exists 0; intros v []|]. apply Classical_Prop.NNPP. intro C. apply H. exists (x a). intros v Hv. apply in_map_iff in Hv. destruct Hv as (b & <- & [<-|Hb]); auto.
      destruct (Req_dec (x a) (x b)) as [|NE]; auto. exfalso. apply C. exists a, b. split; auto. cbn [pairs]. apply in_app_iff. left. apply in_map_iff. eauto.
  Qed.
  Lemma signs_pairs (e : R) l : (e = 1 \/ e = -1) -> ((forall a b, In (a, b) (pairs l) -> sx x a b = e * sy y a b) <-> forall a b, In a l -> In b l -> sx x a b = e * sy y a b).
  Proof.
    intro He. split; [|intros H a b Hab; apply in_pairs in Hab; destruct Hab as (i & j & _ & Hi & Hj); apply H; eapply nth_error_In; eauto].
    intros H a b Ha Hb. destruct (In_nth_error _ _ Ha) as (i & Hi). destruct (In_nth_error _ _ Hb) as (j & Hj). destruct (Nat.lt_trichotomy i j) as [L|[->|L]].
    - apply H. apply in_pairs. exists i, j. auto.
    - rewrite Hi in Hj. injection Hj as ->. unfold sx, sy. replace (x b - x b) with 0 by ring. replace (y b - y b) with 0 by ring. destruct (sgn_cases 0) as [[? _]|[[? _]|[_ ->]]]; lra.
    - assert (P : sx x b a = e * sy y b a) by (apply H; apply in_pairs; exists j, i; auto). unfold sx, sy in *. replace (x a - x b) with (- (x b - x a)) by ring. replace (y a - y b) with (- (y b - y a)) by ring. rewrite !sgn_opp, P. ring.
  Qed.
  Lemma nth_error_maps l i a c : nth_error (map x l) i = Some a -> nth_error (map y l) i = Some c -> exists e, In e l /\ x e = a /\ y e = c.
  Proof. rewrite !nth_error_map. destruct (nth_error l i) as [e|] eqn:E; [|discriminate]. intros [= <-] [= <-]. exists e. split; auto. eapply nth_error_In; eauto. Qed.
  Lemma same_order_signs l : (forall a b, In (a, b) (pairs l) -> sx x a b = sy y a b) <-> same_order (map x l) (map y l).
  Proof.
    pose proof (@signs_pairs 1 l (or_introl eq_refl)) as T. setoid_rewrite Rmult_1_l in T. rewrite T. split.
    - intros H i j a b c d Ha Hb Hc Hd. destruct (nth_error_maps Ha Hc) as (p & Hp & <- & <-). destruct (nth_error_maps Hb Hd) as (q & Hq & <- & <-). specialize (H p q Hp Hq). unfold sx, sy in H.
      destruct (sgn_cases (x p - x q)) as [[? E]|[[? E]|[? E]]]; destruct (sgn_cases (y p - y q)) as [[? E']|[[? E']|[? E']]]; rewrite E, E' in H; lra.
    - intros H a b Ha Hb. destruct (In_nth_error _ _ Ha) as (i & Hi). destruct (In_nth_error _ _ Hb) as (j & Hj).
      assert (P : x a < x b <-> y a < y b) by (apply (H i j); rewrite nth_error_map; [rewrite Hi|rewrite Hj|rewrite Hi|rewrite Hj]; auto).
      assert (Q : x b < x a <-> y b < y a) by (apply (H j i); rewrite nth_error_map; [rewrite Hj|rewrite Hi|rewrite Hj|rewrite Hi]; auto).
      unfold sx, sy. destruct (sgn_cases (x a - x b)) as [[? ->]|[[? ->]|[? ->]]]; destruct (sgn_cases (y a - y b)) as [[? ->]|[[? ->]|[? ->]]]; auto; exfalso; lra.
  Qed.
  Lemma opposite_order_signs l : (forall a b, In (a, b) (pairs l) -> sx x a b = - sy y a b) <-> opposite_order (map x l) (map y l).
  Proof.
    pose proof (@signs_pairs (-1) l (or_intror eq_refl)) as T. assert (E : forall v, -1 * v = - v) by (intro; ring). setoid_rewrite E in T. rewrite T. clear E. split.
    - intros H i j a b c d Ha Hb Hc Hd. destruct (nth_error_maps Ha Hc) as (p & Hp & <- & <-). destruct (nth_error_maps Hb Hd) as (q & Hq & <- & <-). specialize (H p q Hp Hq). unfold sx, sy in H.
      destruct (sgn_cases (x p - x q)) as [[? E]|[[? E]|[? E]]]; destruct (sgn_cases (y p - y q)) as [[? E']|[[? E']|[? E']]]; rewrite E, E' in H; lra.
    - intros H a b Ha Hb. destruct (In_nth_error _ _ Ha) as (i & Hi). destruct (In_nth_error _ _ Hb) as (j & Hj).
      assert (P : x a < x b <-> y b < y a) by (apply (H i j); rewrite nth_error_map; [rewrite Hi|rewrite Hj|rewrite Hi|rewrite Hj]; auto).
      assert (Q : x b < x a <-> y a < y b) by (apply (H j i); rewrite nth_error_map; [rewrite Hj|rewrite Hi|rewrite Hj|rewrite Hi]; auto).
      unfold sx, sy. destruct (sgn_cases (x a - x b)) as [[? ->]|[[? ->]|[? ->]]]; destruct (sgn_cases (y a - y b)) as [[? ->]|[[? ->]|[? ->]]]; try lra; exfalso; lra.
  Qed.
  Hypothesis Hsym : forall a b, w a b = w b a.
  Lemma double_sum (f : A -> A -> R) l : (forall a b, f a b = f b a) -> (forall a, f a a = 0) -> rsum (map (fun a => rsum (map (f a) l)) l) = 2 * rsum (map (fun p => f (fst p) (snd p)) (pairs l)).
  Proof.
    intros HS HD. induction l as [|c l IH]; [cbn; ring|]. cbn [map pairs rsum]. rewrite map_app, rsum_app, map_map. cbn [fst snd]. rewrite rsum_map_add, IH, HD. rewrite (@rsum_map_ext _ (fun a => f a c) (f c)) by (intros; apply HS).
    change (map (fun b => f c b) l) with (map (f c) l). ring.
  Qed.
  Lemma tau_sign_products l : ~ all_equal (map x l) -> ~ all_equal (map y l) -> tau_value x y w l = sign_products w x y l / sqrt (sign_products w x x l) / sqrt (sign_products w y y l) /\ 0 < sign_products w x x l /\ 0 < sign_products w y y l.
  Proof.
    intros NX NY. assert (PX : 0 < X x w l) by (apply X_pos; auto; now apply not_equal_pair). assert (PY : 0 < Y y w l).
    { change (0 < X y w l). apply X_pos; auto. clear PX. destruct l as [|a l]; [exfalso; apply NY; exists 0; intros v []|]. apply Classical_Prop.NNPP. intro C. apply NY. exists (y a). intros v Hv. apply in_map_iff in Hv. destruct Hv as (b & <- & [<-|Hb]); auto.
      destruct (Req_dec (y a) (y b)) as [|NE]; auto. exfalso. apply C. exists a, b. split; auto. cbn [pairs]. apply in_app_iff. left. apply in_map_iff. eauto. }
    assert (D : forall f g, sign_products w f g l = 2 * psum w (fun a b => sgn (f a - f b) * sgn (g a - g b)) l).
    { intros f g. unfold sign_products, psum. apply (@double_sum (fun a b => w a b * (sgn (f a - f b) * sgn (g a - g b)))).
      - intros a b. rewrite Hsym. replace (f a - f b) with (- (f b - f a)) by ring. replace (g a - g b) with (- (g b - g a)) by ring. rewrite !sgn_opp. ring.
      - intro a. replace (f a - f a) with 0 by ring. destruct (sgn_cases 0) as [[? _]|[[? _]|[_ ->]]]; lra. }
    rewrite (@tau_value_eq _ x y w Hw l) by auto. rewrite !D. change (psum w (fun a b => sgn (x a - x b) * sgn (y a - y b)) l) with (S x y w l). change (psum w (fun a b => sgn (x a - x b) * sgn (x a - x b)) l) with (X x w l). change (psum w (fun a b => sgn (y a - y b) * sgn (y a - y b)) l) with (Y y w l).
    split; [|lra]. rewrite !sqrt_mult by lra. pose proof (sqrt_lt_R0 _ PX). pose proof (sqrt_lt_R0 _ PY). pose proof (sqrt_lt_R0 2 ltac:(lra)). pose proof (sqrt_sqrt 2 ltac:(lra)) as S2.
    replace (2 * S x y w l / (sqrt 2 * sqrt (X x w l)) / (sqrt 2 * sqrt (Y y w l))) with (2 * S x y w l / ((sqrt 2 * sqrt 2) * (sqrt (X x w l) * sqrt (Y y w l)))) by (field; lra). rewrite S2. field. lra.
  Qed.
End LISTS.
Lemma pairs_map A B (h : A -> B) l : pairs (map h l) = map (fun p => (h (fst p), h (snd p))) (pairs l).
Proof. induction l as [|a l IH]; auto. cbn [map pairs]. rewrite map_app, IH, !map_map. reflexivity. Qed.
Lemma pairs_in A (l : list A) a b : In (a, b) (pairs l) -> In a l /\ In b l.
Proof. intro H. apply in_pairs in H. destruct H as (i & j & _ & Hi & Hj). split; eapply nth_error_In; eauto. Qed.
(** signs decide the value *)
Lemma tau_transfer A B (x y : A -> R) (w : A -> A -> R) (x' y' : B -> R) (w' : B -> B -> R) (h : A -> B) (e : R) l :
  (forall a b, 0 < w a b) -> (forall a b, 0 < w' a b) -> (e = 1 \/ e = -1) -> (forall a b, In a l -> In b l -> w' (h a) (h b) = w a b /\ sx x' (h a) (h b) = sx x a b /\ sy y' (h a) (h b) = e * sy y a b) ->
  0 < X x w l -> 0 < Y y w l -> tau_value x' y' w' (map h l) = e * tau_value x y w l.
Proof.
  intros Hw Hw' He H HX HY. assert (T : forall (f' : B -> B -> R) (f : A -> A -> R) c, (forall a b, In a l -> In b l -> f' (h a) (h b) = c * f a b) -> psum w' f' (map h l) = c * psum w f l).
  { intros f' f c Hf. unfold psum. rewrite pairs_map, map_map, <- rsum_map_scale. apply rsum_map_ext. intros [a b] Hab. destruct (pairs_in Hab) as [Ha Hb]. cbn. destruct (H a b Ha Hb) as (-> & _). rewrite (Hf a b Ha Hb). ring. }
  assert (EX : X x' w' (map h l) = X x w l) by (unfold X; rewrite (T _ (fun a b => sx x a b * sx x a b) 1); [ring|]; intros a b Ha Hb; destruct (H a b Ha Hb) as (_ & -> & _); ring).
  assert (EY : Y y' w' (map h l) = Y y w l) by (unfold Y; rewrite (T _ (fun a b => sy y a b * sy y a b) 1); [ring|]; intros a b Ha Hb; destruct (H a b Ha Hb) as (_ & _ & ->); destruct He as [->| ->]; ring).
  assert (ES : S x' y' w' (map h l) = e * S x y w l) by (unfold S; rewrite (T _ (fun a b => sx x a b * sy y a b) e); [ring|]; intros a b Ha Hb; destruct (H a b Ha Hb) as (_ & -> & ->); ring).
  rewrite (@tau_value_eq _ x y w Hw l) by auto. rewrite (@tau_value_eq _ x' y' w' Hw') by (rewrite ?EX, ?EY; auto). rewrite EX, EY, ES. field. split; apply Rgt_not_eq; now apply sqrt_lt_R0.
Qed.

(** ** Kendall's tau *)
Section KENDALL.
  Variable pvalue : list R -> list R -> option R.
  Lemma map_fst_combine A B (xs : list A) (ys : list B) : length xs = length ys -> map fst (combine xs ys) = xs.
  Proof. revert ys. induction xs as [|a xs IH]; intros [|b ys] H; cbn in *; try lia; auto. f_equal. apply IH. lia. Qed.
  Lemma map_snd_combine A B (xs : list A) (ys : list B) : length xs = length ys -> map snd (combine xs ys) = ys.
  Proof. revert ys. induction xs as [|a xs IH]; intros [|b ys] H; cbn in *; try lia; auto. f_equal. apply IH. lia. Qed.
  Lemma one_pos A : forall a b : A, 0 < (fun _ _ : A => 1) a b.
  Proof. intros. lra. Qed.
  Lemma kendall_cases xs ys : length xs = length ys ->
    (all_equal xs \/ all_equal ys -> kendalltau pvalue xs ys = Ok (None, None)) /\
    (~ all_equal xs -> ~ all_equal ys -> let l := combine xs ys in kendalltau pvalue xs ys = Ok (Some (tau_value fst snd (fun _ _ => 1) l), pvalue xs ys) /\ 0 < X fst (fun _ _ => 1) l /\ 0 < Y snd (fun _ _ => 1) l).
  Proof.
    intro HL. set (l := combine xs ys). set (one := fun _ _ : R * R => 1).
    assert (EX : 0 < X fst one l <-> ~ all_equal xs) by (rewrite (@X_pos _ fst snd one (@one_pos _)), not_equal_pair; unfold l; now rewrite map_fst_combine).
    assert (EY : 0 < Y snd one l <-> ~ all_equal ys) by (change (Y snd one l) with (X snd one l); rewrite (@X_pos _ snd snd one (@one_pos _)), not_equal_pair; unfold l; now rewrite map_snd_combine).
    destruct (sq_nonneg (A := R * R) fst snd (w := one) (@one_pos _) l) as [NX NY].
    unfold kendalltau. rewrite HL, Nat.eqb_refl. cbn [negb]. fold l. pose proof (@x_part _ fst one l) as PX. pose proof (@y_part _ snd one l) as PY. split.
    - intro H. destruct (length ys =? 0)%nat; auto. fold one. destruct (r_eqb_spec (pair_weight one (x_tie fst) l) (total one l)) as [|E1]; auto. destruct (r_eqb_spec (pair_weight one (y_tie snd) l) (total one l)) as [|E2]; auto. exfalso.
      destruct H as [H|H]; [assert (~ 0 < X fst one l) by (rewrite EX; tauto)|assert (~ 0 < Y snd one l) by (rewrite EY; tauto)]; lra.
    - intros HX HY. apply EX in HX. apply EY in HY. cbv zeta. fold one. destruct (Nat.eqb_spec (length ys) 0) as [Z|_]. { exfalso. destruct ys; [|discriminate]. apply EY in HY. apply HY. exists 0. intros v []. }
      destruct (r_eqb_spec (pair_weight one (x_tie fst) l) (total one l)) as [E1|E1]; [exfalso; lra|]. destruct (r_eqb_spec (pair_weight one (y_tie snd) l) (total one l)) as [E2|E2]; [exfalso; lra|]. auto.
  Qed.
  (** ** C154 *)
  Theorem c154_undefined xs ys : (kendall_tau_pval pvalue xs ys = Err ValueError <-> length xs <> length ys) /\ (forall e, kendall_tau_pval pvalue xs ys = Err e -> e = ValueError) /\
    (length xs = length ys -> (kendall_tau_pval pvalue xs ys = Ok None <-> all_equal xs \/ all_equal ys)).
  Proof.
    unfold kendall_tau_pval. destruct (Nat.eq_dec (length xs) (length ys)) as [HL|HL].
    - destruct (kendall_cases HL) as [C1 C2]. destruct (Classical_Prop.classic (all_equal xs \/ all_equal ys)) as [H|H].
      + rewrite (C1 H). cbn [bind fst]. split; [split; [discriminate|lia]|]. split; [discriminate|]. split; auto.
      + destruct C2 as (-> & _); [tauto|tauto|]. cbn [bind fst]. split; [split; [discriminate|lia]|]. split; [discriminate|]. intros _. split; [discriminate|tauto].
    - unfold kendalltau. rewrite (proj2 (Nat.eqb_neq _ _) HL). cbn [negb bind]. split; [tauto|]. split; [now intros e [= <-]|lia].
  Qed.
  Lemma kendall_inv xs ys t : kendall_tau_pval pvalue xs ys = Ok (Some t) -> length xs = length ys /\ ~ all_equal xs /\ ~ all_equal ys /\ t = tau_value fst snd (fun _ _ => 1) (combine xs ys) /\ 0 < X fst (fun _ _ => 1) (combine xs ys) /\ 0 < Y snd (fun _ _ => 1) (combine xs ys).
  Proof.
    intro H. destruct (c154_undefined xs ys) as (HE & _ & HN). destruct (Nat.eq_dec (length xs) (length ys)) as [HL|HL]; [|apply HE in HL; congruence]. specialize (HN HL).
    assert (NX : ~ all_equal xs) by (intro C; rewrite (proj2 HN (or_introl C)) in H; discriminate). assert (NY : ~ all_equal ys) by (intro C; rewrite (proj2 HN (or_intror C)) in H; discriminate).
    destruct (kendall_cases HL) as [_ C2]. destruct (C2 NX NY) as (E & PX & PY). unfold kendall_tau_pval in H. rewrite E in H. cbn [bind fst] in H. injection H as <-. do 4 (split; [assumption || reflexivity|]). auto.
  Qed.
  (** the correlation of the signs of all differences *)
  Theorem c154_value xs ys t : kendall_tau_pval pvalue xs ys = Ok (Some t) -> let u := fun _ _ : R * R => 1 in let l := combine xs ys in
    t = sign_products u fst snd l / sqrt (sign_products u fst fst l) / sqrt (sign_products u snd snd l) /\ -1 <= t <= 1.
  Proof.
    intros H u l. destruct (kendall_inv H) as (HL & NX & NY & -> & _). split; [|apply tau_value_range]. apply tau_sign_products; [apply one_pos|reflexivity|unfold l; now rewrite map_fst_combine|unfold l; now rewrite map_snd_combine].
  Qed.
  Theorem c154_extremes xs ys t : kendall_tau_pval pvalue xs ys = Ok (Some t) -> (t = 1 <-> same_order xs ys) /\ (t = -1 <-> opposite_order xs ys).
  Proof.
    intro H. destruct (kendall_inv H) as (HL & NX & NY & -> & PX & PY). rewrite (@tau_one _ fst snd (fun _ _ => 1) (@one_pos _)) by auto. rewrite (@tau_minus_one _ fst snd (fun _ _ => 1) (@one_pos _)) by auto. rewrite same_order_signs, opposite_order_signs, map_fst_combine, map_snd_combine by auto. tauto.
  Qed.
  Lemma combine_swap A B (xs : list A) (ys : list B) : combine ys xs = map (fun p => (snd p, fst p)) (combine xs ys).
  Proof. revert ys. induction xs as [|a xs IH]; intros [|b ys]; cbn; auto. now rewrite IH. Qed.
  Theorem c154_symmetric xs ys : kendall_tau_pval pvalue ys xs = kendall_tau_pval pvalue xs ys.
  Proof.
    unfold kendall_tau_pval. destruct (Nat.eq_dec (length xs) (length ys)) as [HL|HL].
    - destruct (kendall_cases HL) as [C1 C2]. destruct (kendall_cases (eq_sym HL)) as [D1 D2]. destruct (Classical_Prop.classic (all_equal xs \/ all_equal ys)) as [H|H]; [rewrite C1, D1 by tauto; reflexivity|].
      destruct C2 as (-> & PX & PY); [tauto|tauto|]. destruct D2 as (-> & _); [tauto|tauto|]. cbn [bind fst]. do 2 f_equal. rewrite combine_swap. rewrite <- (@tau_swap _ fst snd (fun _ _ => 1) (@one_pos _) (combine xs ys) PX PY).
      rewrite (@tau_transfer _ _ snd fst (fun _ _ => 1) fst snd (fun _ _ => 1) (fun p => (snd p, fst p)) 1); [ring|apply one_pos|apply one_pos|now left| |exact PY|exact PX]. intros a b _ _. unfold sx, sy. cbn [fst snd]. repeat split; ring.
    - unfold kendalltau. rewrite (proj2 (Nat.eqb_neq _ _) HL), (proj2 (Nat.eqb_neq (length ys) (length xs))) by auto. reflexivity.
  Qed.
  (** new units, logarithms and other increasing transformations change nothing, a decreasing one the sign *)
  Lemma sgn_increasing f l a b : (forall u v, In u l -> In v l -> u < v -> f u < f v) -> In a l -> In b l -> sgn (f a - f b) = sgn (a - b).
  Proof.
    intros H Ha Hb. pose proof (H a b Ha Hb) as H1. pose proof (H b a Hb Ha) as H2. destruct (sgn_cases (a - b)) as [[? E]|[[? E]|[? E]]]; rewrite E.
    - destruct (sgn_cases (f a - f b)) as [[? ->]|[[? ->]|[? ->]]]; auto; exfalso; specialize (H2 ltac:(lra)); lra.
    - destruct (sgn_cases (f a - f b)) as [[? ->]|[[? ->]|[? ->]]]; auto; exfalso; specialize (H1 ltac:(lra)); lra.
    - assert (a = b) by lra. subst b. replace (f a - f a) with 0 by ring. destruct (sgn_cases 0) as [[? _]|[[? _]|[_ ->]]]; lra.
  Qed.
  Lemma sgn_decreasing f l a b : (forall u v, In u l -> In v l -> u < v -> f v < f u) -> In a l -> In b l -> sgn (f a - f b) = - sgn (a - b).
  Proof.
    intros H Ha Hb. assert (E : sgn (- f a - - f b) = sgn (a - b)) by (apply (@sgn_increasing (fun v => - f v) l a b); auto; intros u v Hu Hv L; specialize (H u v Hu Hv L); lra).
    replace (- f a - - f b) with (- (f a - f b)) in E by ring. rewrite sgn_opp in E. lra.
  Qed.
  Lemma all_equal_map f l : (forall u v, In u l -> In v l -> u <> v -> f u <> f v) -> (all_equal (map f l) <-> all_equal l).
  Proof.
    intro H. split.
    - intros (c & Hc). destruct l as [|a l]; [exists 0; intros v []|]. exists a. intros v Hv. destruct (Req_dec v a) as [|NE]; auto. exfalso. apply (H v a Hv (or_introl eq_refl) NE). rewrite (Hc (f v)), (Hc (f a)); auto; apply in_map; auto. now left.
    - intros (c & Hc). exists (f c). intros v Hv. apply in_map_iff in Hv. destruct Hv as (u & <- & Hu). now rewrite (Hc u Hu).
  Qed.
  Lemma combine_map A B A' B' (f : A -> A') (g : B -> B') xs ys : combine (map f xs) (map g ys) = map (fun p => (f (fst p), g (snd p))) (combine xs ys).
  Proof. revert ys. induction xs as [|a xs IH]; intros [|b ys]; cbn; auto. now rewrite IH. Qed.
  Theorem c154_monotone f g xs ys : (forall u v, In u xs -> In v xs -> u < v -> f u < f v) ->
    ((forall u v, In u ys -> In v ys -> u < v -> g u < g v) -> kendall_tau_pval pvalue (map f xs) (map g ys) = kendall_tau_pval pvalue xs ys) /\
    ((forall u v, In u ys -> In v ys -> u < v -> g v < g u) -> kendall_tau_pval pvalue (map f xs) (map g ys) = match kendall_tau_pval pvalue xs ys with Ok (Some t) => Ok (Some (- t)) | r => r end).
  Proof.
    intro Hf. assert (G : forall e, (e = 1 \/ e = -1) -> (forall a b, In a ys -> In b ys -> sgn (g a - g b) = e * sgn (a - b)) ->
      kendall_tau_pval pvalue (map f xs) (map g ys) = match kendall_tau_pval pvalue xs ys with Ok (Some t) => Ok (Some (e * t)) | r => r end).
    { intros e He Hg. assert (Fi : forall u v, In u xs -> In v xs -> u <> v -> f u <> f v) by (intros u v Hu Hv NE; destruct (Rtotal_order u v) as [L|[L|L]]; [pose proof (Hf u v Hu Hv L); lra|contradiction|pose proof (Hf v u Hv Hu L); lra]).
      assert (Gi : forall u v, In u ys -> In v ys -> u <> v -> g u <> g v). { intros u v Hu Hv NE E. pose proof (Hg u v Hu Hv) as P. replace (g u - g v) with 0 in P by lra. destruct (sgn_cases 0) as [[? _]|[[? _]|[_ E0]]]; try lra. rewrite E0 in P. destruct (sgn_cases (u - v)) as [[? E1]|[[? E1]|[? E1]]]; rewrite E1 in P; destruct He; subst; lra. }
      unfold kendall_tau_pval. destruct (Nat.eq_dec (length xs) (length ys)) as [HL|HL].
      - assert (HL' : length (map f xs) = length (map g ys)) by now rewrite !map_length. destruct (kendall_cases HL) as [C1 C2]. destruct (kendall_cases HL') as [D1 D2]. rewrite !all_equal_map in D1, D2 by auto.
        destruct (Classical_Prop.classic (all_equal xs \/ all_equal ys)) as [H|H]; [rewrite C1, D1 by tauto; reflexivity|]. destruct C2 as (-> & PX & PY); [tauto|tauto|]. destruct D2 as (-> & _); [tauto|tauto|]. cbn [bind fst]. do 2 f_equal.
        rewrite combine_map. apply tau_transfer; auto; try apply one_pos. intros a b Ha Hb. split; auto. unfold sx, sy. cbn [fst snd]. destruct a as [a1 a2], b as [b1 b2]. cbn [fst snd]. split; [apply sgn_increasing with (l := xs); auto; eapply in_combine_l; eauto|apply Hg; eapply in_combine_r; eauto].
      - unfold kendalltau. rewrite !map_length, (proj2 (Nat.eqb_neq _ _) HL). reflexivity. }
    split; intro Hg.
    - rewrite (G 1); auto; [destruct (kendall_tau_pval pvalue xs ys) as [[t|]|]; auto; now rewrite Rmult_1_l|]. intros a b Ha Hb. rewrite Rmult_1_l. apply sgn_increasing with (l := ys); auto.
    - rewrite (G (-1)); auto; [destruct (kendall_tau_pval pvalue xs ys) as [[t|]|]; auto; do 2 f_equal; ring|]. intros a b Ha Hb. rewrite (@sgn_decreasing g ys) by auto. ring.
  Qed.
End KENDALL.

(** ** The weighted tau *)
Definition key_above (key : nat -> R * R) (i j : nat) : Prop := fst (key j) < fst (key i) \/ (fst (key j) = fst (key i) /\ (snd (key j) < snd (key i) \/ (snd (key j) = snd (key i) /\ (j < i)%nat))).
(** ranks 0, 1, ... from the largest key down, the later position first among equals *)
Definition ranking (n : nat) (key : nat -> R * R) (r : nat -> nat) : Prop := (forall i, (i < n)%nat -> (r i < n)%nat) /\ forall i j, (i < n)%nat -> (j < n)%nat -> ((r i < r j)%nat <-> key_above key i j).
Definition harmonic (r : nat -> nat) (i j : nat) : R := 1 / (1 + INR (r i)) + 1 / (1 + INR (r j)).

Section WEIGHTED.
  Definition item_at (xs ys : list R) (i : nat) : item := (i, (nth i xs 0, nth i ys 0)).
  Lemma items_eq xs ys : length xs = length ys -> combine (seq 0 (length xs)) (combine xs ys) = map (item_at xs ys) (seq 0 (length xs)).
  Proof.
    intro HL. apply nth_ext with (d := (0%nat, (0, 0))) (d' := item_at xs ys 0); [rewrite combine_length, map_length, seq_length, combine_length; lia|]. intros i Hi. rewrite combine_length, seq_length, combine_length in Hi.
    rewrite combine_nth by (rewrite seq_length, combine_length; lia). rewrite combine_nth by auto. rewrite map_nth, seq_nth by lia. reflexivity.
  Qed.
  Lemma after_key a b : after a b = true <-> (item_x a < item_x b \/ (item_x a = item_x b /\ (item_y a < item_y b \/ (item_y a = item_y b /\ (fst a < fst b)%nat)))).
  Proof.
    unfold after. destruct (r_ltb_spec (item_x a) (item_x b)); [tauto|]. destruct (r_ltb_spec (item_x b) (item_x a)); [split; [discriminate|intros [?|[? _]]; lra]|].
    destruct (r_ltb_spec (item_y a) (item_y b)); [split; auto; intros _; right; split; [lra|tauto]|]. destruct (r_ltb_spec (item_y b) (item_y a)); [split; [discriminate|intros [?|[? [?|[? _]]]]; lra]|].
    rewrite Nat.ltb_lt. split; [intro; right; split; [lra|right; split; [lra|auto]]|intros [?|[? [?|[? ?]]]]; auto; lra].
  Qed.
  Lemma after_trans a b c : after a b = true -> after b c = true -> after a c = true.
  Proof.
    rewrite !after_key. intros [H|(H & [H0|(H0 & H1)])] [K|(K & [K0|(K0 & K1)])]; try (left; lra); right; (split; [lra|]); try (left; lra); right; (split; [lra|lia]).
  Qed.
  Lemma after_irrefl a : after a a = false.
  Proof. destruct (after a a) eqn:E; auto. apply after_key in E. destruct E as [?|[_ [?|[_ ?]]]]; [lra|lra|lia]. Qed.
  Lemma after_total a b : fst a <> fst b -> after a b = true \/ after b a = true.
  Proof.
    intro H. rewrite !after_key. destruct (Rtotal_order (item_x a) (item_x b)) as [?|[?|?]]; [tauto| |tauto]. destruct (Rtotal_order (item_y a) (item_y b)) as [?|[?|?]].
    - left. right. tauto.
    - destruct (Nat.lt_gt_cases (fst a) (fst b)) as [G _]. destruct (G H); [left|right]; right; (split; [lra|right; split; [lra|auto]]).
    - right. right. split; [lra|tauto].
  Qed.
  Lemma filter_map_swap A B (f : B -> bool) (g : A -> B) l : filter f (map g l) = map g (filter (fun x => f (g x)) l).
  Proof. induction l as [|a l IH]; auto. cbn. rewrite IH. destruct (f (g a)); reflexivity. Qed.
  Lemma filter_le A (p q : A -> bool) l : (forall a, In a l -> p a = true -> q a = true) -> (length (filter p l) <= length (filter q l))%nat.
  Proof.
    induction l as [|a l IH]; intro H; cbn; auto. specialize (IH (fun b Hb => H b (or_intror Hb))). pose proof (H a (or_introl eq_refl)). destruct (p a), (q a); cbn; try lia; try now discriminate H0.
  Qed.
  Lemma filter_lt A (p q : A -> bool) l c : (forall a, In a l -> p a = true -> q a = true) -> In c l -> p c = false -> q c = true -> (length (filter p l) < length (filter q l))%nat.
  Proof.
    induction l as [|a l IH]; intros H Hc Pc Qc; [destruct Hc|]. cbn. pose proof (H a (or_introl eq_refl)) as Ha. assert (H' : forall b, In b l -> p b = true -> q b = true) by (intros; apply H; auto; now right). destruct Hc as [->|Hc].
    - rewrite Pc, Qc. cbn. pose proof (filter_le H'). lia.
    - specialize (IH H' Hc Pc Qc). destruct (p a), (q a); cbn; try lia; try now discriminate Ha.
  Qed.
  Lemma rank_after l a b : In a l -> In b l -> after b a = true -> (rank l a < rank l b)%nat.
  Proof. intros Ha Hb H. apply filter_lt with (c := a); auto; [|apply after_irrefl]. intros c _ Hc. eapply after_trans; eauto. Qed.
  Lemma rank_order l a b : In a l -> In b l -> (fst a = fst b -> a = b) -> ((rank l a < rank l b)%nat <-> after b a = true).
  Proof.
    intros Ha Hb HI. split; [|now apply rank_after]. intro H. destruct (Nat.eq_dec (fst a) (fst b)) as [E|NE]; [rewrite (HI E) in H; lia|]. destruct (after_total NE) as [K|K]; auto. pose proof (rank_after Hb Ha K). lia.
  Qed.
  Lemma rank_bound l a : In a l -> (rank l a < length l)%nat.
  Proof. intro H. assert (E : length (filter (fun _ => true) l) = length l) by (clear; induction l; cbn; auto). unfold rank. rewrite <- E. apply filter_lt with (c := a); auto. apply after_irrefl. Qed.
  Definition rank_at xs ys (i : nat) : nat := rank (map (item_at xs ys) (seq 0 (length xs))) (item_at xs ys i).
  Lemma ranking_ranks xs ys : ranking (length xs) (fun i => (nth i xs 0, nth i ys 0)) (rank_at xs ys).
  Proof.
    assert (IN : forall i, (i < length xs)%nat -> In (item_at xs ys i) (map (item_at xs ys) (seq 0 (length xs)))) by (intros i Hi; apply in_map, in_seq; lia).
    split.
    - intros i Hi. unfold rank_at. rewrite <- (seq_length (length xs) 0) at 2. rewrite <- (map_length (item_at xs ys)). apply rank_bound. auto.
    - intros i j Hi Hj. unfold rank_at. rewrite rank_order by (auto; cbn; congruence). rewrite after_key. unfold key_above, item_at, item_x, item_y. cbn [fst snd]. tauto.
  Qed.
  Lemma harmonic_pos r i j : 0 < harmonic r i j.
  Proof. unfold harmonic. pose proof (pos_INR (r i)). pose proof (pos_INR (r j)). apply Rplus_lt_0_compat; apply Rdiv_lt_0_compat; lra. Qed.
  Lemma item_weight_pos l a b : 0 < item_weight l a b.
  Proof. unfold item_weight. pose proof (pos_INR (rank l a)). pose proof (pos_INR (rank l b)). apply Rplus_lt_0_compat; apply Rdiv_lt_0_compat; lra. Qed.
  Lemma constant_spec l : constant l = true <-> all_equal l.
  Proof.
    destruct l as [|a l]; cbn; [split; auto; intros _; exists 0; intros v []|]. rewrite forallb_forall. split.
    - intro H. exists a. intros v [<-|Hv]; auto. specialize (H v Hv). destruct (r_eqb_spec a v); congruence.
    - intros (c & H) v Hv. destruct (r_eqb_spec a v) as [|NE]; auto. exfalso. apply NE. rewrite (H a (or_introl eq_refl)), (H v (or_intror Hv)). reflexivity.
  Qed.
  Lemma map_nth_seq (xs : list R) : map (fun i => nth i xs 0) (seq 0 (length xs)) = xs.
  Proof. apply nth_ext with (d := nth 0 xs 0) (d' := 0); [now rewrite map_length, seq_length|]. intros i Hi. rewrite map_length, seq_length in Hi. rewrite (map_nth (fun i => nth i xs 0)), seq_nth by lia. reflexivity. Qed.
  Notation ax xs := (fun i => nth i xs 0).
  Lemma ranked_cases xs ys : length xs = length ys -> (all_equal xs \/ all_equal ys -> ranked_tau xs ys = None) /\
    (~ all_equal xs -> ~ all_equal ys -> let l := seq 0 (length xs) in let w := harmonic (rank_at xs ys) in ranked_tau xs ys = Some (tau_value (ax xs) (ax ys) w l) /\ 0 < X (ax xs) w l /\ 0 < Y (ax ys) w l).
  Proof.
    intro HL. unfold ranked_tau. rewrite items_eq by auto. pose proof (constant_spec xs) as CX. pose proof (constant_spec ys) as CY. split.
    - intros [H|H]; [rewrite (proj2 CX H)|rewrite (proj2 CY H), orb_true_r]; reflexivity.
    - intros NX NY. set (l := seq 0 (length xs)). set (w := harmonic (rank_at xs ys)). assert (EX : constant xs = false) by (destruct (constant xs); auto; exfalso; apply NX; now apply CX). assert (EY : constant ys = false) by (destruct (constant ys); auto; exfalso; apply NY; now apply CY). rewrite EX, EY. cbn [orb].
      assert (PX : 0 < X (ax xs) w l) by (apply (@X_pos _ (ax xs) (ax ys) w (@harmonic_pos _)), not_equal_pair; unfold l; now rewrite map_nth_seq).
      assert (PY : 0 < Y (ax ys) w l) by (apply (@X_pos _ (ax ys) (ax ys) w (@harmonic_pos _)), not_equal_pair; unfold l; rewrite HL; now rewrite map_nth_seq).
      split; auto. f_equal. rewrite <- (Rmult_1_l (tau_value (ax xs) (ax ys) w l)). apply tau_transfer; [apply harmonic_pos|apply item_weight_pos|now left| |exact PX|exact PY].
      intros i j _ _. split; [reflexivity|]. unfold sx, sy, item_at, item_x, item_y. cbn [fst snd]. split; ring.
  Qed.
  Lemma weighted_cases xs ys : length xs = length ys -> (all_equal xs \/ all_equal ys -> weightedtau xs ys = Ok (None, None)) /\
    (~ all_equal xs -> ~ all_equal ys -> exists a b, ranked_tau xs ys = Some a /\ ranked_tau ys xs = Some b /\ weightedtau xs ys = Ok (Some ((a + b) / 2), None)).
  Proof.
    intro HL. destruct (ranked_cases HL) as [C1 C2]. destruct (ranked_cases (eq_sym HL)) as [D1 D2]. unfold weightedtau. rewrite (proj2 (Nat.eqb_eq _ _) HL). cbn [negb]. split.
    - intro H. now rewrite (C1 H).
    - intros NX NY. destruct (C2 NX NY) as (-> & _). destruct (D2 NY NX) as (-> & _). eauto.
  Qed.
  Theorem c154_weighted_undefined xs ys : (weighted_tau_pval xs ys = Err ValueError <-> length xs <> length ys) /\ (forall e, weighted_tau_pval xs ys = Err e -> e = ValueError) /\
    (length xs = length ys -> (weighted_tau_pval xs ys = Ok None <-> all_equal xs \/ all_equal ys)).
  Proof.
    unfold weighted_tau_pval. destruct (Nat.eq_dec (length xs) (length ys)) as [HL|HL].
    - destruct (weighted_cases HL) as [C1 C2]. destruct (Classical_Prop.classic (all_equal xs \/ all_equal ys)) as [H|H].
      + rewrite (C1 H). cbn [bind fst]. split; [split; [discriminate|lia]|]. split; [discriminate|]. split; auto.
      + destruct C2 as (a & b & _ & _ & ->); [tauto|tauto|]. cbn [bind fst]. split; [split; [discriminate|lia]|]. split; [discriminate|]. intros _. split; [discriminate|tauto].
    - unfold weightedtau. rewrite (proj2 (Nat.eqb_neq _ _) HL). cbn [negb bind]. split; [tauto|]. split; [now intros e [= <-]|lia].
  Qed.
  Lemma weighted_inv xs ys t : weighted_tau_pval xs ys = Ok (Some t) -> length xs = length ys /\ ~ all_equal xs /\ ~ all_equal ys /\ exists a b, ranked_tau xs ys = Some a /\ ranked_tau ys xs = Some b /\ t = (a + b) / 2.
  Proof.
    intro H. destruct (c154_weighted_undefined xs ys) as (HE & _ & HN). destruct (Nat.eq_dec (length xs) (length ys)) as [HL|HL]; [|apply HE in HL; congruence]. specialize (HN HL).
    assert (NX : ~ all_equal xs) by (intro C; rewrite (proj2 HN (or_introl C)) in H; discriminate). assert (NY : ~ all_equal ys) by (intro C; rewrite (proj2 HN (or_intror C)) in H; discriminate).
    destruct (weighted_cases HL) as [_ C2]. destruct (C2 NX NY) as (a & b & E1 & E2 & E). unfold weighted_tau_pval in H. rewrite E in H. cbn [bind fst] in H. injection H as <-. repeat (split; auto). exists a, b. auto.
  Qed.
  (** the mean of two weighted correlations of signs: with the pairs weighted by their ranks by (x, y), and by their ranks by (y, x) *)
  Theorem c154_weighted_value xs ys t : weighted_tau_pval xs ys = Ok (Some t) -> let n := length xs in let l := seq 0 n in
    exists r s, ranking n (fun i => (nth i xs 0, nth i ys 0)) r /\ ranking n (fun i => (nth i ys 0, nth i xs 0)) s /\
      t = (sign_products (harmonic r) (ax xs) (ax ys) l / sqrt (sign_products (harmonic r) (ax xs) (ax xs) l) / sqrt (sign_products (harmonic r) (ax ys) (ax ys) l)
           + sign_products (harmonic s) (ax xs) (ax ys) l / sqrt (sign_products (harmonic s) (ax xs) (ax xs) l) / sqrt (sign_products (harmonic s) (ax ys) (ax ys) l)) / 2 /\ -1 <= t <= 1.
  Proof.
    intros H n l. destruct (weighted_inv H) as (HL & NX & NY & a & b & Ea & Eb & ->). destruct (ranked_cases HL) as [_ C2]. destruct (C2 NX NY) as (Ea' & PX & PY). rewrite Ea' in Ea. injection Ea as <-.
    destruct (ranked_cases (eq_sym HL)) as [_ D2]. destruct (D2 NY NX) as (Eb' & QX & QY). rewrite Eb' in Eb. injection Eb as <-. rewrite <- HL in *. fold n l in PX, PY, QX, QY |- *.
    exists (rank_at xs ys), (rank_at ys xs). split; [apply ranking_ranks|]. split; [unfold n; rewrite HL; apply ranking_ranks|].
    assert (SY : forall r i j, harmonic r i j = harmonic r j i) by (intros; unfold harmonic; ring). assert (MX : map (ax xs) l = xs) by apply map_nth_seq. assert (MY : map (ax ys) l = ys) by (unfold l, n; rewrite HL; apply map_nth_seq).
    rewrite (@tau_swap _ (ax xs) (ax ys) (harmonic (rank_at ys xs)) (@harmonic_pos _) l QY QX).
    pose proof (@tau_value_range _ (ax xs) (ax ys) (harmonic (rank_at xs ys)) l). pose proof (@tau_value_range _ (ax xs) (ax ys) (harmonic (rank_at ys xs)) l).
    split; [|lra]. do 2 f_equal; apply tau_sign_products; rewrite ?MX, ?MY; auto; apply harmonic_pos.
  Qed.
  Theorem c154_weighted_extremes xs ys t : weighted_tau_pval xs ys = Ok (Some t) -> (t = 1 <-> same_order xs ys) /\ (t = -1 <-> opposite_order xs ys).
  Proof.
    intros H. destruct (weighted_inv H) as (HL & NX & NY & a & b & Ea & Eb & ->). destruct (ranked_cases HL) as [_ C2]. destruct (C2 NX NY) as (Ea' & PX & PY). rewrite Ea' in Ea. injection Ea as <-.
    destruct (ranked_cases (eq_sym HL)) as [_ D2]. destruct (D2 NY NX) as (Eb' & QX & QY). rewrite Eb' in Eb. injection Eb as <-. rewrite <- HL in *. set (n := length xs) in *. set (l := seq 0 n) in *.
    assert (MX : map (ax xs) l = xs) by apply map_nth_seq. assert (MY : map (ax ys) l = ys) by (unfold l; rewrite HL; apply map_nth_seq).
    rewrite (@tau_swap _ (ax xs) (ax ys) (harmonic (rank_at ys xs)) (@harmonic_pos _) l QY QX).
    pose proof (@tau_value_range _ (ax xs) (ax ys) (harmonic (rank_at xs ys)) l) as R1. pose proof (@tau_value_range _ (ax xs) (ax ys) (harmonic (rank_at ys xs)) l) as R2.
    pose proof (@tau_one _ (ax xs) (ax ys) _ (@harmonic_pos (rank_at xs ys)) l PX PY) as T1. pose proof (@tau_one _ (ax xs) (ax ys) _ (@harmonic_pos (rank_at ys xs)) l QY QX) as T2.
    pose proof (@tau_minus_one _ (ax xs) (ax ys) _ (@harmonic_pos (rank_at xs ys)) l PX PY) as U1. pose proof (@tau_minus_one _ (ax xs) (ax ys) _ (@harmonic_pos (rank_at ys xs)) l QY QX) as U2.
    rewrite same_order_signs, MX, MY in T1, T2. rewrite opposite_order_signs, MX, MY in U1, U2.
    set (p := tau_value (ax xs) (ax ys) (harmonic (rank_at xs ys)) l) in *. set (q := tau_value (ax xs) (ax ys) (harmonic (rank_at ys xs)) l) in *. split; split; intro G.
    - apply T1. lra.
    - assert (p = 1) by now apply T1. assert (q = 1) by now apply T2. lra.
    - apply U1. lra.
    - assert (p = -1) by now apply U1. assert (q = -1) by now apply U2. lra.
  Qed.
  Theorem c154_weighted_symmetric xs ys : weighted_tau_pval ys xs = weighted_tau_pval xs ys.
  Proof.
    unfold weighted_tau_pval, weightedtau. rewrite (Nat.eqb_sym (length ys)). destruct (length xs =? length ys)%nat; auto. cbn [negb]. destruct (ranked_tau ys xs) as [a|], (ranked_tau xs ys) as [b|]; auto. cbn. do 2 f_equal. lra.
  Qed.
  Theorem c154_weighted_monotone f g xs ys : (forall u v, In u xs -> In v xs -> u < v -> f u < f v) -> (forall u v, In u ys -> In v ys -> u < v -> g u < g v) ->
    weighted_tau_pval (map f xs) (map g ys) = weighted_tau_pval xs ys.
  Proof.
    assert (INJ : forall f l, (forall u v, In u l -> In v l -> u < v -> f u < f v) -> forall u v, In u l -> In v l -> u <> v -> f u <> f v) by (intros h l Hh u v Hu Hv NE; destruct (Rtotal_order u v) as [L|[L|L]]; [pose proof (Hh u v Hu Hv L); lra|contradiction|pose proof (Hh v u Hv Hu L); lra]).
    assert (G : forall f g xs ys, length xs = length ys -> (forall u v, In u xs -> In v xs -> u < v -> f u < f v) -> (forall u v, In u ys -> In v ys -> u < v -> g u < g v) -> ranked_tau (map f xs) (map g ys) = ranked_tau xs ys).
    { clear f g xs ys. intros f g xs ys HL Hf Hg. assert (HL' : length (map f xs) = length (map g ys)) by now rewrite !map_length. destruct (ranked_cases HL) as [C1 C2]. destruct (ranked_cases HL') as [D1 D2]. rewrite !all_equal_map in D1, D2 by (eapply INJ; eauto).
      destruct (Classical_Prop.classic (all_equal xs \/ all_equal ys)) as [H|H]; [rewrite C1, D1 by tauto; reflexivity|]. destruct C2 as (-> & PX & PY); [tauto|tauto|]. destruct D2 as (-> & _ & _); [tauto|tauto|]. f_equal. rewrite map_length.
      assert (SX : forall i j, (i < length xs)%nat -> (j < length xs)%nat -> sgn (nth i (map f xs) 0 - nth j (map f xs) 0) = sgn (nth i xs 0 - nth j xs 0)).
      { intros i j Hi Hj. rewrite !(nth_indep (map f xs) 0 (f 0)) by (rewrite map_length; auto). rewrite !map_nth. apply sgn_increasing with (l := xs); auto using nth_In. }
      assert (SYy : forall i j, (i < length xs)%nat -> (j < length xs)%nat -> sgn (nth i (map g ys) 0 - nth j (map g ys) 0) = sgn (nth i ys 0 - nth j ys 0)).
      { intros i j Hi Hj. rewrite HL in *. rewrite !(nth_indep (map g ys) 0 (g 0)) by (rewrite map_length; auto). rewrite !map_nth. apply sgn_increasing with (l := ys); auto using nth_In. }
      assert (RK : forall i, (i < length xs)%nat -> rank_at (map f xs) (map g ys) i = rank_at xs ys i).
      { intros i Hi. unfold rank_at, rank. rewrite map_length. rewrite !filter_map_swap, !map_length. f_equal. apply filter_ext_in. intros j Hj. apply in_seq in Hj. cbn in Hj.
        assert (Q : forall b c : bool, (b = true <-> c = true) -> b = c) by (intros [] []; intuition congruence). apply Q. rewrite !after_key. unfold item_at, item_x, item_y. cbn [fst snd].
        pose proof (SX i j Hi ltac:(lia)) as P1. pose proof (SYy i j Hi ltac:(lia)) as P2.
        destruct (sgn_cases (nth i xs 0 - nth j xs 0)) as [[? E]|[[? E]|[? E]]]; destruct (sgn_cases (nth i (map f xs) 0 - nth j (map f xs) 0)) as [[? E']|[[? E']|[? E']]]; rewrite E, E' in P1; try lra;
        destruct (sgn_cases (nth i ys 0 - nth j ys 0)) as [[? F]|[[? F]|[? F]]]; destruct (sgn_cases (nth i (map g ys) 0 - nth j (map g ys) 0)) as [[? F']|[[? F']|[? F']]]; rewrite F, F' in P2; try lra;
        (split; intros [|[? [|[? ?]]]]; first [left; lra|right; split; [lra|]; first [left; lra|right; split; [lra|assumption]]|exfalso; lra]). }
      rewrite <- (Rmult_1_l (tau_value (ax xs) (ax ys) _ _)). rewrite <- (map_id (seq 0 (length xs))) at 1. apply tau_transfer; auto; try apply harmonic_pos. intros i j Hi Hj. apply in_seq in Hi, Hj. cbn in Hi, Hj.
      split; [unfold harmonic; rewrite !RK by lia; reflexivity|]. unfold sx, sy. rewrite SX, SYy by lia. split; ring. }
    intros Hf Hg. unfold weighted_tau_pval, weightedtau. rewrite !map_length. destruct (Nat.eqb_spec (length xs) (length ys)) as [HL|]; auto. cbn [negb]. rewrite (G f g xs ys), (G g f ys xs) by auto. reflexivity.
  Qed.
End WEIGHTED.

(** ** C108 Rank correlation p-values *)
(** REFUTED: the functions named p-value return the statistic.  Opposite rankings of any size give -1, which is no probability, and samples in the same order,
    the strongest association there is, give 1 *)
Lemma defined_kendall pvalue xs ys : length xs = length ys -> ~ all_equal xs -> ~ all_equal ys -> exists t, kendall_tau_pval pvalue xs ys = Ok (Some t).
Proof. intros HL NX NY. destruct (@kendall_cases pvalue xs ys HL) as [_ C]. destruct (C NX NY) as (E & _). unfold kendall_tau_pval. rewrite E. eexists. reflexivity. Qed.
Lemma defined_weighted xs ys : length xs = length ys -> ~ all_equal xs -> ~ all_equal ys -> exists t, weighted_tau_pval xs ys = Ok (Some t).
Proof. intros HL NX NY. destruct (@weighted_cases xs ys HL) as [_ C]. destruct (C NX NY) as (a & b & _ & _ & E). unfold weighted_tau_pval. rewrite E. eexists. reflexivity. Qed.
Theorem c108_statistic_refuted pvalue xs ys : length xs = length ys -> ~ all_equal xs -> ~ all_equal ys ->
  (opposite_order xs ys -> kendall_tau_pval pvalue xs ys = Ok (Some (-1))) /\ (same_order xs ys -> kendall_tau_pval pvalue xs ys = Ok (Some 1)).
Proof. intros HL NX NY. destruct (@defined_kendall pvalue xs ys HL NX NY) as (t & E). destruct (c154_extremes E) as [E1 E2]. rewrite E. split; intro H; do 2 f_equal; [now apply E2|now apply E1]. Qed.
Theorem c108_weighted_refuted xs ys : length xs = length ys -> ~ all_equal xs -> ~ all_equal ys ->
  (opposite_order xs ys -> weighted_tau_pval xs ys = Ok (Some (-1))) /\ (same_order xs ys -> weighted_tau_pval xs ys = Ok (Some 1)).
Proof. intros HL NX NY. destruct (@defined_weighted xs ys HL NX NY) as (t & E). destruct (c154_weighted_extremes E) as [E1 E2]. rewrite E. split; intro H; do 2 f_equal; [now apply E2|now apply E1]. Qed.
(** there is no p-value of the weighted tau to return *)
Theorem c108_no_weighted_pvalue xs ys r : weightedtau xs ys = Ok r -> snd r = None.
Proof. unfold weightedtau. destruct (negb _); [discriminate|]. destruct (ranked_tau xs ys), (ranked_tau ys xs); intros [= <-]; reflexivity. Qed.
Theorem c108_not_probability pvalue : exists xs ys t, kendall_tau_pval pvalue xs ys = Ok (Some t) /\ weighted_tau_pval xs ys = Ok (Some t) /\ ~ (0 <= t <= 1).
Proof.
  exists [1; 2; 3], [3; 2; 1], (-1). assert (NE : forall a b c : R, a <> b -> ~ all_equal [a; b; c]) by (intros a b c H (v & Hv); apply H; rewrite (Hv a), (Hv b); cbn; auto).
  assert (O : opposite_order [1; 2; 3] [3; 2; 1]). { intros i j a b c d. destruct i as [|[|[|i]]], j as [|[|[|j]]]; cbn; intros; repeat match goal with H : Some _ = Some _ |- _ => injection H as <- end; try (destruct i; discriminate); try (destruct j; discriminate); lra. }
  split; [apply c108_statistic_refuted; auto; apply NE; lra|]. split; [apply c108_weighted_refuted; auto; apply NE; lra|lra].
Qed.

(** ** C155 The Jarque-Bera test *)
Definition power_sum (k : nat) (l : list R) : R := rsum (map (fun v => (v - rmean l) ^ k) l).
Lemma moment_sum k l : central_moment k l = power_sum k l / INR (length l).
Proof. unfold central_moment, rmean at 1. now rewrite map_length. Qed.
Lemma moment_zero l : l <> [] -> (central_moment 2 l = 0 <-> all_equal l).
Proof.
  intro NE. assert (P : 0 < INR (length l)) by (apply lt_0_INR; destruct l; [congruence|cbn; lia]). rewrite moment_sum. split.
  - intro H. assert (Z : power_sum 2 l = 0) by (replace (power_sum 2 l) with (power_sum 2 l / INR (length l) * INR (length l)) by (field; lra); rewrite H; ring). exists (rmean l). intros v Hv.
    assert (Q : (v - rmean l) ^ 2 = 0). { apply (@rsum_zero_all _) with (x := (v - rmean l) ^ 2) in Z; auto; [intros y Hy; apply in_map_iff in Hy; destruct Hy as (u & <- & _); apply pow2_ge_0|apply in_map_iff; eauto]. } assert (v - rmean l = 0) by (apply Rsqr_0_uniq; unfold Rsqr; lra). lra.
  - intros (c & Hc). assert (M : rmean l = c). { unfold rmean. replace (rsum l) with (INR (length l) * c); [field; lra|]. rewrite <- rsum_map_const, <- (map_id l) at 1. rewrite map_map. replace (rsum l) with (rsum (map (fun x => x) l)) by now rewrite map_id. apply rsum_map_ext. intros v Hv. symmetry. auto. }
    replace (power_sum 2 l) with 0; [unfold Rdiv; ring|]. symmetry. apply rsum_map_0. intros v Hv. rewrite M, (Hc v Hv). ring.
Qed.
Lemma moment_nonneg l : 0 <= central_moment 2 l.
Proof. rewrite moment_sum. destruct l as [|a l]; [cbn; unfold Rdiv; rewrite Rmult_0_l; lra|]. apply Rmult_le_pos; [apply rsum_nonneg; intros y Hy; apply in_map_iff in Hy; destruct Hy as (u & <- & _); apply pow2_ge_0|left; apply Rinv_0_lt_compat, lt_0_INR; cbn; lia]. Qed.
Theorem c155_undefined l : (jarque_bera_pval l = Err ValueError <-> (length l < 2)%nat) /\ (forall e, jarque_bera_pval l = Err e -> e = ValueError) /\ ((2 <= length l)%nat -> (jarque_bera_pval l = Ok None <-> all_equal l)).
Proof.
  unfold jarque_bera_pval, jarque_bera. destruct (Nat.ltb_spec (length l) 2) as [H|H]; cbn [bind].
  - split; [tauto|]. split; [now intros e [= <-]|lia].
  - assert (NE : l <> []) by (intros ->; cbn in H; lia). pose proof (moment_zero NE) as MZ. destruct (Req_EM_T (central_moment 2 l) 0) as [Z|Z]; cbn [bind snd].
    + split; [split; [discriminate|lia]|]. split; [discriminate|]. tauto.
    + split; [split; [discriminate|lia]|]. split; [discriminate|]. intros _. split; [discriminate|tauto].
Qed.
(** a probability, the larger the closer the third and fourth moments are to the normal ones *)
Theorem c155_pvalue l p : jarque_bera_pval l = Ok (Some p) -> let n := INR (length l) in let m := fun k => power_sum k l / n in
  0 < m 2%nat /\ p = exp (- (n * ((m 3%nat) ^ 2 / (m 2%nat) ^ 3 + (m 4%nat / (m 2%nat) ^ 2 - 3) ^ 2 / 4) / 12)) /\ 0 < p <= 1 /\ (p = 1 <-> power_sum 3 l = 0 /\ m 4%nat = 3 * (m 2%nat) ^ 2).
Proof.
  intros HP n m. revert HP. unfold jarque_bera_pval, jarque_bera. destruct (Nat.ltb_spec (length l) 2) as [H|H]; [discriminate|]. destruct (Req_EM_T (central_moment 2 l) 0) as [Z|Z]; [discriminate|]. cbn [bind snd]. intro HP. apply (f_equal (fun r => match r with Ok (Some p) => p | _ => 0 end)) in HP. cbv beta iota in HP. subst p.
  assert (Pn : 0 < n) by (apply lt_0_INR; lia). fold n. assert (E : forall k, central_moment k l = m k) by (intro; apply moment_sum). pose proof (moment_nonneg l) as N. rewrite !E in *. set (v := m 2%nat) in *. assert (Pv : 0 < v) by lra. split; auto.
  pose proof (sqrt_lt_R0 v Pv) as Ps. pose proof (sqrt_sqrt v ltac:(lra)) as Ss. set (s := m 3%nat) in *. set (k := m 4%nat) in *.
  assert (SK : (s / (v * sqrt v)) ^ 2 = s ^ 2 / v ^ 3) by (replace (v ^ 3) with (v * v * (sqrt v * sqrt v)) by (rewrite Ss; ring); field; lra).
  assert (EQ : - (n / 6 * ((s / (v * sqrt v)) ^ 2 + 1 / 4 * (k / (v * v) - 3) ^ 2)) / 2 = - (n * (s ^ 2 / v ^ 3 + (k / v ^ 2 - 3) ^ 2 / 4) / 12)) by (rewrite SK; field; lra).
  rewrite EQ. split; auto. set (J := s ^ 2 / v ^ 3 + (k / v ^ 2 - 3) ^ 2 / 4). assert (P3 : 0 < / v ^ 3) by (apply Rinv_0_lt_compat; now apply pow_lt).
  assert (J0 : 0 <= J) by (unfold J, Rdiv; pose proof (pow2_ge_0 s); pose proof (pow2_ge_0 (k * / v ^ 2 - 3)); nra). assert (A : - (n * J / 12) <= 0) by nra. split.
  - split; [apply exp_pos|]. rewrite <- exp_0. destruct A as [A|A]; [left; now apply exp_increasing|right; now rewrite A].
  - assert (ES : power_sum 3 l = n * s) by (unfold s, m; field; lra). split.
    + intro HE. assert (JZ : J = 0). { rewrite <- exp_0 in HE. apply exp_inv in HE. nra. } pose proof (pow2_ge_0 s). pose proof (pow2_ge_0 (k / v ^ 2 - 3)). unfold J in JZ.
      assert (S0 : s ^ 2 / v ^ 3 = 0) by (unfold Rdiv in *; nra). assert (S1 : s ^ 2 = 0) by (replace (s ^ 2) with (s ^ 2 / v ^ 3 * v ^ 3) by (field; lra); rewrite S0; ring). assert (s = 0) by (apply Rsqr_0_uniq; unfold Rsqr; lra). split; [rewrite ES, H2; ring|].
      assert (K0 : k / v ^ 2 - 3 = 0) by nra. replace k with (k / v ^ 2 * v ^ 2) by (field; lra). replace (k / v ^ 2) with 3 by lra. ring.
    + intros [H1 H2]. assert (s = 0) by nra. rewrite <- exp_0. f_equal. unfold J. rewrite H0, H2. field. lra.
Qed.
(** neither units nor level matter *)
Theorem c155_affine a b l : a <> 0 -> jarque_bera_pval (map (fun v => a * v + b) l) = jarque_bera_pval l.
Proof.
  intro Ha. unfold jarque_bera_pval, jarque_bera. rewrite map_length. destruct (Nat.ltb_spec (length l) 2) as [H|H]; auto. assert (Pn : 0 < INR (length l)) by (apply lt_0_INR; lia).
  assert (M : rmean (map (fun v => a * v + b) l) = a * rmean l + b). { unfold rmean. rewrite map_length, rsum_map_add, rsum_map_scale, rsum_map_const. rewrite map_id || idtac. replace (rsum (map (fun x => x) l)) with (rsum l) by now rewrite map_id. field. lra. }
  assert (E : forall k, central_moment k (map (fun v => a * v + b) l) = a ^ k * central_moment k l).
  { intro k. rewrite !moment_sum, map_length. unfold power_sum. rewrite map_map, M. transitivity (rsum (map (fun v => a ^ k * (v - rmean l) ^ k) l) / INR (length l)); [f_equal; apply rsum_map_ext; intros v _; rewrite <- Rpow_mult_distr; f_equal; ring|]. rewrite rsum_map_scale. field. lra. }
  rewrite !E. pose proof (moment_nonneg l) as N. set (v := central_moment 2 l) in *. assert (A2 : 0 < a ^ 2) by (pose proof (pow2_ge_0 a); destruct H0; auto; exfalso; apply Ha; nra).
  destruct (Req_EM_T (a ^ 2 * v) 0) as [Z|Z], (Req_EM_T v 0) as [Z'|Z']; auto; try (exfalso; nra). assert (Pv : 0 < v) by lra. cbn [bind snd]. do 2 f_equal. f_equal.
  pose proof (sqrt_lt_R0 v Pv) as Ps. pose proof (sqrt_sqrt v ltac:(lra)) as Ss. assert (SQ : sqrt (a ^ 2 * v) = Rabs a * sqrt v) by (rewrite sqrt_mult by lra; f_equal; rewrite <- sqrt_Rsqr_abs; f_equal; unfold Rsqr; ring).
  rewrite SQ. assert (AA : Rabs a * Rabs a = a ^ 2) by (rewrite <- Rabs_mult, Rabs_right; [ring|apply Rle_ge; nra]). assert (Na : Rabs a <> 0) by now apply Rabs_no_R0.
  set (s := central_moment 3 l). set (k := central_moment 4 l).
  assert (SK : (a ^ 3 * s / (a ^ 2 * v * (Rabs a * sqrt v))) ^ 2 = (s / (v * sqrt v)) ^ 2).
  { replace ((a ^ 3 * s / (a ^ 2 * v * (Rabs a * sqrt v))) ^ 2) with (a ^ 6 * s ^ 2 / (a ^ 4 * v ^ 2 * (Rabs a * Rabs a) * (sqrt v * sqrt v))) by (field; repeat split; lra). rewrite AA. field. repeat split; lra. }
  rewrite SK. field. repeat split; lra.
Qed.
Example c155_ex : jarque_bera_pval [1; 3] = Ok (Some (exp (- (1 / 6)))).
Proof.
  destruct (jarque_bera_pval [1; 3]) as [[p|]|e] eqn:E.
  - destruct (c155_pvalue E) as (_ & -> & _). do 3 f_equal. unfold power_sum, rmean. cbn. field.
  - exfalso. destruct (c155_undefined [1; 3]) as (_ & _ & H). apply H in E; [|cbn; lia]. destruct E as (c & Hc). pose proof (Hc 1 (or_introl eq_refl)). pose proof (Hc 3 (or_intror (or_introl eq_refl))). lra.
  - exfalso. destruct (c155_undefined [1; 3]) as (H & HV & _). rewrite E in H, HV. rewrite (HV e eq_refl) in H. apply H in E || (pose proof (proj1 H eq_refl) as C; cbn in C; lia).
Qed.
(** one tie in each sample: five of six pairs ordered in each, four of them alike *)
Example c154_ex pvalue : kendall_tau_pval pvalue [1; 2; 2; 3] [1; 2; 3; 3] = Ok (Some (4 / 5)).
Proof.
  assert (NE : forall a b l, a <> b -> In a l -> In b l -> ~ all_equal l) by (intros a b l H Ha Hb (v & Hv); apply H; rewrite (Hv a), (Hv b); auto).
  destruct (@defined_kendall pvalue [1; 2; 2; 3] [1; 2; 3; 3] eq_refl) as (t & E); [apply (NE 1 2); cbn; auto; lra|apply (NE 1 2); cbn; auto; lra|]. rewrite E. do 2 f_equal. destruct (c154_value E) as [-> _].
  assert (P : forall r, 0 < r -> sgn r = 1) by (intros r Hr; destruct (sgn_cases r) as [[? ->]|[[? _]|[? _]]]; lra). assert (N : forall r, r < 0 -> sgn r = -1) by (intros r Hr; destruct (sgn_cases r) as [[? _]|[[? ->]|[? _]]]; lra). assert (Z : forall r, r = 0 -> sgn r = 0) by (intros r Hr; destruct (sgn_cases r) as [[? _]|[[? _]|[? ->]]]; lra).
  unfold sign_products. cbn [combine map rsum fst snd].
  rewrite !(Z (1 - 1)), !(Z (2 - 2)), !(Z (3 - 3)), !(N (1 - 2)), !(N (1 - 3)), !(N (2 - 3)), !(P (2 - 1)), !(P (3 - 1)), !(P (3 - 2)) by lra.
  match goal with |- ?s / sqrt ?a / sqrt ?b = _ => replace s with 8 by ring; replace a with 10 by ring; replace b with 10 by ring end. pose proof (sqrt_sqrt 10 ltac:(lra)) as Q. pose proof (sqrt_lt_R0 10 ltac:(lra)).
  replace (8 / sqrt 10 / sqrt 10) with (8 / (sqrt 10 * sqrt 10)) by (field; lra). rewrite Q. field.
Qed.
Print Assumptions c154_undefined.
Print Assumptions c154_value.
Print Assumptions c154_extremes.
Print Assumptions c154_symmetric.
Print Assumptions c154_monotone.
Print Assumptions c154_weighted_undefined.
Print Assumptions c154_weighted_value.
Print Assumptions c154_weighted_extremes.
Print Assumptions c154_weighted_symmetric.
Print Assumptions c154_weighted_monotone.
Print Assumptions c108_statistic_refuted.
Print Assumptions c108_weighted_refuted.
Print Assumptions c108_no_weighted_pvalue.
Print Assumptions c108_not_probability.
Print Assumptions c155_undefined.
Print Assumptions c155_pvalue.
Print Assumptions c155_affine.
