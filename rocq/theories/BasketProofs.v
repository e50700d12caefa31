(** Lemmas about basket.py. *)
From Verif Require Import Py BasketModel.
Set Implicit Arguments.
Unset Strict Implicit.
Open Scope Qc_scope.

Lemma map2_length A B C (f : A -> B -> C) xs ys : length xs = length ys -> length (map2 f xs ys) = length xs.
Proof. intro H. unfold map2. rewrite map_length, combine_length. lia. Qed.
Lemma map2_nil_r A B C (f : A -> B -> C) xs : map2 f xs [] = [].
Proof. now destruct xs. Qed.
Lemma map2_nth A B C (f : A -> B -> C) xs ys i a b :
  nth_error xs i = Some a -> nth_error ys i = Some b -> nth_error (map2 f xs ys) i = Some (f a b).
Proof.
  revert ys i. induction xs as [|x xs IH]; intros [|y ys] [|i] H1 H2; try discriminate; cbn in *.
  - congruence.
  - now apply IH.
Qed.
Lemma map2_nth_inv A B C (f : A -> B -> C) xs ys i c :
  nth_error (map2 f xs ys) i = Some c -> exists a b, nth_error xs i = Some a /\ nth_error ys i = Some b /\ c = f a b.
Proof.
  revert ys i. induction xs as [|x xs IH]; intros [|y ys] [|i] H; try discriminate; cbn in *.
  - inversion H. eauto.
  - now apply IH.
Qed.
Lemma map2_cons A B C (f : A -> B -> C) x xs y ys : map2 f (x :: xs) (y :: ys) = f x y :: map2 f xs ys.
Proof. reflexivity. Qed.

(** ** Rolls *)
Definition opens_contract (cs : list Z) (i : nat) : Prop :=
  exists c, nth_error cs i = Some c /\ ~ In c (firstn i cs).

Lemma raw_gaps_length seen p bars : length (raw_gaps seen p bars) = length bars.
Proof. revert seen p. induction bars as [|[b c] bars IH]; intros; cbn; auto. Qed.

Lemma raw_gaps_nth seen p b0 c0 bars i b c b' :
  p = b0 CClose -> nth_error (map fst ((b0, c0) :: bars)) i = Some b' -> nth_error bars i = Some (b, c) ->
  exists g, nth_error (raw_gaps seen p bars) i = Some g /\
    ((In c seen \/ In c (firstn i (map snd bars))) -> g = 0) /\
    (~ In c seen -> ~ In c (firstn i (map snd bars)) -> g = b COpen - b' CClose).
Proof.
  revert seen p b0 c0 i. induction bars as [|[b1 c1] bars IH]; intros seen p b0 c0 i -> Hb' Hb; [destruct i; discriminate|].
  destruct i as [|i]; cbn [nth_error map fst] in *.
  - inversion Hb; inversion Hb'; subst. cbn [raw_gaps nth_error]. eexists. split; [reflexivity|]. cbn [firstn In].
    destruct (existsb (Z.eqb c) seen) eqn:E.
    + split; auto. intros N _. exfalso. apply N. apply existsb_exists in E. destruct E as [x [Hx Ex]].
      apply Z.eqb_eq in Ex. now subst.
    + split; auto. intros [H|[]]. assert (existsb (Z.eqb c) seen = true); [|congruence].
      apply existsb_exists. exists c. split; auto. apply Z.eqb_refl.
  - destruct (IH (c1 :: seen) (b1 CClose) b1 c1 i eq_refl Hb' Hb) as [g [H1 [H2 H3]]].
    exists g. split; [exact H1|]. cbn [map snd firstn In]. cbn [In] in H2, H3. split.
    + intros H. apply H2. tauto.
    + intros A B. apply H3; tauto.
Qed.

Lemma cumsum_from_diff acc l i x y g :
  nth_error (cumsum_from acc l) i = Some x -> nth_error (cumsum_from acc l) (S i) = Some y ->
  nth_error l (S i) = Some g -> y - x = g.
Proof.
  revert acc i. induction l as [|a l IH]; intros acc i; [destruct i; discriminate|].
  destruct i as [|i]; cbn [cumsum_from nth_error].
  - destruct l as [|b l]; [discriminate|]. cbn. intros [= <-] [= <-] [= <-]. ring.
  - intros. eapply IH; eauto.
Qed.

Section Rolls.
  Variables (bars : list (row * Z)).
  Let cs := map snd bars.

  (** gaps before the final shift *)
  Definition base_gaps : list Qc :=
    match bars with [] => [] | (b, c) :: rest => cumsum (0 :: raw_gaps [c] (b CClose) rest) end.

  Lemma base_gaps_length : length base_gaps = length bars.
  Proof. unfold base_gaps. destruct bars as [|[b c] l]; auto. rewrite cumsum_length. cbn. now rewrite raw_gaps_length. Qed.

  Lemma base_gaps_first g : nth_error base_gaps 0 = Some g -> g = 0.
  Proof. unfold base_gaps. destruct bars as [|[b c] l]; [discriminate|]. cbn. intros [= <-]. ring. Qed.

  Lemma base_gaps_step i b c b' c' x y :
    nth_error bars i = Some (b', c') -> nth_error bars (S i) = Some (b, c) ->
    nth_error base_gaps i = Some x -> nth_error base_gaps (S i) = Some y ->
    (opens_contract cs (S i) -> y - x = b COpen - b' CClose) /\ (~ opens_contract cs (S i) -> y - x = 0).
  Proof.
    unfold base_gaps, cs, opens_contract. clear cs. destruct bars as [|[b0 c0] l]; [destruct i; discriminate|].
    intros Hb' Hb Hx Hy. cbn [nth_error] in Hb.
    assert (Hb'' : nth_error (map fst ((b0, c0) :: l)) i = Some b').
    { rewrite nth_error_map, Hb'. reflexivity. }
    destruct (@raw_gaps_nth [c0] (b0 CClose) b0 c0 l i b c b' eq_refl Hb'' Hb) as [g [G1 [G2 G3]]].
    assert (D : y - x = g) by (eapply cumsum_from_diff; eauto).
    assert (Ec : nth_error (map snd ((b0, c0) :: l)) (S i) = Some c).
    { cbn [map nth_error]. now rewrite nth_error_map, Hb. }
    cbn [map snd firstn In] in *. split.
    - intros [c1 [H1 H2]]. rewrite H1 in Ec. inversion Ec; subst c1. rewrite D. apply G3; intro; apply H2; tauto.
    - intro N. rewrite D. apply G2. destruct (in_dec Z.eq_dec c (c0 :: firstn i (map snd l))) as [I|I].
      + destruct I; [left; left; auto|right; auto].
      + exfalso. apply N. exists c. auto.
  Qed.

  Lemma roll_gaps_shift match_end gaps : compute_roll_gaps bars match_end = Ok gaps ->
    exists k, gaps = map (fun x => x - k) base_gaps /\
      (match_end = false -> k = 0) /\
      (match_end = true -> nth_error base_gaps (length bars - 2) = Some k /\ (2 <= length bars)%nat).
  Proof.
    unfold compute_roll_gaps. fold base_gaps. pose proof base_gaps_length as L. destruct match_end.
    - destruct (rev base_gaps) as [|x [|g r]] eqn:E; try discriminate. intros [= <-]. exists g.
      split; auto. split; [discriminate|]. intros _.
      assert (E' : base_gaps = (rev r ++ [g]) ++ [x]).
      { rewrite <- (rev_involutive base_gaps), E. reflexivity. }
      assert (L2 : length bars = S (S (length r))). { rewrite <- L, E', !app_length, rev_length. cbn. lia. }
      split; [|lia]. rewrite E', L2. rewrite nth_error_app1 by (rewrite app_length, rev_length; cbn; lia).
      rewrite nth_error_app2 by (rewrite rev_length; lia). rewrite rev_length.
      replace (S (S (length r)) - 2 - length r)%nat with 0%nat by lia. reflexivity.
    - intros [= <-]. exists 0. split.
      + rewrite map_ext with (g := fun x => x); [now rewrite map_id|]. intro; ring.
      + split; auto. discriminate.
  Qed.

  Lemma roll_gaps_ok match_end : (2 <= length bars)%nat -> exists gaps, compute_roll_gaps bars match_end = Ok gaps.
  Proof.
    intro H. unfold compute_roll_gaps. fold base_gaps. pose proof base_gaps_length as L.
    destruct match_end; [|eauto]. destruct (rev base_gaps) as [|x [|g r]] eqn:E; eauto.
    - apply (f_equal (@length _)) in E. rewrite rev_length in E. cbn in E. lia.
    - apply (f_equal (@length _)) in E. rewrite rev_length in E. cbn in E. lia.
  Qed.
End Rolls.

(** how often a column is listed; by the decidable equality of columns *)
Definition column_dec (a b : column) : {a = b} + {a <> b}.
Proof. decide equality. Defined.
Definition occurrences (cols : list column) (c : column) : nat := count_occ column_dec cols c.

Lemma adjust_row_value cols gap b c : adjust_row cols gap b c = b c - qn (occurrences cols c) * gap.
Proof.
  unfold adjust_row, occurrences. revert b. induction cols as [|d cols IH]; intro b; cbn [fold_left count_occ].
  - rewrite qn_0. ring.
  - rewrite IH. destruct (column_dec d c) as [->|N].
    + replace (column_eqb c c) with true by now destruct c. rewrite qn_S. ring.
    + replace (column_eqb c d) with false by (destruct c, d; try reflexivity; congruence). ring.
Qed.

Lemma adjusted_nth bars cols me adj i b c :
  adjusted_bars bars cols me = Ok adj -> nth_error bars i = Some (b, c) ->
  exists g gaps a, compute_roll_gaps bars me = Ok gaps /\ nth_error gaps i = Some g /\ nth_error adj i = Some a /\
    forall col, a col = b col - qn (occurrences cols col) * g.
Proof.
  unfold adjusted_bars. destruct (compute_roll_gaps bars me) as [gaps|e] eqn:E; [|discriminate]. cbn [bind]. intros [= <-] Hb.
  destruct (roll_gaps_shift E) as [k [Eg _]].
  assert (L : (i < length gaps)%nat).
  { rewrite Eg, map_length, base_gaps_length. apply nth_error_Some. congruence. }
  apply nth_error_Some in L. destruct (nth_error gaps i) as [g|] eqn:G; [|congruence].
  exists g, gaps, (adjust_row cols g b). split; auto. split; auto. split.
  - apply map2_nth; auto. now rewrite nth_error_map, Hb.
  - intro. apply adjust_row_value.
Qed.

(** consecutive adjusted rows *)
Lemma adjusted_step bars cols me adj i b c b' c' a a' col :
  adjusted_bars bars cols me = Ok adj ->
  nth_error bars i = Some (b', c') -> nth_error bars (S i) = Some (b, c) ->
  nth_error adj i = Some a' -> nth_error adj (S i) = Some a ->
  occurrences cols col = 1%nat ->
  (opens_contract (map snd bars) (S i) -> a col - a' col = (b col - b' col) - (b COpen - b' CClose)) /\
  (~ opens_contract (map snd bars) (S i) -> a col - a' col = b col - b' col).
Proof.
  intros HA Hb' Hb Ha' Ha Hc.
  destruct (adjusted_nth HA Hb') as [g' [gaps [x' [E [G' [X' V']]]]]].
  destruct (adjusted_nth HA Hb) as [g [gaps2 [x [E2 [G [X V]]]]]].
  assert (gaps2 = gaps) by congruence. subst gaps2.
  rewrite Ha in X. rewrite Ha' in X'. inversion X; inversion X'; subst x x'.
  rewrite V, V', Hc. rewrite qn_S, qn_0.
  destruct (roll_gaps_shift E) as [k [Eg _]]. subst gaps. rewrite nth_error_map in G, G'.
  destruct (nth_error (base_gaps bars) i) as [y'|] eqn:Y'; [|discriminate].
  destruct (nth_error (base_gaps bars) (S i)) as [y|] eqn:Y; [|discriminate].
  cbn in G, G'. inversion G; inversion G'; subst g g'.
  destruct (base_gaps_step Hb' Hb Y' Y) as [S1 S2]. split; intro H; [specialize (S1 H)|specialize (S2 H)]; qlra.
Qed.
