(** Python, numpy and pandas primitives shared by the models. *)
From Verif Require Export Num.
Set Implicit Arguments.
Open Scope Qc_scope.

(** ** Exceptions as values *)
Inductive exn :=
| IndexError | KeyError | ValueError | ZeroDivisionError | TypeError
| AssertionError | NotImplementedError | RuntimeError.

Inductive res (A : Type) :=
| Ok (a : A)
| Err (e : exn).
Arguments Err {A} e.

Definition bind {A B} (r : res A) (f : A -> res B) : res B :=
  match r with Ok a => f a | Err e => Err e end.
Notation "'do' x <- r ; b" := (bind r (fun x => b)) (at level 200, x pattern, r at level 100, b at level 200).

Fixpoint mapM {A B} (f : A -> res B) (l : list A) : res (list B) :=
  match l with
  | [] => Ok []
  | a :: l' => do b <- f a; do bs <- mapM f l'; Ok (b :: bs)
  end.

Definition is_ok {A} (r : res A) : bool := match r with Ok _ => true | Err _ => false end.

(** [a[i]] for a non-negative index *)
Definition get {A} (l : list A) (i : nat) : res A :=
  match nth_error l i with Some a => Ok a | None => Err IndexError end.

(** [a[i:j]] for non-negative indices *)
Definition slice {A} (l : list A) (i j : nat) : list A := firstn (j - i) (skipn i l).

(** [a[-1]] *)
Definition py_last {A} (l : list A) : res A :=
  match rev l with a :: _ => Ok a | [] => Err IndexError end.

(** ** numpy / pandas *)

(** [Series.cumsum] *)
Fixpoint cumsum_from (acc : Qc) (l : list Qc) : list Qc :=
  match l with [] => [] | x :: l' => (acc + x) :: cumsum_from (acc + x) l' end.
Definition cumsum (l : list Qc) : list Qc := cumsum_from 0 l.

(** [index.searchsorted(v, side='left')] on a sorted index: the number of leading entries < v *)
Fixpoint searchsorted_left (l : list Z) (v : Z) : nat :=
  match l with
  | [] => 0
  | x :: l' => if (x <? v)%Z then S (searchsorted_left l' v) else 0
  end.
(** [index.searchsorted(v, side='right')] on a sorted index: the number of leading entries <= v *)
Fixpoint searchsorted_right (l : list Z) (v : Z) : nat :=
  match l with
  | [] => 0
  | x :: l' => if (x <=? v)%Z then S (searchsorted_right l' v) else 0
  end.

(** [df.groupby(key)] with sorted keys: groups in increasing key order, rows of a group in
    original order, no empty group. *)
Fixpoint group_insert {A} (k : Z) (r : A) (g : list (Z * list A)) : list (Z * list A) :=
  match g with
  | [] => [(k, [r])]
  | (k', rs) :: g' =>
      if (k <? k')%Z then (k, [r]) :: g
      else if (k =? k')%Z then (k', rs ++ [r]) :: g'
      else (k', rs) :: group_insert k r g'
  end.
Definition groupby {A} (rows : list (Z * A)) : list (Z * list A) :=
  fold_left (fun g kr => group_insert (fst kr) (snd kr) g) rows [].

(** ** Lemmas *)

Lemma nth_error_ext A (l1 l2 : list A) : (forall i, nth_error l1 i = nth_error l2 i) -> l1 = l2.
Proof.
  revert l2. induction l1 as [|a l1 IH]; intros [|b l2] H; auto.
  - specialize (H 0%nat). discriminate.
  - specialize (H 0%nat). discriminate.
  - f_equal.
    + specialize (H 0%nat). now inversion H.
    + apply IH. intro i. apply (H (S i)).
Qed.
Lemma nth_error_firstn_lt A (l : list A) n i : (i < n)%nat -> nth_error (firstn n l) i = nth_error l i.
Proof.
  revert n i. induction l as [|a l IH]; intros [|n] [|i] H; cbn; try lia; auto.
  apply IH. lia.
Qed.
Lemma nth_error_skipn A (l : list A) n i : nth_error (skipn n l) i = nth_error l (n + i).
Proof.
  revert l. induction n as [|n IH]; intros l; [reflexivity|].
  destruct l as [|a l]; cbn; [now destruct i|apply IH].
Qed.
Lemma nth_error_slice A (l : list A) i j k :
  (k < j - i)%nat -> nth_error (slice l i j) k = nth_error l (i + k).
Proof. intro H. unfold slice. rewrite nth_error_firstn_lt by auto. apply nth_error_skipn. Qed.

Lemma mapM_ok A B (f : A -> res B) l bs : mapM f l = Ok bs -> Forall2 (fun a b => f a = Ok b) l bs.
Proof.
  revert bs. induction l as [|a l IH]; intros bs H; cbn in H.
  - inversion H. constructor.
  - destruct (f a) as [b|e] eqn:E; cbn in H; [|discriminate].
    destruct (mapM f l) as [bs'|e] eqn:E2; cbn in H; [|discriminate].
    inversion H; subst. constructor; auto.
Qed.
Lemma mapM_all_ok A B (f : A -> res B) l :
  (forall a, In a l -> exists b, f a = Ok b) -> exists bs, mapM f l = Ok bs.
Proof.
  induction l as [|a l IH]; intro H; cbn; eauto.
  destruct (H a (or_introl eq_refl)) as [b ->]. cbn.
  destruct IH as [bs ->]; [intros; apply H; now right|]. cbn. eauto.
Qed.
Lemma mapM_err A B (f : A -> res B) l a e : In a l -> f a = Err e -> exists e', mapM f l = Err e'.
Proof.
  induction l as [|x l IH]; intros Hin Hf; [destruct Hin|]. cbn.
  destruct (f x) as [b|e1] eqn:E; cbn; eauto.
  destruct Hin as [->|Hin]; [congruence|]. destruct (IH Hin Hf) as [e' ->]. cbn. eauto.
Qed.
Lemma mapM_map A B C (f : B -> res C) (g : A -> B) l : mapM f (map g l) = mapM (fun a => f (g a)) l.
Proof. induction l; cbn; auto. now rewrite IHl. Qed.
Lemma mapM_app A B (f : A -> res B) l1 l2 :
  mapM f (l1 ++ l2) = do b1 <- mapM f l1; do b2 <- mapM f l2; Ok (b1 ++ b2).
Proof.
  induction l1 as [|a l1 IH]; cbn.
  - destruct (mapM f l2); reflexivity.
  - destruct (f a); cbn; auto. rewrite IH. destruct (mapM f l1); cbn; auto. destruct (mapM f l2); auto.
Qed.
Lemma mapM_ext_in A B (f g : A -> res B) l : (forall a, In a l -> f a = g a) -> mapM f l = mapM g l.
Proof.
  induction l as [|a l IH]; cbn; intro H; auto. rewrite (H a) by now left. rewrite IH; auto.
Qed.

Lemma get_ok A (l : list A) i a : get l i = Ok a <-> nth_error l i = Some a.
Proof. unfold get. destruct (nth_error l i); split; intro H; inversion H; auto. Qed.

Lemma cumsum_from_length acc l : length (cumsum_from acc l) = length l.
Proof. revert acc. induction l; cbn; auto. Qed.
Lemma cumsum_length l : length (cumsum l) = length l.
Proof. apply cumsum_from_length. Qed.

Lemma cumsum_from_nth acc l i :
  (i < length l)%nat -> nth_error (cumsum_from acc l) i = Some (acc + qsum (firstn (S i) l)).
Proof.
  revert acc i. induction l as [|x l IH]; cbn [length]; intros acc i H; [lia|].
  destruct i as [|i]; cbn [cumsum_from nth_error firstn qsum].
  - f_equal. ring.
  - rewrite IH by lia. cbn [firstn qsum]. f_equal. ring.
Qed.
Lemma cumsum_nth l i :
  (i < length l)%nat -> nth_error (cumsum l) i = Some (qsum (firstn (S i) l)).
Proof. intro H. unfold cumsum. rewrite cumsum_from_nth by auto. f_equal. ring. Qed.

Lemma searchsorted_left_le l v : (searchsorted_left l v <= length l)%nat.
Proof. induction l; cbn; auto. destruct (a <? v)%Z; lia. Qed.
Lemma searchsorted_right_le l v : (searchsorted_right l v <= length l)%nat.
Proof. induction l; cbn; auto. destruct (a <=? v)%Z; lia. Qed.

(** Sorted lists of times *)
Notation zsorted := (StronglySorted Z.le).
Notation zssorted := (StronglySorted Z.lt).

Lemma zssorted_sorted l : zssorted l -> zsorted l.
Proof.
  induction 1; constructor; auto. eapply Forall_impl; [|eassumption]. cbn. intros; lia.
Qed.

Lemma sorted_nth_le l i j x y :
  zsorted l -> nth_error l i = Some x -> nth_error l j = Some y -> (i <= j)%nat -> (x <= y)%Z.
Proof.
  intro H. revert i j. induction H as [|a l Hs IH Hf]; intros i j Hi Hj Hij.
  - destruct i; discriminate.
  - destruct i as [|i], j as [|j]; cbn in *; try lia.
    + inversion Hi; inversion Hj; subst. lia.
    + inversion Hi; subst. apply nth_error_In in Hj. rewrite Forall_forall in Hf. now apply Hf.
    + apply (IH i j); auto; lia.
Qed.

Lemma ssorted_nth_lt l i j x y :
  zssorted l -> nth_error l i = Some x -> nth_error l j = Some y -> (i < j)%nat -> (x < y)%Z.
Proof.
  intro H. revert i j. induction H as [|a l Hs IH Hf]; intros i j Hi Hj Hij.
  - destruct i; discriminate.
  - destruct i as [|i], j as [|j]; cbn in *; try lia.
    + inversion Hi; subst. apply nth_error_In in Hj. rewrite Forall_forall in Hf. now apply Hf.
    + apply (IH i j); auto; lia.
Qed.

Lemma searchsorted_left_spec l v i x :
  zsorted l -> nth_error l i = Some x -> ((i < searchsorted_left l v)%nat <-> (x < v)%Z).
Proof.
  intro H. revert i x. induction H as [|a l Hs IH Hf]; intros i x Hi; [destruct i; discriminate|].
  cbn [searchsorted_left]. destruct (Z.ltb_spec a v) as [L|L].
  - destruct i as [|i]; cbn in Hi.
    + inversion Hi; subst. lia.
    + rewrite <- (IH i x Hi). lia.
  - split; intro C; [lia|]. exfalso.
    assert (a <= x)%Z; [|lia].
    destruct i as [|i]; cbn in Hi; [inversion Hi; lia|].
    rewrite Forall_forall in Hf. apply Hf. now apply nth_error_In in Hi.
Qed.

Lemma searchsorted_right_spec l v i x :
  zsorted l -> nth_error l i = Some x -> ((i < searchsorted_right l v)%nat <-> (x <= v)%Z).
Proof.
  intro H. revert i x. induction H as [|a l Hs IH Hf]; intros i x Hi; [destruct i; discriminate|].
  cbn [searchsorted_right]. destruct (Z.leb_spec a v) as [L|L].
  - destruct i as [|i]; cbn in Hi.
    + inversion Hi; subst. lia.
    + rewrite <- (IH i x Hi). lia.
  - split; intro C; [lia|]. exfalso.
    assert (a <= x)%Z; [|lia].
    destruct i as [|i]; cbn in Hi; [inversion Hi; lia|].
    rewrite Forall_forall in Hf. apply Hf. now apply nth_error_In in Hi.
Qed.

(** *** groupby *)
Section Groupby.
  Context {A : Type}.
  Implicit Types (g : list (Z * list A)) (rows : list (Z * A)).

  Definition rows_of (k : Z) rows : list A :=
    map snd (filter (fun kr => (fst kr =? k)%Z) rows).
  Definition lookup_group (k : Z) g : list A :=
    match find (fun kr => (fst kr =? k)%Z) g with Some (_, rs) => rs | None => [] end.

  Lemma rows_of_app k r1 r2 : rows_of k (r1 ++ r2) = rows_of k r1 ++ rows_of k r2.
  Proof. unfold rows_of. now rewrite filter_app, map_app. Qed.

  Lemma group_insert_keys k r g :
    zssorted (map fst g) ->
    zssorted (map fst (group_insert k r g)) /\
    (forall k', In k' (map fst (group_insert k r g)) <-> k' = k \/ In k' (map fst g)).
  Proof.
    induction g as [|[k' rs] g IH]; intro H.
    - cbn. split; [repeat constructor|]. intros; split; intuition auto.
    - cbn [group_insert]. inversion H as [|? ? Hs Hf]; subst.
      destruct (Z.ltb_spec k k') as [L|L].
      + cbn. split.
        * constructor; auto. constructor; auto.
          eapply Forall_impl; [|exact Hf]. cbn. intros; lia.
        * intros; intuition auto.
      + destruct (Z.eqb_spec k k') as [E|E].
        * subst. cbn. split; auto. intros; intuition auto.
        * destruct (IH Hs) as [I1 I2]. cbn. split.
          -- constructor; auto. apply Forall_forall. intros x Hx. apply I2 in Hx.
             rewrite Forall_forall in Hf. destruct Hx as [->|Hx]; [lia|now apply Hf].
          -- intros x. rewrite I2. intuition auto.
  Qed.

  Lemma group_insert_in k r g k' rs' :
    zssorted (map fst g) ->
    (In (k', rs') (group_insert k r g) <->
     (k' <> k /\ In (k', rs') g) \/ (k' = k /\ exists rs, rs' = rs ++ [r] /\
        (In (k, rs) g \/ (rs = [] /\ ~ In k (map fst g))))).
  Proof.
    induction g as [|[k0 rs0] g IH]; intro H.
    - cbn. split.
      + intros [E|[]]. inversion E; subst. right. split; auto. exists []. auto.
      + intros [[_ []]|[-> [rs [-> [[]|[-> _]]]]]]. auto.
    - cbn [group_insert]. inversion H as [|? ? Hs Hf]; subst. cbn [fst] in Hf.
      assert (HF : forall x rs, In (x, rs) g -> (k0 < x)%Z).
      { intros x rs Hx. rewrite Forall_forall in Hf. apply Hf.
        change x with (fst (x, rs)). now apply in_map. }
      destruct (Z.ltb_spec k k0) as [L|L].
      + split.
        * intros [E|Hin].
          -- inversion E; subst. right. split; auto. exists []. split; auto. right. split; auto.
             cbn. intros [E2|Hk]; [lia|]. apply in_map_iff in Hk. destruct Hk as [[a b] [<- Hb]].
             apply HF in Hb. cbn in L. lia.
          -- left. split; auto. destruct Hin as [E|Hin]; [inversion E; lia|]. apply HF in Hin. lia.
        * intros [[N Hin]|[-> [rs [-> [Hin|[-> _]]]]]].
          -- right. exact Hin.
          -- exfalso. destruct Hin as [E|Hin]; [inversion E; lia|]. apply HF in Hin. lia.
          -- now left.
      + destruct (Z.eqb_spec k k0) as [E|E].
        * subst k0. split.
          -- intros [E2|Hin].
             ++ inversion E2; subst. right. split; auto. exists rs0. split; auto. left. now left.
             ++ left. split; [apply HF in Hin; lia|]. now right.
          -- intros [[N [E2|Hin]]|[-> [rs [-> [[E2|Hin]|[-> Hn]]]]]].
             ++ inversion E2; congruence.
             ++ now right.
             ++ inversion E2; subst. now left.
             ++ apply HF in Hin. lia.
             ++ exfalso. apply Hn. now left.
        * specialize (IH Hs). cbn [In]. rewrite IH. split.
          -- intros [E2|[[N Hin]|[-> [rs [-> [Hin|[-> Hn]]]]]]].
             ++ inversion E2; subst. left. split; auto.
             ++ left. auto.
             ++ right. split; auto. exists rs. auto.
             ++ right. split; auto. exists []. split; auto. right. split; auto.
                cbn. intros [?|?]; [congruence|contradiction].
          -- intros [[N [E2|Hin]]|[-> [rs [-> [[E2|Hin]|[-> Hn]]]]]].
             ++ auto.
             ++ right. left. auto.
             ++ inversion E2; congruence.
             ++ right. right. split; auto. exists rs. auto.
             ++ right. right. split; auto. exists []. split; auto. right. split; auto.
                intro C. apply Hn. now right.
  Qed.

  Lemma groupby_snoc rows kr :
    groupby (rows ++ [kr]) = group_insert (fst kr) (snd kr) (groupby rows).
  Proof. unfold groupby. now rewrite fold_left_app. Qed.

  Lemma groupby_spec rows :
    zssorted (map fst (groupby rows)) /\
    (forall k, In k (map fst (groupby rows)) <-> In k (map fst rows)) /\
    (forall k rs, In (k, rs) (groupby rows) -> rs = rows_of k rows).
  Proof.
    induction rows as [|[k r] rows [IH1 [IH2 IH3]]] using rev_ind.
    - cbn. repeat split; auto; try constructor; intros; contradiction.
    - rewrite groupby_snoc. cbn [fst snd].
      destruct (group_insert_keys k r _ IH1) as [K1 K2]. split; [exact K1|]. split.
      + intro k'. rewrite K2, IH2, map_app, in_app_iff. cbn. intuition auto.
      + intros k' rs Hin. rewrite rows_of_app.
        apply group_insert_in in Hin; auto.
        destruct Hin as [[N Hin]|[-> [rs0 [-> Hin]]]].
        * apply IH3 in Hin. subst rs. unfold rows_of at 3. cbn.
          destruct (Z.eqb_spec k k'); [congruence|]. cbn. now rewrite app_nil_r.
        * unfold rows_of at 2. cbn. rewrite Z.eqb_refl. cbn. f_equal.
          destruct Hin as [Hin|[-> Hn]]; [now apply IH3|].
          unfold rows_of. symmetry.
          assert (F : filter (fun kr => (fst kr =? k)%Z) rows = []).
          { destruct (filter (fun kr => (fst kr =? k)%Z) rows) as [|[k1 r1] ?] eqn:E; auto.
            exfalso. apply Hn. apply IH2.
            assert (I : In (k1, r1) (filter (fun kr => (fst kr =? k)%Z) rows)) by (rewrite E; now left).
            apply filter_In in I. destruct I as [I1 I2]. cbn in I2. apply Z.eqb_eq in I2. subst.
            change k with (fst (k, r1)). now apply in_map. }
          now rewrite F.
  Qed.

  Lemma groupby_nonempty rows k rs : In (k, rs) (groupby rows) -> rs <> [].
  Proof.
    intro H. pose proof (groupby_spec rows) as [_ [K R]].
    assert (Hk : In k (map fst rows)).
    { apply K. change k with (fst (k, rs)). now apply in_map. }
    apply R in H. subst. apply in_map_iff in Hk. destruct Hk as [[k' r] [E Hin]]. cbn in E. subst.
    intro C. assert (In r (rows_of k rows)); [|rewrite C in H; destruct H].
    unfold rows_of. apply in_map_iff. exists (k, r). split; auto. apply filter_In. split; auto.
    cbn. apply Z.eqb_refl.
  Qed.

  (** With non-decreasing keys the groups are consecutive runs: concatenating them gives the rows. *)
  Lemma group_insert_max k r g :
    (forall k', In k' (map fst g) -> (k' <= k)%Z) ->
    zssorted (map fst g) ->
    concat (map snd (group_insert k r g)) = concat (map snd g) ++ [r].
  Proof.
    induction g as [|[k' rs] g IH]; intros H S; auto.
    cbn [group_insert]. inversion S as [|? ? Hs Hf]; subst.
    assert (k' <= k)%Z by (apply H; now left).
    destruct (Z.ltb_spec k k') as [L|L]; [lia|].
    destruct (Z.eqb_spec k k') as [E|E].
    - subst k'. destruct g as [|[k2 rs2] g'].
      + cbn. now rewrite app_nil_r, app_nil_r.
      + exfalso. assert (k2 <= k)%Z by (apply H; right; now left).
        rewrite Forall_forall in Hf. specialize (Hf k2 (or_introl eq_refl)). cbn in Hf. lia.
    - cbn. rewrite IH; auto.
      + now rewrite app_assoc.
      + intros; apply H; now right.
  Qed.

  Lemma zsorted_app_inv l1 l2 : zsorted (l1 ++ l2) -> zsorted l1 /\ zsorted l2 /\ (forall x y, In x l1 -> In y l2 -> (x <= y)%Z).
  Proof.
    induction l1 as [|a l1 IH]; cbn; intro H.
    - repeat split; auto; try constructor; intros; contradiction.
    - inversion H as [|? ? Hs Hf]; subst. destruct (IH Hs) as [I1 [I2 I3]].
      rewrite Forall_forall in Hf. repeat split; auto.
      + constructor; auto. apply Forall_forall. intros; apply Hf. apply in_app_iff; auto.
      + intros x y [->|Hx] Hy; [apply Hf; apply in_app_iff; auto|auto].
  Qed.

  Lemma groupby_concat rows :
    zsorted (map fst rows) -> concat (map snd (groupby rows)) = map snd rows.
  Proof.
    induction rows as [|[k r] rows IH] using rev_ind; intro H; auto.
    rewrite map_app in H. apply zsorted_app_inv in H. destruct H as [H1 [_ H2]].
    rewrite groupby_snoc, map_app. cbn [fst snd map].
    pose proof (groupby_spec rows) as [K1 [K2 _]].
    rewrite group_insert_max; auto.
    - now rewrite IH.
    - intros k' Hk'. apply K2 in Hk'. apply H2; auto. now left.
  Qed.
End Groupby.

Section GroupbyMore.
  Context {A : Type}.
  Implicit Types (rows : list (Z * A)).

  Definition keyed (g : list (Z * list A)) : list (Z * A) :=
    concat (map (fun kr => map (pair (fst kr)) (snd kr)) g).

  Lemma group_insert_keyed k r (g : list (Z * list A)) :
    (forall k', In k' (map fst g) -> (k' <= k)%Z) ->
    zssorted (map fst g) ->
    keyed (group_insert k r g) = keyed g ++ [(k, r)].
  Proof.
    unfold keyed. induction g as [|[k' rs] g IH]; intros H S; auto.
    cbn [group_insert]. inversion S as [|? ? Hs Hf]; subst.
    assert (k' <= k)%Z by (apply H; now left).
    destruct (Z.ltb_spec k k') as [L|L]; [lia|].
    destruct (Z.eqb_spec k k') as [E|E].
    - subst k'. destruct g as [|[k2 rs2] g'].
      + cbn. rewrite map_app. cbn. now rewrite !app_nil_r.
      + exfalso. assert (k2 <= k)%Z by (apply H; right; now left).
        rewrite Forall_forall in Hf. specialize (Hf k2 (or_introl eq_refl)). cbn in Hf. lia.
    - cbn. rewrite IH; auto.
      + now rewrite app_assoc.
      + intros; apply H; now right.
  Qed.

  Lemma groupby_keyed rows : zsorted (map fst rows) -> keyed (groupby rows) = rows.
  Proof.
    induction rows as [|[k r] rows IH] using rev_ind; intro H; auto.
    rewrite map_app in H. apply zsorted_app_inv in H. destruct H as [H1 [_ H2]].
    rewrite groupby_snoc. cbn [fst snd].
    pose proof (groupby_spec rows) as [K1 [K2 _]].
    rewrite group_insert_keyed; auto.
    - now rewrite IH.
    - intros k' Hk'. apply K2 in Hk'. apply H2; auto. now left.
  Qed.

  Lemma keyed_snd (g : list (Z * list A)) : map snd (keyed g) = concat (map snd g).
  Proof.
    unfold keyed. induction g as [|[k rs] g IH]; cbn; auto.
    rewrite map_app, IH, map_map. cbn. now rewrite map_id.
  Qed.

  (** rows are preserved as a multiset, whatever the keys *)
  Lemma group_insert_perm k r (g : list (Z * list A)) :
    Permutation (concat (map snd (group_insert k r g))) (r :: concat (map snd g)).
  Proof.
    induction g as [|[k' rs] g IH]; cbn; auto.
    destruct (k <? k')%Z; cbn; auto.
    destruct (k =? k')%Z; cbn.
    - rewrite <- app_assoc. cbn. symmetry. apply Permutation_middle.
    - rewrite IH. symmetry. apply Permutation_middle.
  Qed.
  Lemma groupby_perm rows : Permutation (concat (map snd (groupby rows))) (map snd rows).
  Proof.
    induction rows as [|[k r] rows IH] using rev_ind; auto.
    rewrite groupby_snoc, map_app. cbn. rewrite group_insert_perm, IH.
    apply Permutation_cons_append.
  Qed.
End GroupbyMore.

Lemma combine_fst A B (l1 : list A) (l2 : list B) : length l1 = length l2 -> map fst (combine l1 l2) = l1.
Proof. revert l2. induction l1; intros [|b l2] H; cbn in *; try discriminate; auto. f_equal. auto. Qed.
Lemma combine_snd A B (l1 : list A) (l2 : list B) : length l1 = length l2 -> map snd (combine l1 l2) = l2.
Proof. revert l2. induction l1; intros [|b l2] H; cbn in *; try discriminate; auto. f_equal. auto. Qed.

Lemma Forall2_length A B (R : A -> B -> Prop) l1 l2 : Forall2 R l1 l2 -> length l1 = length l2.
Proof. induction 1; cbn; auto. Qed.
Lemma Forall2_map_r A B C (R : A -> C -> Prop) (f : B -> C) l1 l2 :
  Forall2 (fun a b => R a (f b)) l1 l2 -> Forall2 R l1 (map f l2).
Proof. induction 1; cbn; auto. Qed.
Lemma Forall2_nth A B (R : A -> B -> Prop) l1 l2 i a : Forall2 R l1 l2 -> nth_error l1 i = Some a ->
  exists b, nth_error l2 i = Some b /\ R a b.
Proof.
  intro H. revert i. induction H as [|x y l1 l2 Hxy H IH]; intros [|i] E; cbn in *; try discriminate; eauto.
  inversion E; subst. eauto.
Qed.
Lemma skipn_skipn A x y (l : list A) : skipn x (skipn y l) = skipn (x + y) l.
Proof.
  revert l. induction y as [|y IH]; intro l; [now rewrite Nat.add_0_r|].
  rewrite Nat.add_succ_r. destruct l as [|a l]; [now rewrite !skipn_nil|]. cbn [skipn]. apply IH.
Qed.

Lemma NoDup_app_intro A (l1 l2 : list A) : NoDup l1 -> NoDup l2 -> (forall x, In x l1 -> In x l2 -> False) -> NoDup (l1 ++ l2).
Proof.
  induction l1 as [|a l1 IH]; intros H1 H2 H; cbn; auto. inversion H1; subst. constructor.
  - intro C. apply in_app_iff in C. destruct C; [auto|]. apply (H a); [now left|auto].
  - apply IH; auto. intros x Hx. apply H. now right.
Qed.
