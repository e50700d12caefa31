(** Single linkage: the minimum spanning tree algorithm yields a valid linkage matrix whose clusters are the connected
    components of the items at each threshold. *)
From Verif Require Import Py HRPModel HRPSpec HRPProofs LinkModel.
From Coq Require Import Permutation Sorted.
Set Implicit Arguments.
Unset Strict Implicit.

Section Order.
  Variables (D : Type) (lt : D -> D -> bool) (d : nat -> nat -> D).
  Notation le a b := (lt b a = false).
  Notation dist := (pair_dist d).
  Hypothesis le_trans : forall a b c, le a b -> le b c -> le a c.
  Hypothesis lt_le : forall a b, lt a b = true -> le a b.

  Lemma dist_sym i j : dist i j = dist j i.
  Proof. unfold pair_dist. now rewrite Nat.min_comm, Nat.max_comm. Qed.
  Lemma le_refl a : le a a.
  Proof. destruct (lt a a) eqn:E; auto. now rewrite (lt_le E) in E. Qed.

  (** *** the tree *)
  Lemma nearest_spec rest : rest <> [] -> exists e, nearest lt rest = Some e /\ In e rest /\ forall f, In f rest -> le (snd e) (snd f).
  Proof.
    assert (G : forall (l : list (nat * D)) (b : nat * D), exists e : nat * D, fold_left (fun (best : option (nat * D)) (e : nat * D) => match best with Some b => if lt (snd e) (snd b) then Some e else best | None => Some e end) l (Some b) = Some e /\
      In e (b :: l) /\ forall f, In f (b :: l) -> le (snd e) (snd f)).
    { clear rest. induction l as [|x l IH]; intro b.
      - exists b. cbn. repeat split; auto. intros f [<-|[]]. apply le_refl.
      - cbn [fold_left]. destruct (lt (snd x) (snd b)) eqn:E.
        + destruct (IH x) as (e & E1 & E2 & E3). exists e. split; auto. split; [now right|]. intros f [<-|Hf]; auto. apply le_trans with (snd x); [apply E3; now left|now apply lt_le].
        + destruct (IH b) as (e & E1 & E2 & E3). exists e. split; auto. split; [destruct E2 as [->|E2]; [now left|right; now right]|].
          intros f [<-|[<-|Hf]]; [apply E3; now left| |apply E3; now right]. apply le_trans with (snd b); [apply E3; now left|auto]. }
    destruct rest as [|b l]; [congruence|]. intros _. unfold nearest. cbn [fold_left]. apply G.
  Qed.

  (** a node outside the tree [V] with its best distance *)
  Definition best (V : list nat) (i : nat) (v : D) : Prop := (exists j, In j V /\ v = dist j i) /\ forall j, In j V -> le v (dist j i).
  Definition obest (V : list nat) (e : nat * option D) : Prop := match snd e with Some v => best V (fst e) v | None => V = [] end.
  Inductive tree : list nat -> list nat -> list (nat * nat * D) -> Prop :=
  | tree_nil V : tree V [] []
  | tree_cons x V y q w rows : (exists j, In j (x :: V) /\ w = dist j y) -> (forall j l, In j (x :: V) -> In l (y :: q) -> le w (dist j l)) ->
      tree (y :: x :: V) q rows -> tree (x :: V) (y :: q) ((x, y, w) :: rows).

  Lemma relax_best x V rest : (forall e, In e rest -> obest V e) -> forall e, In e (relax lt d x rest) -> best (x :: V) (fst e) (snd e).
  Proof.
    intros H e He. apply in_map_iff in He as ([i ov] & <- & Hi). specialize (H _ Hi). unfold obest in H. cbn [fst snd] in *. destruct ov as [v|].
    - destruct H as [(j & Hj & ->) H]. destruct (lt (dist x i) (dist j i)) eqn:E.
      + split; [exists x; split; [now left|auto]|]. intros k [<-|Hk]; [apply le_refl|]. apply le_trans with (dist j i); [now apply lt_le|auto].
      + split; [exists j; split; [now right|auto]|]. intros k [<-|Hk]; auto.
    - subst V. split; [exists x; split; [now left|auto]|]. intros k [<-|[]]. apply le_refl.
  Qed.
  Lemma prim_tree m : forall x V rest, length rest = m -> NoDup (map fst rest) -> (forall e, In e rest -> obest V e) ->
    exists q, Permutation q (map fst rest) /\ tree (x :: V) q (prim lt d m x rest).
  Proof.
    induction m as [|m IH]; intros x V rest L N H.
    - destruct rest; [|discriminate]. exists []. split; constructor.
    - cbn [prim]. set (rest' := relax lt d x rest). assert (F' : map fst rest' = map fst rest) by (unfold rest', relax; rewrite map_map; reflexivity).
      assert (L' : length rest' = S m) by (unfold rest', relax; now rewrite map_length). destruct (@nearest_spec rest') as ([y w] & E & Hin & Hmin); [destruct rest'; [discriminate|congruence]|]. rewrite E.
      pose proof (relax_best (x := x) H) as B. fold rest' in B. set (rest2 := map (fun e => (fst e, Some (snd e))) (filter (fun e => negb (fst e =? y)%nat) rest')).
      assert (P : Permutation (map fst rest) (y :: map fst rest2)).
      { rewrite <- F' in N |- *. unfold rest2. rewrite map_map. cbn [fst]. clear - N Hin. induction rest' as [|[i v] l IH]; [destruct Hin|].
        cbn [map fst] in N. inversion_clear N as [|? ? N1 N2]. cbn [filter map fst]. destruct (Nat.eqb_spec i y) as [->|Hne]; cbn [negb].
        - replace (filter (fun e => negb (fst e =? y)%nat) l) with l; auto. clear - N1. induction l as [|[k u] l IH]; auto. cbn [filter fst]. destruct (Nat.eqb_spec k y) as [->|]; [destruct N1; now left|].
          cbn [negb]. f_equal. apply IH. intro. apply N1. now right.
        - destruct Hin as [Hin|Hin]; [congruence|]. cbn [map fst]. etransitivity; [apply perm_skip, IH; auto|apply perm_swap]. }
      destruct (IH y (x :: V) rest2) as (q & Q & T).
      + apply Permutation_length in P. cbn [length] in P. rewrite !map_length, L in P. lia.
      + apply (Permutation_NoDup P) in N. now inversion_clear N.
      + intros e He. apply in_map_iff in He as (f & <- & Hf). apply filter_In in Hf as [Hf _]. unfold obest. cbn [fst snd]. auto.
      + exists (y :: q). split; [rewrite P; now constructor|]. constructor; auto.
        * exact (proj1 (B _ Hin)).
        * intros j l Hj Hl. assert (Hl' : In l (map fst rest')) by (rewrite F'; apply (Permutation_in _ (Permutation_sym P)); destruct Hl as [<-|Hl]; [now left|right; now apply (Permutation_in _ Q)]).
          apply in_map_iff in Hl' as ([i v] & E1 & Hi). cbn in E1. subst i. apply le_trans with v; [exact (Hmin _ Hi)|]. exact (proj2 (B _ Hi) j Hj).
  Qed.

  (** *** in terms of positions: [V] reversed, then [q] *)
  Lemma tree_facts V q rows : tree V q rows -> V <> [] -> length rows = length q /\
    forall k r, nth_error rows k = Some r ->
      nth_error (rev V ++ q) (length V - 1 + k) = Some (fst (fst r)) /\ nth_error (rev V ++ q) (length V + k) = Some (snd (fst r)) /\
      (exists j i, (j < length V + k)%nat /\ nth_error (rev V ++ q) j = Some i /\ snd r = dist i (snd (fst r))) /\
      (forall j l i1 i2, (j < length V + k <= l)%nat -> nth_error (rev V ++ q) j = Some i1 -> nth_error (rev V ++ q) l = Some i2 -> le (snd r) (dist i1 i2)).
  Proof.
    induction 1 as [V|x V y q w rows (j0 & Hj0 & Hw) Hmin T IH]; intro HV.
    - split; auto. intros [|k] r Hr; discriminate.
    - destruct IH as [L IH]; [discriminate|]. split; [cbn; lia|].
      assert (EQ : rev (y :: x :: V) ++ q = rev (x :: V) ++ y :: q) by (cbn [rev]; rewrite <- !app_assoc; reflexivity).
      assert (LV : length (rev (x :: V)) = S (length V)) by (now rewrite rev_length). intros [|k] r Hr.
      + cbn [nth_error] in Hr. injection Hr as <-. cbn [fst snd]. rewrite !Nat.add_0_r.
        assert (BEFORE : forall j i, (j < length (x :: V))%nat -> nth_error (rev (x :: V) ++ y :: q) j = Some i -> In i (x :: V)).
        { intros j i Hj E. rewrite nth_error_app1 in E by (rewrite LV; exact Hj). apply nth_error_In in E. now apply in_rev in E. }
        split; [|split; [|split]].
        * cbn [rev length]. rewrite <- app_assoc, nth_error_app2 by (rewrite rev_length; lia). rewrite rev_length. replace (S (length V) - 1 - length V)%nat with 0%nat by lia. reflexivity.
        * rewrite nth_error_app2 by (rewrite LV; cbn; lia). rewrite LV. cbn [length]. replace (S (length V) - S (length V))%nat with 0%nat by lia. reflexivity.
        * apply in_rev in Hj0. apply In_nth_error in Hj0 as (j & Hj). exists j, j0. assert (j < length (rev (x :: V)))%nat by (apply nth_error_Some; congruence).
          rewrite LV in H. split; [cbn; lia|]. split; auto. rewrite nth_error_app1 by (rewrite LV; lia). exact Hj.
        * intros j l i1 i2 [H1 H2] E1 E2. apply Hmin; [exact (BEFORE _ _ H1 E1)|]. rewrite nth_error_app2 in E2 by (rewrite LV; exact H2). exact (nth_error_In _ _ E2).
      + cbn [nth_error] in Hr. destruct (IH _ _ Hr) as (A1 & A2 & A3 & A4). rewrite EQ in *. cbn [length] in *.
        replace (S (length V) - 1 + S k)%nat with (S (S (length V)) - 1 + k)%nat by lia. replace (S (length V) + S k)%nat with (S (S (length V)) + k)%nat by lia. auto.
  Qed.

  (** *** connection at a threshold *)
  Inductive linked (n : nat) (t : D) : nat -> nat -> Prop :=
  | linked_refl i : (i < n)%nat -> linked n t i i
  | linked_step i j k : linked n t i j -> (k < n)%nat -> le (dist j k) t -> linked n t i k.
  Lemma linked_trans n t i j k : linked n t i j -> linked n t j k -> linked n t i k.
  Proof. intros H1 H2. induction H2 as [j Hj|j k l H IH Hl Hd]; auto. apply linked_step with k; auto. Qed.
  Lemma linked_bound n t i j : linked n t i j -> (i < n)%nat /\ (j < n)%nat.
  Proof. induction 1; tauto. Qed.
  Lemma linked_sym n t i j : linked n t i j -> linked n t j i.
  Proof.
    induction 1 as [i Hi|i j k H IH Hk Hd]; [now constructor|]. apply linked_trans with j; auto. apply linked_step with k; [now constructor| |rewrite dist_sym; auto].
    exact (proj2 (linked_bound H)).
  Qed.

  Section Path.
    Variables (n : nat) (p : list nat) (rows : list (nat * nat * D)).
    Hypothesis Hn : (1 <= n)%nat.
    Hypothesis Pp : Permutation p (seq 0 n).
    Hypothesis Lr : length rows = (n - 1)%nat.
    Hypothesis Rf : forall k r, nth_error rows k = Some r ->
      nth_error p k = Some (fst (fst r)) /\ nth_error p (S k) = Some (snd (fst r)) /\
      (exists j i, (j < S k)%nat /\ nth_error p j = Some i /\ snd r = dist i (snd (fst r))) /\
      (forall j l i1 i2, (j < S k <= l)%nat -> nth_error p j = Some i1 -> nth_error p l = Some i2 -> le (snd r) (dist i1 i2)).
    Lemma p_len : length p = n. Proof. rewrite (Permutation_length Pp). apply seq_length. Qed.
    Lemma p_nodup : NoDup p. Proof. apply (Permutation_NoDup (Permutation_sym Pp)), seq_NoDup. Qed.
    Lemma p_lt k i : nth_error p k = Some i -> (i < n)%nat.
    Proof. clear Rf Lr rows Hn le_trans lt_le. intro E. apply nth_error_In, (Permutation_in _ Pp), in_seq in E. lia. Qed.
    Lemma p_at i : (i < n)%nat -> exists k, (k < n)%nat /\ nth_error p k = Some i.
    Proof.
      clear Rf Lr rows Hn le_trans lt_le. intro Hi. assert (I : In i p) by (apply (Permutation_in _ (Permutation_sym Pp)), in_seq; lia). apply In_nth_error in I as (k & E). exists k. split; auto.
      rewrite <- p_len. apply nth_error_Some. congruence.
    Qed.
    Lemma row_at k : (k < n - 1)%nat -> exists r, nth_error rows k = Some r.
    Proof. intro H. destruct (nth_error rows k) as [r|] eqn:E; [now exists r|]. apply nth_error_None in E. lia. Qed.
    (** every row between two positions is at most [t] *)
    Definition low (t : D) (a b : nat) : Prop := forall k r, (a <= k < b)%nat -> nth_error rows k = Some r -> le (snd r) t.
    Lemma low_linked t a : forall b i j, (a <= b)%nat -> (a = 0%nat \/ exists r, nth_error rows (a - 1) = Some r /\ lt t (snd r) = true) -> low t a b ->
      nth_error p a = Some i -> nth_error p b = Some j -> linked n t i j.
    Proof.
      intro b. induction b as [b IH] using lt_wf_ind. intros i j Hab Hst Hl Ei Ej. destruct (Nat.eq_dec a b) as [<-|Hne]; [rewrite Ei in Ej; injection Ej as <-; constructor; now apply p_lt in Ei|].
      destruct b as [|b]; [lia|]. destruct (@row_at b) as (r & Er); [assert (S b < length p)%nat by (apply nth_error_Some; congruence); rewrite p_len in *; lia|].
      destruct (Rf Er) as (_ & E2 & (c & i0 & Hc & Ec & Ew) & _). assert (j = snd (fst r)) by congruence. subst j. pose proof (Hl b r ltac:(lia) Er) as Hw.
      assert (Hac : (a <= c)%nat).
      { destruct (Nat.le_gt_cases a c) as [|Hlt]; auto. exfalso. destruct Hst as [->|(r0 & E0 & H0)]; [lia|]. destruct (Rf E0) as (_ & _ & _ & M).
        assert (M' := M c (S b) i0 _ ltac:(lia) Ec E2). rewrite <- Ew in M'. rewrite (le_trans M' Hw) in H0. discriminate. }
      apply linked_step with i0.
      - apply (IH c); auto; try lia. intros k r' Hk. apply Hl. lia.
      - now apply p_lt in Ej.
      - rewrite <- Ew. exact Hw.
    Qed.
    Lemma low_start t b : (b <= n - 1)%nat -> exists a, (a <= b)%nat /\ low t a b /\ (a = 0%nat \/ exists r, nth_error rows (a - 1) = Some r /\ lt t (snd r) = true).
    Proof.
      induction b as [|b IH]; intro Hb; [exists 0%nat; split; auto; split; [intros k r Hk; lia|auto]|]. destruct (@row_at b ltac:(lia)) as (r & Er).
      destruct (lt t (snd r)) eqn:E.
      - exists (S b). split; auto. split; [intros k r' Hk; lia|]. right. exists r. replace (S b - 1)%nat with b by lia. auto.
      - destruct (IH ltac:(lia)) as (a & H1 & H2 & H3). exists a. split; [lia|]. split; auto. intros k r' Hk Er'. destruct (Nat.eq_dec k b) as [->|]; [congruence|apply (H2 k); auto; lia].
    Qed.
    Lemma path_linked t a b i j : (a <= b)%nat -> nth_error p a = Some i -> nth_error p b = Some j -> (linked n t i j <-> low t a b).
    Proof.
      intros Hab Ei Ej. split.
      - intros H k r Hk Er. destruct (lt t (snd r)) eqn:E; auto. exfalso.
        destruct (Rf Er) as (_ & _ & _ & M).
        assert (G : forall i j, linked n t i j -> forall c, nth_error p c = Some i -> (c <= k)%nat -> forall e, nth_error p e = Some j -> (e <= k)%nat).
        { clear i j a b Hab Ei Ej Hk H. intros i j H. induction H as [i Hi|i j l H IH Hl Hd]; intros c Ec Hc e Ee.
          - assert (e = c); [|lia]. apply (NoDup_nth_error p); [apply p_nodup| |congruence]. apply nth_error_Some. congruence.
          - destruct (p_at (proj2 (linked_bound H))) as (f & Hf & Ef). pose proof (IH c Ec Hc f Ef) as Hfk. destruct (Nat.le_gt_cases e k) as [|Hek]; auto. exfalso.
            assert (M' := M f e j l ltac:(lia) Ef Ee). rewrite (le_trans M' Hd) in E. discriminate. }
        assert (X := G i j H a Ei ltac:(lia) b Ej). lia.
      - intro Hl. assert (Hb : (b < n)%nat) by (rewrite <- p_len; apply nth_error_Some; congruence). destruct (@low_start t a ltac:(lia)) as (s & S1 & S2 & S3).
        destruct (nth_error p s) as [i0|] eqn:E0; [|apply nth_error_None in E0; rewrite p_len in E0; lia].
        apply linked_trans with i0.
        + apply linked_sym. exact (@low_linked t s a i0 i S1 S3 S2 E0 Ei).
        + apply (@low_linked t s b i0 j ltac:(lia) S3); auto. intros k r Hk Er. destruct (Nat.lt_ge_cases k a); [apply (S2 k); auto; lia|apply (Hl k); auto; lia].
    Qed.

    (** *** merging along the rows, in any order *)
    Notation fr := (fun (root : list nat) (c i : nat) => (nth i root 0 =? c)%nat).
    Record inv (done : list (nat * nat * D)) (root : list nat) (lm : list link) : Prop := {
      i_len : length root = n;
      i_lm : length lm = length done;
      i_bound : forall c, In c root -> (c < n + length done)%nat;
      i_same : forall a b i j, (a <= b)%nat -> nth_error p a = Some i -> nth_error p b = Some j ->
        (nth i root 0%nat = nth j root 0%nat <-> forall k r, (a <= k < b)%nat -> nth_error rows k = Some r -> In r done);
      i_nodup : NoDup (flat_map (fun r => [l_left r; l_right r]) lm);
      i_gone : forall c, In c (flat_map (fun r => [l_left r; l_right r]) lm) -> ~ In c root /\ (c < n + length done)%nat;
      i_all : forall c, (c < n + length done)%nat -> In c (flat_map (fun r => [l_left r; l_right r]) lm) \/ In c root;
      i_before : forall k r, nth_error lm k = Some r -> (l_left r < n + k)%nat /\ (l_right r < n + k)%nat;
      i_leaves : forall c, In c root -> exists L, leaves n lm c L /\ Permutation L (filter (fr root c) (seq 0 n));
      i_count : forall k r, nth_error lm k = Some r -> exists L, leaves n lm (n + k) L /\ l_count r = length L }.

    Lemma leaves_mono lm lm' c L : leaves n lm c L -> leaves n (lm ++ lm') c L.
    Proof. induction 1 as [x Hx|k r l1 l2 Hr H1 IH1 H2 IH2]; [now constructor|]. econstructor; eauto. rewrite nth_error_app1; auto. apply nth_error_Some. congruence. Qed.
    Lemma leaves_unique lm c l1 l2 : leaves n lm c l1 -> leaves n lm c l2 -> l1 = l2.
    Proof.
      clear. intro H. revert l2. induction H as [x Hx|k r l1 l2 Hr H1 IH1 H2 IH2]; intros l' H'.
      - inversion H'; subst; auto. lia.
      - remember (n + k)%nat as y eqn:Ey. destruct H' as [y Hy|k' r' m1 m2 Hr' G1 G2]; [lia|]. assert (k' = k) by lia. subst k'. rewrite Hr in Hr'. injection Hr' as <-.
        now rewrite (IH1 _ G1), (IH2 _ G2).
    Qed.
    Lemma nth_map0 (f : nat -> nat) l i : (i < length l)%nat -> nth i (map f l) 0%nat = f (nth i l 0%nat).
    Proof. intro H. rewrite (@nth_indep _ (map f l) i 0%nat (f 0%nat)) by (now rewrite map_length). apply map_nth. Qed.
    Lemma count_filter root c : forall k, count_occ Nat.eq_dec root c = length (filter (fun i => (nth (i - k) root 0 =? c)%nat) (seq k (length root))).
    Proof.
      induction root as [|x l IH]; intro k; [reflexivity|]. cbn [length seq filter]. rewrite Nat.sub_diag. change (nth 0 (x :: l) 0%nat) with x.
      rewrite (@filter_ext_in _ (fun i => (nth (i - k) (x :: l) 0 =? c)%nat) (fun i => (nth (i - S k) l 0 =? c)%nat) (seq (S k) (length l))).
      - cbn [count_occ]. destruct (Nat.eq_dec x c) as [->|Hne]; [rewrite Nat.eqb_refl; cbn [length]; now rewrite (IH (S k))|]. apply Nat.eqb_neq in Hne. rewrite Hne. apply IH.
      - intros i Hi. apply in_seq in Hi. replace (i - k)%nat with (S (i - S k)) by lia. reflexivity.
    Qed.
    Lemma filter_or A (f g : A -> bool) l : (forall x, In x l -> f x = true -> g x = false) -> Permutation (filter f l ++ filter g l) (filter (fun x => f x || g x) l).
    Proof.
      induction l as [|x l IH]; intro H; [constructor|]. cbn [filter]. specialize (IH (fun y Hy => H y (or_intror Hy))). pose proof (H x (or_introl eq_refl)) as Hx.
      destruct (f x) eqn:E; cbn [orb].
      - rewrite (Hx eq_refl). cbn [app]. now constructor.
      - destruct (g x); auto. rewrite <- Permutation_middle. now constructor.
    Qed.
    Lemma row_unique k k' r : nth_error rows k = Some r -> nth_error rows k' = Some r -> k = k'.
    Proof. intros E E'. apply Rf in E as (E & _). apply Rf in E' as (E' & _). apply (NoDup_nth_error p); [apply p_nodup| |congruence]. apply nth_error_Some. congruence. Qed.

    Lemma inv_init : inv [] (seq 0 n) [].
    Proof.
      split; cbn [length flat_map]; try rewrite Nat.add_0_r; auto.
      - apply seq_length.
      - intros c Hc. apply in_seq in Hc. lia.
      - intros a b i j Hab Ei Ej. rewrite !seq_nth by (eapply p_lt; eauto). cbn [Nat.add]. split.
        + intros -> k r Hk. assert (a = b); [|lia]. apply (NoDup_nth_error p); [apply p_nodup| |congruence]. apply nth_error_Some. congruence.
        + intro H. destruct (Nat.eq_dec a b) as [->|Hne]; [congruence|]. exfalso. destruct (@row_at a) as (r & Er); [|exact (H a r ltac:(lia) Er)].
          assert (b < length p)%nat by (apply nth_error_Some; congruence). rewrite p_len in *. lia.
      - constructor.
      - intros c [].
      - intros c Hc. right. apply in_seq. lia.
      - intros [|k] r E; discriminate.
      - intros c Hc. apply in_seq in Hc. exists [c]. split; [constructor; lia|]. apply NoDup_Permutation.
        + repeat constructor. intros [].
        + apply NoDup_filter, seq_NoDup.
        + intro x. rewrite filter_In, in_seq. split.
          * intros [<-|[]]. split; [lia|]. rewrite seq_nth by lia. apply Nat.eqb_refl.
          * intros [Hx E]. rewrite seq_nth in E by lia. apply Nat.eqb_eq in E. left. symmetry. exact E.
      - intros [|k] r E; discriminate.
    Qed.

    Lemma inv_step done r root lm : inv done root lm -> In r rows -> ~ In r done ->
      let a := nth (fst (fst r)) root 0%nat in let b := nth (snd (fst r)) root 0%nat in let next := (n + length done)%nat in
      let root' := map (fun c => if (c =? a)%nat || (c =? b)%nat then next else c) root in
      inv (done ++ [r]) root' (lm ++ [{| l_left := Nat.min a b; l_right := Nat.max a b; l_count := count_occ Nat.eq_dec root' next |}]).
    Proof.
      intros I Hin Hnd a b next root'. destruct (In_nth_error _ _ Hin) as (k0 & E0). destruct (Rf E0) as (Ex & Ey & _). set (x := fst (fst r)) in *. set (y := snd (fst r)) in *.
      pose proof (p_lt Ex) as Hx. pose proof (p_lt Ey) as Hy. pose proof (i_len I) as L.
      assert (Hab : a <> b).
      { intro E. apply Hnd. apply (proj1 (i_same I (a := k0) (b := S k0) ltac:(lia) Ex Ey) E k0); [lia|auto]. }
      assert (Ia : In a root) by (apply nth_In; lia). assert (Ib : In b root) by (apply nth_In; lia).
      pose proof (i_bound I Ia) as Ba. pose proof (i_bound I Ib) as Bb. fold next in Ba, Bb.
      set (f := fun c => if (c =? a)%nat || (c =? b)%nat then next else c).
      assert (FN : forall c, In c root -> (f c = next <-> c = a \/ c = b)).
      { intros c Hc. pose proof (i_bound I Hc). unfold f. destruct (Nat.eqb_spec c a), (Nat.eqb_spec c b); cbn [orb]; unfold next; intuition lia. }
      assert (FO : forall c, c <> a -> c <> b -> f c = c) by (intros c H1 H2; unfold f; destruct (Nat.eqb_spec c a), (Nat.eqb_spec c b); cbn [orb]; congruence).
      assert (NR : forall i, (i < n)%nat -> nth i root' 0%nat = f (nth i root 0%nat)) by (intros i Hi; unfold root'; apply nth_map0; lia).
      assert (IR : forall c, In c root' -> c = next \/ (In c root /\ c <> a /\ c <> b)).
      { intros c Hc. apply in_map_iff in Hc as (e & E & He). destruct (Nat.eq_dec e a) as [->|H1]; [left; rewrite <- E, Nat.eqb_refl; reflexivity|].
        destruct (Nat.eq_dec e b) as [->|H2]; [left; rewrite <- E, Nat.eqb_refl, orb_true_r; reflexivity|]. right. change (f e = c) in E. rewrite (FO _ H1 H2) in E. subst c. auto. }
      assert (NI : In next root') by (apply in_map_iff; exists a; split; auto; now rewrite Nat.eqb_refl).
      assert (OI : forall c, In c root -> c <> a -> c <> b -> In c root') by (intros c Hc H1 H2; apply in_map_iff; exists c; split; auto; exact (FO _ H1 H2)).
      assert (LD : length (done ++ [r]) = S (length done)) by (rewrite app_length; cbn; lia).
      set (lk := {| l_left := Nat.min a b; l_right := Nat.max a b; l_count := count_occ Nat.eq_dec root' next |}).
      assert (CH : flat_map (fun r => [l_left r; l_right r]) (lm ++ [lk]) = flat_map (fun r => [l_left r; l_right r]) lm ++ [Nat.min a b; Nat.max a b]) by (rewrite flat_map_app; reflexivity).
      assert (MM : forall c, In c [Nat.min a b; Nat.max a b] <-> c = a \/ c = b) by (intro c; cbn; lia).
      assert (NEWL : exists L, leaves n (lm ++ [lk]) next L /\ Permutation L (filter (fr root' next) (seq 0 n))).
      { assert (Imin : In (Nat.min a b) root) by (destruct (Nat.min_spec a b) as [[_ ->]|[_ ->]]; auto). assert (Imax : In (Nat.max a b) root) by (destruct (Nat.max_spec a b) as [[_ ->]|[_ ->]]; auto).
        destruct (i_leaves I Imin) as (L1 & H1 & P1). destruct (i_leaves I Imax) as (L2 & H2 & P2). exists (L1 ++ L2). split.
        - unfold next. rewrite <- (i_lm I). apply leaves_node with lk; [rewrite nth_error_app2, Nat.sub_diag by lia; reflexivity|now apply leaves_mono|now apply leaves_mono].
        - rewrite P1, P2, filter_or.
          + apply NoDup_Permutation; try (apply NoDup_filter, seq_NoDup). intro i. rewrite !filter_In, in_seq. split.
            * intros [Hi E]. split; auto. apply orb_true_iff in E as [E|E]; apply Nat.eqb_eq in E; apply Nat.eqb_eq; rewrite NR by lia; apply FN; try (apply nth_In; lia); lia.
            * intros [Hi E]. split; auto. apply Nat.eqb_eq in E. rewrite NR in E by lia. apply FN in E; [|apply nth_In; lia]. apply orb_true_iff. rewrite !Nat.eqb_eq. lia.
          + intros i Hi E. apply Nat.eqb_eq in E. apply Nat.eqb_neq. lia. }
      split.
      - unfold root'. rewrite map_length. exact L.
      - rewrite app_length, LD, (i_lm I). cbn. lia.
      - intros c Hc. rewrite LD. apply IR in Hc as [->|(Hc & _)]; [unfold next; lia|]. apply (i_bound I) in Hc. lia.
      - intros u v i j Huv Ei Ej. pose proof (p_lt Ei) as Hi. pose proof (p_lt Ej) as Hj. rewrite !NR by auto. set (ri := nth i root 0%nat) in *. set (rj := nth j root 0%nat) in *.
        assert (Iri : In ri root) by (apply nth_In; lia). assert (Irj : In rj root) by (apply nth_In; lia). split.
        + intros E k r' Hk Er'. apply in_or_app. destruct (Nat.eq_dec ri rj) as [Eq|Hneq]; [left; exact (proj1 (i_same I Huv Ei Ej) Eq k r' Hk Er')|].
          assert (Hri : ri = a \/ ri = b).
          { destruct (Nat.eq_dec ri a); auto. destruct (Nat.eq_dec ri b); auto. exfalso. rewrite (FO ri) in E by auto. pose proof (i_bound I Iri) as B1. fold next in B1.
            destruct (Nat.eq_dec rj a) as [e|]; [|destruct (Nat.eq_dec rj b) as [e|]; [|rewrite (FO rj) in E by auto; auto]]; assert (f rj = next) by (apply FN; auto); lia. }
          assert (Hrj : rj = a \/ rj = b) by (apply (FN rj Irj); rewrite <- E; apply FN; auto).
          destruct (Nat.eq_dec k k0) as [->|Hkk]; [right; left; congruence|]. left. destruct Hri as [Hri|Hri], Hrj as [Hrj|Hrj]; try congruence.
          * destruct (Nat.lt_ge_cases k k0) as [Hlt|Hge].
            -- exact (proj1 (i_same I (a := u) (b := k0) ltac:(lia) Ei Ex) Hri k r' ltac:(lia) Er').
            -- exact (proj1 (i_same I (a := S k0) (b := v) ltac:(lia) Ey Ej) (eq_sym Hrj) k r' ltac:(lia) Er').
          * destruct (Nat.lt_ge_cases k k0) as [Hlt|Hge].
            -- exact (proj1 (i_same I (a := u) (b := S k0) ltac:(lia) Ei Ey) Hri k r' ltac:(lia) Er').
            -- exact (proj1 (i_same I (a := k0) (b := v) ltac:(lia) Ex Ej) (eq_sym Hrj) k r' ltac:(lia) Er').
        + intro H.
          assert (H' : forall k r', (u <= k < v)%nat -> k <> k0 -> nth_error rows k = Some r' -> In r' done).
          { intros k r' Hk Hne Er'. specialize (H k r' Hk Er'). apply in_app_or in H as [H|[<-|[]]]; auto. exfalso. apply Hne. exact (row_unique Er' E0). }
          destruct (le_lt_dec u k0) as [H1|H1]; [destruct (le_lt_dec v k0) as [H2|H2]|].
          * f_equal. apply (i_same I Huv Ei Ej). intros k r' Hk. apply H'; lia.
          * assert (ri = a) by (apply (i_same I (a := u) (b := k0) H1 Ei Ex); intros k r' Hk; apply H'; lia).
            assert (b = rj) by (apply (i_same I (a := S k0) (b := v) H2 Ey Ej); intros k r' Hk; apply H'; lia).
            transitivity next; [apply FN; auto|symmetry; apply FN; auto].
          * f_equal. apply (i_same I Huv Ei Ej). intros k r' Hk. apply H'; lia.
      - rewrite CH. apply NoDup_app_iff. split; [exact (i_nodup I)|]. split; [constructor; [cbn; lia|repeat constructor; intros []]|].
        intros c Hc Hc'. apply (i_gone I) in Hc as [Hc _]. apply MM in Hc' as [->| ->]; auto.
      - rewrite CH, LD. intros c Hc. apply in_app_or in Hc as [Hc|Hc].
        + apply (i_gone I) in Hc as [Hc Hb]. split; [|lia]. intro G. apply IR in G as [->|(G & _)]; auto. unfold next in Hb. lia.
        + apply MM in Hc. split; [|unfold next in *; lia]. intro G. apply IR in G as [->|(G & G1 & G2)]; [lia|]. tauto.
      - rewrite CH, LD. intros c Hc. destruct (Nat.eq_dec c next) as [->|Hn']; [now right|]. destruct (i_all I (c := c)) as [G|G]; [unfold next in Hn'; lia|left; apply in_or_app; now left|].
        destruct (Nat.eq_dec c a) as [->|H1]; [left; apply in_or_app; right; apply MM; auto|]. destruct (Nat.eq_dec c b) as [->|H2]; [left; apply in_or_app; right; apply MM; auto|]. right. auto.
      - intros k r' E. destruct (Nat.lt_ge_cases k (length lm)) as [H|H]; [rewrite nth_error_app1 in E by auto; exact (i_before I E)|].
        assert (k = length lm). { assert (k < length (lm ++ [lk]))%nat by (apply nth_error_Some; congruence). rewrite app_length in *. cbn in *. lia. } subst k.
        rewrite nth_error_app2, Nat.sub_diag in E by lia. cbn in E. injection E as <-. unfold lk. cbn [l_left l_right]. rewrite (i_lm I). unfold next in *. lia.
      - intros c Hc. apply IR in Hc as [->|(Hc & H1 & H2)]; [exact NEWL|]. destruct (i_leaves I Hc) as (L0 & G & P). exists L0. split; [now apply leaves_mono|]. rewrite P.
        rewrite (@filter_ext_in _ (fr root c) (fr root' c) (seq 0 n)); auto. intros i Hi. apply in_seq in Hi. rewrite NR by lia. set (ri := nth i root 0%nat). pose proof (i_bound I Hc) as Bc. fold next in Bc.
        assert (Iri : In ri root) by (apply nth_In; lia). destruct (Nat.eq_dec ri a) as [e|G1]; [|destruct (Nat.eq_dec ri b) as [e|G2]; [|now rewrite FO]];
          (assert (f ri = next) by (apply FN; auto)); apply Bool.eq_iff_eq_true; rewrite !Nat.eqb_eq; split; intro; lia.
      - intros k r' E. destruct (Nat.lt_ge_cases k (length lm)) as [H|H].
        + rewrite nth_error_app1 in E by auto. destruct (i_count I E) as (L0 & G & C). exists L0. split; auto. now apply leaves_mono.
        + assert (k = length lm). { assert (k < length (lm ++ [lk]))%nat by (apply nth_error_Some; congruence). rewrite app_length in *. cbn in *. lia. } subst k.
          rewrite nth_error_app2, Nat.sub_diag in E by lia. cbn in E. injection E as <-. destruct NEWL as (L0 & G & P). exists L0. split; [rewrite (i_lm I); exact G|].
          unfold lk. cbn [l_count]. rewrite (Permutation_length P), (count_filter root' next 0). replace (length root') with n by (unfold root'; rewrite map_length; auto).
          f_equal. apply filter_ext. intro i. now rewrite Nat.sub_0_r.
    Qed.

    (** every stage of [label] *)
    Lemma label_stage todo : forall done root lm m, inv done root lm -> Permutation (done ++ todo) rows -> (m <= length todo)%nat ->
      exists root', inv (done ++ firstn m todo) root' (lm ++ firstn m (map fst (label (n + length done) root todo))).
    Proof.
      induction todo as [|r todo IH]; intros done root lm m I P Hm.
      - destruct m; [|cbn in Hm; lia]. exists root. cbn. now rewrite !app_nil_r.
      - destruct m as [|m]; [exists root; cbn [firstn]; now rewrite !app_nil_r|]. cbn [length] in Hm.
        assert (Hin : In r rows) by (apply (Permutation_in _ P), in_or_app; right; now left).
        assert (N : NoDup rows).
        { apply NoDup_nth_error. intros i j Hi E. destruct (nth_error rows i) as [ri|] eqn:Ei; [|apply nth_error_None in Ei; lia]. symmetry in E. exact (row_unique Ei E). }
        assert (Hnd : ~ In r done). { apply (Permutation_NoDup (Permutation_sym P)) in N. apply NoDup_remove_2 in N. intro. apply N, in_or_app. now left. }
        destruct r as [[x y] v]. pose proof (inv_step I Hin Hnd) as I'. cbn [fst snd] in I'. cbn [label map firstn fst].
        destruct (IH _ _ _ m I') as (root' & I2); [rewrite <- app_assoc; exact P|lia|].
        exists root'. rewrite <- !app_assoc in I2. cbn [app] in I2. rewrite app_length in I2. cbn [length] in I2. replace (n + (length done + 1))%nat with (S (n + length done)) in I2 by lia. exact I2.
    Qed.
    Lemma label_dists (todo : list (nat * nat * D)) : forall next root, map snd (label next root todo) = map snd todo.
    Proof. induction todo as [|[[x y] v] todo IH]; intros; cbn; auto. now rewrite IH. Qed.
    Lemma label_len (todo : list (nat * nat * D)) : forall next root, length (label next root todo) = length todo.
    Proof. intros. rewrite <- (map_length snd), label_dists. apply map_length. Qed.
  End Path.

  (** *** sorting *)
  Lemma row_insert_perm (r : nat * nat * D) l : Permutation (row_insert lt r l) (r :: l).
  Proof. induction l as [|x l IH]; [reflexivity|]. cbn [row_insert]. destruct (lt (snd x) (snd r)); auto. rewrite IH. apply perm_swap. Qed.
  Lemma row_sort_perm (l : list (nat * nat * D)) : Permutation (row_sort lt l) l.
  Proof. induction l as [|x l IH]; auto. cbn [row_sort]. rewrite row_insert_perm. now constructor. Qed.
  Lemma row_insert_sorted (r : nat * nat * D) l : StronglySorted (fun x y => le (snd x) (snd y)) l -> StronglySorted (fun x y => le (snd x) (snd y)) (row_insert lt r l).
  Proof.
    induction 1 as [|x l Hs IH Hf]; [repeat constructor|]. cbn [row_insert]. rewrite Forall_forall in Hf. destruct (lt (snd x) (snd r)) eqn:E.
    - constructor; auto. apply Forall_forall. intros y Hy. apply (Permutation_in _ (row_insert_perm r l)) in Hy as [<-|Hy]; auto.
    - constructor; [constructor; auto; now apply Forall_forall|]. apply Forall_forall. intros y [<-|Hy]; auto. apply le_trans with (snd x); auto.
  Qed.
  Lemma row_sort_sorted (l : list (nat * nat * D)) : StronglySorted (fun x y => le (snd x) (snd y)) (row_sort lt l).
  Proof. induction l as [|x l IH]; [constructor|]. cbn [row_sort]. now apply row_insert_sorted. Qed.
  Lemma sorted_nth (l : list (nat * nat * D)) : StronglySorted (fun x y => le (snd x) (snd y)) l -> forall i j x y, (i <= j)%nat -> nth_error l i = Some x -> nth_error l j = Some y -> le (snd x) (snd y).
  Proof.
    induction 1 as [|a l Hs IH Hf]; intros i j x y Hij Ei Ej; [destruct i; discriminate|]. rewrite Forall_forall in Hf. destruct i as [|i], j as [|j]; cbn [nth_error] in Ei, Ej.
    - assert (x = y) by congruence. subst. apply le_refl.
    - assert (a = x) by congruence. subst. apply Hf. exact (nth_error_In _ _ Ej).
    - lia.
    - apply (IH i j); auto. lia.
  Qed.

  (** *** the linkage matrix *)
  Section Result.
    Variable n : nat.
    Hypothesis Hn : (1 <= n)%nat.
    Let rows := prim lt d (n - 1) 0 (map (fun i => (i, None)) (seq 1 (n - 1))).
    Lemma prim_path : exists p, Permutation p (seq 0 n) /\ length rows = (n - 1)%nat /\ forall k r, nth_error rows k = Some r ->
      nth_error p k = Some (fst (fst r)) /\ nth_error p (S k) = Some (snd (fst r)) /\
      (exists j i, (j < S k)%nat /\ nth_error p j = Some i /\ snd r = dist i (snd (fst r))) /\
      (forall j l i1 i2, (j < S k <= l)%nat -> nth_error p j = Some i1 -> nth_error p l = Some i2 -> le (snd r) (dist i1 i2)).
    Proof.
      assert (M : map fst (map (fun i : nat => (i, @None D)) (seq 1 (n - 1))) = seq 1 (n - 1)) by (rewrite map_map; apply map_id).
      destruct (@prim_tree (n - 1) 0%nat [] (map (fun i => (i, None)) (seq 1 (n - 1)))) as (q & Q & T).
      - now rewrite map_length, seq_length.
      - rewrite M. apply seq_NoDup.
      - intros e He. apply in_map_iff in He as (i & <- & _). reflexivity.
      - rewrite M in Q. fold rows in T. destruct (tree_facts T) as [L F]; [discriminate|]. exists (0%nat :: q). split; [|split].
        + destruct n as [|m]; [lia|]. replace (S m - 1)%nat with m in Q by lia. cbn [seq]. now constructor.
        + rewrite L, (Permutation_length Q). apply seq_length.
        + intros k r E. exact (F k r E).
    Qed.
    Let sorted := row_sort lt rows.
    Let out := single_linkage lt d n.
    Lemma out_stages : exists p, Permutation p (seq 0 n) /\ length rows = (n - 1)%nat /\ (forall t a b i j, (a <= b)%nat -> nth_error p a = Some i -> nth_error p b = Some j -> (linked n t i j <-> low rows t a b)) /\
      forall m, (m <= n - 1)%nat -> exists root, inv n p rows (firstn m sorted) root (firstn m (map fst out)).
    Proof.
      destruct prim_path as (p & P & L & F). exists p. split; auto. split; auto. split; [intros t a b i j; now apply path_linked|]. intros m Hm.
      destruct (@label_stage n p rows Hn P L F sorted [] (seq 0 n) [] m) as (root & I).
      - now apply inv_init.
      - cbn [app]. apply row_sort_perm.
      - unfold sorted. rewrite (Permutation_length (row_sort_perm rows)), L. exact Hm.
      - exists root. cbn [app length] in I. rewrite Nat.add_0_r in I. exact I.
    Qed.
    Lemma sorted_len : length sorted = (n - 1)%nat.
    Proof. destruct prim_path as (p & P & L & F). unfold sorted. now rewrite (Permutation_length (row_sort_perm rows)). Qed.
    Lemma out_len : length out = (n - 1)%nat.
    Proof. unfold out, single_linkage. rewrite label_len. exact sorted_len. Qed.
    Lemma out_dists : map snd out = map snd sorted.
    Proof. unfold out, single_linkage. apply label_dists. Qed.

    Lemma firstn_full A (l : list A) m : length l = m -> firstn m l = l.
    Proof. intros <-. apply firstn_all. Qed.
    Lemma out_full : exists p root, Permutation p (seq 0 n) /\ inv n p rows sorted root (map fst out).
    Proof.
      destruct out_stages as (p & P & _ & _ & S). destruct (S (n - 1)%nat ltac:(lia)) as (root & I). exists p, root. split; auto.
      rewrite (firstn_full sorted_len), (@firstn_full _ (map fst out)) in I by (rewrite map_length; apply out_len). exact I.
    Qed.
    Lemma single_linkage_ok : (2 <= n)%nat -> linkage_ok n (map fst out).
    Proof.
      intro H2. destruct out_full as (p & root & P & I). pose proof (i_lm I) as LM. rewrite sorted_len in LM.
      assert (TOP : In (2 * n - 2)%nat root).
      { destruct (i_all I (c := (2 * n - 2)%nat)) as [G|G]; auto; [rewrite sorted_len; lia|]. exfalso. apply in_flat_map in G as (r & Hr & Hc). apply In_nth_error in Hr as (k & E).
        assert (k < n - 1)%nat by (rewrite <- LM; apply nth_error_Some; congruence). apply (i_before I) in E. cbn in Hc. lia. }
      destruct prim_path as (p' & _ & L & _).
      assert (SAME : forall i j, (i < n)%nat -> (j < n)%nat -> nth i root 0%nat = nth j root 0%nat).
      { assert (G : forall i j a b, nth_error p a = Some i -> nth_error p b = Some j -> (a <= b)%nat -> nth i root 0%nat = nth j root 0%nat).
        { intros i j a b Ea Eb Hab. apply (i_same I Hab Ea Eb). intros k r _ E. apply (Permutation_in _ (Permutation_sym (row_sort_perm rows))). exact (nth_error_In _ _ E). }
        intros i j Hi Hj. destruct (p_at P Hi) as (a & _ & Ea). destruct (p_at P Hj) as (b & _ & Eb). destruct (Nat.le_ge_cases a b); [now apply (G i j a b)|symmetry; now apply (G j i b a)]. }
      assert (ALL : forall c, In c root -> c = (2 * n - 2)%nat).
      { intros c Hc. apply (In_nth _ _ 0%nat) in Hc as (i & Hi & <-). apply (In_nth _ _ 0%nat) in TOP as (j & Hj & E). rewrite (i_len I) in Hi, Hj. rewrite <- E. now apply SAME. }
      split; auto.
      - exact (i_before I).
      - apply NoDup_Permutation; [exact (i_nodup I)|apply seq_NoDup|]. intro c. rewrite in_seq. pose proof sorted_len as SL. split.
        + intro Hc. apply (i_gone I) in Hc as [H1 H3]. assert (c <> 2 * n - 2)%nat by (intros ->; auto). lia.
        + intro Hc. destruct (i_all I (c := c)) as [G|G]; [lia|auto|]. apply ALL in G. lia.
      - intros r E. destruct (i_count I E) as (L1 & G1 & C). destruct (i_leaves I TOP) as (L2 & G2 & P2). replace (n + (n - 2))%nat with (2 * n - 2)%nat in G1 by lia.
        assert (L1 = L2) by exact (leaves_unique G1 G2).
        subst L2. rewrite C, (Permutation_length P2). rewrite (@filter_ext_in _ _ (fun _ => true)).
        + transitivity (length (seq 0 n)); [|apply seq_length]. f_equal. clear. induction (seq 0 n) as [|x l IH]; auto. cbn [filter]. now rewrite IH.
        + intros i Hi. apply in_seq in Hi. apply Nat.eqb_eq, ALL, nth_In. rewrite (i_len I). lia.
    Qed.
    Lemma leaves_prefix m c L : leaves n (firstn m (map fst out)) c L -> leaves n (map fst out) c L.
    Proof. intro H. rewrite <- (firstn_skipn m (map fst out)). now apply leaves_mono. Qed.

    (** the clusters are the connected components *)
    Lemma clusters_linked t i j : (i < n)%nat -> (j < n)%nat -> i <> j ->
      (linked n t i j <-> exists k lk w L, nth_error out k = Some (lk, w) /\ le w t /\ leaves n (map fst out) (n + k) L /\ In i L /\ In j L).
    Proof.
      intros Hi Hj Hne. destruct out_stages as (p & P & LR & PL & ST).
      assert (WK : forall k lk w, nth_error out k = Some (lk, w) -> exists r, nth_error sorted k = Some r /\ snd r = w).
      { intros k lk w E. assert (E' : nth_error (map snd out) k = Some w) by (now rewrite nth_error_map, E). rewrite out_dists, nth_error_map in E'.
        destruct (nth_error sorted k) as [r|] eqn:Er; [|discriminate]. exists r. split; auto. cbn in E'. congruence. }
      split.
      - intro H. (* the rows up to the threshold come first *)
        set (m := length (filter (fun r : nat * nat * D => negb (lt t (snd r))) sorted)).
        assert (SP : forall r, In r (firstn m sorted) <-> In r sorted /\ le (snd r) t).
        { unfold m. assert (S := row_sort_sorted rows). fold sorted in S. clear - S le_trans. induction S as [|x l Hs IH Hf]; [cbn; tauto|]. intro r. cbn [filter]. rewrite Forall_forall in Hf. destruct (lt t (snd x)) eqn:E; cbn [negb].
          - assert (Z : filter (fun r : nat * nat * D => negb (lt t (snd r))) l = []).
            { assert (Z : forall y, In y l -> negb (lt t (snd y)) = false).
              { intros y Hy. apply Bool.negb_false_iff. destruct (lt t (snd y)) eqn:E2; auto. rewrite (le_trans (Hf y Hy) E2) in E. discriminate. }
              clear - Z. induction l as [|y l IH]; auto. cbn [filter]. rewrite (Z y (or_introl eq_refl)). apply IH. intros; apply Z; now right. }
            rewrite Z. cbn [length firstn]. split; [intros []|]. intros [[<-|Hr] Hle]; [congruence|]. rewrite (le_trans (Hf r Hr) Hle) in E. discriminate.
          - cbn [length firstn]. cbn [In]. rewrite IH. split; [intros [<-|[H1 H2]]; auto|]. intros [[<-|H1] H2]; auto. }
        assert (Hm : (m <= n - 1)%nat) by (unfold m; rewrite <- sorted_len; clear; induction sorted as [|x l IH]; cbn [filter length]; [lia|]; destruct (negb (lt t (snd x))); cbn [length]; lia).
        destruct (ST m Hm) as (root & I).
        assert (SAME : nth i root 0%nat = nth j root 0%nat).
        { assert (G : forall i j a b, linked n t i j -> nth_error p a = Some i -> nth_error p b = Some j -> (a <= b)%nat -> nth i root 0%nat = nth j root 0%nat).
          { intros i' j' a b Hl Ea Eb Hab. apply (i_same I Hab Ea Eb). intros k r Hk Er. apply SP. split.
            - apply (Permutation_in _ (Permutation_sym (row_sort_perm rows))). exact (nth_error_In _ _ Er).
            - exact (proj1 (PL t a b i' j' Hab Ea Eb) Hl k r Hk Er). }
          destruct (p_at P Hi) as (a & _ & Ea). destruct (p_at P Hj) as (b & _ & Eb). destruct (Nat.le_ge_cases a b) as [Hab|Hab]; [now apply (G i j a b)|].
          symmetry. apply (G j i b a); auto. now apply linked_sym. }
        set (c := nth i root 0%nat) in *. assert (Ic : In c root) by (apply nth_In; rewrite (i_len I); exact Hi). destruct (i_leaves I Ic) as (L & HL & PL').
        assert (IL : forall x, (x < n)%nat -> nth x root 0%nat = c -> In x L) by (intros x Hx E; apply (Permutation_in _ (Permutation_sym PL')), filter_In; split; [apply in_seq; lia|now apply Nat.eqb_eq]).
        pose proof (IL i Hi eq_refl) as Ii. pose proof (IL j Hj (eq_sym SAME)) as Ij. destruct (Nat.lt_ge_cases c n) as [Hc|Hc].
        + exfalso. assert (L = [c]) by (apply (leaves_unique HL); now constructor). subst L. destruct Ii as [Ii|[]], Ij as [Ij|[]]. congruence.
        + pose proof (i_bound I Ic) as Bc. rewrite firstn_length, sorted_len in Bc. exists (c - n)%nat.
          destruct (nth_error out (c - n)) as [[lk w]|] eqn:Eo; [|apply nth_error_None in Eo; rewrite out_len in Eo; lia]. exists lk, w, L. split; auto. split; [|split; [|auto]].
          * destruct (WK _ _ _ Eo) as (r & Er & <-). apply (SP r). apply nth_error_In with (c - n)%nat. rewrite nth_error_firstn_lt by lia. exact Er.
          * replace (n + (c - n))%nat with c by lia. exact (leaves_prefix HL).
      - intros (k & lk & w & L & Eo & Hw & HL & Ii & Ij). assert (Hk : (k < n - 1)%nat) by (rewrite <- out_len; apply nth_error_Some; congruence).
        destruct (WK _ _ _ Eo) as (rk & Erk & Ewk). destruct (ST (S k) ltac:(lia)) as (root & I).
        assert (LD : length (firstn (S k) sorted) = S k) by (rewrite firstn_length, sorted_len; lia).
        assert (Ic : In (n + k)%nat root).
        { destruct (i_all I (c := (n + k)%nat)) as [G|G]; auto; [rewrite LD; lia|]. exfalso. apply in_flat_map in G as (r & Hr & Hc). apply In_nth_error in Hr as (k' & E).
          assert (k' < S k)%nat by (rewrite <- LD, <- (i_lm I); apply nth_error_Some; congruence). apply (i_before I) in E. cbn in Hc. lia. }
        destruct (i_leaves I Ic) as (L' & HL' & P'). assert (L = L') by exact (leaves_unique HL (leaves_prefix HL')). subst L'.
        assert (RT : forall x, In x L -> nth x root 0%nat = (n + k)%nat) by (intros x Hx; apply (Permutation_in _ P'), filter_In in Hx as [_ Hx]; now apply Nat.eqb_eq).
        assert (G : forall i j a b, nth_error p a = Some i -> nth_error p b = Some j -> (a <= b)%nat -> nth i root 0%nat = nth j root 0%nat -> linked n t i j).
        { intros i' j' a b Ea Eb Hab E. apply (PL t a b i' j' Hab Ea Eb). intros k' r Hk' Er. pose proof (proj1 (i_same I Hab Ea Eb) E k' r Hk' Er) as Hin.
          apply In_nth_error in Hin as (q & Eq). assert (q < S k)%nat by (rewrite <- LD; apply nth_error_Some; congruence). rewrite nth_error_firstn_lt in Eq by auto.
          apply le_trans with w; auto. rewrite <- Ewk. apply (sorted_nth (row_sort_sorted rows) (i := q) (j := k)); auto. lia. }
        assert (E : nth i root 0%nat = nth j root 0%nat) by (now rewrite !RT). destruct (p_at P Hi) as (a & _ & Ea). destruct (p_at P Hj) as (b & _ & Eb).
        destruct (Nat.le_ge_cases a b) as [Hab|Hab]; [now apply (G i j a b)|]. apply linked_sym. apply (G j i b a); auto.
    Qed.
  End Result.
End Order.
