(** C161: which order of the columns the ETF trick relies on. *)
From Verif Require Import Py BasketModel BasketSpec BasketProofs EtfProofs BasketColsModel.
From Coq Require Import Lia.
Set Implicit Arguments.
Unset Strict Implicit.
Open Scope Qc_scope.

Lemma same_labels_iff a b : same_labels a b = true <-> a = b.
Proof.
  revert b. induction a as [|x a IH]; intros [|y b]; cbn; split; try congruence.
  - intro H. apply andb_prop in H as [E H]. apply Z.eqb_eq in E. apply IH in H. congruence.
  - intros [= -> ->]. rewrite Z.eqb_refl. now apply IH.
Qed.
Lemma same_labels_refl a : same_labels a a = true. Proof. now apply same_labels_iff. Qed.
Lemma joined_same a : joined a a = Some a. Proof. unfold joined. now rewrite same_labels_refl. Qed.
Lemma arrange_same a r : arrange a r a = r. Proof. unfold arrange. now rewrite same_labels_refl. Qed.

(** ** Equal columns: everything is by position *)
Lemma buy_labelled_same a w p f v : buy_labelled a a a w p f v = buy w p f v.
Proof. unfold buy_labelled. rewrite !joined_same, !arrange_same. reflexivity. Qed.
Lemma etf_loop_same cols rb bars : forall t prev V h,
  etf_loop_labelled (EtfCols cols cols cols cols cols cols) rb t prev V h bars = etf_loop rb t prev V h bars.
Proof.
  induction bars as [|b rest IH]; intros t prev V h; [reflexivity|].
  cbn [etf_loop_labelled etf_loop c_w c_open c_close c_fx]. unfold net_val_change_labelled. rewrite joined_same, !arrange_same.
  unfold net_val_change. destruct rest as [|next rest'].
  - now rewrite IH.
  - rewrite buy_labelled_same. destruct (existsb (Nat.eqb t) rb).
    + destruct (buy _ _ _ _); [now rewrite IH|reflexivity].
    + now rewrite IH.
Qed.
(** When the six frames list the instruments in one order, whichever, the labels play no part. *)
Theorem c161_equal_columns cols bars rb :
  basket_to_etf_labelled (EtfCols cols cols cols cols cols cols) bars rb = basket_to_etf bars rb.
Proof.
  destruct bars as [|b rest]; [reflexivity|]. cbn [basket_to_etf_labelled basket_to_etf c_w c_close c_fx].
  rewrite buy_labelled_same. destruct (buy _ _ _ _); [|reflexivity]. now rewrite etf_loop_same.
Qed.
Print Assumptions c161_equal_columns.

(** ** The order itself does not matter *)
Definition pick {A} (d : A) (p : list nat) (r : list A) : list A := map (fun i => nth i r d) p.
Definition pick_bar (p : list nat) (b : etf_bar) : etf_bar :=
  EtfBar (pick 0 p (e_w b)) (pick 0 p (e_open b)) (pick 0 p (e_close b)) (pick 0 p (e_fx b)) (pick 0 p (e_vol b)) (pick 0 p (e_div b)).

Section Pick.
  Variables (n : nat) (p : list nat).
  Hypothesis P : Permutation p (seq 0 n).
  Lemma pick_in i : In i p -> (i < n)%nat.
  Proof. intro H. apply (Permutation_in _ P), in_seq in H. lia. Qed.
  Lemma pick_map2 A B C (f : A -> B -> C) da db dc r s : length r = n -> length s = n ->
    map2 f (pick da p r) (pick db p s) = pick dc p (map2 f r s).
  Proof.
    intros Hr Hs. unfold pick. assert (L : forall i, In i p -> (i < n)%nat) by exact pick_in. clear P.
    induction p as [|i q IH]; [reflexivity|]. cbn [map]. rewrite map2_cons, IH; [|intros; apply L; now right]. f_equal.
    rewrite (@nth_indep _ (map2 f r s) i dc (f da db)); [|rewrite (@map2_len _ _ _ f r s n) by auto; apply L; now left].
    unfold map2. change (f da db) with ((fun p => f (fst p) (snd p)) (da, db)). rewrite map_nth, combine_nth by congruence. reflexivity.
  Qed.
  Lemma pick_map A B (f : A -> B) da db r : length r = n -> map f (pick da p r) = pick db p (map f r).
  Proof.
    intro Hr. unfold pick. rewrite map_map. apply map_ext_in. intros i Hi.
    rewrite (@nth_indep _ (map f r) i db (f da)); [now rewrite map_nth|rewrite map_length, Hr; now apply pick_in].
  Qed.
  Lemma pick_perm A (d : A) r : length r = n -> Permutation (pick d p r) r.
  Proof.
    intro Hr. transitivity (map (fun i => nth i r d) (seq 0 n)); [now apply Permutation_map|].
    replace (map (fun i => nth i r d) (seq 0 n)) with r; [reflexivity|].
    rewrite <- (map_id r) at 1. exact (@map_seq_nth _ _ (fun x => x) r d n Hr).
  Qed.
  Lemma pick_length A (d : A) r : length (pick d p r) = n.
  Proof. unfold pick. rewrite map_length, (Permutation_length P). apply seq_length. Qed.
  Lemma existsb_perm A (f : A -> bool) l l' : Permutation l l' -> existsb f l = existsb f l'.
  Proof. induction 1; cbn; [reflexivity|congruence|destruct (f x), (f y); reflexivity|congruence]. Qed.
  Lemma pick_buy w pr fx v : length w = n -> length pr = n -> length fx = n ->
    buy (pick 0 p w) (pick 0 p pr) (pick 0 p fx) v = option_map (pick 0 p) (buy w pr fx v).
  Proof.
    intros Hw Hp Hf. unfold buy. rewrite (@pick_map2 _ _ _ Qcmult 0 0 0 pr fx Hp Hf).
    assert (S : sum_abs (pick 0 p w) = sum_abs w) by (unfold sum_abs; apply qsum_perm, Permutation_map, pick_perm, Hw).
    rewrite S. destruct (qeq (sum_abs w) 0); [reflexivity|].
    assert (Lm : length (map2 Qcmult pr fx) = n) by now apply map2_len.
    rewrite (@existsb_perm _ _ _ _ (@pick_perm _ 0 _ Lm)). destruct (existsb _ _); [reflexivity|].
    cbn [option_map]. f_equal. rewrite (@pick_map _ _ _ 0 0 w Hw). apply pick_map2; [now rewrite map_length|exact Lm].
  Qed.
  Lemma pick_net after b b' : shaped n b -> shaped n b' ->
    net_val_change after (pick_bar p b) (pick_bar p b') = pick 0 p (net_val_change after b b').
  Proof.
    intros (_ & O & C & _ & _ & D) (_ & O' & C' & _ & _ & D'). unfold net_val_change. cbn [e_open e_close e_div pick_bar].
    destruct after; rewrite (@pick_map2 _ _ _ Qcminus 0 0 0) by auto; apply pick_map2; auto; now apply map2_len.
  Qed.
  Lemma pick_loop rb bars : forall t prev V h, shaped n prev -> Forall (shaped n) bars -> length h = n ->
    etf_loop rb t (pick_bar p prev) V (pick 0 p h) (map (pick_bar p) bars) =
    option_map (map (fun Vh => (fst Vh, pick 0 p (snd Vh)))) (etf_loop rb t prev V h bars) /\
    (forall r, etf_loop rb t prev V h bars = Some r -> Forall (fun Vh => length (snd Vh) = n) r).
  Proof.
    induction bars as [|b rest IH]; intros t prev V h Hp Hb Hh; [split; [reflexivity|now intros r [= <-]]|].
    pose proof (Forall_inv Hb) as B1. pose proof (Forall_inv_tail Hb) as B2. cbn [map etf_loop].
    assert (E : V + qsum (map2 Qcmult (map2 Qcmult (pick 0 p h) (net_val_change (existsb (fun r => (r + 1 =? t)%nat) rb) (pick_bar p prev) (pick_bar p b))) (e_fx (pick_bar p b))) =
                V + qsum (map2 Qcmult (map2 Qcmult h (net_val_change (existsb (fun r => (r + 1 =? t)%nat) rb) prev b)) (e_fx b))).
    { f_equal. assert (Ln : length (net_val_change (existsb (fun r => (r + 1 =? t)%nat) rb) prev b) = n).
      { destruct Hp as (_ & _ & C & _), B1 as (_ & O' & C' & _ & _ & D'). unfold net_val_change.
        destruct (existsb _ rb); repeat (apply map2_len; auto). }
      rewrite pick_net by auto. rewrite (@pick_map2 _ _ _ Qcmult 0 0 0) by auto. cbn [e_fx pick_bar].
      destruct B1 as (_ & _ & _ & F & _). rewrite (@pick_map2 _ _ _ Qcmult 0 0 0) by (auto; now apply map2_len).
      apply qsum_perm, pick_perm. repeat (apply map2_len; auto). }
    rewrite E. set (V' := V + qsum _). clearbody V'. clear E.
    assert (K : exists oh, (match rest with next :: _ => if existsb (Nat.eqb t) rb then buy (e_w b) (e_open next) (e_fx b) V' else Some h | [] => Some h end) = oh /\
       (match map (pick_bar p) rest with next :: _ => if existsb (Nat.eqb t) rb then buy (e_w (pick_bar p b)) (e_open next) (e_fx (pick_bar p b)) V' else Some (pick 0 p h) | [] => Some (pick 0 p h) end) = option_map (pick 0 p) oh /\
       forall h', oh = Some h' -> length h' = n).
    { eexists. split; [reflexivity|]. destruct rest as [|next rest']; [split; [reflexivity|now intros h' [= <-]]|].
      cbn [map]. destruct (existsb _ rb); [|split; [reflexivity|now intros h' [= <-]]].
      pose proof (Forall_inv B2) as N1. destruct B1 as (W & _ & _ & F & _), N1 as (_ & O & _). split.
      - cbn [e_w e_open e_fx pick_bar]. now apply pick_buy.
      - intros h' Hh'. now apply (@buy_length n (e_w b) (e_open next) (e_fx b) V'). }
    destruct K as (oh & -> & -> & Lh). destruct oh as [h'|]; [|split; [reflexivity|discriminate]]. cbn [option_map].
    specialize (Lh h' eq_refl). destruct (@IH (S t) b V' h' B1 B2 Lh) as [I1 I2]. rewrite I1.
    destruct (etf_loop rb (S t) b V' h' rest) as [r|]; [|split; [reflexivity|discriminate]]. cbn [option_map map fst snd].
    split; [reflexivity|]. intros r' [= <-]. constructor; [exact Lh|now apply I2].
  Qed.
  Lemma xmin_comm a b : xmin a b = xmin b a.
  Proof. destruct a, b; cbn; try reflexivity. f_equal. unfold qmin. repeat qcase; try reflexivity; qlra. Qed.
  Lemma xmin_assoc a b c : xmin (xmin a b) c = xmin a (xmin b c).
  Proof.
    destruct a as [x| | |], b as [y| | |], c as [z| | |]; cbn; try reflexivity. f_equal.
    pose proof (qmin_l x y). pose proof (qmin_r x y). pose proof (qmin_l y z). pose proof (qmin_r y z).
    pose proof (qmin_l (qmin x y) z). pose proof (qmin_r (qmin x y) z). pose proof (qmin_l x (qmin y z)). pose proof (qmin_r x (qmin y z)).
    apply Qcle_antisym; repeat apply qmin_glb; qlra.
  Qed.
  Lemma fold_xmin_perm l l' : Permutation l l' -> forall a, fold_left xmin l a = fold_left xmin l' a.
  Proof.
    induction 1; intro a; cbn; [reflexivity|auto| |now rewrite IHPermutation1, IHPermutation2].
    f_equal. now rewrite !xmin_assoc, (xmin_comm y x).
  Qed.
  Lemma pick_volume vol h : length vol = n -> length h = n -> etf_volume (pick 0 p vol) (pick 0 p h) = etf_volume vol h.
  Proof.
    intros Hv Hh. unfold etf_volume. rewrite (@pick_map2 _ _ _ _ 0 0 NaN) by auto.
    apply fold_xmin_perm, pick_perm. now apply map2_len.
  Qed.
  Lemma pick_etf bars rb : Forall (shaped n) bars -> basket_to_etf (map (pick_bar p) bars) rb = basket_to_etf bars rb.
  Proof.
    intro H. destruct bars as [|b rest]; [reflexivity|]. pose proof (Forall_inv H) as B1. pose proof (Forall_inv_tail H) as B2. cbn [map basket_to_etf].
    assert (S1 := B1). destruct S1 as (W & _ & C & F & _). cbn [e_w e_close e_fx pick_bar]. rewrite pick_buy by auto.
    destruct (buy (e_w b) (e_close b) (e_fx b) 1) as [h0|] eqn:E0; [|reflexivity]. cbn [option_map].
    assert (Lh : length h0 = n) by now apply (@buy_length n (e_w b) (e_close b) (e_fx b) 1).
    destruct (@pick_loop rb rest 1%nat b 1 h0 B1 B2 Lh) as [I1 I2]. rewrite I1.
    destruct (etf_loop rb 1 b 1 h0 rest) as [r|]; [|reflexivity]. cbn [option_map]. f_equal. specialize (I2 r eq_refl).
    rewrite !map2_cons. cbn [fst snd]. f_equal; [f_equal; apply pick_volume; auto; apply B1|].
    clear I1 E0 H. revert r I2. induction B2 as [|x l Hx Hl IH]; intros [|[V h'] r] I2; try reflexivity.
    cbn [map fst snd]. rewrite !map2_cons. pose proof (Forall_inv I2) as J1. pose proof (Forall_inv_tail I2) as J2. cbn [fst snd] in *. f_equal; [f_equal|now apply IH].
    apply pick_volume; auto. apply Hx.
  Qed.
End Pick.

(** Listing the instruments of all six frames in another common order leaves values and volumes as they are. *)
Theorem c161_common_order n p cols bars rb : Permutation p (seq 0 n) -> Forall (shaped n) bars ->
  basket_to_etf_labelled (EtfCols cols cols cols cols cols cols) (map (pick_bar p) bars) rb =
  basket_to_etf_labelled (EtfCols cols cols cols cols cols cols) bars rb.
Proof. intros P H. rewrite !c161_equal_columns. now apply pick_etf with (n := n). Qed.
Print Assumptions c161_common_order.

(** ** Columns in different orders *)
Lemma insert_label_perm x l : Permutation (insert_label x l) (x :: l).
Proof. induction l as [|y l IH]; cbn; [reflexivity|]. destruct (x <=? y)%Z; [reflexivity|]. rewrite IH. apply perm_swap. Qed.
Lemma sort_labels_perm l : Permutation (sort_labels l) l.
Proof. induction l as [|x l IH]; cbn; [reflexivity|]. rewrite insert_label_perm. now constructor. Qed.
Lemma insert_label_sorted x l : StronglySorted Z.le l -> StronglySorted Z.le (insert_label x l).
Proof.
  induction 1 as [|y l Hl IH Hy]; cbn; [repeat constructor|]. destruct (Z.leb_spec x y) as [L|L].
  - constructor; [now constructor|]. constructor; [lia|]. rewrite Forall_forall in Hy |- *. intros z Hz. specialize (Hy z Hz). lia.
  - constructor; [exact IH|]. rewrite Forall_forall in Hy |- *. intros z Hz.
    apply (Permutation_in _ (insert_label_perm x l)) in Hz as [<-|Hz]; [lia|auto].
Qed.
Lemma sort_labels_sorted l : StronglySorted Z.le (sort_labels l).
Proof. induction l; cbn; [constructor|now apply insert_label_sorted]. Qed.
Lemma sorted_unique l l' : StronglySorted Z.le l -> StronglySorted Z.le l' -> Permutation l l' -> l = l'.
Proof.
  intro H. revert l'. induction H as [|x l Hl IH Hx]; intros l' H' P; [now apply Permutation_nil in P|].
  destruct H' as [|y l' Hl' Hy]; [now apply Permutation_sym, Permutation_nil in P|].
  assert (x = y).
  { rewrite Forall_forall in Hx, Hy. assert (I : In x (y :: l')) by (apply (Permutation_in _ P); now left).
    assert (J : In y (x :: l)) by (apply (Permutation_in _ (Permutation_sym P)); now left).
    destruct I as [->|I]; [reflexivity|]. destruct J as [->|J]; [reflexivity|]. specialize (Hx _ J). specialize (Hy _ I). lia. }
  subst y. f_equal. apply IH; [exact Hl'|]. now apply Permutation_cons_inv in P.
Qed.
Lemma distinct_labels_true l : NoDup l -> distinct_labels l = true.
Proof.
  induction 1 as [|x l Hx Hl IH]; [reflexivity|]. cbn. rewrite IH. destruct (existsb (Z.eqb x) l) eqn:E; [|reflexivity].
  apply existsb_exists in E as (y & I & Q). apply Z.eqb_eq in Q. congruence.
Qed.
Lemma lt_sorted_le l : StronglySorted Z.lt l -> StronglySorted Z.le l /\ NoDup l.
Proof.
  induction 1 as [|x l Hl [I1 I2] Hx]; [split; constructor|]. rewrite Forall_forall in Hx. split; constructor; auto.
  - rewrite Forall_forall. intros y Hy. specialize (Hx y Hy). lia.
  - intro I. specialize (Hx x I). lia.
Qed.
Lemma sort_labels_of l cols : StronglySorted Z.lt cols -> Permutation l cols -> sort_labels l = cols.
Proof.
  intros H P. apply sorted_unique; [apply sort_labels_sorted|now apply lt_sorted_le|]. rewrite sort_labels_perm. exact P.
Qed.
Lemma entry_map f cols r l : length r = length cols -> In l cols -> entry cols (map f r) l = f (entry cols r l).
Proof.
  revert r. induction cols as [|c cols IH]; intros r L I; [destruct I|]. destruct r as [|x r]; [discriminate|]. cbn.
  destruct (Z.eqb_spec c l) as [->|N]; [reflexivity|]. destruct I as [->|I]; [congruence|]. apply IH; [now injection L|exact I].
Qed.
Lemma entry_all cols r : NoDup cols -> length r = length cols -> map (entry cols r) cols = r.
Proof.
  intro N. revert r. induction N as [|c cols Hc N IH]; intros r L; [destruct r; [reflexivity|discriminate]|].
  destruct r as [|x r]; [discriminate|]. cbn [map entry]. rewrite Z.eqb_refl. f_equal. injection L as L.
  transitivity (map (entry cols r) cols); [|exact (IH r L)]. apply map_ext_in. intros l Hl. cbn [entry]. destruct (Z.eqb_spec c l) as [->|_]; [contradiction|reflexivity].
Qed.

(** row [r'] under the labels [cols'] says the same as row [r] under the labels [cols] *)
Definition same_row (cols cols' : list Z) (r r' : list Qc) : Prop :=
  length r = length cols /\ length r' = length cols' /\ forall l, In l cols -> entry cols' r' l = entry cols r l.

Lemma same_row_perm cols cols' r r' : NoDup cols -> Permutation cols' cols -> same_row cols cols' r r' -> Permutation r' r.
Proof.
  intros N P (L & L' & E). assert (N' : NoDup cols') by (eapply Permutation_NoDup; [apply Permutation_sym, P|exact N]).
  rewrite <- (entry_all N L), <- (entry_all N' L'). rewrite <- (map_ext_in _ _ _ E). now apply Permutation_map.
Qed.
Lemma joined_sorted wc cols : StronglySorted Z.lt cols -> Permutation wc cols -> joined wc cols = Some cols.
Proof.
  intros H P. unfold joined. destruct (same_labels wc cols) eqn:S; [apply same_labels_iff in S; congruence|].
  destruct (lt_sorted_le H) as [_ N]. assert (N' : NoDup wc) by (eapply Permutation_NoDup; [apply Permutation_sym, P|exact N]).
  rewrite (distinct_labels_true N), (distinct_labels_true N'), (sort_labels_of H P), (sort_labels_of H (Permutation_refl _)), same_labels_refl.
  reflexivity.
Qed.
Lemma arrange_map f wc cols w w' : StronglySorted Z.lt cols -> Permutation wc cols -> same_row cols wc w w' ->
  arrange wc (map f w') cols = map f w.
Proof.
  intros H P R. destruct (lt_sorted_le H) as [_ N]. destruct R as (L & L' & E). unfold arrange.
  destruct (same_labels wc cols) eqn:S.
  - apply same_labels_iff in S. subst wc. f_equal. rewrite <- (entry_all N L), <- (entry_all N L'). now apply map_ext_in.
  - rewrite <- (entry_all N L). rewrite map_map. apply map_ext_in. intros l Hl. rewrite entry_map; auto; [now rewrite E|].
    apply (Permutation_in _ (Permutation_sym P)), Hl.
Qed.
Lemma arrange_row wc cols w w' : StronglySorted Z.lt cols -> Permutation wc cols -> same_row cols wc w w' -> arrange wc w' cols = w.
Proof. intros H P R. rewrite <- (map_id w'), <- (map_id w). now apply (@arrange_map (fun x => x)). Qed.
Lemma buy_any wc pc cols w w' p p' f v : StronglySorted Z.lt cols -> Permutation wc cols -> Permutation pc cols ->
  same_row cols wc w w' -> same_row cols pc p p' -> buy_labelled wc pc cols w' p' f v = buy w p f v.
Proof.
  intros H P P' R R'. unfold buy_labelled, buy. rewrite !joined_sorted, !arrange_same, (@arrange_row pc cols p p' H P' R') by auto.
  assert (S : sum_abs w' = sum_abs w).
  { apply qsum_perm, Permutation_map. apply (same_row_perm (proj2 (lt_sorted_le H)) P R). }
  rewrite S. destruct (qeq (sum_abs w) 0); [reflexivity|]. destruct (existsb _ _); [reflexivity|].
  now rewrite (@arrange_map _ wc cols w w' H P R).
Qed.
Lemma joined_sorted_r cols oc : StronglySorted Z.lt cols -> Permutation oc cols -> joined cols oc = Some cols.
Proof.
  intros H P. unfold joined. destruct (same_labels cols oc) eqn:S; [reflexivity|].
  destruct (lt_sorted_le H) as [_ N]. assert (N' : NoDup oc) by (eapply Permutation_NoDup; [apply Permutation_sym, P|exact N]).
  rewrite (distinct_labels_true N), (distinct_labels_true N'), (sort_labels_of H P), (sort_labels_of H (Permutation_refl _)), same_labels_refl.
  reflexivity.
Qed.

(** bars [b] and [b'] agree but for the column order of their weights and open prices *)
Definition reordered (cols wc oc : list Z) (b b' : etf_bar) : Prop :=
  same_row cols wc (e_w b) (e_w b') /\ same_row cols oc (e_open b) (e_open b') /\ length (e_close b) = length cols /\
  e_close b' = e_close b /\ e_fx b' = e_fx b /\ e_vol b' = e_vol b /\ e_div b' = e_div b.

Lemma same_row_refl cols r : length r = length cols -> same_row cols cols r r.
Proof. now repeat split. Qed.
Lemma loop_any cols wc oc rb : StronglySorted Z.lt cols -> Permutation wc cols -> Permutation oc cols ->
  forall bars bars', Forall2 (reordered cols wc oc) bars bars' ->
  forall t prev prev' V h, e_close prev' = e_close prev ->
  etf_loop_labelled (EtfCols wc oc cols cols cols cols) rb t prev' V h bars' = etf_loop rb t prev V h bars.
Proof.
  intros H P P'. induction 1 as [|b b' bars bars' B F IH]; intros t prev prev' V h Ep; [reflexivity|].
  cbn [etf_loop_labelled etf_loop c_w c_open c_close c_fx]. unfold net_val_change_labelled. rewrite joined_sorted_r, arrange_same by auto.
  destruct B as (R & Ro & Lc & Ec & Ef & Ev & Ed). unfold net_val_change. rewrite (@arrange_row oc cols (e_open b) (e_open b') H P' Ro), Ec, Ef, Ed, Ep.
  set (V' := V + qsum _). clearbody V'. destruct F as [|x x' l l' X F].
  - now rewrite (IH (S t) b b' V' h Ec).
  - destruct X as (Rx & Xo & Xr). rewrite (@buy_any wc oc cols (e_w b) (e_w b') (e_open x) (e_open x')) by auto.
    destruct (existsb (Nat.eqb t) rb).
    + destruct (buy _ _ _ _) as [h'|]; [|reflexivity]. now rewrite (IH (S t) b b' V' h' Ec).
    + now rewrite (IH (S t) b b' V' h Ec).
Qed.
(** The weights and the open prices may list the instruments in any order as long as the other four frames list them in ascending
    order of their labels. *)
Theorem c161_weights_and_opens_any_order cols wc oc bars bars' rb : StronglySorted Z.lt cols -> Permutation wc cols -> Permutation oc cols ->
  Forall2 (reordered cols wc oc) bars bars' ->
  basket_to_etf_labelled (EtfCols wc oc cols cols cols cols) bars' rb = basket_to_etf bars rb.
Proof.
  intros H P P' F. destruct F as [|b b' bars bars' B F]; [reflexivity|]. cbn [basket_to_etf_labelled basket_to_etf c_w c_close c_fx].
  assert (B0 := B). destruct B0 as (R & Ro & Lc & Ec & Ef & Ev & Ed). rewrite Ef, Ec.
  rewrite (@buy_any wc cols cols (e_w b) (e_w b') (e_close b) (e_close b)) by (auto; now apply same_row_refl).
  destruct (buy _ _ _ _) as [h0|]; [|reflexivity]. rewrite (@loop_any cols wc oc rb H P P' bars bars' F 1%nat b b' 1 h0 Ec).
  destruct (etf_loop rb 1 b 1 h0 bars) as [r|]; [|reflexivity]. f_equal. rewrite !map2_cons, Ev. f_equal.
  clear -F. revert r. induction F as [|x x' l l' X F IH]; intros [|y r]; try reflexivity. rewrite !map2_cons, IH.
  destruct X as (_ & _ & _ & _ & _ & -> & _). reflexivity.
Qed.
Print Assumptions c161_weights_and_opens_any_order.

(** two sets of frames with the same numbers under the same labels *)
Definition same_frames (c c' : etf_cols) (bars bars' : list etf_bar) : Prop :=
  Permutation (c_w c') (c_w c) /\ Permutation (c_open c') (c_open c) /\ Permutation (c_close c') (c_close c) /\
  Permutation (c_fx c') (c_fx c) /\ Permutation (c_vol c') (c_vol c) /\ Permutation (c_div c') (c_div c) /\
  Forall2 (fun b b' => same_row (c_w c) (c_w c') (e_w b) (e_w b') /\ same_row (c_open c) (c_open c') (e_open b) (e_open b') /\
    same_row (c_close c) (c_close c') (e_close b) (e_close b') /\ same_row (c_fx c) (c_fx c') (e_fx b) (e_fx b') /\
    same_row (c_vol c) (c_vol c') (e_vol b) (e_vol b') /\ same_row (c_div c) (c_div c') (e_div b) (e_div b')) bars bars'.

(** the same numbers under the same labels, another result *)
Definition order_matters (c c' : etf_cols) : Prop :=
  exists bars bars' rb out out', same_frames c c' bars bars' /\
    basket_to_etf_labelled c bars rb = Some out /\ basket_to_etf_labelled c' bars' rb = Some out' /\ out <> out'.

Definition ex_row (close1 close2 fx1 fx2 vol1 vol2 div1 div2 : Z) : etf_bar :=
  EtfBar [qz 3; qz 1] [qz 10; qz 10] [qz close1; qz close2] [qz fx1; qz fx2] [qz vol1; qz vol2] [qz div1; qz div2].
Ltac same_row_ex := split; [reflexivity|split; [reflexivity|]]; intros l [<-|[<-|[]]]; reflexivity.
Ltac same_frames_ex := do 6 (split; [cbn; first [apply perm_swap | reflexivity]|]); repeat (constructor; [repeat (split; [same_row_ex|]); same_row_ex|]); constructor.
Ltac order_ex := split; [same_frames_ex|]; split; [vm_compute; reflexivity|]; split; [vm_compute; reflexivity|]; intro E; inversion E.

(** REFUTED: "instruments are matched by their column labels".  Listing the closes, the exchange rates, the volumes or the dividends in
    another order than the other frames changes the basket without any error; so does listing the weights in another order when the
    other frames are not in ascending order of their labels. *)
Theorem c161_labels_refuted :
  let a := [1; 2]%Z in let b := [2; 1]%Z in
  order_matters (EtfCols a a a a a a) (EtfCols a a b a a a) /\ order_matters (EtfCols a a a a a a) (EtfCols a a a b a a) /\
  order_matters (EtfCols a a a a a a) (EtfCols a a a a b a) /\ order_matters (EtfCols a a a a a a) (EtfCols a a a a a b) /\
  order_matters (EtfCols b b b b b b) (EtfCols a b b b b b).
Proof.
  intros a b. unfold a, b. repeat split.
  - exists [ex_row 10 10 1 1 100 100 0 0; ex_row 12 10 1 1 100 100 0 0], [ex_row 10 10 1 1 100 100 0 0; ex_row 10 12 1 1 100 100 0 0], [].
    eexists. eexists. order_ex.
  - exists [ex_row 10 10 1 2 100 100 0 0; ex_row 12 10 1 2 100 100 0 0], [ex_row 10 10 2 1 100 100 0 0; ex_row 12 10 2 1 100 100 0 0], [].
    eexists. eexists. order_ex.
  - exists [ex_row 10 10 1 1 100 200 0 0], [ex_row 10 10 1 1 200 100 0 0], [].
    eexists. eexists. order_ex.
  - exists [ex_row 10 10 1 1 100 100 0 0; ex_row 12 10 1 1 100 100 1 0], [ex_row 10 10 1 1 100 100 0 0; ex_row 12 10 1 1 100 100 0 1], [].
    eexists. eexists. order_ex.
  - exists [ex_row 10 10 1 1 100 100 0 0; ex_row 12 10 1 1 100 100 0 0],
      [EtfBar [qz 1; qz 3] [qz 10; qz 10] [qz 10; qz 10] [1; 1] [qz 100; qz 100] [0; 0]; EtfBar [qz 1; qz 3] [qz 10; qz 10] [qz 12; qz 10] [1; 1] [qz 100; qz 100] [0; 0]], [].
    eexists. eexists. order_ex.
Qed.
Print Assumptions c161_labels_refuted.

(** A basket that rebalances, its weights listed in another order. *)
Example c161_ex :
  let bars := [ex_row 10 10 1 2 100 100 0 0; ex_row 12 10 1 2 100 300 1 0; ex_row 12 9 1 2 100 300 0 0] in
  let bars' := map (fun x => EtfBar (rev (e_w x)) (e_open x) (e_close x) (e_fx x) (e_vol x) (e_div x)) bars in
  Forall2 (reordered [1; 2]%Z [2; 1]%Z [1; 2]%Z) bars bars' /\ StronglySorted Z.lt [1; 2]%Z /\ Forall (shaped 2) bars /\ Permutation [1; 0]%nat (seq 0 2) /\
  exists out, basket_to_etf_labelled (EtfCols [2; 1]%Z [1; 2]%Z [1; 2]%Z [1; 2]%Z [1; 2]%Z [1; 2]%Z) bars' [1%nat] = Some out /\ map fst out <> [1; 1; 1].
Proof.
  intros bars bars'. split; [|split; [|split; [|split]]].
  - unfold bars', bars. cbn [map rev app e_w e_open e_close e_fx e_vol e_div ex_row].
    repeat (constructor; [split; [same_row_ex|]; split; [same_row_ex|]; repeat split|]); constructor.
  - repeat constructor.
  - repeat constructor.
  - apply perm_swap.
  - eexists. split; [vm_compute; reflexivity|]. intro E. inversion E.
Qed.
