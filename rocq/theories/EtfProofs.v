(** Lemmas about basket_to_etf. *)
From Verif Require Import Py BasketModel BasketSpec BasketProofs.
Set Implicit Arguments.
Unset Strict Implicit.
Open Scope Qc_scope.

Lemma map2_seq A B C (f : A -> B -> C) xs ys dx dy n : length xs = n -> length ys = n ->
  map2 f xs ys = map (fun i => f (nth i xs dx) (nth i ys dy)) (seq 0 n).
Proof.
  revert ys n. induction xs as [|x xs IH]; intros [|y ys] n Hx Hy; cbn [length] in *; subst n; try discriminate; auto.
  cbn [seq map nth]. rewrite map2_cons. f_equal. rewrite (IH ys (length xs)) by lia.
  rewrite <- seq_shift, map_map. reflexivity.
Qed.
Lemma map_seq_nth A B (f : A -> B) xs d n : length xs = n -> map f xs = map (fun i => f (nth i xs d)) (seq 0 n).
Proof.
  revert n. induction xs as [|x xs IH]; intros n H; cbn in *; subst n; auto.
  cbn [seq map nth]. f_equal. rewrite (IH (length xs)) by lia. rewrite <- seq_shift, map_map. reflexivity.
Qed.
Lemma nth_map_seq B (f : nat -> B) d n i : (i < n)%nat -> nth i (map f (seq 0 n)) d = f i.
Proof.
  intro H. rewrite nth_indep with (d' := f 0%nat) by now rewrite map_length, seq_length.
  rewrite map_nth, seq_nth; auto.
Qed.
Lemma at_map_seq (f : nat -> Qc) n i : (i < n)%nat -> at_ (map f (seq 0 n)) i = f i.
Proof. apply nth_map_seq. Qed.

Lemma map2_len A B C (f : A -> B -> C) xs ys n : length xs = n -> length ys = n -> length (map2 f xs ys) = n.
Proof. intros H1 H2. rewrite map2_length; lia. Qed.
Ltac len := repeat first [assumption | apply map2_len | (rewrite map_length) | lia].

Lemma sum_abs_over n w : length w = n -> sum_abs w = over n (fun j => qabs (at_ w j)).
Proof. intro H. unfold sum_abs, over. now rewrite (@map_seq_nth _ _ qabs w 0 n). Qed.

Lemma buy_spends n w price fx value h :
  length w = n -> length price = n -> length fx = n -> buy w price fx value = Some h ->
  spends n w (fun i => at_ price i * at_ fx i) value h /\ over n (fun j => qabs (at_ w j)) <> 0.
Proof.
  intros Hw Hp Hf. unfold buy. destruct (qeq_spec (sum_abs w) 0) as [|NZ]; [discriminate|].
  destruct (existsb _ _) eqn:E; [discriminate|]. intros [= <-].
  assert (Lc : length (map2 Qcmult price fx) = n) by (rewrite map2_length; lia).
  rewrite <- (sum_abs_over Hw). split; auto. unfold spends. rewrite <- (sum_abs_over Hw). split.
  - rewrite map2_length; rewrite map_length; lia.
  - intros i Hi.
    assert (Ci : at_ price i * at_ fx i <> 0).
    { intro C. assert (existsb (fun p => qeq p 0) (map2 Qcmult price fx) = true); [|congruence].
      apply existsb_exists. exists (at_ price i * at_ fx i). split.
      - apply nth_error_In with i. apply map2_nth; unfold at_; apply nth_error_nth'; lia.
      - now apply qeq_iff. }
    split; auto.
    rewrite (@map2_seq _ _ _ _ _ _ 0 0 n) by (rewrite ?map_length; lia). rewrite at_map_seq by auto.
    rewrite (@map2_seq _ _ _ _ _ _ 0 0 n), nth_map_seq by auto. fold (at_ price i) (at_ fx i).
    rewrite (@map_seq_nth _ _ _ w 0 n), nth_map_seq by auto. fold (at_ w i). field. repeat split; auto; intro C; apply Ci; rewrite C; ring.
Qed.

Lemma existsb_eqb t l : existsb (Nat.eqb t) l = true <-> In t l.
Proof.
  rewrite existsb_exists. split.
  - intros [x [H E]]. apply Nat.eqb_eq in E. now subst.
  - intro H. exists t. split; auto. apply Nat.eqb_refl.
Qed.
Lemma existsb_pred t l : existsb (fun r => (r + 1 =? t)%nat) l = true <-> (exists r, In r l /\ t = S r).
Proof.
  rewrite existsb_exists. split.
  - intros [x [H E]]. apply Nat.eqb_eq in E. exists x. split; auto. lia.
  - intros [x [H E]]. exists x. split; auto. apply Nat.eqb_eq. lia.
Qed.

Definition changes (after : Prop) (p b : etf_bar) (n : nat) (h : list Qc) (pnl : Qc) : Prop :=
  exists d, (forall i, (i < n)%nat -> unit_change after p b i (d i)) /\ pnl = over n (fun i => at_ h i * d i * at_ (e_fx b) i).

Lemma pnl_changes n rb t p b h : shaped n p -> shaped n b -> length h = n ->
  changes (exists r, In r rb /\ t = S r) p b n h
    (qsum (map2 Qcmult (map2 Qcmult h (net_val_change (existsb (fun r => (r + 1 =? t)%nat) rb) p b)) (e_fx b))).
Proof.
  intros [P1 [P2 [P3 [P4 [P5 P6]]]]] [B1 [B2 [B3 [B4 [B5 B6]]]]] Hh.
  set (net := net_val_change _ p b).
  assert (Ln : length net = n).
  { unfold net, net_val_change. destruct (existsb _ rb); rewrite !map2_length; rewrite ?map2_length; lia. }
  exists (at_ net). split.
  - intros i Hi. unfold unit_change, net, net_val_change.
    rewrite <- existsb_pred. destruct (existsb _ rb).
    + split; [|congruence]. intros _. rewrite (@map2_seq _ _ _ _ _ _ 0 0 n), at_map_seq by (rewrite ?map2_length; lia).
      rewrite (@map2_seq _ _ _ _ _ _ 0 0 n), nth_map_seq by lia. reflexivity.
    + split; [discriminate|]. intros _. rewrite (@map2_seq _ _ _ _ _ _ 0 0 n), at_map_seq by (rewrite ?map2_length; lia).
      rewrite (@map2_seq _ _ _ _ _ _ 0 0 n), nth_map_seq by lia. reflexivity.
  - rewrite (@map2_seq _ _ _ _ _ _ 0 0 n) by (rewrite ?map2_length; lia). unfold over. f_equal. apply map_ext_in.
    intros i Hi. apply in_seq in Hi. rewrite (@map2_seq _ _ _ _ _ _ 0 0 n), nth_map_seq by lia. reflexivity.
Qed.

Lemma etf_loop_spec n rb t prev V h bars r :
  shaped n prev -> (forall b, In b bars -> shaped n b) -> length h = n ->
  etf_loop rb t prev V h bars = Some r ->
  length r = length bars /\
  forall k p b Vp hp Vb hb,
    nth_error (prev :: bars) k = Some p -> nth_error bars k = Some b ->
    nth_error ((V, h) :: r) k = Some (Vp, hp) -> nth_error r k = Some (Vb, hb) ->
    length hb = n /\
    changes (exists q, In q rb /\ (t + k)%nat = S q) p b n hp (Vb - Vp) /\
    (forall nb, In (t + k)%nat rb -> nth_error bars (S k) = Some nb ->
       over n (fun j => qabs (at_ (e_w b) j)) <> 0 /\
       spends n (e_w b) (fun i => at_ (e_open nb) i * at_ (e_fx b) i) Vb hb) /\
    (~ In (t + k)%nat rb \/ nth_error bars (S k) = None -> hb = hp).
Proof.
  revert t prev V h r. induction bars as [|b0 bars IH]; intros t prev V h r Hp Hs Hh HL.
  - cbn in HL. inversion HL. split; auto. intros k; destruct k; discriminate.
  - cbn [etf_loop] in HL.
    set (V' := V + qsum _) in HL.
    destruct (match bars with [] => _ | _ => _ end) as [h'|] eqn:EH; [|discriminate].
    destruct (etf_loop rb (S t) b0 V' h' bars) as [r'|] eqn:ER; [|discriminate]. inversion HL; subst r. clear HL.
    assert (Hb0 : shaped n b0) by (apply Hs; now left).
    assert (SP : length h' = n /\ (forall nb, In t rb -> nth_error bars 0 = Some nb -> over n (fun j => qabs (at_ (e_w b0) j)) <> 0 /\
       spends n (e_w b0) (fun i => at_ (e_open nb) i * at_ (e_fx b0) i) V' h') /\
       (~ In t rb \/ nth_error bars 0 = None -> h' = h)).
    { destruct bars as [|nb bars].
      - inversion EH; subst. split; auto. split; auto. discriminate.
      - destruct (existsb (Nat.eqb t) rb) eqn:ET.
        + apply existsb_eqb in ET. destruct Hb0 as [W [_ [_ [F _]]]].
          assert (Hnb : shaped n nb) by (apply Hs; cbn; auto). destruct Hnb as [_ [O _]].
          destruct (buy_spends W O F EH) as [S1 S2]. split; [apply S1|]. split.
          * intros nb' _ E. cbn in E. inversion E; subst nb'. auto.
          * intros [C|C]; [contradiction|discriminate].
        + inversion EH; subst. split; auto. split; auto. intros nb' C. apply existsb_eqb in C. congruence. }
    destruct SP as [Hh' [SP1 SP2]].
    destruct (IH (S t) b0 V' h' r' Hb0 (fun b Hb => Hs b (or_intror Hb)) Hh' ER) as [L H].
    split; [cbn; lia|]. intros k p b Vp hp Vb hb K1 K2 K3 K4. destruct k as [|k].
    + cbn in K1, K2, K3, K4. inversion K1; inversion K2; inversion K3; inversion K4; subst.
      rewrite Nat.add_0_r. cbn [nth_error] in *. split; [auto|]. split; [|split; auto].
      replace (V' - Vp) with (qsum (map2 Qcmult (map2 Qcmult hp (net_val_change (existsb (fun r => (r + 1 =? t)%nat) rb) p b)) (e_fx b)))
        by (unfold V'; ring).
      apply pnl_changes; auto.
    + replace (t + S k)%nat with (S t + k)%nat by lia. eapply H; eauto.
Qed.

(** ** Invariance *)
Lemma buy_weights_scale w price fx value c : 0 < c -> buy (map (Qcmult c) w) price fx value = buy w price fx value.
Proof.
  intro Hc. unfold buy.
  assert (E : sum_abs (map (Qcmult c) w) = c * sum_abs w).
  { unfold sum_abs. rewrite map_map, <- qsum_map_scale. f_equal. apply map_ext. intro. rewrite qabs_mul, (qabs_pos (a := c)); [auto|qlra]. }
  rewrite E. destruct (qeq_spec (c * sum_abs w) 0) as [Z|NZ], (qeq_spec (sum_abs w) 0) as [Z'|NZ']; auto.
  - exfalso. apply NZ'. apply Qcmult_integral in Z. destruct Z; auto. subst c. now apply Qclt_irrefl in Hc.
  - exfalso. apply NZ. rewrite Z'. ring.
  - destruct (existsb _ _); auto. do 2 f_equal. rewrite map_map. apply map_ext. intro x. field. split; auto.
    intro C; subst c. now apply Qclt_irrefl in Hc.
Qed.

(** the same bar with weights scaled by [c] *)
Definition scale_weights (c : Qc) (b : etf_bar) : etf_bar :=
  EtfBar (map (Qcmult c) (e_w b)) (e_open b) (e_close b) (e_fx b) (e_vol b) (e_div b).

Lemma etf_loop_weights rb t p p' V h bars bars' :
  e_close p' = e_close p ->
  Forall2 (fun b b' => exists c, 0 < c /\ b' = scale_weights c b) bars bars' ->
  etf_loop rb t p' V h bars' = etf_loop rb t p V h bars.
Proof.
  intros Hp HF. revert t p p' V h Hp. induction HF as [|b b' bars bars' [c [Hc ->]] HF IH]; intros t p p' V h Hp; auto.
  cbn [etf_loop]. unfold net_val_change. cbn [e_close e_open e_div e_fx scale_weights e_w].
  rewrite Hp. set (V' := V + qsum _).
  assert (EB : (match bars' with
         | [] => Some h
         | next :: _ => if existsb (Nat.eqb t) rb then buy (map (Qcmult c) (e_w b)) (e_open next) (e_fx b) V' else Some h
         end) = (match bars with
         | [] => Some h
         | next :: _ => if existsb (Nat.eqb t) rb then buy (e_w b) (e_open next) (e_fx b) V' else Some h
         end)).
  { destruct HF as [|x x' l l' [c' [Hc' ->]] HF]; auto. cbn [e_open scale_weights]. now rewrite buy_weights_scale. }
  rewrite EB. destruct (match bars with [] => Some h | _ => _ end); auto.
  rewrite (IH (S t) b (scale_weights c b) V' l); auto.
Qed.

(** the same bar in other units: one new unit of instrument [i] is [k i] old ones; its price and dividend are
    quoted in a currency of which [f i] make one old unit, so prices scale by [k i * f i], the exchange rate by [1 / f i]
    and the volume by [1 / k i]. *)
Definition requote (k f : list Qc) (b : etf_bar) : etf_bar :=
  let s := map2 Qcmult k f in
  EtfBar (e_w b) (map2 Qcmult (e_open b) s) (map2 Qcmult (e_close b) s) (map2 (fun x y => x / y) (e_fx b) f)
         (map2 (fun x y => x / y) (e_vol b) k) (map2 Qcmult (e_div b) s).

Section Requote.
  Variables (n : nat) (k f : list Qc).
  Hypothesis (Lk : length k = n) (Lf : length f = n).
  Hypothesis (Pk : forall i, (i < n)%nat -> 0 < at_ k i) (Pf : forall i, (i < n)%nat -> 0 < at_ f i).
  Let held (h : list Qc) := map2 (fun x y => x / y) h k.

  Lemma at_map2 (g : Qc -> Qc -> Qc) xs ys i : length xs = n -> length ys = n -> (i < n)%nat ->
    at_ (map2 g xs ys) i = g (at_ xs i) (at_ ys i).
  Proof. intros A B C. rewrite (@map2_seq _ _ _ g _ _ 0 0 n), at_map_seq; auto. Qed.

  Lemma at_ext (xs ys : list Qc) : length xs = n -> length ys = n -> (forall i, (i < n)%nat -> at_ xs i = at_ ys i) -> xs = ys.
  Proof.
    intros A B H. apply nth_ext with 0 0; [lia|]. intros i Hi. apply H. lia.
  Qed.

  Lemma nz_k i : (i < n)%nat -> at_ k i <> 0.
  Proof. intros H C. specialize (Pk H). rewrite C in Pk. now apply Qclt_irrefl in Pk. Qed.
  Lemma nz_f i : (i < n)%nat -> at_ f i <> 0.
  Proof. intros H C. specialize (Pf H). rewrite C in Pf. now apply Qclt_irrefl in Pf. Qed.

  Lemma buy_requote w price fx value : length w = n -> length price = n -> length fx = n ->
    buy w (map2 Qcmult price (map2 Qcmult k f)) (map2 (fun x y => x / y) fx f) value =
    option_map held (buy w price fx value).
  Proof.
    intros Hw Hp Hf. unfold buy. destruct (qeq (sum_abs w) 0); auto.
    assert (EX : existsb (fun p => qeq p 0) (map2 Qcmult (map2 Qcmult price (map2 Qcmult k f)) (map2 (fun x y => x / y) fx f))
               = existsb (fun p => qeq p 0) (map2 Qcmult price fx)).
    { rewrite (@map2_seq _ _ _ Qcmult price fx 0 0 n) by auto.
      rewrite (@map2_seq _ _ _ Qcmult (map2 Qcmult price (map2 Qcmult k f)) (map2 (fun x y => x / y) fx f) 0 0 n)
        by len.
      assert (G : forall l, (forall i, In i l -> (i < n)%nat) ->
        existsb (fun p => qeq p 0) (map (fun i => nth i (map2 Qcmult price (map2 Qcmult k f)) 0 * nth i (map2 (fun x y => x / y) fx f) 0) l)
        = existsb (fun p => qeq p 0) (map (fun i => nth i price 0 * nth i fx 0) l)).
      { induction l as [|i l IH]; intro Hl; auto. cbn [map existsb]. rewrite IH by (intros; apply Hl; now right). f_equal.
        assert (Hi : (i < n)%nat) by (apply Hl; now left).
        fold (at_ (map2 Qcmult price (map2 Qcmult k f)) i) (at_ (map2 (fun x y => x / y) fx f) i) (at_ price i) (at_ fx i).
        rewrite !at_map2 by len.
        replace (at_ price i * (at_ k i * at_ f i) * (at_ fx i / at_ f i)) with (at_ price i * at_ fx i * at_ k i)
          by (field; now apply nz_f).
        destruct (qeq_spec (at_ price i * at_ fx i * at_ k i) 0) as [Z|Z], (qeq_spec (at_ price i * at_ fx i) 0) as [Z'|Z']; auto.
        - exfalso. apply Qcmult_integral in Z. destruct Z; auto. now apply (nz_k Hi).
        - exfalso. apply Z. rewrite Z'. ring. }
      apply G. intros i Hi. apply in_seq in Hi. lia. }
    rewrite EX. destruct (existsb (fun p => qeq p 0) (map2 Qcmult price fx)) eqn:EX2; auto. cbn [option_map]. f_equal. unfold held.
    apply at_ext; [len|len|].
    intros i Hi. rewrite !at_map2 by len.
    assert (Z : at_ price i * at_ fx i <> 0).
    { intro C. assert (existsb (fun p => qeq p 0) (map2 Qcmult price fx) = true); [|congruence].
      apply existsb_exists. exists (at_ price i * at_ fx i). split; [|now apply qeq_iff].
      apply nth_error_In with i. apply map2_nth; unfold at_; apply nth_error_nth'; lia. }
    field. repeat split; try apply nz_k; try apply nz_f; auto; intro C; apply Z; rewrite C; ring.
  Qed.

  Lemma net_requote after p b : shaped n p -> shaped n b ->
    net_val_change after (requote k f p) (requote k f b) = map2 Qcmult (net_val_change after p b) (map2 Qcmult k f).
  Proof.
    intros [P1 [P2 [P3 [P4 [P5 P6]]]]] [B1 [B2 [B3 [B4 [B5 B6]]]]]. unfold net_val_change, requote. cbn [e_close e_open e_div].
    destruct after; (apply at_ext; [len|len|]); intros i Hi; rewrite !at_map2 by len; ring.
  Qed.

  Lemma held_length h : length h = n -> length (held h) = n.
  Proof. intro. unfold held. rewrite map2_length; lia. Qed.

  Lemma pnl_requote after p b h : shaped n p -> shaped n b -> length h = n ->
    qsum (map2 Qcmult (map2 Qcmult (held h) (net_val_change after (requote k f p) (requote k f b))) (e_fx (requote k f b)))
    = qsum (map2 Qcmult (map2 Qcmult h (net_val_change after p b)) (e_fx b)).
  Proof.
    intros Hp Hb Hh. rewrite net_requote by auto. f_equal.
    assert (LN : length (net_val_change after p b) = n).
    { destruct Hp as [P1 [P2 [P3 [P4 [P5 P6]]]]], Hb as [B1 [B2 [B3 [B4 [B5 B6]]]]]. unfold net_val_change.
      destruct after; len. }
    destruct Hb as [B1 [B2 [B3 [B4 [B5 B6]]]]]. cbn [requote e_fx].
    assert (LH := held_length Hh).
    apply at_ext; [len|len|]. intros i Hi.
    rewrite !at_map2 by len. unfold held. rewrite !at_map2 by len.
    field. split; [now apply nz_f|now apply nz_k].
  Qed.

  Lemma buy_length w price fx value h : length w = n -> length price = n -> length fx = n -> buy w price fx value = Some h -> length h = n.
  Proof. intros A B C D. apply (buy_spends A B C D). Qed.

  Lemma etf_loop_requote rb t p V h bars : shaped n p -> (forall b, In b bars -> shaped n b) -> length h = n ->
    etf_loop rb t (requote k f p) V (held h) (map (requote k f) bars)
    = option_map (map (fun Vh => (fst Vh, held (snd Vh)))) (etf_loop rb t p V h bars).
  Proof.
    revert t p V h. induction bars as [|b bars IH]; intros t p V h Hp Hs Hh; auto.
    cbn [etf_loop map]. assert (Hb : shaped n b) by (apply Hs; now left).
    rewrite pnl_requote by auto. set (V' := V + qsum _).
    assert (EB : (match map (requote k f) bars with
         | [] => Some (held h)
         | next :: _ => if existsb (Nat.eqb t) rb then buy (e_w (requote k f b)) (e_open next) (e_fx (requote k f b)) V' else Some (held h)
         end) = option_map held (match bars with
         | [] => Some h
         | next :: _ => if existsb (Nat.eqb t) rb then buy (e_w b) (e_open next) (e_fx b) V' else Some h
         end)).
    { destruct bars as [|nb bars]; auto. cbn [map]. destruct (existsb (Nat.eqb t) rb); auto. cbn [requote e_w e_open e_fx].
      apply buy_requote; [apply Hb| |apply Hb]. apply Hs. right. now left. }
    rewrite EB.
    assert (LB : forall h', (match bars with
         | [] => Some h
         | next :: _ => if existsb (Nat.eqb t) rb then buy (e_w b) (e_open next) (e_fx b) V' else Some h
         end) = Some h' -> length h' = n).
    { intro h'. destruct bars as [|nb bars]; [congruence|]. destruct (existsb (Nat.eqb t) rb); [|congruence].
      apply buy_length; [apply Hb| |apply Hb]. apply Hs. right. now left. }
    destruct (match bars with [] => Some h | _ => _ end) as [h'|]; auto. cbn [option_map].
    rewrite (IH (S t) b V' h'); auto; [|intros; apply Hs; now right].
    destruct (etf_loop rb (S t) b V' h' bars); reflexivity.
  Qed.

  Lemma volume_requote vol h : length vol = n -> length h = n ->
    etf_volume (map2 (fun x y => x / y) vol k) (held h) = etf_volume vol h.
  Proof.
    intros Hv Hh. unfold etf_volume. f_equal. assert (LH := held_length Hh).
    rewrite (@map2_seq _ _ _ (fun v x => xdiv v (qabs x)) (map2 (fun x y => x / y) vol k) (held h) 0 0 n) by len.
    rewrite (@map2_seq _ _ _ (fun v x => xdiv v (qabs x)) vol h 0 0 n) by auto.
    apply map_ext_in. intros i Hi. apply in_seq in Hi.
    fold (at_ (map2 (fun x y => x / y) vol k) i) (at_ (held h) i) (at_ vol i) (at_ h i). unfold held.
    rewrite !at_map2 by len.
    assert (K : 0 < at_ k i) by (apply Pk; lia). assert (NK := Qc_pos_neq K).
    assert (EA : qabs (at_ h i / at_ k i) = qabs (at_ h i) / at_ k i).
    { unfold Qcdiv. rewrite qabs_mul. f_equal. apply qabs_pos.
      assert (0 <= 1 / at_ k i) by (apply Qcdiv_nonneg; auto; qlra). unfold Qcdiv in H. rewrite Qcmult_1_l in H. exact H. }
    rewrite EA. unfold xdiv.
    assert (Z1 : qeq (qabs (at_ h i) / at_ k i) 0 = qeq (qabs (at_ h i)) 0).
    { destruct (qeq_spec (qabs (at_ h i)) 0) as [E|E].
      - rewrite E. apply qeq_iff. field. auto.
      - apply qeq_false. intro C. apply E. apply Qcdiv_0 in C; auto. }
    assert (Z2 : qlt 0 (at_ vol i / at_ k i) = qlt 0 (at_ vol i)).
    { destruct (qlt_spec 0 (at_ vol i)) as [E|E].
      - apply qlt_iff. now apply Qcdiv_pos.
      - apply qlt_false. apply Qcdiv_le_iff; auto. qlra. }
    assert (Z3 : qlt (at_ vol i / at_ k i) 0 = qlt (at_ vol i) 0).
    { destruct (qlt_spec (at_ vol i) 0) as [E|E].
      - apply qlt_iff. apply Qcdiv_lt_iff; auto.
      - apply qlt_false. apply Qcdiv_nonneg; auto. qlra. }
    rewrite Z1, Z2, Z3. destruct (qeq_spec (qabs (at_ h i)) 0) as [E|E]; auto. f_equal. field. auto.
  Qed.

  Lemma etf_requote rb bars : (forall b, In b bars -> shaped n b) ->
    basket_to_etf (map (requote k f) bars) rb = basket_to_etf bars rb.
  Proof.
    intro Hs. unfold basket_to_etf. destruct bars as [|b bars]; auto. cbn [map].
    assert (Hb : shaped n b) by (apply Hs; now left).
    pose proof Hb as [B1 [B2 [B3 [B4 [B5 B6]]]]]. cbn [requote e_w e_close e_fx]. rewrite buy_requote by auto.
    destruct (buy (e_w b) (e_close b) (e_fx b) 1) as [h0|] eqn:E; auto. cbn [option_map].
    assert (L0 := buy_length B1 B3 B4 E).
    fold (requote k f b). rewrite etf_loop_requote; auto; [|intros; apply Hs; now right].
    destruct (etf_loop rb 1 b 1 h0 bars) as [r|] eqn:ER; auto. cbn [option_map]. f_equal.
    assert (Hs' : forall x, In x bars -> shaped n x) by (intros; apply Hs; now right).
    destruct (etf_loop_spec Hb Hs' L0 ER) as [Lr SP].
    assert (LH : forall y, In y r -> length (snd y) = n).
    { intros [Vy hy] Hy. apply In_nth_error in Hy. destruct Hy as [j Hj].
      assert (J : (j < length r)%nat) by (apply nth_error_Some; congruence).
      destruct (nth_error (b :: bars) j) as [p|] eqn:E1; [|apply nth_error_None in E1; cbn in E1; lia].
      destruct (nth_error bars j) as [b'|] eqn:E2; [|apply nth_error_None in E2; lia].
      destruct (nth_error ((1, h0) :: r) j) as [[Vp hp]|] eqn:E3; [|apply nth_error_None in E3; cbn in E3; lia].
      destruct (SP j p b' Vp hp Vy hy E1 E2 E3 Hj) as [H _]. exact H. }
    rewrite !map2_cons. f_equal; [cbn [fst snd requote e_vol]; now rewrite volume_requote|].
    clear -Lr LH Hs' Lk Lf Pk Pf. revert r Lr LH. induction bars as [|x bars IH]; intros [|y r] Lr LH; cbn [length map] in *; try discriminate; auto.
    rewrite !map2_cons. f_equal.
    - cbn [fst snd requote e_vol]. rewrite volume_requote; auto; [|apply LH; now left]. assert (S : shaped n x) by (apply Hs'; now left). apply S.
    - apply IH; [intros; apply Hs'; now right|lia|intros; apply LH; now right].
  Qed.
End Requote.
