(** Properties C15-C20: the ETF trick and rolled futures series. *)
From Verif Require Import Py BasketModel BasketSpec BasketProofs EtfProofs.
Set Implicit Arguments.
Unset Strict Implicit.
Open Scope Qc_scope.

(** C15: the returned values are those of a self-financing account.  There are holdings, one row per bar, such that:
    the account starts at 1 spent at the first close; each bar adds the P&L of the holdings of the previous bar
    (close to close, or open to close right after a rebalance, plus dividends, times the exchange rate);
    holdings stay fixed between rebalances; a rebalance spends the whole current value at the next open. *)
Theorem c15_etf_accounts_for_holdings : forall n bars rb out,
  (forall b, In b bars -> shaped n b) -> basket_to_etf bars rb = Some out ->
  exists H : list (list Qc),
    length H = length bars /\ length out = length bars /\
    (forall b h V, nth_error bars 0 = Some b -> nth_error H 0 = Some h -> nth_error (map fst out) 0 = Some V ->
       V = 1 /\ spends n (e_w b) (fun i => at_ (e_close b) i * at_ (e_fx b) i) 1 h) /\
    (forall t p b h h' V V',
       nth_error bars t = Some p -> nth_error bars (S t) = Some b ->
       nth_error H t = Some h -> nth_error H (S t) = Some h' ->
       nth_error (map fst out) t = Some V -> nth_error (map fst out) (S t) = Some V' ->
       (exists d, (forall i, (i < n)%nat -> unit_change (In t rb) p b i (d i)) /\
                  V' - V = over n (fun i => at_ h i * d i * at_ (e_fx b) i)) /\
       (forall nb, In (S t) rb -> nth_error bars (S (S t)) = Some nb ->
          spends n (e_w b) (fun i => at_ (e_open nb) i * at_ (e_fx b) i) V' h') /\
       (~ In (S t) rb \/ S (S t) = length bars -> h' = h)) /\
    (forall t b h, nth_error bars t = Some b -> nth_error H t = Some h ->
       nth_error (map snd out) t = Some (etf_volume (e_vol b) h)).
Proof.
  intros n bars rb out Hs. unfold basket_to_etf. destruct bars as [|b bars]; [discriminate|].
  destruct (buy (e_w b) (e_close b) (e_fx b) 1) as [h0|] eqn:EB; [|discriminate].
  destruct (etf_loop rb 1 b 1 h0 bars) as [r|] eqn:ER; [|discriminate]. intros [= <-].
  assert (Hb : shaped n b) by (apply Hs; now left). pose proof Hb as [B1 [B2 [B3 [B4 _]]]].
  destruct (buy_spends B1 B3 B4 EB) as [SP0 _].
  assert (Hs' : forall x, In x bars -> shaped n x) by (intros; apply Hs; now right).
  destruct (etf_loop_spec Hb Hs' (proj1 SP0) ER) as [Lr SP].
  set (rs := (1, h0) :: r). set (bs := b :: bars) in *.
  assert (Lrs : length bs = length rs) by (cbn; lia).
  assert (EF : map fst (map2 (fun b' Vh => (fst Vh, etf_volume (e_vol b') (snd Vh))) bs rs) = map fst rs).
  { unfold map2. rewrite map_map. cbn. rewrite <- (map_map snd fst). now rewrite combine_snd. }
  exists (map snd rs). split; [rewrite map_length; auto|]. split; [rewrite map2_length; auto|]. rewrite EF. repeat split.
  - cbn in *. congruence.
  - cbn in H0. inversion H0; subst. apply SP0.
  - cbn in H. inversion H; subst. apply SP0. auto.
  - cbn in H, H0. inversion H; inversion H0; subst. apply SP0. auto.
  - assert (R : forall k x y, nth_error (map snd rs) k = Some x -> nth_error (map fst rs) k = Some y -> nth_error rs k = Some (y, x)).
    { intros k x y A B. rewrite nth_error_map in A, B. destruct (nth_error rs k) as [[u v]|]; [|discriminate].
      cbn in A, B. congruence. }
    pose proof (R _ _ _ H1 H3) as Q1. pose proof (R _ _ _ H2 H4) as Q2. clear R. unfold rs in Q2. cbn [nth_error] in Q2.
    destruct (SP t p b0 V h V' h' H H0 Q1 Q2) as [_ [[d [D1 D2]] _]].
    exists d. split; auto. intros i Hi. destruct (D1 i Hi) as [D3 D4]. split; intro X.
    + apply D3. exists t. auto.
    + apply D4. intros [q [Hq E]]. apply X. replace t with q by lia. auto.
  - intros.
    assert (R : forall k x y, nth_error (map snd rs) k = Some x -> nth_error (map fst rs) k = Some y -> nth_error rs k = Some (y, x)).
    { intros k x y A B. rewrite nth_error_map in A, B. destruct (nth_error rs k) as [[u v]|]; [|discriminate].
      cbn in A, B. congruence. }
    pose proof (R _ _ _ H1 H3) as Q1. pose proof (R _ _ _ H2 H4) as Q2. clear R. unfold rs in Q2. cbn [nth_error] in Q2.
    destruct (SP t p b0 V h V' h' H H0 Q1 Q2) as [L _]. exact L.
  - assert (R : forall k x y, nth_error (map snd rs) k = Some x -> nth_error (map fst rs) k = Some y -> nth_error rs k = Some (y, x)).
    { intros k x y A B. rewrite nth_error_map in A, B. destruct (nth_error rs k) as [[u v]|]; [|discriminate].
      cbn in A, B. congruence. }
    pose proof (R _ _ _ H1 H3) as Q1. pose proof (R _ _ _ H2 H4) as Q2. clear R. unfold rs in Q2. cbn [nth_error] in Q2.
    destruct (SP t p b0 V h V' h' H H0 Q1 Q2) as [_ [_ [S1 _]]].
    destruct (S1 nb) as [_ S2]; auto. apply S2. auto.
  - assert (R : forall k x y, nth_error (map snd rs) k = Some x -> nth_error (map fst rs) k = Some y -> nth_error rs k = Some (y, x)).
    { intros k x y A B. rewrite nth_error_map in A, B. destruct (nth_error rs k) as [[u v]|]; [|discriminate].
      cbn in A, B. congruence. }
    pose proof (R _ _ _ H1 H3) as Q1. pose proof (R _ _ _ H2 H4) as Q2. clear R. unfold rs in Q2. cbn [nth_error] in Q2.
    destruct (SP t p b0 V h V' h' H H0 Q1 Q2) as [_ [_ [S1 _]]].
    destruct (S1 nb) as [_ S2]; auto. apply S2. auto.
  - assert (R : forall k x y, nth_error (map snd rs) k = Some x -> nth_error (map fst rs) k = Some y -> nth_error rs k = Some (y, x)).
    { intros k x y A B. rewrite nth_error_map in A, B. destruct (nth_error rs k) as [[u v]|]; [|discriminate].
      cbn in A, B. congruence. }
    pose proof (R _ _ _ H1 H3) as Q1. pose proof (R _ _ _ H2 H4) as Q2. clear R. unfold rs in Q2. cbn [nth_error] in Q2.
    destruct (SP t p b0 V h V' h' H H0 Q1 Q2) as [_ [_ [_ S1]]].
    intros [N|N]; apply S1; auto. right. apply nth_error_None. unfold bs in N. cbn in N. lia.
  - intros t b0 h Hb0 Hh. rewrite nth_error_map in *. destruct (nth_error rs t) as [[V h1]|] eqn:E; [|discriminate].
    cbn in Hh. inversion Hh; subst h1. rewrite (@map2_nth _ _ _ _ bs rs t b0 (V, h)); auto.
Qed.
Print Assumptions c15_etf_accounts_for_holdings.

(** C15: a rebalance invests the whole value: the gross exposure at the new prices equals the basket value. *)
Theorem c15_rebalance_spends_the_value : forall n w cost value h,
  spends n w cost value h -> over n (fun j => qabs (at_ w j)) <> 0 -> 0 <= value ->
  over n (fun i => qabs (at_ h i * cost i)) = value.
Proof.
  intros n w cost value h [L H] NZ Hv. unfold over in *.
  assert (P : 0 < qsum (map (fun j => qabs (at_ w j)) (seq 0 n))).
  { assert (0 <= qsum (map (fun j => qabs (at_ w j)) (seq 0 n))).
    { apply qsum_nonneg. intros x Hx. apply in_map_iff in Hx. destruct Hx as [y [<- _]]. apply qabs_nonneg. }
    apply Qcle_lt_or_eq in H0. destruct H0; auto. congruence. }
  set (S := qsum (map (fun j => qabs (at_ w j)) (seq 0 n))) in *.
  rewrite qsum_map_ext with (g := fun i => value / S * qabs (at_ w i)).
  - rewrite qsum_map_scale. fold S. field. auto.
  - intros i Hi. apply in_seq in Hi. destruct (H i) as [_ E]; [lia|]. rewrite E.
    unfold Qcdiv. rewrite !qabs_mul, (qabs_pos Hv).
    replace (qabs (/ S)) with (/ S); [ring|]. symmetry. apply qabs_pos.
    assert (0 <= 1 / S) by (apply Qcdiv_nonneg; auto; qlra). unfold Qcdiv in H0. now rewrite Qcmult_1_l in H0.
Qed.
Print Assumptions c15_rebalance_spends_the_value.

(** C15: the reported volume is the number of basket units every instrument's volume can fill. *)
Lemma fold_xmin_glb l a x : fold_left xmin l a = Fin x ->
  (forall y, In (Fin y) (a :: l) -> x <= y) /\ In (Fin x) (a :: l).
Proof.
  revert a x. induction l as [|b l IH]; intros a x; cbn [fold_left].
  - intros ->. split; [|now left]. intros y [E|[]]. inversion E. apply Qcle_refl.
  - intro H. destruct (IH _ _ H) as [H1 H2].
    assert (M : forall l a, (a = NaN \/ a = NInf) -> forall x, fold_left xmin l a <> Fin x).
    { clear. induction l as [|b l IH]; intros a Ha x; cbn [fold_left].
      - destruct Ha as [->| ->]; discriminate.
      - destruct Ha as [->| ->]; apply IH; destruct b; cbn; auto. }
    destruct a as [u| | |], b as [v| | |]; cbn [xmin] in *;
      try (exfalso; eapply M; [|exact H]; auto; fail).
    + split.
      * intros y [E|[E|E]].
        -- inversion E; subst. apply Qcle_trans with (qmin y v); [|apply qmin_l]. apply H1. now left.
        -- inversion E; subst. apply Qcle_trans with (qmin u y); [|apply qmin_r]. apply H1. now left.
        -- apply H1. now right.
      * destruct H2 as [E|E]; [|right; right; auto]. destruct (qmin_cases u v) as [C|C]; rewrite C in E; [left|right; left]; auto.
    + split.
      * intros y [E|[E|E]]; [|discriminate|]; apply H1; [left|right]; auto.
      * destruct H2; [left|right; right]; auto.
    + split.
      * intros y [E|[E|E]]; [discriminate| |]; apply H1; [left|right]; auto.
      * destruct H2; [right; left|right; right]; auto.
    + split.
      * intros y [E|[E|E]]; try discriminate; apply H1; right; auto.
      * destruct H2; [discriminate|right; right; auto].
Qed.

Theorem c15_volume_is_largest_fill : forall vol h x, etf_volume vol h = Fin x ->
  (forall i v q, nth_error vol i = Some v -> nth_error h i = Some q -> q <> 0 -> x * qabs q <= v) /\
  (exists i v q, nth_error vol i = Some v /\ nth_error h i = Some q /\ q <> 0 /\ x * qabs q = v).
Proof.
  intros vol h x H. destruct (fold_xmin_glb H) as [H1 H2]. split.
  - intros i v q Hv Hq Nq.
    assert (P : 0 < qabs q). { pose proof (qabs_nonneg q). apply Qcle_lt_or_eq in H0. destruct H0 as [|E]; auto. symmetry in E. apply -> qabs_0 in E. contradiction. }
    assert (x <= v / qabs q).
    { apply H1. right. apply nth_error_In with i. rewrite (@map2_nth _ _ _ _ vol h i v q); auto. f_equal.
      unfold xdiv. destruct (qeq_spec (qabs q) 0) as [E|E]; auto. apply -> qabs_0 in E. contradiction. }
    apply Qcdiv_ge_iff in H0; auto.
  - destruct H2 as [E|E]; [discriminate|]. apply In_nth_error in E. destruct E as [i E].
    apply map2_nth_inv in E. destruct E as [v [q [Hv [Hq E]]]]. exists i, v, q. split; auto. split; auto.
    unfold xdiv in E. destruct (qeq_spec (qabs q) 0) as [C|C].
    + destruct (qlt 0 v), (qlt v 0); discriminate.
    + inversion E. split.
      * intro; subst q. apply C. reflexivity.
      * field. auto.
Qed.
Print Assumptions c15_volume_is_largest_fill.

(** C16: weights matter only up to a positive factor per bar. *)
Theorem c16_weights_scale : forall rb bars bars',
  Forall2 (fun b b' => exists c, 0 < c /\ b' = scale_weights c b) bars bars' ->
  basket_to_etf bars' rb = basket_to_etf bars rb.
Proof.
  intros rb bars bars' HF. unfold basket_to_etf. destruct HF as [|b b' bars bars' [c [Hc ->]] HF]; auto.
  cbn [scale_weights e_w e_close e_fx]. rewrite buy_weights_scale by auto.
  destruct (buy (e_w b) (e_close b) (e_fx b) 1) as [h0|]; auto.
  fold (scale_weights c b). rewrite (@etf_loop_weights rb 1 b (scale_weights c b) 1 h0 bars bars') by auto.
  destruct (etf_loop rb 1 b 1 h0 bars) as [r|]; auto. f_equal. rewrite !map2_cons. f_equal.
  clear -HF. revert r. induction HF as [|b b' bars bars' [c [_ ->]] HF IH]; intros [|y r]; auto.
  rewrite !map2_cons. f_equal. apply IH.
Qed.
Print Assumptions c16_weights_scale.

(** C16: quoting instrument i in lots of k_i and in another currency (rate f_i) changes neither value nor volume. *)
Theorem c16_units_do_not_matter : forall n k f rb bars,
  length k = n -> length f = n -> (forall i, (i < n)%nat -> 0 < at_ k i) -> (forall i, (i < n)%nat -> 0 < at_ f i) ->
  (forall b, In b bars -> shaped n b) ->
  basket_to_etf (map (requote k f) bars) rb = basket_to_etf bars rb.
Proof. intros. eapply etf_requote; eauto. Qed.
Print Assumptions c16_units_do_not_matter.

Definition sample_etf : list etf_bar :=
  [EtfBar [1; 1] [10; 20] [10; 20] [1; 2] [100; 50] [0; 0];
   EtfBar [3; -1] [11; 21] [12; 19] [1; 2] [100; 50] [0; 1];
   EtfBar [1; 1] [12; 20] [13; 22] [1; 2] [100; 50] [0; 0];
   EtfBar [1; 1] [12; 21] [15; 20] [1; 2] [100; 50] [q 1 2; 0]].
Example c15_sample_shaped : forall b, In b sample_etf -> shaped 2 b.
Proof. intros b H. cbn in H. repeat destruct H as [<-|H]; try (repeat split; reflexivity). destruct H. Qed.
Example c15_sample : exists out, basket_to_etf sample_etf [1%nat] = Some out /\
  map this (map fst out) = [1; 11 # 10; 913 # 800; 429 # 320]%Q.
Proof. eexists. split; [vm_compute; reflexivity|]. vm_compute. reflexivity. Qed.
Example c16_sample : exists out, basket_to_etf (map (requote [q 1 100; 3] [7; q 1 2]) sample_etf) [1%nat] = Some out /\
  map this (map fst out) = [1; 11 # 10; 913 # 800; 429 # 320]%Q.
Proof. eexists. split; [vm_compute; reflexivity|]. vm_compute. reflexivity. Qed.

(** C20/C17: a roll is a change of contract, provided no contract is held again after it was left. *)
Lemma roll_iff_change cs i : no_return cs -> (S i < length cs)%nat -> (opens_contract cs (S i) <-> contract_changes cs i).
Proof.
  intros NR L. destruct (nth_error cs (S i)) as [c|] eqn:E; [|apply nth_error_None in E; lia].
  destruct (nth_error cs i) as [c'|] eqn:E'; [|apply nth_error_None in E'; lia]. split.
  - intros [x [Hx N]]. exists c, c'. split; auto. split; auto. intro; subst c'. apply N.
    rewrite E in Hx. inversion Hx; subst. apply nth_error_In with i. rewrite nth_error_firstn_lt by lia. auto.
  - intros [x [y [Hx [Hy N]]]]. exists c. split; auto. intro I. apply In_nth_error in I. destruct I as [j Hj].
    assert (J : (j < length (firstn (S i) cs))%nat) by (apply nth_error_Some; congruence).
    rewrite firstn_length in J. rewrite nth_error_firstn_lt in Hj by lia.
    assert (j = i \/ j < i)%nat as [->|J2] by lia; [congruence|].
    assert (nth_error cs i = Some c); [|congruence]. apply (NR j i (S i) c); auto.
Qed.

(** C17: consecutive adjusted prices. *)
Theorem c17_rolled_series_gap_free : forall bars cols match_end adj i b c b' c' a a' col,
  no_return (map snd bars) -> occurrences cols col = 1%nat ->
  adjusted_bars bars cols match_end = Ok adj ->
  nth_error bars i = Some (b', c') -> nth_error bars (S i) = Some (b, c) ->
  nth_error adj i = Some a' -> nth_error adj (S i) = Some a ->
  (c = c' -> a col - a' col = b col - b' col) /\
  (c <> c' -> a col - a' col = (b col - b COpen) - (b' col - b' CClose)).
Proof.
  intros bars cols me adj i b c b' c' a a' col NR Hc HA Hb' Hb Ha' Ha.
  destruct (adjusted_step HA Hb' Hb Ha' Ha Hc) as [H1 H2].
  assert (E : nth_error (map snd bars) (S i) = Some c) by now rewrite nth_error_map, Hb.
  assert (E' : nth_error (map snd bars) i = Some c') by now rewrite nth_error_map, Hb'.
  assert (L : (S i < length (map snd bars))%nat) by (apply nth_error_Some; congruence).
  pose proof (roll_iff_change NR L) as RI. split; intro C.
  - apply H2. intro O. apply RI in O. destruct O as [x [y [X [Y N]]]]. congruence.
  - rewrite H1; [ring|]. apply RI. exists c, c'. auto.
Qed.
Print Assumptions c17_rolled_series_gap_free.

(** C17: the close-to-close P&L of the adjusted closes: raw change inside a contract, close minus open on a roll bar. *)
Theorem c17_adjusted_close_pnl : forall bars cols match_end adj i b c b' c' a a',
  no_return (map snd bars) -> occurrences cols CClose = 1%nat ->
  adjusted_bars bars cols match_end = Ok adj ->
  nth_error bars i = Some (b', c') -> nth_error bars (S i) = Some (b, c) ->
  nth_error adj i = Some a' -> nth_error adj (S i) = Some a ->
  a CClose - a' CClose = if Z.eqb c c' then b CClose - b' CClose else b CClose - b COpen.
Proof.
  intros bars cols me adj i b c b' c' a a' NR Hc HA Hb' Hb Ha' Ha.
  destruct (c17_rolled_series_gap_free NR Hc HA Hb' Hb Ha' Ha) as [H1 H2].
  destruct (Z.eqb_spec c c') as [E|E]; [auto|]. rewrite H2 by auto. ring.
Qed.
Print Assumptions c17_adjusted_close_pnl.

(** C17: rolling forward keeps the first bar raw. *)
Theorem c17_forward_starts_raw : forall bars cols adj b c a col,
  adjusted_bars bars cols false = Ok adj -> nth_error bars 0 = Some (b, c) -> nth_error adj 0 = Some a -> a col = b col.
Proof.
  intros bars cols adj b c a col HA Hb Ha. destruct (adjusted_nth HA Hb) as [g [gaps [x [E [G [X V]]]]]].
  assert (x = a) by congruence. subst x. rewrite V.
  destruct (roll_gaps_shift E) as [k [Eg [K _]]]. rewrite K in Eg by auto. subst gaps. rewrite nth_error_map in G.
  destruct (nth_error (base_gaps bars) 0) as [y|] eqn:Y; [|discriminate]. apply base_gaps_first in Y. subst y. cbn in G. inversion G. ring.
Qed.
Print Assumptions c17_forward_starts_raw.

Definition bar4 (o h l c : Qc) : row := fun col => match col with COpen => o | CHigh => h | CLow => l | _ => c end.

(** C18 is false when the last bar is a roll. *)
Theorem c18_match_end_refuted : exists bars adj b c a,
  no_return (map snd bars) /\ adjusted_bars bars [CClose] true = Ok adj /\
  nth_error bars 2 = Some (b, c) /\ nth_error adj 2 = Some a /\ length bars = 3%nat /\ a CClose <> b CClose.
Proof.
  exists [(bar4 10 10 10 10, 1%Z); (bar4 10 10 10 10, 1%Z); (bar4 15 15 15 15, 2%Z)].
  eexists. exists (bar4 15 15 15 15), 2%Z. eexists. split.
  - intros i j k c H. cbn. intros H1 H2.
    destruct i as [|[|[|i]]], j as [|[|[|j]]], k as [|[|[|k]]]; cbn in *; try lia; try congruence.
    all: try (destruct i; discriminate); try (destruct k; discriminate).
  - split; [reflexivity|]. split; [reflexivity|]. split; [reflexivity|]. split; [reflexivity|].
    intro C. vm_compute in C. discriminate.
Qed.
Print Assumptions c18_match_end_refuted.

(** C18, what holds: the last adjusted price is off by exactly the roll gap of the last bar, so it is raw unless the
    last bar opens a new contract away from the previous close. *)
Theorem c18_match_end_last_price : forall bars cols adj b c b' c' a col,
  no_return (map snd bars) -> occurrences cols col = 1%nat ->
  adjusted_bars bars cols true = Ok adj ->
  nth_error bars (length bars - 2) = Some (b', c') -> nth_error bars (length bars - 1) = Some (b, c) ->
  nth_error adj (length bars - 1) = Some a ->
  (c = c' -> a col = b col) /\ (c <> c' -> a col = b col - (b COpen - b' CClose)).
Proof.
  intros bars cols adj b c b' c' a col NR Hc HA Hb' Hb Ha.
  destruct (adjusted_nth HA Hb') as [g' [gaps [a' [E [G' [A' V']]]]]].
  destruct (roll_gaps_shift E) as [k [Eg [_ K]]]. destruct (K eq_refl) as [K1 K2].
  assert (Z : a' col = b' col).
  { rewrite V'. subst gaps. rewrite nth_error_map, K1 in G'. cbn in G'. inversion G'. ring. }
  replace (length bars - 1)%nat with (S (length bars - 2)) in * by lia.
  destruct (c17_rolled_series_gap_free NR Hc HA Hb' Hb A' Ha) as [H1 H2]. split; intro X.
  - specialize (H1 X). rewrite Z in H1. qlra.
  - specialize (H2 X). rewrite Z in H2. qlra.
Qed.
Print Assumptions c18_match_end_last_price.

(** C19 is false: a roll bar that falls by more than the previous close makes the rolled price negative. *)
Theorem c19_rolled_price_refuted : exists bars prices,
  (forall b c, In (b, c) bars -> forall col, 0 < b col) /\ no_return (map snd bars) /\
  rolled_prices bars [CClose] false = Ok (Some prices) /\ exists p, In p prices /\ p < 0.
Proof.
  exists [(bar4 1 1 1 1, 1%Z); (bar4 10 10 5 5, 2%Z)]. eexists. split; [|split; [|split]].
  - intros b c [E|[E|[]]] col; inversion E; destruct col; reflexivity.
  - intros i j k c H H1 H2. destruct i as [|[|i]], j as [|[|j]], k as [|[|k]]; cbn in *; try lia; try congruence.
    all: try (destruct i; discriminate); try (destruct k; discriminate).
  - vm_compute. reflexivity.
  - eexists. split; [right; left; reflexivity|]. vm_compute. reflexivity.
Qed.
Print Assumptions c19_rolled_price_refuted.

(** C19, what holds: non-negative when no roll bar falls from its open by more than the previous close. *)
Lemma roll_returns_nonneg adj raw r :
  length adj = length raw -> roll_returns adj raw = Some r ->
  (forall i a a' p, nth_error adj i = Some a -> nth_error adj (S i) = Some a' -> nth_error raw i = Some p -> 0 <= 1 + (a' - a) / p) ->
  forall x, In x r -> 0 <= 1 + x.
Proof.
  revert raw r. induction adj as [|a adj IH]; intros [|p raw] r L HR H x Hx; try discriminate.
  - inversion HR; subst. destruct Hx.
  - destruct adj as [|a' adj]; cbn in HR; [inversion HR; subst; destruct Hx|].
    destruct (qeq_spec p 0); [discriminate|].
    destruct (roll_returns (a' :: adj) raw) as [r'|] eqn:E; [|destruct raw; cbn in E; rewrite E in HR; discriminate].
    assert (Er : Some r = Some ((a' - a) / p :: r')) by (rewrite <- HR; cbn in E |- *; now rewrite E).
    inversion Er; subst r. destruct Hx as [<-|Hx].
    + apply (H 0%nat a a' p); reflexivity.
    + apply (IH raw r'); [cbn in L |- *; lia|exact E| |exact Hx]. intros i u v w A B C. apply (H (S i) u v w); auto.
Qed.

Lemma cumprod_nonneg acc l : 0 <= acc -> (forall x, In x l -> 0 <= x) -> forall y, In y (cumprod_from acc l) -> 0 <= y.
Proof.
  revert acc. induction l as [|x l IH]; intros acc Ha Hl y []; cbn in *.
  - subst. apply Qcmul_nonneg; auto.
  - apply (IH (acc * x)); auto. apply Qcmul_nonneg; auto.
Qed.

Theorem c19_rolled_price_nonneg : forall (bars : list (row * Z)) cols match_end prices,
  (forall (b : row) c, In (b, c) bars -> 0 < b CClose) -> no_return (map snd bars) -> occurrences cols CClose = 1%nat ->
  (forall i (b : row) c (b' : row) c', nth_error bars i = Some (b', c') -> nth_error bars (S i) = Some (b, c) -> c <> c' ->
     b COpen - b CClose <= b' CClose) ->
  rolled_prices bars cols match_end = Ok (Some prices) -> forall p, In p prices -> 0 <= p.
Proof.
  intros bars cols me prices Hpos NR Hc Hroll. unfold rolled_prices.
  destruct (adjusted_bars bars cols me) as [adj|e] eqn:HA; [|discriminate]. cbn [bind]. intro HR.
  assert (LA : length adj = length bars).
  { unfold adjusted_bars in HA. destruct (compute_roll_gaps bars me) as [gaps|] eqn:E; [|discriminate]. cbn in HA. inversion HA.
    destruct (roll_gaps_shift E) as [k [Eg _]]. rewrite map2_length; rewrite Eg, map_length, ?map_length, base_gaps_length; auto. }
  destruct bars as [|b0 bars'] eqn:EB; [discriminate|]. rewrite <- EB in *. clear b0 bars' EB.
  destruct (roll_returns _ _) as [r|] eqn:ER; [|discriminate]. inversion HR; subst prices. clear HR.
  apply (@cumprod_nonneg 1 (map (fun x => 1 + x) (0 :: r))); [qlra|]. intros x Hx. apply in_map_iff in Hx. destruct Hx as [y [<- Hy]].
  destruct Hy as [<-|Hy]; [qlra|]. revert y Hy. eapply roll_returns_nonneg; [|exact ER|].
  - now rewrite !map_length.
  - intros i u u' p Hu Hu' Hp. rewrite nth_error_map in Hu, Hu', Hp.
    destruct (nth_error adj i) as [a'|] eqn:A'; [|discriminate]. destruct (nth_error adj (S i)) as [a|] eqn:A; [|discriminate].
    destruct (nth_error bars i) as [[b' c']|] eqn:B'; [|discriminate].
    destruct (nth_error bars (S i)) as [[b c]|] eqn:B.
    2:{ apply nth_error_None in B. assert (S i < length adj)%nat by (apply nth_error_Some; congruence). lia. }
    cbn in Hu, Hu', Hp. inversion Hu; inversion Hu'; inversion Hp; subst u u' p.
    assert (P' : 0 < b' CClose) by (eapply Hpos; eapply nth_error_In; eauto).
    assert (P : 0 < b CClose) by (eapply Hpos; eapply nth_error_In; eauto).
    rewrite (c17_adjusted_close_pnl NR Hc HA B' B A' A).
    destruct (Z.eqb_spec c c') as [E|E].
    + replace (1 + (b CClose - b' CClose) / b' CClose) with (b CClose / b' CClose) by (field; now apply Qc_pos_neq).
      apply Qcdiv_nonneg; auto. qlra.
    + replace (1 + (b CClose - b COpen) / b' CClose) with ((b' CClose - (b COpen - b CClose)) / b' CClose) by (field; now apply Qc_pos_neq).
      apply Qcdiv_nonneg; auto. specialize (Hroll _ _ _ _ _ B' B E). qlra.
Qed.
Print Assumptions c19_rolled_price_nonneg.

(** C20 is false: returning to an earlier contract is not detected as a roll. *)
Theorem c20_contract_change_refuted : exists bars adj a1 a2 b1 b2 i,
  adjusted_bars bars [CClose] false = Ok adj /\ contract_changes (map snd bars) i /\
  nth_error (map fst bars) i = Some b1 /\ nth_error (map fst bars) (S i) = Some b2 /\
  nth_error adj i = Some a1 /\ nth_error adj (S i) = Some a2 /\
  a2 CClose - a1 CClose <> b2 CClose - b2 COpen.
Proof.
  exists [(bar4 10 10 10 10, 1%Z); (bar4 20 20 20 20, 2%Z); (bar4 10 10 10 10, 1%Z)].
  eexists. eexists. eexists. exists (bar4 20 20 20 20), (bar4 10 10 10 10), 1%nat.
  split; [reflexivity|]. split; [|repeat split].
  - exists 1%Z, 2%Z. cbn. repeat split. discriminate.
  - intro C. vm_compute in C. discriminate.
Qed.
Print Assumptions c20_contract_change_refuted.

(** C20, what holds: when no contract is returned to, the gap of open over previous close is removed at exactly the
    bars where the contract changes. *)
Theorem c20_contract_change_without_return : forall bars i b c b' c' x y,
  no_return (map snd bars) ->
  nth_error bars i = Some (b', c') -> nth_error bars (S i) = Some (b, c) ->
  forall gaps match_end, compute_roll_gaps bars match_end = Ok gaps ->
  nth_error gaps i = Some x -> nth_error gaps (S i) = Some y ->
  y - x = if Z.eqb c c' then 0 else b COpen - b' CClose.
Proof.
  intros bars i b c b' c' x y NR Hb' Hb gaps me E Hx Hy.
  destruct (roll_gaps_shift E) as [k [Eg _]]. subst gaps. rewrite nth_error_map in Hx, Hy.
  destruct (nth_error (base_gaps bars) i) as [u'|] eqn:Y'; [|discriminate].
  destruct (nth_error (base_gaps bars) (S i)) as [u|] eqn:Y; [|discriminate].
  cbn in Hx, Hy. inversion Hx; inversion Hy; subst x y.
  destruct (base_gaps_step Hb' Hb Y' Y) as [S1 S2].
  assert (E1 : nth_error (map snd bars) (S i) = Some c) by now rewrite nth_error_map, Hb.
  assert (E' : nth_error (map snd bars) i = Some c') by now rewrite nth_error_map, Hb'.
  assert (L : (S i < length (map snd bars))%nat) by (apply nth_error_Some; congruence).
  pose proof (roll_iff_change NR L) as RI.
  replace (u - k - (u' - k)) with (u - u') by ring.
  destruct (Z.eqb_spec c c') as [C|C].
  - apply S2. intro O. apply RI in O. destruct O as [p [q [X [Y1 N]]]]. congruence.
  - apply S1. apply RI. exists c, c'. auto.
Qed.
Print Assumptions c20_contract_change_without_return.

Definition sample_roll : list (row * Z) :=
  [(bar4 10 11 9 10, 1); (bar4 10 12 10 11, 1); (bar4 15 16 14 14, 2); (bar4 14 15 13 15, 2)]%Z.
Example c17_sample : exists adj, adjusted_bars sample_roll [CClose; COpen] true = Ok adj /\
  map (fun a => a CClose) adj = [14; 15; 14; 15] /\ map (fun a => a COpen) adj = [14; 14; 15; 14].
Proof. eexists. split; [reflexivity|]. split; vm_compute; reflexivity. Qed.
Example c17_sample_no_return : no_return (map snd sample_roll).
Proof.
  intros i j k c H H1 H2. destruct i as [|[|[|[|i]]]], j as [|[|[|[|j]]]], k as [|[|[|[|k]]]]; cbn in *; try lia; try congruence.
  all: try (destruct i; discriminate); try (destruct k; discriminate).
Qed.
