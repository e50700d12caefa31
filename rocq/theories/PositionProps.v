(** C67-C71: position sizing. *)
From Verif Require Import Py RNum BarrierModel BarrierProofs WeightModel WeightSpec WeightProofs WeightProps UtilsModel UtilsProps SharpeSpec PositionModel.
From Flocq Require Import Core.Raux Core.Generic_fmt Core.Round_NE.
Set Implicit Arguments.
Unset Strict Implicit.
Open Scope Qc_scope.

(** ** C67: budgeted sizes *)
Lemma list_max_ge l x : In x l -> (x <= list_max l)%nat.
Proof. intro H. pose proof (proj1 (list_max_le l (list_max l)) (le_n _)) as F. rewrite Forall_forall in F. auto. Qed.
Lemma filled_bounds bars counts t : 0 <= filled bars (map (fun r => (fst r, budget_share (snd r) (qn (list_max (map snd counts))))) counts) t /\
  filled bars (map (fun r => (fst r, budget_share (snd r) (qn (list_max (map snd counts))))) counts) t <= 1.
Proof.
  unfold filled. rewrite c83_fill_index_value. set (sh := map (fun r => (fst r, budget_share (snd r) (qn (list_max (map snd counts))))) counts).
  assert (Z : 0 <= 0 /\ 0 <= 1) by (split; [apply Qcle_refl|discriminate]).
  destruct (zmem t bars || zmem t (map fst sh)); auto. destruct (zmem t bars); auto. destruct (lookup t sh) as [[v|]|] eqn:E; auto.
  apply lookup_in in E. unfold sh in E. apply in_map_iff in E as ([u c] & Eq & Hin). cbn [fst snd] in Eq. injection Eq as _ Ev. unfold budget_share in Ev. destruct (qeq_spec (qn (list_max (map snd counts))) 0) as [Hz|Hz]; [discriminate|].
  injection Ev as <-. assert (Hc : (c <= list_max (map snd counts))%nat) by (apply list_max_ge, in_map_iff; now exists (u, c)).
  assert (Hm : 0 < qn (list_max (map snd counts))).
  { apply qn_pos. destruct (list_max (map snd counts)); [exfalso; auto|lia]. }
  apply qn_le in Hc. assert (0 <= qn c / qn (list_max (map snd counts))) by (apply Qcdiv_nonneg; auto; apply qn_nonneg).
  assert (qn c / qn (list_max (map snd counts)) <= 1) by (apply Qcdiv_le_iff; auto; qlra). split; qlra.
Qed.
Theorem c67_budgeted_bounded bars events sizes : budgeted_position_size bars events max_budget = Ok sizes ->
  map fst sizes = bars /\ forall t x, In (t, x) sizes -> - (1) <= x /\ x <= 1.
Proof.
  unfold budgeted_position_size. destruct (count_events_per_bar bars (of_side 1 events)) as [lc|]; [|discriminate]. cbn [bind].
  destruct (count_events_per_bar bars (of_side (-1) events)) as [sc|]; [|discriminate]. cbn [bind].
  destruct (map snd lc) as [|l0 ll] eqn:El; [discriminate|]. cbn [max_budget bind]. rewrite <- El.
  destruct (map snd sc) as [|s0 sl] eqn:Es; [discriminate|]. cbn [max_budget bind]. rewrite <- Es. intro E. injection E as <-.
  split; [rewrite map_map; apply map_id|]. intros t x Hin. apply in_map_iff in Hin as (u & Eu & _). injection Eu as <- <-.
  destruct (filled_bounds bars lc u) as [A1 A2]. destruct (filled_bounds bars sc u) as [B1 B2]. split; qlra.
Qed.
Print Assumptions c67_budgeted_bounded.
(** the size is the long share minus the short share *)
Definition with_ends (bars : list Z) (evs : list (Z * option Z)) : list (Z * Z) := map (fun e => (fst e, match snd e with Some x => x | None => last bars 0%Z end)) evs.
Lemma filled_value bars evs counts t : zssorted bars -> bars <> [] -> zsorted (map fst evs) -> count_events_per_bar bars evs = Ok counts -> In t bars ->
  filled bars (map (fun r => (fst r, budget_share (snd r) (qn (list_max (map snd counts))))) counts) t =
    qn (concurrent (with_ends bars evs) t) / qn (list_max (map (concurrent (with_ends bars evs)) bars)).
Proof.
  intros Hs Hb He Hc Ht. assert (Hne : evs <> []) by (intro E; rewrite c59_empty_raises in Hc by auto; discriminate).
  destruct (c59_counts Hs Hb Hne) as (i & j & cs & E1 & E2 & E3 & E4). rewrite Hc in E1. injection E1 as <-. fold (with_ends bars evs) in E3.
  assert (Hout : forall u, In u bars -> ~ In u (map fst counts) -> concurrent (with_ends bars evs) u = 0%nat).
  { intros u Hu Hn. destruct (concurrent (with_ends bars evs) u) eqn:E; auto. exfalso. assert (Hp : (0 < concurrent (with_ends bars evs) u)%nat) by lia.
    apply concurrent_pos in Hp as ([s e] & Hin & H1). unfold with_ends in Hin. apply in_map_iff in Hin as ([s' o] & Eq & Hin). cbn [fst snd] in Eq. injection Eq as <- <-.
    now apply (E4 He u Hu Hn s' o Hin). }
  assert (Hin : forall u, In u (map fst counts) -> In u bars).
  { rewrite E2. intros u Hu. unfold slice in Hu. rewrite <- (firstn_skipn i bars). apply in_or_app. right.
    rewrite <- (firstn_skipn (j - i) (skipn i bars)). apply in_or_app. left. exact Hu. }
  assert (Hmax : list_max (map snd counts) = list_max (map (concurrent (with_ends bars evs)) bars)).
  { apply Nat.le_antisymm.
    - apply list_max_le, Forall_forall. intros c Hcin. apply in_map_iff in Hcin as ([u c'] & <- & Hu). cbn. rewrite (E3 u c' Hu). apply list_max_ge, in_map, Hin, in_map_iff. now exists (u, c').
    - apply list_max_le, Forall_forall. intros c Hcin. apply in_map_iff in Hcin as (u & <- & Hu).
      destruct (in_dec Z.eq_dec u (map fst counts)) as [Hi|Hi]; [|rewrite Hout by auto; lia]. apply in_map_iff in Hi as ([u' c'] & <- & Hi). cbn [fst]. rewrite <- (E3 u' c' Hi). apply list_max_ge, in_map_iff. now exists (u', c'). }
  rewrite <- Hmax. unfold filled. rewrite c83_fill_index_value. rewrite (proj2 (zmem_in t bars) Ht). cbn [orb].
  set (sh := map (fun r => (fst r, budget_share (snd r) (qn (list_max (map snd counts))))) counts).
  destruct (lookup t sh) as [ov|] eqn:El.
  - apply lookup_in in El. apply in_map_iff in El as ([u c] & Eq & Hu). cbn [fst snd] in Eq. injection Eq as -> <-. rewrite (E3 t c Hu) in *. unfold budget_share.
    destruct (qeq_spec (qn (list_max (map snd counts))) 0) as [Hz|Hz]; [|ring]. rewrite Hz. unfold Qcdiv. replace (/ 0) with 0 by reflexivity. ring.
  - apply lookup_none in El. unfold sh in El. rewrite map_map in El. cbn in El. rewrite Hout by auto. replace (qn 0) with 0 by reflexivity. unfold Qcdiv. ring.
Qed.
Theorem c67_budgeted_value bars events sizes : zssorted bars -> bars <> [] -> zsorted (map (fun e => fst (fst e)) events) ->
  budgeted_position_size bars events max_budget = Ok sizes ->
  let longs := with_ends bars (of_side 1 events) in let shorts := with_ends bars (of_side (-1) events) in
  sizes = map (fun t => (t, qn (concurrent longs t) / qn (list_max (map (concurrent longs) bars)) - qn (concurrent shorts t) / qn (list_max (map (concurrent shorts) bars)))) bars.
Proof.
  intros Hs Hb He H longs shorts. unfold budgeted_position_size in H.
  destruct (count_events_per_bar bars (of_side 1 events)) as [lc|] eqn:Lc; [|discriminate]. cbn [bind] in H.
  destruct (count_events_per_bar bars (of_side (-1) events)) as [sc|] eqn:Sc; [|discriminate]. cbn [bind] in H.
  destruct (map snd lc) as [|l0 ll] eqn:El; [discriminate|]. cbn [max_budget bind] in H. rewrite <- El in H.
  destruct (map snd sc) as [|s0 sl] eqn:Es; [discriminate|]. cbn [max_budget bind] in H. rewrite <- Es in H. injection H as <-.
  assert (Hso : forall s, zsorted (map fst (of_side s events))).
  { intro s. unfold of_side. rewrite map_map. clear - He. induction events as [|e l IH]; cbn; [constructor|]. inversion_clear He as [|? ? He' Hf].
    destruct (snd e =? s)%Z; cbn; auto. constructor; [now apply IH|]. rewrite Forall_forall in *. intros x Hx. apply Hf. apply in_map_iff in Hx as (y & <- & Hy). apply filter_In in Hy as [Hy _]. now apply in_map_iff; exists y. }
  apply map_ext_in. intros t Ht. f_equal. rewrite (filled_value Hs Hb (Hso 1%Z) Lc Ht), (filled_value Hs Hb (Hso (-1)%Z) Sc Ht). reflexivity.
Qed.
Print Assumptions c67_budgeted_value.
(** REFUTED for other budgets, such as a quantile (here the lowest one): the size leaves [-1, 1] *)
Theorem c67_quantile_budget_refuted : exists bars events sizes, budgeted_position_size bars events (fun l => Ok (qn (fold_right Nat.min (hd 0%nat l) l))) = Ok sizes /\
  exists t x, In (t, x) sizes /\ 1 < x.
Proof.
  exists [0; 1; 2; 3]%Z, [(0%Z, Some 1%Z, 1%Z); (1%Z, Some 1%Z, 1%Z); (2%Z, Some 3%Z, (-1)%Z)]. eexists. split; [vm_compute; reflexivity|].
  exists 1%Z, (qz 2). split; [right; left; apply f_equal; apply Qc_is_canon; reflexivity|reflexivity].
Qed.
Print Assumptions c67_quantile_budget_refuted.
Example c67_budgeted_example : budgeted_position_size [0; 1; 2; 3]%Z [(0%Z, Some 1%Z, 1%Z); (1%Z, Some 2%Z, 1%Z); (1%Z, None, (-1)%Z)] max_budget =
  Ok [(0%Z, q 1 2); (1%Z, 0); (2%Z, q (-1) 2); (3%Z, - (1))].
Proof. vm_compute. reflexivity. Qed.

(** ** C69: one-sided books raise *)
Theorem c69_one_sided_refuted bars events : of_side 1 events = [] \/ of_side (-1) events = [] ->
  (forall budget, budgeted_position_size bars events budget = Err IndexError) /\ (forall fit, gaussian_mixture_position_size bars events fit = Err IndexError).
Proof.
  intro H. assert (E : forall l, {count_events_per_bar bars l = Err IndexError} + {exists c, count_events_per_bar bars l = Ok c}).
  { intro l. unfold count_events_per_bar. destruct (py_last bars) as [b|e] eqn:Eb; cbn [bind].
    - destruct (fill_ends b l); [left; auto|right; eauto].
    - left. unfold py_last in Eb. destruct (rev bars); congruence. }
  unfold budgeted_position_size, gaussian_mixture_position_size. destruct H as [H|H]; rewrite H.
  - rewrite c59_empty_raises by auto. auto.
  - destruct (E (of_side 1 events)) as [E1|[c E1]]; rewrite E1; cbn [bind]; [auto|]. rewrite c59_empty_raises by auto. auto.
Qed.
Print Assumptions c69_one_sided_refuted.
Theorem c69_two_sided_bars bars events fit : zssorted bars -> bars <> [] -> of_side 1 events <> [] -> of_side (-1) events <> [] ->
  exists sizes, gaussian_mixture_position_size bars events fit = Ok sizes /\ map fst sizes = bars.
Proof.
  intros Hs Hb Hl Hsh. unfold gaussian_mixture_position_size. destruct (c59_counts Hs Hb Hl) as (i & j & lc & E1 & _). destruct (c59_counts Hs Hb Hsh) as (i' & j' & sc & E2 & _).
  rewrite E1, E2. cbn [bind]. eexists. split; [reflexivity|]. apply combine_fst. now rewrite !map_length.
Qed.
Print Assumptions c69_two_sided_bars.

(** ** C67: mixture sizes *)
Open Scope R_scope.
Definition is_mixture (mix : list (R * (R -> R))) : Prop := mix <> [] /\ (forall k, In k mix -> 0 < fst k /\ is_cdf (snd k)) /\ rsum (map fst mix) = 1.
Lemma mixed_cdf_is_cdf mix : is_mixture mix -> is_cdf (mixed_cdf mix).
Proof.
  intros (Hne & Hk & H1). unfold mixed_cdf. split.
  - intro x. split.
    + apply rsum_pos; [destruct mix; [congruence|discriminate]|]. intros y Hy. apply in_map_iff in Hy as (k & <- & Hin). destruct (Hk k Hin) as [Hw Hc]. destruct Hc as [Hc _]. specialize (Hc x). nra.
    + rewrite <- H1. clear H1. destruct mix as [|k mix]; [congruence|]. cbn [map rsum]. destruct (Hk k (or_introl eq_refl)) as [Hw [Hc _]]. specialize (Hc x).
      assert (rsum (map (fun k0 => snd k0 x * fst k0) mix) <= rsum (map fst mix)).
      { apply rsum_map_le. intros k' Hin. destruct (Hk k' (or_intror Hin)) as [Hw' [Hc' _]]. specialize (Hc' x). nra. }
      nra.
  - intros x y Hxy. destruct mix as [|k mix]; [congruence|]. cbn [map rsum]. destruct (Hk k (or_introl eq_refl)) as [Hw [_ Hc]]. specialize (Hc x y Hxy).
    assert (rsum (map (fun k0 => snd k0 x * fst k0) mix) <= rsum (map (fun k0 => snd k0 y * fst k0) mix)).
    { apply rsum_map_le. intros k' Hin. destruct (Hk k' (or_intror Hin)) as [Hw' [_ Hc']]. specialize (Hc' x y Hxy). nra. }
    nra.
Qed.
Theorem c67_mixture_size mix c : is_mixture mix -> -1 < mixture_size mix c < 1 /\ (mixture_size mix c = 0 <-> c = 0%Z) /\ (0 < mixture_size mix c <-> (0 < c)%Z) /\
  forall c', (c < c')%Z -> mixture_size mix c < mixture_size mix c'.
Proof.
  intro Hm. apply mixed_cdf_is_cdf in Hm as [Hb Hi]. set (F := mixed_cdf mix) in *. pose proof (Hb 0) as H0.
  assert (Hpos : forall c, (0 < c)%Z -> 0 < mixture_size mix c < 1).
  { intros d Hd. unfold mixture_size. fold F. rewrite (proj2 (Z.leb_le 0 d)) by lia. pose proof (Hb (IZR d)). assert (F 0 < F (IZR d)) by (apply Hi, IZR_lt; auto).
    split; [apply Rdiv_lt_0_compat; lra|]. apply (Rmult_lt_reg_r (1 - F 0)); [lra|]. replace ((F (IZR d) - F 0) / (1 - F 0) * (1 - F 0)) with (F (IZR d) - F 0) by (field; lra). lra. }
  assert (Hneg : forall c, (c < 0)%Z -> -1 < mixture_size mix c < 0).
  { intros d Hd. unfold mixture_size. fold F. rewrite (proj2 (Z.leb_gt 0 d)) by lia. pose proof (Hb (IZR d)). assert (F (IZR d) < F 0) by (apply Hi, IZR_lt; auto).
    split; (apply (Rmult_lt_reg_r (F 0)); [lra|]; replace ((F (IZR d) - F 0) / F 0 * F 0) with (F (IZR d) - F 0) by (field; lra); lra). }
  assert (Hz : mixture_size mix 0 = 0) by (unfold mixture_size; fold F; cbn; field; lra).
  split; [|split; [|split]].
  - destruct (Z.lt_trichotomy c 0) as [H|[->|H]]; [specialize (Hneg c H)|rewrite Hz|specialize (Hpos c H)]; lra.
  - destruct (Z.lt_trichotomy c 0) as [H|[->|H]]; [specialize (Hneg c H)|rewrite Hz|specialize (Hpos c H)]; split; intros; try lra; auto; lia.
  - destruct (Z.lt_trichotomy c 0) as [H|[->|H]]; [specialize (Hneg c H)|rewrite Hz|specialize (Hpos c H)]; split; intros; try lra; auto; lia.
  - intros c' Hc. destruct (Z.lt_ge_cases c 0) as [H|H].
    + destruct (Z.lt_ge_cases c' 0) as [H'|H'].
      * unfold mixture_size. fold F. rewrite !(proj2 (Z.leb_gt 0 _)) by auto. apply Rmult_lt_compat_r; [apply Rinv_0_lt_compat; lra|]. assert (F (IZR c) < F (IZR c')) by (apply Hi, IZR_lt; auto). lra.
      * specialize (Hneg c H). destruct (Z.eq_dec c' 0) as [->|Hn]; [rewrite Hz; lra|]. specialize (Hpos c' ltac:(lia)). lra.
    + unfold mixture_size. fold F. rewrite !(proj2 (Z.leb_le 0 _)) by lia. apply Rmult_lt_compat_r; [apply Rinv_0_lt_compat; lra|]. assert (F (IZR c) < F (IZR c')) by (apply Hi, IZR_lt; auto). lra.
Qed.
Print Assumptions c67_mixture_size.
Theorem c67_mixture_bounded bars events fit sizes : (forall l, is_mixture (fit l)) -> gaussian_mixture_position_size bars events fit = Ok sizes ->
  forall t x, In (t, x) sizes -> -1 < x < 1.
Proof.
  intros Hf H t x Hin. unfold gaussian_mixture_position_size in H. destruct (count_events_per_bar bars (of_side 1 events)) as [lc|]; [|discriminate]. cbn [bind] in H.
  destruct (count_events_per_bar bars (of_side (-1) events)) as [sc|]; [|discriminate]. cbn [bind] in H. injection H as <-.
  apply in_combine_r in Hin. apply in_map_iff in Hin as (c & <- & _). now apply c67_mixture_size.
Qed.
Print Assumptions c67_mixture_bounded.

(** ** C67: sizes from probabilities *)
Lemma discretize_spec step x : 0 < step -> -1 <= x <= 1 ->
  -1 <= discretize step x <= 1 /\ Rabs (discretize step x - x) <= step / 2 /\ ((exists k, discretize step x = IZR k * step) \/ discretize step x = 1 \/ discretize step x = -1).
Proof.
  intros Hs Hx. unfold discretize. set (k := ZnearestE (x / step)). set (d := IZR k * step).
  assert (Hn : Rabs (d - x) <= step / 2).
  { pose proof (Znearest_half (fun x => negb (Z.even x)) (x / step)) as H. fold k in H. unfold d.
    replace (IZR k * step - x) with (- (x / step - IZR k) * step) by (field; lra). rewrite Rabs_mult, Rabs_Ropp, (Rabs_right step) by lra. nra. }
  apply Rabs_le_inv in Hn. destruct (Rlt_dec 1 d) as [H1|H1]; [|destruct (Rlt_dec d (-1)) as [H2|H2]].
  - destruct (Rlt_dec 1 (-1)) as [H3|H3]; [lra|]. split; [lra|]. split; [|auto]. apply Rabs_le. lra.
  - split; [lra|]. split; [|auto]. apply Rabs_le. lra.
  - split; [lra|]. split; [apply Rabs_le; lra|]. left. exists k. reflexivity.
Qed.
Lemma rmean_in_bounds l a b : l <> [] -> (forall x, In x l -> a <= x <= b) -> a <= rmean l <= b.
Proof.
  intros Hne H. pose proof (INR_length_pos Hne) as Hp. unfold rmean. assert (B : INR (length l) * a <= rsum l <= INR (length l) * b).
  { clear Hne Hp. induction l as [|x l IH]; [cbn; lra|]. cbn [length rsum]. rewrite S_INR. pose proof (H x (or_introl eq_refl)). assert (forall y, In y l -> a <= y <= b) by (intros; apply H; now right). apply IH in H1. lra. }
  split; [apply (Rmult_le_reg_r (INR (length l))) | apply (Rmult_le_reg_r (INR (length l)))]; auto; unfold Rdiv; rewrite Rmult_assoc, Rinv_l, Rmult_1_r; lra.
Qed.
Lemma avg_bounds bets t x : (forall b s, In b bets -> b_size b = Some s -> -1 <= s <= 1) -> In (t, Some x) (avg_active_positions bets) -> -1 <= x <= 1.
Proof.
  intros Hb Hin. unfold avg_active_positions in Hin. apply in_map_iff in Hin as (u & E & _). injection E as <- E.
  destruct (map b_start (filter (active_at u) bets)) as [|s0 ss]; [injection E as <-; lra|].
  unfold omean in E. destruct (somes (map b_size (filter (fun b => zmem (b_start b) (s0 :: ss)) bets))) as [|y ys] eqn:Es; [discriminate|]. injection E as <-.
  rewrite <- Es. apply rmean_in_bounds; [rewrite Es; discriminate|]. intros z Hz. apply somes_in in Hz. apply in_map_iff in Hz as (b & Eb & Hin). apply filter_In in Hin as [Hin _]. eauto.
Qed.
Lemma test_cdf_bounds cdf p n c : is_cdf cdf -> test_cdf cdf p n = Some c -> 0 <= c <= 1.
Proof.
  intros [Hc _] H. unfold test_cdf in H. destruct (Rlt_dec (p * (1 - p)) 0); [discriminate|].
  destruct (Req_EM_T (p * (1 - p)) 0).
  - destruct (Rlt_dec 0 (p - 1 / INR n)); [injection H as <-; lra|]. destruct (Rlt_dec (p - 1 / INR n) 0); [injection H as <-; lra|discriminate].
  - injection H as <-. specialize (Hc ((p - 1 / INR n) / sqrt (p * (1 - p)))). lra.
Qed.
Lemma mul_bounds a b : -1 <= a <= 1 -> -1 <= b <= 1 -> -1 <= a * b <= 1.
Proof. intros H1 H2. split; nra. Qed.
Theorem c67_probabilities_bounded cdf classes step signals : is_cdf cdf -> 0 < step ->
  (forall s, In s signals -> -1 <= s_pred s <= 1 /\ (forall d, s_side s = Some d -> -1 <= d <= 1)) ->
  forall t x, In (t, Some x) (size_from_probabilities cdf classes step signals) ->
    -1 <= x <= 1 /\ exists avg, In (t, Some avg) (avg_active_positions (map (signal_bet cdf classes) signals)) /\ Rabs (x - avg) <= step / 2 /\ ((exists k, x = IZR k * step) \/ x = 1 \/ x = -1).
Proof.
  intros Hc Hs Hsig t x Hin. unfold size_from_probabilities in Hin. apply in_map_iff in Hin as ([u [a|]] & E & Hin); cbn [fst snd option_map] in E; [|discriminate]. injection E as <- <-.
  assert (Ha : -1 <= a <= 1).
  { apply (avg_bounds (bets := map (signal_bet cdf classes) signals) (t := u)); auto. intros b s Hb Eb. apply in_map_iff in Hb as (sg & <- & Hsg). unfold signal_bet in Eb. cbn [b_size] in Eb.
    destruct (test_cdf cdf (s_prob sg) classes) as [c|] eqn:Et; [|discriminate]. cbn in Eb. injection Eb as <-. apply test_cdf_bounds in Et; auto. destruct (Hsig sg Hsg) as [H1 H2].
    apply mul_bounds; [apply mul_bounds; auto; lra|]. destruct (s_side sg) as [d|]; [auto|lra]. }
  destruct (@discretize_spec step a Hs Ha) as (D1 & D2 & D3). split; auto. exists a. auto.
Qed.
Print Assumptions c67_probabilities_bounded.
(** a bet has the direction of the prediction times the side exactly when the probability exceeds chance *)
Theorem c67_bet_direction cdf classes s x : is_cdf cdf -> cdf 0 = / 2 -> 0 < s_prob s < 1 -> (0 < classes)%nat ->
  b_size (signal_bet cdf classes s) = Some x ->
  exists m, x = m * (s_pred s * match s_side s with Some d => d | None => 1 end) /\ (0 < m <-> 1 / INR classes < s_prob s) /\ (m < 0 <-> s_prob s < 1 / INR classes).
Proof.
  intros [Hb Hi] H0 Hp Hn H. unfold signal_bet in H. cbn [b_size] in H. unfold test_cdf in H. set (p := s_prob s) in *.
  assert (Hv : 0 < p * (1 - p)) by nra. destruct (Rlt_dec (p * (1 - p)) 0); [lra|]. destruct (Req_EM_T (p * (1 - p)) 0); [lra|]. cbn in H. injection H as <-.
  set (z := (p - 1 / INR classes) / sqrt (p * (1 - p))). exists (2 * cdf z - 1). split; [ring|].
  assert (Hsq : 0 < sqrt (p * (1 - p))) by now apply sqrt_lt_R0.
  assert (Z1 : 0 < p - 1 / INR classes -> 0 < z) by (intro; now apply Rdiv_lt_0_compat).
  assert (Z2 : p - 1 / INR classes < 0 -> z < 0) by (intro; unfold z, Rdiv; assert (0 < / sqrt (p * (1 - p))) by (now apply Rinv_0_lt_compat); nra).
  assert (Z3 : p - 1 / INR classes = 0 -> z = 0) by (intro E; unfold z; rewrite E; unfold Rdiv; ring).
  destruct (Rtotal_order (p - 1 / INR classes) 0) as [H|[H|H]].
  - apply Z2 in H as Hz. apply Hi in Hz. lra.
  - rewrite (Z3 H), H0. lra.
  - apply Z1 in H as Hz. apply Hi in Hz. lra.
Qed.
Print Assumptions c67_bet_direction.

(** ** C68 *)
(** REFUTED: a finished bet that shares its start with a running one still counts. *)
Theorem c68_refuted : exists bets t x y, In (t, Some x) (avg_active_positions bets) /\ map b_size (filter (active_at t) bets) = [Some y] /\ x <> y.
Proof.
  exists [ {| b_start := 0%Z; b_end := Some 1%Z; b_size := Some 1 |}; {| b_start := 0%Z; b_end := Some 5%Z; b_size := Some (-1) |} ], 5%Z, 0, (-1).
  split; [|split; [reflexivity|lra]]. right. right. left. f_equal. cbn. f_equal. unfold rmean. cbn. lra.
Qed.
Print Assumptions c68_refuted.
Theorem c68_under_guard bets t : NoDup (map b_start bets) -> In t (zset (map b_start bets ++ somes (map b_end bets))) ->
  lookup t (avg_active_positions bets) = Some (match filter (active_at t) bets with [] => Some 0 | act => omean (somes (map b_size act)) end).
Proof.
  intros Hn Ht. unfold avg_active_positions. rewrite (@lookup_index _ (fun t => match map b_start (filter (active_at t) bets) with [] => Some 0 | _ => omean (somes (map b_size (filter (fun b => zmem (b_start b) (map b_start (filter (active_at t) bets))) bets))) end)) by auto.
  f_equal. assert (E : filter (fun b => zmem (b_start b) (map b_start (filter (active_at t) bets))) bets = filter (active_at t) bets).
  { apply filter_ext_in'. intros b Hb. apply eq_true_iff_eq. rewrite zmem_in, in_map_iff. split.
    - intros (b' & Es & Hb'). apply filter_In in Hb' as [Hb' Ha]. replace b with b'; auto.
      clear - Hn Hb Hb' Es. induction bets as [|c l IH]; [destruct Hb|]. cbn in Hn. inversion_clear Hn as [|? ? Hni Hnd]. destruct Hb as [->|Hb], Hb' as [->|Hb']; auto.
      + exfalso. apply Hni. rewrite <- Es. now apply in_map. + exfalso. apply Hni. rewrite Es. now apply in_map.
    - intro Ha. exists b. split; auto. apply filter_In. auto. }
  rewrite E. destruct (filter (active_at t) bets); reflexivity.
Qed.
Print Assumptions c68_under_guard.
(** sizes change only when a bet starts or ends: the returned times are the starts and ends in increasing order *)
Theorem c68_times bets : map fst (avg_active_positions bets) = zset (map b_start bets ++ somes (map b_end bets)).
Proof. unfold avg_active_positions. rewrite map_map. apply map_id. Qed.
Print Assumptions c68_times.

(** ** C70 *)
Lemma sq_pos x : x <> 0 -> 0 < x * x. Proof. intro H. destruct (Rtotal_order x 0) as [?|[?|?]]; nra. Qed.
Theorem c70_calibration x m : 0 < x * m -> -1 <= m <= 1 -> scaled_sigmoid (sigmoid_coeff x m) x = m.
Proof.
  intros H Hm. assert (Hx : x <> 0) by (intro E; rewrite E in H; lra). assert (Hm0 : m <> 0) by (intro E; rewrite E in H; lra).
  unfold scaled_sigmoid, sigmoid_coeff. replace (x * x * (/ (m * m) - 1) + x * x) with ((x / m) * (x / m)) by (field; auto).
  assert (Hq : 0 < x / m). { replace (x / m) with (x * m * / (m * m)) by (field; auto). apply Rmult_lt_0_compat; auto. apply Rinv_0_lt_compat, sq_pos; auto. }
  rewrite sqrt_square by lra. field. auto.
Qed.
Print Assumptions c70_calibration.
Lemma sigmoid_denominator w x : 0 < w -> 0 < sqrt (w + x * x) /\ Rabs x < sqrt (w + x * x).
Proof.
  intro H. assert (0 <= x * x) by nra. split; [apply sqrt_lt_R0; lra|].
  rewrite <- sqrt_Rsqr_abs. apply sqrt_lt_1_alt. unfold Rsqr. lra.
Qed.
Theorem c70_sigmoid_bounds w x : 0 < w -> -1 < scaled_sigmoid w x < 1 /\ (0 < scaled_sigmoid w x <-> 0 < x) /\ (scaled_sigmoid w x = 0 <-> x = 0) /\ scaled_sigmoid w (- x) = - scaled_sigmoid w x.
Proof.
  intro H. destruct (@sigmoid_denominator w x H) as [Hp Ha]. apply Rabs_def2 in Ha. unfold scaled_sigmoid. set (d := sqrt (w + x * x)) in *.
  assert (Hi : 0 < / d) by now apply Rinv_0_lt_compat. assert (Hd : d * / d = 1) by (apply Rinv_r; lra).
  split; [split; nra|]. split; [split; nra|]. split; [split; [intro E|intros ->; ring]|].
  - replace x with (x * / d * d) by (field; lra). rewrite E. ring.
  - replace (- x * - x) with (x * x) by ring. fold d. ring.
Qed.
Print Assumptions c70_sigmoid_bounds.
Theorem c70_inverse_price w f m : 0 < w -> -1 < m < 1 -> scaled_sigmoid w (f - inverse_price f w m) = m.
Proof.
  intros H Hm. unfold inverse_price. set (r := sqrt (w / (1 - m * m))). assert (Hd : 0 < 1 - m * m) by nra.
  assert (Hq : 0 < w / (1 - m * m)) by now apply Rdiv_lt_0_compat. assert (Hr : 0 < r) by now apply sqrt_lt_R0. assert (Hrr : r * r = w / (1 - m * m)) by (apply sqrt_sqrt; lra).
  replace (f - (f - m * r)) with (m * r) by ring. unfold scaled_sigmoid.
  replace (w + m * r * (m * r)) with (r * r). { rewrite sqrt_square by lra. field. lra. }
  replace (m * r * (m * r)) with (m * m * (r * r)) by ring. rewrite Hrr. field. lra.
Qed.
Print Assumptions c70_inverse_price.
Theorem c70_price_of_size w f p : 0 < w -> inverse_price f w (scaled_sigmoid w (f - p)) = p.
Proof.
  intro H. set (x := f - p). unfold inverse_price, scaled_sigmoid. assert (Hx : 0 <= x * x) by nra. destruct (@sigmoid_denominator w x H) as [Hd _]. set (d := sqrt (w + x * x)) in *.
  assert (Hdd : d * d = w + x * x) by (apply sqrt_sqrt; lra).
  replace (w / (1 - x * / d * (x * / d))) with (d * d). { rewrite sqrt_square by lra. unfold x. field. lra. }
  replace (1 - x * / d * (x * / d)) with ((d * d - x * x) / (d * d)) by (field; lra). replace (d * d - x * x) with w by lra. field. split; lra.
Qed.
Print Assumptions c70_price_of_size.
Theorem c70_size_bounds f p m w : 0 < w -> 0 < m -> Rabs (IZR (size_from_divergence f p m w)) < m /\
  ((0 < size_from_divergence f p m w)%Z -> p < f) /\ ((size_from_divergence f p m w < 0)%Z -> f < p) /\
  size_from_divergence (- f) (- p) m w = (- size_from_divergence f p m w)%Z.
Proof.
  intros H Hm. destruct (@c70_sigmoid_bounds w (f - p) H) as (B & S & _ & O). unfold size_from_divergence. set (s := scaled_sigmoid w (f - p)) in *.
  assert (Ht : Rabs (IZR (Ztrunc (s * m))) <= Rabs (s * m)).
  { rewrite <- abs_IZR, <- Ztrunc_abs. rewrite Ztrunc_floor by apply Rabs_pos. apply Zfloor_lb. }
  assert (Ha : Rabs (s * m) < m) by (rewrite Rabs_mult, (Rabs_right m) by lra; assert (Rabs s < 1) by (apply Rabs_def1; lra); nra).
  split; [lra|]. split; [|split].
  - intro Hp. destruct (Rlt_dec 0 (f - p)) as [|Hn]; [lra|]. exfalso. assert (s <= 0) by (destruct (Rlt_dec 0 s); [tauto|lra]).
    assert (Hc : s * m <= 0) by nra. apply Ztrunc_le in Hc. rewrite (Ztrunc_IZR 0) in Hc. lia.
  - intro Hp. destruct (Rlt_dec (f - p) 0) as [|Hn]; [lra|]. exfalso. assert (0 <= s) by (destruct (Req_dec (f - p) 0) as [E|E]; [unfold s; rewrite E; unfold scaled_sigmoid; lra|left; apply S; lra]).
    assert (Hc : 0 <= s * m) by nra. apply Ztrunc_le in Hc. rewrite (Ztrunc_IZR 0) in Hc. lia.
  - replace (- f - - p) with (- (f - p)) by ring. rewrite O. fold s. rewrite <- Ztrunc_opp. f_equal. ring.
Qed.
Print Assumptions c70_size_bounds.

(** ** C71 *)
Lemma mapM_pure A B (f : A -> res B) (g : A -> B) l : (forall a, In a l -> f a = Ok (g a)) -> mapM f l = Ok (map g l).
Proof. induction l as [|a l IH]; intro H; auto. cbn [mapM map]. rewrite H, IH; auto. - intros; apply H; now right. - now left. Qed.
Lemma unit_price_ok f w mx j : (0 <= j < mx)%Z -> unit_price f w mx j = Ok (inverse_price f w (IZR j / IZR mx)).
Proof.
  intro H. unfold unit_price. destruct (Z.eqb_spec mx 0); [lia|]. destruct (Req_EM_T _ 0) as [E|]; auto. exfalso.
  assert (Hm : 0 < IZR mx) by (apply IZR_lt; lia). assert (0 <= IZR j < IZR mx) by (split; [apply IZR_le|apply IZR_lt]; lia).
  assert (Hq : 0 <= IZR j / IZR mx < 1). { split; [apply Rmult_le_pos; [tauto|left; now apply Rinv_0_lt_compat]|]. apply (Rmult_lt_reg_r (IZR mx)); auto. unfold Rdiv. rewrite Rmult_assoc, Rinv_l; lra. }
  nra.
Qed.
(** Buying from a non-negative position: the average of the inverse prices of the units bought. *)
Theorem c71_buy_limit_price cur target mx f w : (0 <= cur < target)%Z -> (target < mx)%Z -> 0 <= w ->
  compute_limit_price cur target mx f w = Ok (rmean (map (fun j => inverse_price f w (IZR j / IZR mx)) (zrange (cur + 1) (target + 1)))).
Proof.
  intros H1 H2 _. unfold compute_limit_price. rewrite (proj2 (Z.ltb_lt cur target)) by lia. rewrite !Z.abs_eq by lia.
  rewrite (@mapM_pure _ _ _ (fun j => inverse_price f w (IZR j / IZR mx))).
  - cbn [bind]. destruct (Z.eqb_spec (target - cur) 0); [lia|]. unfold rmean. f_equal. f_equal. rewrite map_length. unfold zrange. rewrite map_length, seq_length, INR_IZR_INZ. f_equal. lia.
  - intros j Hj. unfold zrange in Hj. apply in_map_iff in Hj as (k & <- & Hk). apply in_seq in Hk. apply unit_price_ok. lia.
Qed.
Print Assumptions c71_buy_limit_price.
(** it is the break-even price: at most the forecast, and between the marginal prices of the first and of the last unit *)
Lemma inverse_price_decreasing f w m1 m2 : 0 < w -> 0 <= m1 <= m2 -> m2 < 1 -> inverse_price f w m2 <= inverse_price f w m1.
Proof.
  intros Hw H1 H2. unfold inverse_price. assert (S : sqrt (w / (1 - m1 * m1)) <= sqrt (w / (1 - m2 * m2))).
  { apply sqrt_le_1_alt. apply Rmult_le_compat_l; [lra|]. apply Rinv_le_contravar; nra. }
  pose proof (sqrt_pos (w / (1 - m1 * m1))). nra.
Qed.
Theorem c71_buy_between_marginals cur target mx f w : (0 <= cur < target)%Z -> (target < mx)%Z -> 0 < w ->
  exists p, compute_limit_price cur target mx f w = Ok p /\ inverse_price f w (IZR target / IZR mx) <= p <= inverse_price f w (IZR (cur + 1) / IZR mx).
Proof.
  intros H1 H2 Hw. eexists. split; [apply c71_buy_limit_price; auto; lra|]. apply rmean_in_bounds.
  - intro E. apply (f_equal (@length R)) in E. rewrite map_length in E. unfold zrange in E. rewrite map_length, seq_length in E. cbn in E. lia.
  - intros x Hx. apply in_map_iff in Hx as (j & <- & Hj). unfold zrange in Hj. apply in_map_iff in Hj as (k & <- & Hk). apply in_seq in Hk.
    assert (Hm : 0 < IZR mx) by (apply IZR_lt; lia). assert (Hi : 0 < / IZR mx) by now apply Rinv_0_lt_compat.
    assert (R1 : forall a b, (a <= b)%Z -> IZR a / IZR mx <= IZR b / IZR mx) by (intros a b Hab; apply Rmult_le_compat_r; [lra|now apply IZR_le]).
    assert (R2 : IZR target / IZR mx < 1). { apply (Rmult_lt_reg_r (IZR mx)); auto. unfold Rdiv. rewrite Rmult_assoc, Rinv_l by lra. rewrite Rmult_1_r, Rmult_1_l. apply IZR_lt. lia. }
    assert (R3 : forall a, (0 <= a)%Z -> 0 <= IZR a / IZR mx) by (intros a Ha; apply Rmult_le_pos; [now apply IZR_le|lra]).
    split; apply inverse_price_decreasing; auto; try split; auto; try (apply R1; lia); try (apply R3; lia).
    apply Rle_lt_trans with (IZR target / IZR mx); auto. apply R1. lia.
Qed.
Print Assumptions c71_buy_between_marginals.
(** REFUTED for sells: the limit price of selling down to a non-negative position is 0, or the negated price for a single unit. *)
Theorem c71_sell_refuted cur target mx f w : (0 <= target < cur)%Z -> (cur < mx)%Z -> 0 <= w ->
  compute_limit_price cur target mx f w = Ok (if (target + 1 =? cur)%Z then - inverse_price f w (IZR target / IZR mx) else 0).
Proof.
  intros H1 H2 _. unfold compute_limit_price. rewrite (proj2 (Z.ltb_ge cur target)) by lia. rewrite !Z.abs_eq by lia. destruct (Z.eqb_spec (target + 1) cur) as [E|E].
  - replace (zrange (cur + -1) (target + 1)) with [target].
    + cbn [mapM]. rewrite unit_price_ok by lia. cbn [bind]. destruct (Z.eqb_spec (target - cur) 0); [lia|]. f_equal. replace (target - cur)%Z with (-1)%Z by lia. cbn [rsum]. field.
    + unfold zrange. replace (Z.to_nat (target + 1 - (cur + -1))) with 1%nat by lia. cbn. f_equal. lia.
  - replace (zrange (cur + -1) (target + 1)) with (@nil Z).
    + cbn. destruct (Z.eqb_spec (target - cur) 0); [lia|]. f_equal. unfold Rdiv. ring.
    + unfold zrange. replace (Z.to_nat (target + 1 - (cur + -1))) with 0%nat by lia. reflexivity.
Qed.
Print Assumptions c71_sell_refuted.
(** REFUTED for shorts: selling further short adds the prices of buying, of too few units and with the wrong sign; buying back is free *)
Theorem c71_short_refuted cur target mx f w : (- mx < target < cur)%Z -> (cur <= 0)%Z -> 0 <= w ->
  compute_limit_price cur target mx f w = Ok (- rsum (map (fun k => inverse_price f w (INR k / IZR mx)) (seq (Z.to_nat (1 - cur)) (Z.to_nat (cur - target - 2)))) / IZR (cur - target)).
Proof.
  intros H1 H2 _. unfold compute_limit_price. rewrite (proj2 (Z.ltb_ge cur target)) by lia. rewrite (Z.abs_neq (cur + -1)) by lia. rewrite (Z.abs_neq (target + 1)) by lia. 
  rewrite (@mapM_pure _ _ _ (fun j => inverse_price f w (IZR j / IZR mx))).
  - cbn [bind]. destruct (Z.eqb_spec (target - cur) 0); [lia|]. f_equal.
    assert (D : IZR (cur - target) <> 0) by (apply not_0_IZR; lia). replace (IZR (target - cur)) with (- IZR (cur - target)) by (rewrite <- opp_IZR; f_equal; lia).
    replace (rsum (map (fun j => inverse_price f w (IZR j / IZR mx)) (zrange (- (cur + -1)) (- (target + 1))))) with (rsum (map (fun k => inverse_price f w (INR k / IZR mx)) (seq (Z.to_nat (1 - cur)) (Z.to_nat (cur - target - 2))))); [field; auto|].
    unfold zrange. rewrite map_map. f_equal. replace (Z.to_nat (- (target + 1) - - (cur + -1))) with (Z.to_nat (cur - target - 2)) by lia.
    assert (E : forall a k, seq a k = map (fun i => (a + i)%nat) (seq 0 k)). { intros a k. revert a. induction k as [|k IH]; intro a; auto. cbn [seq map]. f_equal; [lia|]. rewrite (IH (S a)), <- seq_shift, map_map. apply map_ext. intro. lia. }
    rewrite (E (Z.to_nat (1 - cur))), map_map. apply map_ext. intro k. do 2 f_equal. rewrite INR_IZR_INZ. f_equal. lia.
  - intros j Hj. unfold zrange in Hj. apply in_map_iff in Hj as (k & <- & Hk). apply in_seq in Hk. apply unit_price_ok. lia.
Qed.
Print Assumptions c71_short_refuted.
Theorem c71_cover_refuted cur target mx f w : (cur < target <= 0)%Z -> (mx <> 0)%Z -> 0 <= w ->
  compute_limit_price cur target mx f w = Ok (if (cur =? -1)%Z then f else 0).
Proof.
  intros H1 H2 _. unfold compute_limit_price. rewrite (proj2 (Z.ltb_lt cur target)) by lia. rewrite (Z.abs_neq (cur + 1)) by lia. destruct (Z.eqb_spec cur (-1)) as [->|N].
  - assert (target = 0)%Z as -> by lia. change (zrange (- (-1 + 1)) (Z.abs (0 + 1))) with [0%Z]. cbn [mapM].
    assert (U : unit_price f w mx 0 = Ok f). { unfold unit_price. destruct (Z.eqb_spec mx 0); [lia|]. cbv zeta. unfold Rdiv. rewrite Rmult_0_l. destruct (Req_EM_T _ 0); [lra|]. f_equal. unfold inverse_price. ring. }
    rewrite U. cbn [bind rsum]. change (0 - -1 =? 0)%Z with false. cbv iota. change (0 - -1)%Z with 1%Z. apply f_equal. field.
  - replace (zrange (- (cur + 1)) (Z.abs (target + 1))) with (@nil Z).
    + cbn. destruct (Z.eqb_spec (target - cur) 0); [lia|]. f_equal. unfold Rdiv. ring.
    + unfold zrange. replace (Z.to_nat (Z.abs (target + 1) - - (cur + 1))) with 0%nat by lia. reflexivity.
Qed.
Print Assumptions c71_cover_refuted.
(** no trade, or a target at the maximum, raises *)
Theorem c71_no_trade_raises cur mx f w : (0 <= cur < mx)%Z -> compute_limit_price cur cur mx f w = Err ZeroDivisionError.
Proof.
  intro H. unfold compute_limit_price. rewrite Z.ltb_irrefl. rewrite (@mapM_pure _ _ _ (fun j => inverse_price f w (IZR j / IZR mx))).
  - cbn [bind]. now rewrite Z.sub_diag.
  - intros j Hj. unfold zrange in Hj. apply in_map_iff in Hj as (k & <- & Hk). apply in_seq in Hk. apply unit_price_ok. lia.
Qed.
Print Assumptions c71_no_trade_raises.
Theorem c71_target_max_raises cur mx f w : (0 <= cur < mx)%Z -> compute_limit_price cur mx mx f w = Err ZeroDivisionError.
Proof.
  intro H. unfold compute_limit_price. rewrite (proj2 (Z.ltb_lt cur mx)) by lia. rewrite !Z.abs_eq by lia.
  assert (E : zrange (cur + 1) (mx + 1) = zrange (cur + 1) mx ++ [mx]).
  { unfold zrange. replace (Z.to_nat (mx + 1 - (cur + 1))) with (Z.to_nat (mx - (cur + 1)) + 1)%nat by lia. rewrite seq_app, map_app. f_equal. cbn. f_equal. lia. }
  rewrite E, mapM_app. rewrite (@mapM_pure _ _ _ (fun j => inverse_price f w (IZR j / IZR mx))).
  - cbn [bind mapM]. unfold unit_price at 1. destruct (Z.eqb_spec mx 0); [lia|]. destruct (Req_EM_T _ 0) as [E'|E']; [reflexivity|]. exfalso. apply E'. field. apply IZR_neq. auto.
  - intros j Hj. unfold zrange in Hj. apply in_map_iff in Hj as (k & <- & Hk). apply in_seq in Hk. apply unit_price_ok. lia.
Qed.
Print Assumptions c71_target_max_raises.

(** ** Values, written out without the model's helpers *)
(** the events of one side alive at time [t]; an event without an end lives to the last bar *)
Definition live (bars : list Z) (events : list event) (side t : Z) : nat :=
  length (filter (fun e => (snd e =? side)%Z && ((fst (fst e) <=? t)%Z && (t <=? match snd (fst e) with Some x => x | None => last bars 0%Z end)%Z)) events).
Lemma live_concurrent bars events s t : concurrent (with_ends bars (of_side s events)) t = live bars events s t.
Proof.
  unfold concurrent, live, with_ends, of_side. rewrite map_map. induction events as [|e l IH]; auto. cbn [filter map]. destruct (snd e =? s)%Z; cbn [andb filter map]; auto.
  cbn [fst snd]. destruct ((fst (fst e) <=? t)%Z && _); cbn [length]; now rewrite IH.
Qed.
Lemma of_side_sorted s (events : list event) : zsorted (map (fun e => fst (fst e)) events) -> zsorted (map fst (of_side s events)).
Proof.
  intro He. unfold of_side. rewrite map_map. induction events as [|e l IH]; cbn; [constructor|]. inversion_clear He as [|? ? He' Hf].
  destruct (snd e =? s)%Z; cbn; auto. constructor; [now apply IH|]. rewrite Forall_forall in *. intros x Hx. apply Hf. apply in_map_iff in Hx as (y & <- & Hy). apply filter_In in Hy as [Hy _]. now apply in_map_iff; exists y.
Qed.
Theorem c67_budgeted_sizes bars (events : list event) : zssorted bars -> bars <> [] -> zsorted (map (fun e => fst (fst e)) events) ->
  (exists e, In e events /\ snd e = 1%Z) -> (exists e, In e events /\ snd e = (-1)%Z) -> (forall e, In e events -> exists t, In t bars /\ live bars events (snd e) t <> 0%nat) ->
  budgeted_position_size bars events max_budget =
    Ok (map (fun t => (t, qn (live bars events 1 t) / qn (list_max (map (live bars events 1) bars)) - qn (live bars events (-1) t) / qn (list_max (map (live bars events (-1)) bars)))%Qc) bars).
Proof.
  intros Hs Hb He (el & Hl & Sl) (es & Hsh & Ss) Hlive.
  assert (NE : forall e s, In e events -> snd e = s -> of_side s events <> []).
  { intros e s Hin Es E. assert (In (fst e) (of_side s events)) by (apply in_map, filter_In; split; auto; now apply Z.eqb_eq). rewrite E in H. destruct H. }
  pose proof (NE _ _ Hl Sl) as N1. pose proof (NE _ _ Hsh Ss) as N2.
  destruct (c59_counts Hs Hb N1) as (i & j & lc & E1 & E2 & E3 & E4). destruct (c59_counts Hs Hb N2) as (i' & j' & sc & F1 & F2 & F3 & F4).
  assert (K : forall s (cs : list (Z * nat)) e0, In e0 events -> snd e0 = s -> (zsorted (map fst (of_side s events)) -> forall t, In t bars -> ~ In t (map fst cs) -> forall s0 e, In (s0, e) (of_side s events) -> ~ (s0 <= t <= match e with Some x => x | None => last bars 0%Z end)%Z) -> map snd cs <> []).
  { intros s cs e0 Hin Es H E. destruct (Hlive e0 Hin) as (t & Ht & Hlv). rewrite Es, <- live_concurrent in Hlv. assert (Hp : (0 < concurrent (with_ends bars (of_side s events)) t)%nat) by lia. apply concurrent_pos in Hp as ([a b] & Hab & H1).
    unfold with_ends in Hab. apply in_map_iff in Hab as ([a' o] & Eq & Hab). cbn [fst snd] in Eq. injection Eq as <- <-. apply map_eq_nil in E. subst cs. apply (H (@of_side_sorted s events He) t Ht (fun f => f) a' o Hab). cbn in H1. exact H1. }
  pose proof (K _ _ _ Hl Sl E4) as K1. pose proof (K _ _ _ Hsh Ss F4) as K2.
  destruct (budgeted_position_size bars events max_budget) as [sizes|err] eqn:EB.
  - rewrite (c67_budgeted_value Hs Hb He EB). assert (M : forall s, map (concurrent (with_ends bars (of_side s events))) bars = map (live bars events s) bars) by (intro s; apply map_ext; intro u; apply live_concurrent).
    f_equal. apply map_ext. intro t. now rewrite !live_concurrent, !M.
  - exfalso. unfold budgeted_position_size in EB. rewrite E1, F1 in EB. cbn [bind] in EB. destruct (map snd lc); [congruence|]. destruct (map snd sc); [congruence|]. cbn [max_budget bind] in EB. discriminate.
Qed.
Print Assumptions c67_budgeted_sizes.
Lemma count_at_live bars (events : list event) s counts t : zssorted bars -> bars <> [] -> zsorted (map (fun e => fst (fst e)) events) -> count_events_per_bar bars (of_side s events) = Ok counts -> In t bars ->
  count_at counts t = Z.of_nat (live bars events s t).
Proof.
  intros Hs Hb He Hc Ht. assert (Hne : of_side s events <> []) by (intro E; rewrite c59_empty_raises in Hc by auto; discriminate).
  destruct (c59_counts Hs Hb Hne) as (i & j & cs & E1 & E2 & E3 & E4). rewrite Hc in E1. injection E1 as <-. fold (with_ends bars (of_side s events)) in E3.
  unfold count_at. f_equal. rewrite <- live_concurrent. destruct (lookup t counts) as [c|] eqn:El.
  - apply lookup_in in El. now apply E3.
  - apply lookup_none in El. destruct (concurrent (with_ends bars (of_side s events)) t) eqn:E; auto. exfalso. assert (Hp : (0 < concurrent (with_ends bars (of_side s events)) t)%nat) by lia.
    apply concurrent_pos in Hp as ([a b] & Hin & H1). unfold with_ends in Hin. apply in_map_iff in Hin as ([a' o] & Eq & Hin). cbn [fst snd] in Eq. injection Eq as <- <-.
    now apply (E4 (@of_side_sorted s events He) t Ht El a' o Hin).
Qed.
(** the mixture sizes: the fitted mixture's cdf at the net number of live events, from its value at 0, over what is left on that side *)
Theorem c67_mixture_sizes bars (events : list event) fit sizes : zssorted bars -> bars <> [] -> zsorted (map (fun e => fst (fst e)) events) -> gaussian_mixture_position_size bars events fit = Ok sizes ->
  let net := fun t => (Z.of_nat (live bars events 1 t) - Z.of_nat (live bars events (-1) t))%Z in
  let F := fun x => rsum (map (fun k => fst k * snd k x) (fit (map net bars))) in
  sizes = map (fun t => (t, if (net t <? 0)%Z then (F (IZR (net t)) - F 0) / F 0 else (F (IZR (net t)) - F 0) / (1 - F 0))) bars.
Proof.
  intros Hs Hb He H net F. unfold gaussian_mixture_position_size in H. destruct (count_events_per_bar bars (of_side 1 events)) as [lc|] eqn:Lc; [|discriminate]. cbn [bind] in H.
  destruct (count_events_per_bar bars (of_side (-1) events)) as [sc|] eqn:Sc; [|discriminate]. cbn [bind] in H. injection H as <-.
  assert (EN : map (fun t => (count_at lc t - count_at sc t)%Z) bars = map net bars).
  { apply map_ext_in. intros t Ht. unfold net. now rewrite (count_at_live Hs Hb He Lc Ht), (count_at_live Hs Hb He Sc Ht). }
  rewrite EN. set (mix := fit (map net bars)) in *. rewrite map_map. assert (CM : forall (A B : Type) (f : A -> B) l, combine l (map f l) = map (fun x => (x, f x)) l) by (intros A B f l; induction l; cbn; congruence). rewrite CM.
  apply map_ext. intro t. f_equal. assert (EF : forall x, mixed_cdf mix x = F x) by (intro x; unfold mixed_cdf, F; f_equal; apply map_ext; intro; ring). unfold mixture_size. rewrite !EF.
  destruct (Z.leb_spec 0 (net t)), (Z.ltb_spec (net t) 0); try lia; reflexivity.
Qed.
Print Assumptions c67_mixture_sizes.
(** a signal's bet: the normal probability of the test statistic, turned into a number of [-1, 1], times the predicted class and the side; certain predictions bet everything *)
Theorem c67_signal_value cdf classes s : let p := s_prob s in let d := match s_side s with Some d => d | None => 1 end in (1 < classes)%nat ->
  b_start (signal_bet cdf classes s) = s_start s /\ b_end (signal_bet cdf classes s) = s_end s /\
  (0 < p < 1 -> b_size (signal_bet cdf classes s) = Some (s_pred s * d * (2 * cdf ((p - / INR classes) / sqrt (p * (1 - p))) - 1))) /\
  (p = 1 -> b_size (signal_bet cdf classes s) = Some (s_pred s * d)) /\ (p = 0 -> b_size (signal_bet cdf classes s) = Some (- (s_pred s * d))) /\
  (p < 0 \/ 1 < p -> b_size (signal_bet cdf classes s) = None).
Proof.
  intros p d Hn. assert (HI : 0 < / INR classes < 1) by (apply lt_INR in Hn; cbn in Hn; split; [apply Rinv_0_lt_compat; lra|rewrite <- Rinv_1; apply Rinv_lt_contravar; lra]).
  unfold signal_bet. cbn [b_start b_end b_size]. fold p d. split; auto. split; auto. unfold test_cdf. replace (1 / INR classes) with (/ INR classes) by (unfold Rdiv; ring). set (u := / INR classes) in *. clearbody u.
  split; [|split; [|split]].
  - intro Hp. assert (0 < p * (1 - p)) by nra. destruct (Rlt_dec (p * (1 - p)) 0); [lra|]. destruct (Req_EM_T (p * (1 - p)) 0); [lra|]. cbn [option_map]. f_equal. ring.
  - intro Hp. rewrite Hp. destruct (Rlt_dec (1 * (1 - 1)) 0); [lra|]. destruct (Req_EM_T (1 * (1 - 1)) 0); [|lra]. destruct (Rlt_dec 0 (1 - u)); [|lra]. cbn [option_map]. f_equal. ring.
  - intro Hp. rewrite Hp. destruct (Rlt_dec (0 * (1 - 0)) 0); [lra|]. destruct (Req_EM_T (0 * (1 - 0)) 0); [|lra]. destruct (Rlt_dec 0 (0 - u)); [lra|]. destruct (Rlt_dec (0 - u) 0); [|lra]. cbn [option_map]. f_equal. ring.
  - intro Hp. destruct (Rlt_dec (p * (1 - p)) 0) as [|C]; [reflexivity|]. exfalso. apply C. destruct Hp; [assert (0 < 1 - p) by lra|assert (0 < p) by lra]; nra.
Qed.
Print Assumptions c67_signal_value.
(** the discretised size: the multiple of the step nearest to the average, halves to the even multiple, cut off at 1 and -1 *)
Theorem c67_discretize_value step x k : 0 < step -> Rabs (x - IZR k * step) < step / 2 \/ (Rabs (x - IZR k * step) = step / 2 /\ Z.even k = true) -> discretize step x = Rmin 1 (Rmax (-1) (IZR k * step)).
Proof.
  intros Hs Hk. assert (EK : ZnearestE (x / step) = k).
  { assert (ES : Rabs (x / step - IZR k) * step = Rabs (x - IZR k * step)) by (rewrite <- (Rabs_right step) at 2 by lra; rewrite <- Rabs_mult; f_equal; field; lra).
    destruct Hk as [Hk|[Hk Hev]].
    - apply Znearest_imp. apply Rmult_lt_reg_r with step; auto. rewrite ES. lra.
    - assert (HA : Rabs (x / step - IZR k) = / 2) by (apply Rmult_eq_reg_r with step; [rewrite ES, Hk; field|lra]). unfold Znearest.
      unfold Rabs in HA. destruct (Rcase_abs (x / step - IZR k)) as [L|L].
      + assert (EF : Zfloor (x / step) = (k - 1)%Z) by (apply Zfloor_imp; rewrite <- !plus_IZR || idtac; rewrite minus_IZR; split; [lra|]; rewrite plus_IZR, minus_IZR; lra).
        rewrite EF. rewrite Rcompare_Eq by (rewrite minus_IZR; lra). rewrite Z.even_sub, Hev. cbn. apply Zceil_imp. rewrite minus_IZR. lra.
      + assert (EF : Zfloor (x / step) = k) by (apply Zfloor_imp; rewrite plus_IZR; lra). rewrite EF. rewrite Rcompare_Eq by lra. rewrite Hev. reflexivity. }
  unfold discretize. rewrite EK. set (y := IZR k * step). clearbody y. unfold Rmin, Rmax. destruct (Rlt_dec 1 y); [destruct (Rlt_dec 1 (-1)); [lra|]|destruct (Rlt_dec y (-1))]; repeat destruct (Rle_dec _ _); lra.
Qed.
Print Assumptions c67_discretize_value.
(** C68, in general: at each start and end time, the mean size of the bets that share their start with an active bet *)
Definition is_active (t : Z) (b : bet) : bool := (b_start b <=? t)%Z && match b_end b with Some e => (t <=? e)%Z | None => true end.
Theorem c68_value bets t r : In (t, r) (avg_active_positions bets) ->
  let sizes := flat_map (fun b => match b_size b with Some x => [x] | None => [] end) (filter (fun b => existsb (fun b' => is_active t b' && (b_start b' =? b_start b)%Z) bets) bets) in
  (forallb (fun b => negb (is_active t b)) bets = true -> r = Some 0) /\ (existsb (is_active t) bets = true -> r = match sizes with [] => None | _ => Some (rsum sizes / INR (length sizes)) end).
Proof.
  intros H sizes. unfold avg_active_positions in H. apply in_map_iff in H as (u & E & _). injection E as -> <-.
  assert (EX : existsb (is_active t) bets = true <-> map b_start (filter (active_at t) bets) <> []).
  { rewrite existsb_exists. split; [intros (b & Hb & Ha) C; apply map_eq_nil in C; assert (X : In b (filter (active_at t) bets)) by (apply filter_In; auto); rewrite C in X; destruct X|].
    intro N. destruct (filter (active_at t) bets) as [|b l] eqn:Ef; [now cbn in N|]. exists b. apply filter_In. rewrite <- Ef || idtac. replace (filter (is_active t) bets) with (filter (active_at t) bets) by reflexivity. rewrite Ef. now left. }
  assert (ES : somes (map b_size (filter (fun b => zmem (b_start b) (map b_start (filter (active_at t) bets))) bets)) = sizes).
  { unfold sizes, somes. rewrite flat_map_concat_map, map_map, <- flat_map_concat_map. f_equal. apply filter_ext. intro b. apply eq_true_iff_eq. rewrite zmem_in, in_map_iff, existsb_exists. split.
    - intros (b' & Eb & Hb'). apply filter_In in Hb' as [H1 H2]. exists b'. split; auto. apply andb_true_intro. split; [exact H2|now apply Z.eqb_eq].
    - intros (b' & Hb' & Ha). apply andb_prop in Ha as [H2 H1]. apply Z.eqb_eq in H1. exists b'. split; auto. apply filter_In. auto. }
  rewrite ES. split.
  - intro HF. destruct (map b_start (filter (active_at t) bets)) as [|s0 ss] eqn:Em; auto. exfalso. assert (N : existsb (is_active t) bets = true) by (apply EX; discriminate). apply existsb_exists in N as (b & Hb & Ha).
    rewrite forallb_forall in HF. specialize (HF b Hb). rewrite Ha in HF. discriminate.
  - intro HE. apply EX in HE. destruct (map b_start (filter (active_at t) bets)) as [|s0 ss]; [congruence|]. reflexivity.
Qed.
Print Assumptions c68_value.
Theorem c68_time_set bets t : zssorted (map fst (avg_active_positions bets)) /\ (In t (map fst (avg_active_positions bets)) <-> exists b, In b bets /\ (b_start b = t \/ b_end b = Some t)).
Proof.
  rewrite c68_times. split; [apply zset_sorted|]. rewrite zset_in, in_app_iff, somes_in, !in_map_iff. split.
  - intros [(b & E & H)|(b & E & H)]; exists b; auto.
  - intros (b & H & [E|E]); [left|right]; exists b; auto.
Qed.
Print Assumptions c68_time_set.
(** C70 and C71 written out *)
Theorem c70_size_value f p m w : 0 < w -> let x := m * (f - p) / sqrt (w + (f - p) ^ 2) in
  (0 <= x -> IZR (size_from_divergence f p m w) <= x < IZR (size_from_divergence f p m w) + 1) /\ (x <= 0 -> IZR (size_from_divergence f p m w) - 1 < x <= IZR (size_from_divergence f p m w)).
Proof.
  intros Hw x. unfold size_from_divergence, scaled_sigmoid. replace ((f - p) * / sqrt (w + (f - p) * (f - p)) * m) with x by (unfold x, Rdiv; replace ((f - p) * (f - p)) with ((f - p) ^ 2) by ring; ring).
  clearbody x. split; intro Hx.
  - rewrite Ztrunc_floor by auto. split; [apply Zfloor_lb|apply Zfloor_ub].
  - rewrite Ztrunc_ceil by auto. split; [|apply Zceil_ub]. pose proof (Zceil_lb x). lra.
Qed.
Print Assumptions c70_size_value.
Theorem c71_buy_value cur target mx f w : (0 <= cur < target)%Z -> (target < mx)%Z -> 0 <= w ->
  compute_limit_price cur target mx f w =
    Ok (rsum (map (fun k => f - (IZR cur + INR k) / IZR mx * sqrt (w / (1 - ((IZR cur + INR k) / IZR mx) ^ 2))) (seq 1 (Z.to_nat (target - cur)))) / IZR (target - cur)).
Proof.
  intros H1 H2 Hw. rewrite c71_buy_limit_price by auto. f_equal. unfold rmean, zrange. rewrite !map_length, seq_length. f_equal; [|rewrite INR_IZR_INZ; do 2 f_equal; lia].
  rewrite map_map. replace (Z.to_nat (target + 1 - (cur + 1))) with (Z.to_nat (target - cur)) by lia. rewrite <- seq_shift, map_map. f_equal. apply map_ext. intro k. unfold inverse_price. replace (IZR (cur + 1 + Z.of_nat k)) with (IZR cur + INR (S k)) by (rewrite !plus_IZR, S_INR, INR_IZR_INZ; ring). 
  set (z := (IZR cur + INR (S k)) / IZR mx). clearbody z. replace (z ^ 2) with (z * z) by ring. reflexivity.
Qed.
Print Assumptions c71_buy_value.
Example c67_values_nonvacuous : let bars := [0; 1; 2; 3]%Z in let events := [(0%Z, Some 1%Z, 1%Z); (1%Z, Some 2%Z, 1%Z); (1%Z, None, (-1)%Z)] in
  (forall e, In e events -> exists t, In t bars /\ live bars events (snd e) t <> 0%nat) /\ (Rabs (3 / 4 - IZR 4 * (1 / 5)) < (1 / 5) / 2).
Proof.
  cbv zeta. split; [|unfold Rabs; destruct (Rcase_abs _); lra]. intros e [<-|[<-|[<-|[]]]]; exists 1%Z; (split; [right; now left|]); cbn; discriminate.
Qed.
