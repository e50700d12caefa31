(** C64, C83, C89-C92: vertical barriers, index filling, daily return pairs, simulated processes. *)
From Verif Require Import Py RNum BarrierModel BarrierProofs WeightProofs UtilsModel.
From Coq Require Import Permutation Sorted.
Set Implicit Arguments.
Unset Strict Implicit.
Open Scope Qc_scope.

(** ** C64 *)
Theorem c64_vertical_barriers times events holding : zssorted times -> zsorted events ->
  map fst (vertical_barriers times events holding) = filter (fun e => existsb (fun t => (e + holding <=? t)%Z) times) events /\
  forall e b, In (e, b) (vertical_barriers times events holding) ->
    In b times /\ (e + holding <= b)%Z /\ forall u, In u times -> (e + holding <= u)%Z -> (b <= u)%Z.
Proof.
  intros Hs He. unfold vertical_barriers.
  assert (Hex : forall e, (searchsorted_left times (e + holding) < length times)%nat <-> existsb (fun t => (e + holding <=? t)%Z) times = true).
  { intro e. split.
    - intro H. destruct (nth_error times (searchsorted_left times (e + holding))) as [x|] eqn:Ex; [|apply nth_error_None in Ex; lia].
      destruct (searchsorted_first Hs eq_refl Ex) as [Hx _]. apply existsb_exists. exists x. split; [now apply nth_error_In in Ex|now apply Z.leb_le].
    - intro H. apply existsb_exists in H as (x & Hx & Hle). apply Z.leb_le in Hle.
      destruct (Nat.lt_ge_cases (searchsorted_left times (e + holding)) (length times)) as [|Hge]; auto. pose proof (searchsorted_none Hs Hge Hx). lia. }
  induction He as [|e l Hl IH Hf]; [cbn; split; auto; intros ? ? []|]. cbn [map filter].
  destruct (Nat.ltb_spec (searchsorted_left times (e + holding)) (length times)) as [Hlt|Hge].
  - cbn [length firstn map combine fst]. destruct IH as [I1 I2]. rewrite (proj1 (Hex e) Hlt), I1. split; auto.
    intros e' b [E|Hin]; auto. injection E as <- <-.
    destruct (nth_error times (searchsorted_left times (e + holding))) as [x|] eqn:Ex; [|apply nth_error_None in Ex; lia].
    rewrite (nth_error_nth _ _ _ Ex). destruct (searchsorted_first Hs eq_refl Ex) as [Hx Hm]. split; [now apply nth_error_In in Ex|auto].
  - assert (Hnil : filter (fun i => (i <? length times)%nat) (map (fun e0 => searchsorted_left times (e0 + holding)) l) = []).
    { apply filter_none. intros i Hi. apply in_map_iff in Hi as (e' & <- & He'). rewrite Forall_forall in Hf. specialize (Hf _ He').
      apply Nat.ltb_ge. eapply Nat.le_trans; [exact Hge|]. apply searchsorted_mono. lia. }
    rewrite Hnil. cbn [length firstn combine map].
    assert (Hno : forall e', e' = e \/ In e' l -> existsb (fun t => (e' + holding <=? t)%Z) times = false).
    { intros e' H. destruct (existsb (fun t => (e' + holding <=? t)%Z) times) eqn:E; auto. apply Hex in E. exfalso. destruct H as [->|H]; [lia|].
      rewrite Forall_forall in Hf. specialize (Hf _ H). pose proof (@searchsorted_mono times (e + holding) (e' + holding) ltac:(lia)). lia. }
    rewrite (Hno e) by auto. split; [|intros ? ? []]. symmetry. apply filter_none. intros; apply Hno; auto.
Qed.
Print Assumptions c64_vertical_barriers.
(** unsorted events are paired with other events' barriers: event 5 has no bar 2 later, yet it gets a barrier and event 0 gets none *)
Example c64_unsorted_misaligned : vertical_barriers [0; 1; 2; 3; 4; 5]%Z [5%Z; 0%Z] 2 = [(5%Z, 2%Z)].
Proof. reflexivity. Qed.
Example c64_example : vertical_barriers [0; 10; 20; 30]%Z [0; 5; 20; 25]%Z 9 = [(0%Z, 10%Z); (5%Z, 20%Z); (20%Z, 30%Z)].
Proof. reflexivity. Qed.

(** ** C83 *)
(** What the function returns: the union of both indexes; present entries are shifted by [fill_val], missing ones are 0. *)
Theorem c83_fill_index_value indices series fill_val t :
  lookup t (fill_index indices series fill_val) =
    if zmem t indices || zmem t (map fst series) then Some (if zmem t indices then match lookup t series with Some (Some v) => fill_val + v | _ => 0 end else 0) else None.
Proof.
  unfold fill_index. rewrite (@lookup_map_index _ (fun t => if zmem t indices then match lookup t series with Some (Some v) => fill_val + v | _ => 0 end else 0)).
  replace (zmem t (if list_eq_dec Z.eq_dec indices (map fst series) then indices else zset (indices ++ map fst series))) with (zmem t indices || zmem t (map fst series)); auto.
  destruct (list_eq_dec _ _ _) as [<-|]; [now destruct (zmem t indices)|]. apply eq_true_iff_eq. rewrite orb_true_iff, !zmem_in, zset_in, in_app_iff. tauto.
Qed.
(** identical indexes are kept in their order, the union of different ones is sorted *)
Theorem c83_order indices series fill_val :
  (indices = map fst series -> map fst (fill_index indices series fill_val) = indices) /\
  (indices <> map fst series -> StronglySorted Z.lt (map fst (fill_index indices series fill_val))).
Proof.
  unfold fill_index. rewrite map_map. cbn [fst]. rewrite map_id. destruct (list_eq_dec _ _ _) as [E|E]; split; intro H; try congruence. apply zset_sorted.
Qed.
Print Assumptions c83_order.
Print Assumptions c83_fill_index_value.
Theorem c83_refuted : exists indices series, lookup 0%Z series = Some (Some (qz 5)) /\ lookup 1%Z series = None /\
  lookup 0%Z (fill_index indices series 1) = Some (qz 6) /\ lookup 1%Z (fill_index indices series 1) = Some 0.
Proof. exists [0%Z; 1%Z], [(0%Z, Some (qz 5))]. repeat (split; [reflexivity|]). reflexivity. Qed.
Print Assumptions c83_refuted.
Theorem c83_under_guard indices series : zssorted indices -> (forall t, In t (map fst series) -> In t indices) ->
  fill_index indices series 0 = map (fun t => (t, match lookup t series with Some (Some v) => v | _ => 0 end)) indices.
Proof.
  intros Hs Hin. unfold fill_index. replace (if list_eq_dec Z.eq_dec indices (map fst series) then indices else zset (indices ++ map fst series)) with indices.
  - apply map_ext_in. intros t Ht. rewrite (proj2 (zmem_in t indices) Ht). f_equal. destruct (lookup t series) as [[v|]|]; auto. ring.
  - destruct (list_eq_dec _ _ _); auto. symmetry. symmetry. apply ssorted_ext; auto using zset_sorted. intro t. rewrite zset_in, in_app_iff. intuition.
Qed.
Print Assumptions c83_under_guard.

(** ** C89: daily return pairs *)
Lemma filter_pos_skip L : StronglySorted le L -> exists z, filter (fun i => (0 <? i)%nat) L = skipn z L /\ (z + length (filter (fun i => (0 <? i)%nat) L) = length L)%nat /\
  forall k x, nth_error L k = Some x -> ((z <= k)%nat <-> (0 < x)%nat).
Proof.
  induction 1 as [|a L Hs IH Hf]; [exists 0%nat; cbn; split; auto; split; auto; intros [|k] x; discriminate|]. cbn [filter].
  rewrite Forall_forall in Hf. destruct (Nat.ltb_spec 0 a) as [Ha|Ha].
  - assert (E : filter (fun i => (0 <? i)%nat) L = L).
    { clear IH Hs. induction L as [|b L IHL]; cbn [filter]; auto. destruct (Nat.ltb_spec 0 b); [|specialize (Hf b (or_introl eq_refl)); lia]. f_equal. apply IHL. intros; apply Hf; now right. }
    rewrite E. exists 0%nat. split; auto. split; auto. intros k x Hk. split; [intros _|lia]. destruct k; cbn in Hk; [injection Hk as <-; auto|].
    apply nth_error_In in Hk. specialize (Hf _ Hk). lia.
  - destruct IH as (z & E1 & E2 & E3). exists (S z). cbn [skipn length]. split; auto. split; [lia|]. intros [|k] x Hk; cbn in Hk; [injection Hk as <-; lia|].
    rewrite <- (E3 k x Hk). lia.
Qed.
Lemma in_combine_seq A z m (l : list A) k x : length l = m -> In (k, x) (combine (seq z m) l) <-> (z <= k)%nat /\ nth_error l (k - z) = Some x.
Proof.
  revert z m; induction l as [|a l IH]; intros z m Hm; cbn in Hm; subst m; cbn [seq combine].
  - split; [intros []|]. intros [_ H]. destruct (k - z)%nat; discriminate.
  - split.
    + intros [E|H]; [injection E as <- <-; split; auto; now rewrite Nat.sub_diag|]. apply IH in H as [H1 H2]; auto. split; [lia|]. replace (k - z)%nat with (S (k - S z)) by lia. auto.
    + intros [H1 H2]. destruct (Nat.eq_dec z k) as [->|Hn]; [rewrite Nat.sub_diag in H2; cbn in H2; injection H2 as ->; now left|].
      right. apply IH; auto. split; [lia|]. replace (k - z)%nat with (S (k - S z)) in H2 by lia. auto.
Qed.
Lemma ss_sorted times day : zssorted times -> StronglySorted le (map (fun t => searchsorted_left times (t - day)) times).
Proof.
  intro Hs. set (f := fun t => searchsorted_left times (t - day)).
  assert (Hm : forall a b, (a <= b)%Z -> (f a <= f b)%nat) by (intros; unfold f; apply searchsorted_mono; lia). clearbody f.
  induction Hs as [|t l Hl IH Hf]; cbn; constructor; auto. apply Forall_forall. intros x Hx. apply in_map_iff in Hx as (u & <- & Hu).
  rewrite Forall_forall in Hf. apply Hm. specialize (Hf u Hu). lia.
Qed.
Lemma day_pairs_spec day times intraday k j : zssorted times ->
  In (k, j) (day_pairs day times intraday) <-> exists t, nth_error times k = Some t /\ (0 < searchsorted_left times (t - day))%nat /\
    j = (if intraday then searchsorted_left times (t - day) - 1 else searchsorted_left times (t - day))%nat.
Proof.
  intros Hs. unfold day_pairs, prev_day_indices. set (L := map (fun t => searchsorted_left times (t - day)) times).
  destruct (filter_pos_skip (@ss_sorted times day Hs)) as (z & E1 & E2 & E3). fold L in E1, E2, E3.
  assert (HL : length L = length times) by (unfold L; apply map_length).
  assert (Hlen : length (if intraday then map (fun i => (i - 1)%nat) (filter (fun i => (0 <? i)%nat) L) else filter (fun i => (0 <? i)%nat) L) = length (filter (fun i => (0 <? i)%nat) L))
    by (destruct intraday; auto; apply map_length).
  rewrite Hlen. replace (length times - length (filter (fun i => (0 <? i)%nat) L))%nat with z by lia. rewrite in_combine_seq by auto. rewrite E1.
  assert (Hnth : forall k, (z <= k)%nat -> nth_error (skipn z L) (k - z) = option_map (fun t => searchsorted_left times (t - day)) (nth_error times k)).
  { intros k' Hk. rewrite nth_error_skipn. replace (z + (k' - z))%nat with k' by lia. unfold L. apply nth_error_map. }
  split.
  - intros [Hz Hn]. destruct intraday.
    + rewrite nth_error_map, Hnth in Hn by auto. destruct (nth_error times k) as [t|] eqn:Et; [|discriminate]. cbn in Hn. injection Hn as <-. exists t. split; auto. split; auto.
      apply (E3 k); auto. unfold L. now rewrite nth_error_map, Et.
    + rewrite Hnth in Hn by auto. destruct (nth_error times k) as [t|] eqn:Et; [|discriminate]. cbn in Hn. injection Hn as <-. exists t. split; auto. split; auto.
      apply (E3 k); auto. unfold L. now rewrite nth_error_map, Et.
  - intros (t & Ht & Hp & ->). assert (Hz : (z <= k)%nat) by (apply (E3 k (searchsorted_left times (t - day))); auto; unfold L; now rewrite nth_error_map, Ht).
    split; auto. destruct intraday; [rewrite nth_error_map|]; rewrite Hnth, Ht by auto; reflexivity.
Qed.
(** Intraday data: each bar is paired with the last bar more than one day earlier; bars without such a bar are left out. *)
Theorem c89_intraday_pairs day times k j : zssorted times ->
  In (k, j) (day_pairs day times true) <->
    exists t u, nth_error times k = Some t /\ nth_error times j = Some u /\ (u < t - day)%Z /\ forall i v, nth_error times i = Some v -> (v < t - day)%Z -> (i <= j)%nat.
Proof.
  intro Hs. rewrite day_pairs_spec by auto. apply zssorted_sorted in Hs as Hs'. split.
  - intros (t & Ht & Hp & ->). set (n := searchsorted_left times (t - day)) in *.
    assert (Hle := searchsorted_left_le times (t - day)). fold n in Hle.
    destruct (nth_error times (n - 1)) as [u|] eqn:Eu; [|apply nth_error_None in Eu; lia]. exists t, u. split; auto. split; auto. split.
    + apply (@searchsorted_left_spec _ (t - day) _ _ Hs' Eu). fold n. lia.
    + intros i v Hi Hv. apply (@searchsorted_left_spec _ (t - day) _ _ Hs' Hi) in Hv. fold n in Hv. lia.
  - intros (t & u & Ht & Hu & Hlt & Hmax). exists t. split; auto. set (n := searchsorted_left times (t - day)) in *.
    apply (@searchsorted_left_spec _ (t - day) _ _ Hs' Hu) in Hlt. fold n in Hlt. split; [lia|].
    assert (Hle := searchsorted_left_le times (t - day)). fold n in Hle.
    destruct (nth_error times (n - 1)) as [v|] eqn:Ev; [|apply nth_error_None in Ev; lia].
    assert ((n - 1 <= j)%nat); [|lia]. apply (Hmax (n - 1)%nat v Ev). apply (@searchsorted_left_spec _ (t - day) _ _ Hs' Ev). fold n. lia.
Qed.
Print Assumptions c89_intraday_pairs.
(** Daily data: the partner is the first bar at most one day earlier, which is the bar itself after any gap. *)
Theorem c89_daily_pairs day times k j : zssorted times -> (0 <= day)%Z ->
  In (k, j) (day_pairs day times false) <->
    (0 < j)%nat /\ exists t u, nth_error times k = Some t /\ nth_error times j = Some u /\ (t - day <= u)%Z /\ forall i v, nth_error times i = Some v -> (t - day <= v)%Z -> (j <= i)%nat.
Proof.
  intros Hs Hday. rewrite day_pairs_spec by auto. apply zssorted_sorted in Hs as Hs'. split.
  - intros (t & Ht & Hp & ->). set (n := searchsorted_left times (t - day)) in *. split; auto.
    destruct (nth_error times n) as [u|] eqn:Eu.
    + exists t, u. split; auto. split; auto. split.
      * destruct (Z.le_gt_cases (t - day) u) as [|H]; auto. apply (@searchsorted_left_spec _ (t - day) _ _ Hs' Eu) in H. fold n in H. lia.
      * intros i v Hi Hv. destruct (Nat.le_gt_cases n i) as [|H]; auto. apply (@searchsorted_left_spec _ (t - day) _ _ Hs' Hi) in H. lia.
    + exfalso. apply nth_error_None in Eu. assert (Hk : (k < length times)%nat) by (apply nth_error_Some; congruence).
      assert (Hlt : (k < n)%nat) by lia. apply (@searchsorted_left_spec _ (t - day) _ _ Hs' Ht) in Hlt. lia.
  - intros (Hj & t & u & Ht & Hu & Hle & Hmin).
    exists t. split; auto. set (n := searchsorted_left times (t - day)) in *.
    assert (Hnj : (n <= j)%nat). { destruct (Nat.le_gt_cases n j) as [|H]; auto. apply (@searchsorted_left_spec _ (t - day) _ _ Hs' Hu) in H. lia. }
    assert (Hjn : (j <= n)%nat).
    { destruct (nth_error times n) as [v|] eqn:Ev; [|apply nth_error_None in Ev; assert (j < length times)%nat by (apply nth_error_Some; congruence); lia].
      apply (Hmin n v Ev). destruct (Z.le_gt_cases (t - day) v) as [|H]; auto. apply (@searchsorted_left_spec _ (t - day) _ _ Hs' Ev) in H. fold n in H. lia. }
    split; lia.
Qed.
Print Assumptions c89_daily_pairs.
(** REFUTED for daily data: after a weekend the bar is paired with itself and its return is 0; the return from the first to the second bar is dropped. *)
Theorem c89_refuted : exists times close, zssorted times /\ day_pairs 1 times false = [(2%nat, 1%nat); (3%nat, 3%nat)] /\
  nth 3 close 0 <> nth 2 close 0 /\ daily_returns 1 times close false = [1 - 1 + 1; 0].
Proof.
  exists [0; 1; 2; 5]%Z, [1; 1; qz 2; qz 3]. split; [repeat constructor; lia|]. split; [reflexivity|]. split; [discriminate|]. vm_compute. reflexivity.
Qed.
Print Assumptions c89_refuted.
Example c89_example : day_pairs 10 [0; 4; 11; 14; 15; 40]%Z true = [(2%nat, 0%nat); (3%nat, 0%nat); (4%nat, 1%nat); (5%nat, 4%nat)].
Proof. reflexivity. Qed.

(** ** C90: geometric Brownian motion *)
Open Scope R_scope.
Fixpoint rprod (l : list R) : R := match l with [] => 1 | x :: l' => x * rprod l' end.
Theorem c90_gbm_path z s0 drift vol n dt :
  length (gen_geometric_brownian z s0 drift vol n dt) = n /\
  forall i, (i < n)%nat -> nth_error (gen_geometric_brownian z s0 drift vol n dt) i = Some (s0 * rprod (map (fun j => 1 + (drift * dt + vol * sqrt dt * z j)) (seq 0 (S i)))).
Proof.
  unfold gen_geometric_brownian. split.
  - generalize s0, 0%nat. induction n as [|n IH]; intros s k; cbn [gbm length]; auto.
  - assert (G : forall m s k i, (i < m)%nat -> nth_error (gbm z drift vol dt k s m) i = Some (s * rprod (map (fun j => 1 + (drift * dt + vol * sqrt dt * z j)) (seq k (S i))))).
    { induction m as [|m IH]; intros s k i Hi; [lia|]. cbn [gbm]. destruct i as [|i].
      - cbn. f_equal. ring.
      - cbn [nth_error]. rewrite IH by lia. f_equal. change (seq k (S (S i))) with (k :: seq (S k) (S i)). cbn [map rprod]. ring. }
    intros i Hi. now apply G.
Qed.
Print Assumptions c90_gbm_path.
Theorem c90_gbm_positive z s0 drift vol n dt : 0 < s0 -> (forall k, (k < n)%nat -> -1 < drift * dt + vol * sqrt dt * z k) ->
  forall s, In s (gen_geometric_brownian z s0 drift vol n dt) -> 0 < s.
Proof.
  intros Hs Hz s Hin. apply In_nth_error in Hin as [i Hi]. destruct (c90_gbm_path z s0 drift vol n dt) as [Hlen Hv].
  assert (Hi' : (i < n)%nat) by (rewrite <- Hlen; apply nth_error_Some; congruence). rewrite Hv in Hi by auto. injection Hi as <-.
  apply Rmult_lt_0_compat; auto. assert (G : forall l, (forall x, In x l -> 0 < x) -> 0 < rprod l).
  { induction l as [|x l IH]; cbn; intro H; [lra|]. apply Rmult_lt_0_compat; auto. }
  refine (G (map (fun j => 1 + (drift * dt + vol * sqrt dt * z j)) (seq 0 (S i))) _). intros x Hx. apply in_map_iff in Hx as (j & <- & Hj). apply in_seq in Hj. specialize (Hz j ltac:(lia)). lra.
Qed.
Print Assumptions c90_gbm_positive.
(** nothing prevents a negative price after a large enough shock *)
Theorem c90_gbm_can_go_negative : exists z, forall s, In s (gen_geometric_brownian z 1 0 1 1 1) -> s < 0.
Proof. exists (fun _ => -2). intros s [<-|[]]. rewrite sqrt_1. lra. Qed.
Print Assumptions c90_gbm_can_go_negative.

(** ** C91: Ornstein-Uhlenbeck *)
Lemma ou_spec z F phi sigma n : forall k p i, (i < n)%nat ->
  nth_error (ou z F phi sigma k p n) i = Some (F + phi ^ S i * (p - F) + sigma * rsum (map (fun j => phi ^ (i - j) * z (k + j)%nat) (seq 0 (S i)))).
Proof.
  induction n as [|n IH]; intros k p i Hi; [lia|]. cbn [ou]. destruct i as [|i].
  - cbn. f_equal. rewrite Nat.add_0_r. ring.
  - cbn [nth_error]. rewrite IH by lia. f_equal.
    change (seq 0 (S (S i))) with (0%nat :: seq 1 (S i)). rewrite <- seq_shift. cbn [map rsum]. rewrite map_map.
    replace (rsum (map (fun j => phi ^ (S i - S j) * z (k + S j)%nat) (seq 0 (S i)))) with (rsum (map (fun j => phi ^ (i - j) * z (S k + j)%nat) (seq 0 (S i)))).
    + rewrite Nat.sub_0_r, Nat.add_0_r. cbn [pow]. ring.
    + apply rsum_map_ext. intros j _. replace (k + S j)%nat with (S k + j)%nat by lia. reflexivity.
Qed.
Theorem c91_ou_path stream first_draw F h sigma p0 n rs i : (i < n)%nat ->
  let phi := Rpower 2 (-1 / h) in
  nth_error (gen_discrete_ou_process stream first_draw F h sigma p0 n rs) i =
    Some (F + phi ^ S i * (p0 - F) + sigma * rsum (map (fun j => phi ^ (i - j) * rvs stream first_draw rs j) (seq 0 (S i)))).
Proof. intros Hi phi. unfold gen_discrete_ou_process. now apply ou_spec. Qed.
Print Assumptions c91_ou_path.
(** without shocks the distance to the forecast halves in [half_life] steps *)
Theorem c91_half_life (h : nat) F p0 stream first_draw n rs i : (0 < h)%nat -> (i + h < n)%nat ->
  exists a b, nth_error (gen_discrete_ou_process stream first_draw F (INR h) 0 p0 n rs) i = Some a /\
    nth_error (gen_discrete_ou_process stream first_draw F (INR h) 0 p0 n rs) (i + h) = Some b /\ b - F = / 2 * (a - F).
Proof.
  intros Hh Hi. eexists. eexists. split; [apply c91_ou_path; lia|]. split; [apply c91_ou_path; lia|].
  set (phi := Rpower 2 (-1 / INR h)). assert (E : phi ^ h = / 2).
  { unfold phi. rewrite <- Rpower_pow by apply exp_pos. rewrite Rpower_mult. replace (-1 / INR h * INR h) with (-1) by (field; apply not_0_INR; lia).
    replace (-1) with (- (1)) by lra. rewrite Rpower_Ropp, Rpower_1 by lra. reflexivity. }
  replace (S (i + h)) with (S i + h)%nat by lia. rewrite pow_add, E. lra.
Qed.
Print Assumptions c91_half_life.
(** REFUTED: with an integer random state every step gets the same shock, so the process tends to a shifted level instead of the forecast. *)
Theorem c91_seeded_refuted stream first_draw F h sigma p0 n seed i : (i < n)%nat -> 0 < h ->
  let phi := Rpower 2 (-1 / h) in
  let level := F + sigma * first_draw seed / (1 - phi) in
  nth_error (gen_discrete_ou_process stream first_draw F h sigma p0 n (Some seed)) i = Some (level + phi ^ S i * (p0 - level)).
Proof.
  intros Hi Hh phi level. unfold gen_discrete_ou_process. cbn [rvs]. fold phi.
  assert (Hphi : phi <> 1).
  { unfold phi. assert (Rpower 2 (-1 / h) < Rpower 2 0); [apply Rpower_lt; [lra|]|rewrite Rpower_O in *; lra].
    unfold Rdiv. assert (0 < / h) by now apply Rinv_0_lt_compat. lra. }
  assert (G : forall m k p j, (j < m)%nat -> nth_error (ou (fun _ => first_draw seed) F phi sigma k p m) j = Some (level + phi ^ S j * (p - level))).
  { induction m as [|m IH]; intros k p j Hj; [lia|]. cbn [ou]. assert (E : (1 - phi) * F + phi * p + sigma * first_draw seed = level + phi * (p - level)) by (unfold level; field; lra).
    destruct j as [|j]; cbn [nth_error]; [rewrite E; f_equal; cbn; ring|]. rewrite IH by lia. rewrite E. f_equal. cbn [pow]. ring. }
  now apply G.
Qed.
Print Assumptions c91_seeded_refuted.
Close Scope R_scope.

(** ** C92: mixtures of Gaussians *)
Theorem c92_mixture_sizes St V (seed_state : Z -> St) (normal : St -> V -> V -> nat -> list V * St) shuffle st mu1 mu2 sg1 sg2 p n rs :
  (forall s m sg k, length (fst (normal s m sg k)) = k) -> (forall s l, Permutation (fst (shuffle s l)) l) -> 0 <= p -> p <= 1 ->
  exists s1 s2 n1, let l1 := fst (normal s1 mu1 sg1 n1) in let l2 := fst (normal s2 mu2 sg2 (n - n1)%nat) in
    Permutation (gen_mixed_gaussians seed_state normal shuffle st mu1 mu2 sg1 sg2 p n rs) (l1 ++ l2) /\
    (n1 <= n)%nat /\ qn n1 <= qn n * p /\ qn n * p < qn n1 + 1 /\ length (gen_mixed_gaussians seed_state normal shuffle st mu1 mu2 sg1 sg2 p n rs) = n.
Proof.
  intros Hn Hsh Hp0 Hp1. unfold gen_mixed_gaussians.
  set (st' := match rs with Some s => if (s =? 0)%Z then st else seed_state s | None => st end).
  set (n1 := Z.to_nat (qtrunc (qn n * p))).
  assert (Hnp : 0 <= qn n * p) by (apply Qcmul_nonneg; auto; apply qn_nonneg).
  assert (Hz : (0 <= qtrunc (qn n * p))%Z /\ qz (qtrunc (qn n * p)) = qn n1).
  { unfold n1, qtrunc. rewrite (proj2 (qle_iff _ _) Hnp). assert (H0 : (0 <= qfloor (qn n * p))%Z) by (rewrite <- (qfloor_qz 0); now apply qfloor_mono).
    split; auto. unfold qn. now rewrite Z2Nat.id. }
  destruct Hz as [Hz1 Hz2].
  assert (Hfl : qn n1 <= qn n * p /\ qn n * p < qn n1 + 1).
  { rewrite <- Hz2. unfold qtrunc. rewrite (proj2 (qle_iff _ _) Hnp). split; [apply qfloor_le|apply qfloor_lt]. }
  assert (Hle : (n1 <= n)%nat).
  { destruct Hfl as [Hfl _]. apply qn_le. assert (0 <= qn n * (1 - p)) by (apply Qcmul_nonneg; [apply qn_nonneg|qlra]). assert (qn n * (1 - p) = qn n - qn n * p) by ring. qlra. }
  exists st'. destruct (normal st' mu1 sg1 n1) as [r1 s2] eqn:E1. exists s2, n1. cbn zeta.
  assert (L1 : length r1 = n1) by (specialize (Hn st' mu1 sg1 n1); rewrite E1 in Hn; auto). rewrite L1.
  destruct (normal s2 mu2 sg2 (n - n1)%nat) as [r2 s3] eqn:E2.
  assert (L2 : length r2 = (n - n1)%nat) by (specialize (Hn s2 mu2 sg2 (n - n1)%nat); rewrite E2 in Hn; auto).
  rewrite E1. cbn [fst]. split; [apply Hsh|]. split; auto. split; [tauto|]. split; [tauto|].
  rewrite (Permutation_length (Hsh s3 (r1 ++ r2))), app_length. lia.
Qed.
Print Assumptions c92_mixture_sizes.
(** a non-zero seed makes the sample independent of the earlier generator state; seed 0 does not *)
Theorem c92_seeded_reproducible St V (seed_state : Z -> St) (normal : St -> V -> V -> nat -> list V * St) shuffle st st' mu1 mu2 sg1 sg2 p n s : s <> 0%Z ->
  gen_mixed_gaussians seed_state normal shuffle st mu1 mu2 sg1 sg2 p n (Some s) = gen_mixed_gaussians seed_state normal shuffle st' mu1 mu2 sg1 sg2 p n (Some s).
Proof. intro H. unfold gen_mixed_gaussians. apply Z.eqb_neq in H. now rewrite H. Qed.
Print Assumptions c92_seeded_reproducible.
Theorem c92_seed_zero_refuted : exists (seed_state : Z -> nat) (normal : nat -> nat -> nat -> nat -> list nat * nat) (shuffle : nat -> list nat -> list nat * nat) st st',
  gen_mixed_gaussians seed_state normal shuffle st 0%nat 0%nat 1%nat 1%nat 1 1 (Some 0%Z) <> gen_mixed_gaussians seed_state normal shuffle st' 0%nat 0%nat 1%nat 1%nat 1 1 (Some 0%Z).
Proof. exists (fun _ => 7%nat), (fun s _ _ k => (repeat s k, S s)), (fun s l => (l, s)), 1%nat, 2%nat. vm_compute. discriminate. Qed.
Print Assumptions c92_seed_zero_refuted.
