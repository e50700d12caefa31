(** C125: the exceptions raised for input that cannot be used. *)
From Verif Require Import Py BarsModel BasketModel EntropyModel StructModel MetricsModel.
From Verif Require StructProps CVModel CombModel BarrierModel WeightModel SeriesModel.
From Coq Require Import Lia Reals.
Set Implicit Arguments.
Unset Strict Implicit.
Open Scope Qc_scope.

(** ** Bars *)
Theorem c125_bars ticks bars : (compute_bar_stats ticks = Err IndexError <-> ticks = []) /\ (resample_bar_stats bars = Err IndexError <-> bars = []) /\
  (forall e, compute_bar_stats ticks = Err e -> e = IndexError) /\ (forall e, resample_bar_stats bars = Err e -> e = IndexError).
Proof. destruct ticks, bars; cbn; repeat split; intros; try congruence; try discriminate. Qed.
Print Assumptions c125_bars.

(** ** Rolled futures: anchoring at the end needs two bars, the price column one. *)
Lemma gaps_length (b : row * Z) bars : length (cumsum (0 :: raw_gaps [snd b] (fst b CClose) bars)) = S (length bars).
Proof.
  rewrite cumsum_length. cbn [length]. f_equal. generalize [snd b] (fst b CClose). induction bars as [|[r c] bars IH]; intros seen p; cbn; auto.
Qed.
Theorem c125_rolled bars cols : (exists adj, adjusted_bars bars cols false = Ok adj) /\
  ((length bars < 2)%nat -> adjusted_bars bars cols true = Err IndexError) /\ ((2 <= length bars)%nat -> exists adj, adjusted_bars bars cols true = Ok adj) /\
  rolled_prices [] cols false = Err IndexError /\ rolled_prices [] cols true = Err IndexError /\ (bars <> [] -> exists p, rolled_prices bars cols false = Ok p).
Proof.
  unfold rolled_prices, adjusted_bars, compute_roll_gaps. split; [destruct bars as [|[]]; cbn [bind]; eauto|]. split; [|split; [|split; [reflexivity|split; [reflexivity|]]]].
  - intro L. destruct bars as [|[b c] [|]]; [reflexivity|reflexivity|cbn in L; lia].
  - intro L. destruct bars as [|[b c] bars]; [cbn in L; lia|]. pose proof (gaps_length (b, c) bars) as G. cbn [fst snd] in G.
    set (g := cumsum _) in *. destruct (rev g) as [|x [|y l]] eqn:E; apply (f_equal (@length _)) in E; rewrite rev_length, G in E; cbn [length] in E, L; try lia.
    cbn [bind]. eauto.
  - intro H. destruct bars as [|[b c] bars]; [congruence|]. cbn [bind]. eauto.
Qed.
Print Assumptions c125_rolled.

(** ** Messages and encoders: no data *)
Theorem c125_encoders msg series n sigma : (lempelziv_lib msg = Err IndexError <-> msg = []) /\ ((0 < n)%nat -> (quantile_fit n series = Err IndexError <-> series = [])) /\
  sigma_encode [] sigma = Ok [] /\ (0 < sigma -> exists codes, sigma_encode series sigma = Ok codes) /\
  (msg <> [] -> exists lib, lempelziv_lib msg = Ok lib) /\ (series <> [] -> exists qs, quantile_fit n series = Ok qs).
Proof.
  split; [destruct msg; cbn; split; congruence|]. split; [intros _; destruct series; cbn; split; congruence|]. split; [reflexivity|]. split; [|split; [destruct msg; [congruence|cbn; eauto]|destruct series; [congruence|cbn; eauto]]].
  intros _. destruct series as [|x l]; [now exists []|]. unfold sigma_encode. generalize (lmin x l). intro lo. induction (x :: l) as [|y ls [codes IH]]; [now exists []|]. cbn [mapM].
  unfold get at 1. destruct (nth_error _ _) eqn:E; [|apply nth_error_None in E; rewrite seq_length in E; unfold alphabet_size in E; lia]. cbn [bind]. rewrite IH. cbn. eauto.
Qed.
Print Assumptions c125_encoders.

(** ** Regression data of the ADF tests: an empty list of lags; a lag listed twice; the supremum ADF needs an integer *)
Theorem c125_lags series c ls : (get_yx series c (LagList ls) = Err IndexError <-> ls = []) /\ (get_yx series c (LagList ls) = Err ValueError <-> ~ NoDup ls) /\ (forall n, exists yx, get_yx series c (LagInt n) = Ok yx) /\
  (forall adf min_len, ls <> [] -> NoDup ls -> sadf_stat adf series min_len c (LagList ls) = Err TypeError).
Proof.
  pose proof (StructProps.lags_distinct_iff (LagList ls)) as HD. cbn [lag_list] in HD. assert (HN : NoDup (A := nat) []) by constructor. split; [|split; [|split]].
  - unfold get_yx. cbn [lag_list]. destruct ls; [tauto|]. split; [|congruence]. destruct (lags_distinct _); congruence.
  - unfold get_yx. cbn [lag_list]. destruct ls; [split; [discriminate|tauto]|]. destruct (lags_distinct _); split; intro H; try congruence; try reflexivity; [exfalso; apply H, HD; reflexivity|]. intro H'. apply HD in H'. discriminate.
  - intro n. unfold get_yx. cbn [lag_list seq lags_distinct]. eauto.
  - intros adf m H H'. apply HD in H'. unfold sadf_stat, get_yx. cbn [lag_list]. rewrite H'. destruct ls; [congruence|]. reflexivity.
Qed.
Print Assumptions c125_lags.

(** ** Holding period of no positions *)
Theorem c125_holding ps : holding_period ps = Err IndexError <-> ps = [].
Proof. destruct ps; cbn; split; congruence. Qed.
Print Assumptions c125_holding.

(** ** Cross-validation: no folds; more folds than observations; paths of no groups; odd numbers of partitions *)
Theorem c125_folds pct events n_splits : CVModel.kfold_split 0 pct events = Err ValueError /\
  ((length events < n_splits)%nat -> CVModel.kfold_split n_splits pct events = Err IndexError).
Proof.
  split; [reflexivity|]. intro L. unfold CVModel.kfold_split. destruct (Nat.eqb_spec n_splits 0); [lia|].
  set (f := fun p : list nat => match p with [] => Err IndexError | i :: _ => Ok (i, last p 0 + 1)%nat end).
  assert (E : mapM f (CVModel.array_split (length events) n_splits) = Err IndexError); [|rewrite E; reflexivity].
  unfold CVModel.array_split. rewrite (Nat.div_small _ _ L), (Nat.mod_small _ _ L).
  assert (G : forall a b from, mapM f (CVModel.split_sizes (repeat 1%nat a ++ repeat 0%nat (S b)) from) = Err IndexError).
  { induction a as [|a IH]; intros b from; cbn [repeat app CVModel.split_sizes mapM]; [reflexivity|]. unfold f at 1. cbn [seq bind]. specialize (IH b (from + 1)%nat). cbn [repeat] in IH. rewrite IH. reflexivity. }
  replace (n_splits - length events)%nat with (S (n_splits - length events - 1)) by lia. apply G.
Qed.
Print Assumptions c125_folds.
Theorem c125_backtests bnd N st (row : Type) (eval_fn : list row -> list Qc) argsort perm n_parts l :
  CombModel.backtest_paths bnd N [] = Err ValueError /\ (CombModel.backtest_paths bnd N st = Err ValueError -> st = []) /\
  (Nat.odd n_parts = true -> CombModel.compute_pbo_ranks eval_fn argsort perm n_parts = Err AssertionError) /\
  CombModel.compute_pbo_ranks eval_fn argsort perm 0 = Err ZeroDivisionError /\
  (CombModel.argmax l = Err ValueError <-> l = []).
Proof.
  split; [reflexivity|]. split; [|split; [|split; [reflexivity|destruct l; cbn; split; congruence]]].
  - destruct st as [|s st]; auto. unfold CombModel.backtest_paths. cbn [map]. intro H. exfalso. revert H.
    set (g := fun i : nat => do splits <- mapM (fun l0 : list nat => get l0 i) (s :: st); Ok (combine (map (CombModel.group_range bnd) (seq 0 N)) splits)).
    assert (Gi : forall i (ls : list (list nat)), mapM (fun l0 : list nat => get l0 i) ls <> Err ValueError).
    { intros i ls. induction ls as [|y ls IH]; cbn; [discriminate|]. unfold get. destruct (nth_error y i); cbn; [|discriminate]. destruct (mapM _ ls); cbn; [discriminate|]. intro C. apply IH. exact C. }
    assert (Gg : forall i, g i <> Err ValueError). { intros i C. unfold g in C. pose proof (Gi i (s :: st)) as H. destruct (mapM _ (s :: st)); cbn in C; congruence. }
    intro H. revert H. generalize (seq 0 (fold_left Nat.min (map (@length nat) st) (length s))). intro is. change (mapM g is = Err ValueError -> False).
    induction is as [|i is IH]; cbn; [discriminate|]. intro H. pose proof (Gg i). destruct (g i); cbn in H; [|congruence]. destruct (mapM g is); cbn in H; [discriminate|]. apply IH. exact H.
  - intro O. unfold CombModel.compute_pbo_ranks. rewrite <- Nat.negb_odd, O. reflexivity.
Qed.
Print Assumptions c125_backtests.

(** ** Labels *)
Theorem c125_triple_barrier ps evs pt sl : ((pt < 0 \/ sl < 0) -> BarrierModel.triple_barrier ps evs pt sl = Err AssertionError) /\
  (0 <= pt -> 0 <= sl -> BarrierModel.triple_barrier [] evs pt sl = Err IndexError).
Proof.
  unfold BarrierModel.triple_barrier. split.
  - intros [H|H]; [destruct (qle_spec 0 pt) as [C|C]; [exfalso; qlra|reflexivity]|]. destruct (qle_spec 0 sl) as [C|C]; [exfalso; qlra|]. now rewrite andb_false_r.
  - intros H1 H2. destruct (qle_spec 0 pt) as [C|C]; [|contradiction]. destruct (qle_spec 0 sl) as [D|D]; [|contradiction]. reflexivity.
Qed.
Print Assumptions c125_triple_barrier.
Lemma lookup_in A t (l : list (Z * A)) : BarrierModel.lookup t l = None <-> ~ In t (map fst l).
Proof.
  induction l as [|[u a] l IH]; cbn; [split; auto|]. destruct (Z.eqb_spec t u) as [->|N]; [split; [discriminate|intro H; exfalso; apply H; now left]|].
  rewrite IH. split; [intros H [C|C]; [congruence|auto]|intros H C; apply H; now right].
Qed.
(** One event: the start must be a label, the side known and 1 or -1; then the return is found if the expiry is a label.  If no bar is in the
    window of the event and the expiry is no label it raises. *)
Theorem c125_barrier_event ps last_label pt sl ev : let expiry := match BarrierModel.ev_expiry ev with Some e => e | None => last_label end in
  let labels := map fst ps in let r := BarrierModel.barrier_event ps last_label pt sl ev in
  (~ In (BarrierModel.ev_start ev) labels -> r = Err KeyError) /\
  (In (BarrierModel.ev_start ev) labels -> BarrierModel.ev_side ev = None -> r = Err ValueError) /\
  (In (BarrierModel.ev_start ev) labels -> forall s, BarrierModel.ev_side ev = Some s -> s <> 1%Z -> s <> (-1)%Z -> r = Err AssertionError) /\
  (In (BarrierModel.ev_start ev) labels -> forall s, BarrierModel.ev_side ev = Some s -> s = 1%Z \/ s = (-1)%Z ->
     (In expiry labels -> exists oc, r = Ok oc) /\
     (~ In expiry labels -> (forall t, In t labels -> (BarrierModel.ev_start ev <= t <= expiry)%Z -> False) -> r = Err KeyError) /\
     (forall e, r = Err e -> e = KeyError)).
Proof.
  intros expiry labels r. unfold r, BarrierModel.barrier_event. fold expiry. split; [|split; [|split]].
  - intro H. apply lookup_in in H. now rewrite H.
  - intros H Es. destruct (BarrierModel.lookup (BarrierModel.ev_start ev) ps) as [row|] eqn:El; [|apply lookup_in in El; contradiction]. now rewrite Es.
  - intros H s Es N1 N2. destruct (BarrierModel.lookup (BarrierModel.ev_start ev) ps) as [row|] eqn:El; [|apply lookup_in in El; contradiction]. rewrite Es.
    destruct (Z.eqb_spec s 1); [contradiction|]. destruct (Z.eqb_spec s (-1)); [contradiction|]. reflexivity.
  - intros H s Es Hs. destruct (BarrierModel.lookup (BarrierModel.ev_start ev) ps) as [row|] eqn:El; [|apply lookup_in in El; contradiction]. rewrite Es.
    assert (B : ((s =? 1)%Z || (s =? -1)%Z)%bool = true) by (destruct Hs as [-> | ->]; reflexivity). rewrite B. cbv zeta.
    set (rows := BarrierModel.path ps (BarrierModel.ev_start ev) expiry).
    match goal with |- context [match ?a with Some _ => _ | None => _ end] => set (pt_time := a) end.
    match goal with |- context [match pt_time with Some t => match ?b with Some _ => _ | None => _ end | None => _ end] => set (sl_time := b) end.
    split; [|split].
    + intro He. destruct (BarrierModel.lookup expiry ps) as [b|] eqn:Ee; [|apply lookup_in in Ee; contradiction].
      destruct pt_time as [t|]; destruct sl_time as [t'|]; try destruct (t <? t')%Z; eauto.
    + intros He Hw. assert (Er : rows = []).
      { unfold rows, BarrierModel.path. destruct (filter _ ps) as [|p l] eqn:Ef; auto. exfalso. assert (Hp : In p (p :: l)) by now left. rewrite <- Ef in Hp. apply filter_In in Hp. destruct Hp as [Hp Hb].
        apply andb_true_iff in Hb. destruct Hb as [B1 B2]. apply Z.leb_le in B1, B2. apply (Hw (fst p)); [now apply in_map|lia]. }
      assert (Ept : pt_time = None) by (unfold pt_time; now rewrite Er). assert (Esl : sl_time = None) by (unfold sl_time; now rewrite Er).
      rewrite Ept, Esl. apply lookup_in in He. now rewrite He.
    + intro e. destruct pt_time as [t|]; destruct sl_time as [t'|]; try destruct (t <? t')%Z; try discriminate. destruct (BarrierModel.lookup expiry ps); congruence.
Qed.
Print Assumptions c125_barrier_event.
(** An event without a target, or without a side when sides are given, is a KeyError. *)
Lemma mapM_key A B (g : A -> option B) l : (exists a, In a l /\ g a = None) -> mapM (fun a => match g a with Some v => Ok (a, v) | None => Err KeyError end) l = Err KeyError.
Proof.
  intros (a & Ha & Hg). induction l as [|x l IH]; [destruct Ha|]. cbn. destruct Ha as [->|Ha]; [now rewrite Hg|]. destruct (g x); cbn; auto. rewrite IH; auto.
Qed.
Theorem c125_missing_target bars starts targets pt sl expiries min_target sides t : In t starts -> ~ In t (map fst targets) ->
  BarrierModel.get_event_returns bars starts targets pt sl expiries min_target sides = Err KeyError.
Proof.
  intros Ht Hn. unfold BarrierModel.get_event_returns.
  assert (E : mapM (fun t => match BarrierModel.lookup t targets with Some v => Ok (t, v) | None => Err KeyError end) starts = Err KeyError); [|now rewrite E].
  apply (@mapM_key Z (option Qc) (fun t => BarrierModel.lookup t targets)). exists t. split; auto. now apply lookup_in.
Qed.
Print Assumptions c125_missing_target.
(** events before the first bar, with side 0, without a side, and one that ends outside the bars *)
Example c125_ex :
  let bar := BarrierModel.Build_ohlc 1 1 1 1 in let ps := [(1%Z, Some bar); (2%Z, Some bar)] in
  let ev s e side := BarrierModel.Build_event s e (Some 1) side in let run s e side := BarrierModel.barrier_event ps 2 1 1 (ev s e side) in
  run 0%Z None (Some 1%Z) = Err KeyError /\ run 1%Z None (Some 0%Z) = Err AssertionError /\ run 1%Z None None = Err ValueError /\
  run 1%Z (Some 3%Z) (Some 1%Z) = Err KeyError /\ exists oc, run 1%Z None (Some (-1)%Z) = Ok oc.
Proof. vm_compute. repeat split. eexists. reflexivity. Qed.
Example c125_ex2 : CVModel.kfold_split 3 0 [(1, 2)%Z; (2, 3)%Z] = Err IndexError /\ rolled_prices [] [CClose] true = Err IndexError.
Proof. vm_compute. auto. Qed.
