(** Proofs about the HRP and PCA-hedge models. *)
From Verif Require Import Py RNum HRPModel HRPSpec WeightProofs.
From Coq Require Import Permutation.
Set Implicit Arguments.
Unset Strict Implicit.
Open Scope Qc_scope.

(** ** Quasi-diagonalisation *)
Fixpoint lv (f n : nat) (lm : list link) (x : nat) : list nat :=
  if (x <? n)%nat then [x] else
  match f with O => [] | S f' => match nth_error lm (x - n) with Some r => lv f' n lm (l_left r) ++ lv f' n lm (l_right r) | None => [] end end.

Section Quasi.
  Variables (n : nat) (lm : list link).
  Hypothesis before : forall k r, nth_error lm k = Some r -> (l_left r < n + k)%nat /\ (l_right r < n + k)%nat.
  Lemma lv_item f x : (x < n)%nat -> lv f n lm x = [x].
  Proof. intro H. apply Nat.ltb_lt in H. destruct f; cbn [lv]; now rewrite H. Qed.
  Lemma lv_fuel f1 : forall f2 x, (x < n + f1)%nat -> (x < n + f2)%nat -> lv f1 n lm x = lv f2 n lm x.
  Proof.
    induction f1 as [|f1 IH]; intros f2 x H1 H2; [rewrite !lv_item by lia; auto|].
    destruct (Nat.lt_ge_cases x n) as [Hx|Hx]; [now rewrite !lv_item|]. destruct f2 as [|f2]; [lia|]. cbn [lv].
    destruct (Nat.ltb_spec x n); [lia|]. destruct (nth_error lm (x - n)) as [r|] eqn:E; auto. apply before in E as [B1 B2].
    now rewrite (IH f2 (l_left r)), (IH f2 (l_right r)) by lia.
  Qed.
  Lemma lv_node k r : nth_error lm k = Some r -> lv (length lm) n lm (n + k) = lv (length lm) n lm (l_left r) ++ lv (length lm) n lm (l_right r).
  Proof.
    intro E. pose proof (before E) as [B1 B2]. assert (Hk : (k < length lm)%nat) by (apply nth_error_Some; congruence).
    rewrite (lv_fuel (f2 := S k)) by lia. cbn [lv]. destruct (Nat.ltb_spec (n + k) n); [lia|]. replace (n + k - n)%nat with k by lia. rewrite E.
    now rewrite (lv_fuel (f1 := k) (f2 := length lm) (x := l_left r)), (lv_fuel (f1 := k) (f2 := length lm) (x := l_right r)) by lia.
  Qed.
  Lemma lv_leaves x : (x < n + length lm)%nat -> leaves n lm x (lv (length lm) n lm x).
  Proof.
    induction x as [x IH] using lt_wf_ind. intro Hx. destruct (Nat.lt_ge_cases x n) as [Hn|Hn].
    - rewrite lv_item by auto. now constructor.
    - destruct (nth_error lm (x - n)) as [r|] eqn:E; [|apply nth_error_None in E; lia]. replace x with (n + (x - n))%nat by lia. rewrite (lv_node E).
      pose proof (before E) as [B1 B2]. econstructor; eauto; apply IH; lia.
  Qed.
  Lemma expand_ok b l : (S b <= length lm)%nat -> (forall x, In x l -> (x < n + S b)%nat) ->
    exists l', expand n lm l = Ok l' /\ flat_map (lv (length lm) n lm) l' = flat_map (lv (length lm) n lm) l /\ forall x, In x l' -> (x < n + b)%nat.
  Proof.
    intros Hb. unfold expand. induction l as [|a l IH]; intro Hl; [exists []; cbn; repeat split; auto; intros ? []|].
    destruct IH as (l' & E & E1 & E2); [intros; apply Hl; now right|]. cbn [mapM].
    destruct (mapM (fun x => if (n <=? x)%nat then do r <- get lm (x - n); Ok [l_left r; l_right r] else Ok [x]) l) as [ls|e] eqn:Em; [|discriminate].
    cbn [bind] in E. injection E as <-. specialize (Hl a (or_introl eq_refl)). destruct (Nat.leb_spec n a) as [Ha|Ha].
    - unfold get. destruct (nth_error lm (a - n)) as [r|] eqn:En; [|apply nth_error_None in En; lia]. cbn [bind]. eexists. split; [reflexivity|].
      cbn [concat app flat_map]. pose proof (before En) as [B1 B2]. split.
      + cbn [flat_map]. rewrite E1, app_assoc. f_equal. replace a with (n + (a - n))%nat at 1 by lia. now rewrite (lv_node En).
      + intros x [<-|[<-|Hx]]; auto; lia.
    - cbn [bind]. eexists. split; [reflexivity|]. cbn [concat app flat_map]. split; [now rewrite E1|]. intros x [<-|Hx]; auto; lia.
  Qed.
  Lemma quasi_loop_ok b : forall fuel l, (b <= length lm)%nat -> (b <= fuel)%nat -> (forall x, In x l -> (x < n + b)%nat) ->
    quasi_loop fuel n lm l = Some (Ok (flat_map (lv (length lm) n lm) l)).
  Proof.
    assert (Hdone : forall fuel l, existsb (fun x => (n <=? x)%nat) l = false -> quasi_loop fuel n lm l = Some (Ok (flat_map (lv (length lm) n lm) l))).
    { intros fuel l H. assert (El : flat_map (lv (length lm) n lm) l = l).
      { clear fuel. induction l as [|a l IH]; auto. cbn [existsb flat_map] in *. apply orb_false_iff in H as [H1 H2]. apply Nat.leb_gt in H1. rewrite lv_item by auto. cbn. f_equal; auto. }
      destruct fuel; cbn [quasi_loop]; rewrite H, El; auto. }
    induction b as [|b IH]; intros fuel l Hb Hf Hl.
    - apply Hdone. apply existsb_false_iff. intros x Hx. apply Nat.leb_gt. specialize (Hl x Hx). lia.
    - destruct (existsb (fun x => (n <=? x)%nat) l) eqn:E; [|auto]. destruct fuel as [|fuel]; [lia|]. cbn [quasi_loop]. rewrite E.
      destruct (expand_ok Hb Hl) as (l' & E1 & E2 & E3). rewrite E1, (IH fuel l'), E2; auto; lia.
  Qed.
End Quasi.

Lemma flat_map_rows n lm W : forall k, (forall j r, nth_error lm j = Some r -> W (n + (k + j))%nat = W (l_left r) ++ W (l_right r)) ->
  flat_map W (flat_map (fun r => [l_left r; l_right r]) lm) = flat_map (W : nat -> list nat) (seq (n + k) (length lm)).
Proof.
  induction lm as [|r lm IH]; intros k H; auto. cbn [flat_map app length seq]. rewrite app_assoc. f_equal.
  - rewrite <- (H 0%nat r eq_refl). f_equal. lia.
  - replace (S (n + k)) with (n + S k)%nat by lia. apply IH. intros j r' Hj. rewrite <- (H (S j) r' Hj). f_equal. lia.
Qed.
Lemma flat_map_perm A B (f : A -> list B) l1 l2 : Permutation l1 l2 -> Permutation (flat_map f l1) (flat_map f l2).
Proof.
  induction 1; cbn; auto.
  - now apply Permutation_app_head.
  - rewrite !app_assoc. apply Permutation_app_tail, Permutation_app_comm.
  - etransitivity; eauto.
Qed.
Lemma lv_root_perm n lm : linkage_ok n lm -> Permutation (lv (length lm) n lm (2 * n - 2)) (seq 0 n).
Proof.
  intros [H2 Hr Hb Ho _]. set (W := lv (length lm) n lm).
  assert (P : Permutation (flat_map W (seq 0 (2 * n - 2))) (flat_map W (seq n (n - 1)))).
  { etransitivity; [apply flat_map_perm; symmetry; exact Ho|]. rewrite (@flat_map_rows n lm W 0).
    - rewrite Nat.add_0_r, Hr. reflexivity.
    - intros j r Hj. apply lv_node; auto. }
  replace (2 * n - 2)%nat with (n + (n - 2))%nat in P by lia. rewrite seq_app, flat_map_app in P. cbn [Nat.add] in P.
  replace (n - 1)%nat with (n - 2 + 1)%nat in P by lia. rewrite (seq_app (n - 2) 1 n), flat_map_app in P. cbn [seq flat_map] in P. rewrite app_nil_r in P.
  replace (n + (n - 2))%nat with (2 * n - 2)%nat in P by lia.
  assert (E : flat_map W (seq 0 n) = seq 0 n).
  { assert (G : forall l, (forall x, In x l -> (x < n)%nat) -> flat_map W l = l).
    { induction l as [|a l IH]; intro H; auto. cbn [flat_map]. unfold W at 1. rewrite lv_item by (apply H; now left). cbn. f_equal. apply IH. intros; apply H; now right. }
    apply G. intros x Hx. apply in_seq in Hx. lia. }
  rewrite E in P. apply Permutation_app_inv_l with (l := flat_map W (seq n (n - 2))). etransitivity; [symmetry; exact P|]. apply Permutation_app_comm.
Qed.
Lemma quasi_diagonalize_ok n lm fuel : linkage_ok n lm -> (length lm <= fuel)%nat ->
  quasi_diagonalize fuel lm = Some (Ok (lv (length lm) n lm (2 * n - 2))).
Proof.
  intros [H2 Hr Hb Ho Hc] Hf. unfold quasi_diagonalize.
  destruct (nth_error lm (n - 2)) as [r|] eqn:E; [|apply nth_error_None in E; lia].
  assert (El : lm = firstn (n - 2) lm ++ [r]).
  { rewrite <- (firstn_skipn (n - 2) lm) at 1. f_equal. assert (L : length (skipn (n - 2) lm) = 1%nat) by (rewrite skipn_length; lia).
    assert (Es : nth_error (skipn (n - 2) lm) 0 = Some r) by (rewrite nth_error_skipn, Nat.add_0_r; auto).
    destruct (skipn (n - 2) lm) as [|a [|b l]]; cbn in L; try lia. cbn in Es. now injection Es as ->. }
  assert (Er : exists t, rev lm = r :: t) by (rewrite El, rev_app_distr; cbn; eauto). destruct Er as [t ->]. rewrite (Hc r eq_refl).
  rewrite (@quasi_loop_ok n lm Hb (n - 2) fuel); try lia.
  - do 2 f_equal. cbn [flat_map]. rewrite app_nil_r. replace (2 * n - 2)%nat with (n + (n - 2))%nat by lia. symmetry. now apply lv_node.
  - pose proof (Hb _ _ E). intros x [<-|[<-|[]]]; lia.
Qed.

(** ** Recursive bisection *)
Lemma scale_map part a f ks : scale part a (map (fun i => (i, f i)) ks) = map (fun i => (i, if existsb (Nat.eqb i) part then f i * a else f i)) ks.
Proof. unfold scale. rewrite map_map. reflexivity. Qed.
Lemma mem_in i l : existsb (Nat.eqb i) l = true <-> In i l.
Proof. rewrite existsb_exists. split; [intros (x & H & E); apply Nat.eqb_eq in E; now subst|intro; exists i; split; auto; apply Nat.eqb_refl]. Qed.
Lemma mem_not i l : existsb (Nat.eqb i) l = false <-> ~ In i l.
Proof. rewrite <- mem_in. destruct (existsb (Nat.eqb i) l); split; congruence. Qed.

Definition halves (p : list nat) := (firstn (length p / 2) p, skipn (length p / 2) p).
Lemma halves_app p : fst (halves p) ++ snd (halves p) = p. Proof. apply firstn_skipn. Qed.
Lemma halves_len p : length (fst (halves p)) = (length p / 2)%nat.
Proof. cbn [halves fst]. rewrite firstn_length. apply Nat.min_l. apply Nat.div_le_upper_bound; lia. Qed.
Lemma halves_bounds p : (1 < length p)%nat -> (1 <= length (fst (halves p)) /\ length (fst (halves p)) < length p /\ 1 <= length (snd (halves p)) /\ length (snd (halves p)) < length p)%nat.
Proof.
  intro H. rewrite halves_len. cbn [snd halves]. rewrite skipn_length. pose proof (Nat.div_mod (length p) 2 ltac:(lia)). pose proof (Nat.mod_upper_bound (length p) 2 ltac:(lia)). lia.
Qed.
Lemma bisect_concat parts : concat (bisect parts) = concat (filter (fun p => (1 <? length p)%nat) parts).
Proof.
  induction parts as [|p ps IH]; auto. cbn [bisect flat_map filter]. rewrite concat_app. fold (bisect ps). rewrite IH.
  destruct (1 <? length p)%nat; cbn [concat app]; auto. f_equal. rewrite app_nil_r. apply firstn_skipn.
Qed.
Lemma filter_concat_incl (f : list nat -> bool) parts i : In i (concat (filter f parts)) -> In i (concat parts).
Proof. rewrite !in_concat. intros (p & Hp & Hi). apply filter_In in Hp as [Hp _]. eauto. Qed.
Lemma NoDup_app_iff A (l1 l2 : list A) : NoDup (l1 ++ l2) <-> NoDup l1 /\ NoDup l2 /\ forall x, In x l1 -> ~ In x l2.
Proof.
  induction l1 as [|a l1 IH]; cbn.
  - split; [intro H; split; [constructor|split; auto]|tauto].
  - rewrite !NoDup_cons_iff, IH, in_app_iff. split.
    + intros (H1 & H2 & H3 & H4). split; [tauto|]. split; auto. intros x [<-|Hx]; auto.
    + intros ((H1 & H2) & H3 & H4). split; [|split; auto]. intros [H|H]; [auto|]. now apply (H4 a (or_introl eq_refl)).
Qed.
Lemma filter_concat_nodup (f : list nat -> bool) parts : NoDup (concat parts) -> NoDup (concat (filter f parts)).
Proof.
  induction parts as [|p ps IH]; cbn; auto. rewrite NoDup_app_iff. intros (H1 & H2 & H3). destruct (f p); auto. cbn. rewrite NoDup_app_iff.
  split; auto. split; auto. intros x Hx Hi. now apply (H3 x Hx), (filter_concat_incl Hi).
Qed.
Lemma nodup_concat_disjoint (f : list nat -> bool) parts p i : NoDup (concat parts) -> In p parts -> In i p -> f p = false -> ~ In i (concat (filter f parts)).
Proof.
  induction parts as [|q ps IH]; [intros _ []|]. cbn [concat]. rewrite NoDup_app_iff. intros (H1 & H2 & H3) Hp Hi Hf Hin. cbn [filter] in Hin.
  destruct Hp as [->|Hp].
  - rewrite Hf in Hin. now apply (H3 i Hi), (filter_concat_incl Hin).
  - destruct (f q) eqn:Eq; [|now apply IH in Hin]. cbn in Hin. apply in_app_or in Hin as [Hin|Hin]; [|now apply IH in Hin].
    apply (H3 i Hin). apply in_concat. eauto.
Qed.

Section Bisect.
  Variables (cov : nat -> nat -> Qc) (idx : list nat).
  Hypothesis var_pos : forall c, c <> [] -> NoDup c -> incl c idx -> 0 < cluster_var cov c.
  Definition first_share p1 p2 := cluster_var cov p2 / (cluster_var cov p1 + cluster_var cov p2).
  Definition second_share p1 p2 := cluster_var cov p1 / (cluster_var cov p1 + cluster_var cov p2).
  Lemma split_pairs_ok parts : forall ks f, NoDup (concat parts) -> incl (concat parts) idx ->
    exists h, split_pairs cov (bisect parts) (map (fun i => (i, f i)) ks) = map (fun i => (i, f i * h i)) ks /\
      (forall p i, In p parts -> (1 < length p)%nat -> (In i (fst (halves p)) -> h i = first_share (fst (halves p)) (snd (halves p))) /\
                                                   (In i (snd (halves p)) -> h i = second_share (fst (halves p)) (snd (halves p)))) /\
      (forall i, ~ In i (concat (bisect parts)) -> h i = 1).
  Proof.
    induction parts as [|p ps IH]; intros ks f Hn Hi.
    - exists (fun _ => 1). cbn. split; [apply map_ext; intro; now rewrite Qcmult_1_r|]. split; [intros ? ? []|auto].
    - cbn [concat] in Hn, Hi. apply NoDup_app_iff in Hn as (N1 & N2 & N3). cbn [bisect flat_map]. fold (bisect ps).
      assert (I2 : incl (concat ps) idx) by (intros x Hx; apply Hi, in_or_app; auto).
      assert (Hps : forall q i, In q ps -> In i q -> ~ In i p) by (intros q i Hq Hiq Hip; apply (N3 i Hip); apply in_concat; eauto).
      destruct (Nat.ltb_spec 1 (length p)) as [Hp|Hp].
      + cbn [app split_pairs]. pose proof (halves_bounds Hp) as Hb. pose proof (halves_app p) as Ha. cbn [halves fst snd] in Hb, Ha.
        set (p1 := firstn (length p / 2) p) in *. set (p2 := skipn (length p / 2) p) in *.
        assert (Nd : NoDup (p1 ++ p2)) by (rewrite Ha; auto). apply NoDup_app_iff in Nd as (D1 & D2 & D3).
        assert (V1 : 0 < cluster_var cov p1).
        { apply var_pos; auto; [destruct p1; cbn in Hb; [lia|discriminate]|]. intros x Hx. apply Hi, in_or_app. left. rewrite <- Ha. apply in_or_app; auto. }
        assert (V2 : 0 < cluster_var cov p2).
        { apply var_pos; auto; [destruct p2; cbn in Hb; [lia|discriminate]|]. intros x Hx. apply Hi, in_or_app. left. rewrite <- Ha. apply in_or_app; auto. }
        rewrite !scale_map.
        set (alpha := 1 - cluster_var cov p1 / (cluster_var cov p1 + cluster_var cov p2)).
        destruct (IH ks (fun i => if existsb (Nat.eqb i) p2 then (if existsb (Nat.eqb i) p1 then f i * alpha else f i) * (1 - alpha) else if existsb (Nat.eqb i) p1 then f i * alpha else f i) N2 I2) as (h & E1 & E2 & E3).
        rewrite E1.
        assert (A1 : alpha = first_share p1 p2) by (unfold alpha, first_share; field; apply Qc_pos_neq; qlra).
        assert (A2 : 1 - alpha = second_share p1 p2) by (unfold alpha, second_share; field; apply Qc_pos_neq; qlra).
        assert (Hout : forall i, In i p -> ~ In i (concat (bisect ps))).
        { intros i Hip Hin. rewrite bisect_concat in Hin. apply (N3 i Hip), (filter_concat_incl Hin). }
        exists (fun i => (if existsb (Nat.eqb i) p1 then alpha else if existsb (Nat.eqb i) p2 then 1 - alpha else 1) * h i). split; [|split].
        * apply map_ext. intro i. f_equal. destruct (existsb (Nat.eqb i) p1) eqn:M1, (existsb (Nat.eqb i) p2) eqn:M2; try ring.
          apply mem_in in M1, M2. now apply D3 in M1.
        * intros q i [<-|Hq] Hl.
          -- cbn [halves fst snd]. fold p1 p2. split; intro Hin.
             ++ rewrite (proj2 (mem_in i p1) Hin), A1, E3; [ring|]. apply Hout. rewrite <- Ha. apply in_or_app; auto.
             ++ assert (~ In i p1) by (intro H; now apply (D3 i H)). apply mem_not in H. rewrite H, (proj2 (mem_in i p2) Hin), A2, E3; [ring|].
                apply Hout. rewrite <- Ha. apply in_or_app; auto.
          -- assert (G : In i q -> (if existsb (Nat.eqb i) p1 then alpha else if existsb (Nat.eqb i) p2 then 1 - alpha else 1) = 1).
             { intro Hiq. pose proof (Hps q i Hq Hiq) as Hnp. rewrite <- Ha, in_app_iff in Hnp. now rewrite (proj2 (mem_not i p1)), (proj2 (mem_not i p2)) by tauto. }
             destruct (E2 q i Hq Hl) as [F1 F2]. pose proof (halves_app q) as Hqa.
             split; intro Hin; rewrite G by (rewrite <- Hqa; apply in_or_app; auto); [rewrite F1|rewrite F2]; auto; ring.
        * intros i Hni. cbn [concat] in Hni. rewrite !in_app_iff in Hni. fold p1 p2 in Hni. rewrite (proj2 (mem_not i p1)), (proj2 (mem_not i p2)), E3 by tauto. ring.
      + cbn [app]. destruct (IH ks f N2 I2) as (h & E1 & E2 & E3). exists h. split; auto. split; auto. intros q i [<-|Hq] Hl; [lia|auto].
  Qed.
  Lemma share_len1 p i : length p = 1%nat -> In i p -> share cov p i 1.
  Proof. destruct p as [|a [|b p]]; cbn; try lia. intros _ [->|[]]. constructor. Qed.
  Lemma bisect_loop_ok fuel : forall parts ks f, NoDup (concat parts) -> incl (concat parts) idx ->
    (forall p, In p parts -> p <> [] /\ (length p <= fuel)%nat) ->
    exists g, bisect_loop fuel cov parts (map (fun i => (i, f i)) ks) = Some (map (fun i => (i, f i * g i)) ks) /\
      (forall p i, In p parts -> In i p -> share cov p i (g i)) /\ (forall i, ~ In i (concat parts) -> g i = 1).
  Proof.
    induction fuel as [|fuel IH]; intros parts ks f Hn Hi Hp.
    - destruct parts as [|p ps]; [|exfalso; destruct (Hp p (or_introl eq_refl)) as [H1 H2]; destruct p; cbn in H2; [congruence|lia]].
      exists (fun _ => 1). split; [cbn; f_equal; apply map_ext; intro; now rewrite Qcmult_1_r|]. split; [intros ? ? []|auto].
    - destruct parts as [|p0 ps0]; [exists (fun _ => 1); split; [cbn; f_equal; apply map_ext; intro; now rewrite Qcmult_1_r|]; split; [intros ? ? []|auto]|].
      set (parts := p0 :: ps0) in *. assert (Eb : bisect_loop (S fuel) cov parts (map (fun i => (i, f i)) ks) = bisect_loop fuel cov (bisect parts) (split_pairs cov (bisect parts) (map (fun i => (i, f i)) ks))) by reflexivity.
      rewrite Eb. clearbody parts. clear Eb p0 ps0.
      destruct (split_pairs_ok ks f Hn Hi) as (h & E1 & E2 & E3). rewrite E1.
      destruct (IH (bisect parts) ks (fun i => f i * h i)) as (g & G1 & G2 & G3).
      + rewrite bisect_concat. now apply filter_concat_nodup.
      + rewrite bisect_concat. intros x Hx. apply Hi. now apply (filter_concat_incl Hx).
      + intros q Hq. unfold bisect in Hq. apply in_flat_map in Hq as (p & Hpp & Hq). destruct (Nat.ltb_spec 1 (length p)) as [Hl|Hl]; [|destruct Hq].
        pose proof (halves_bounds Hl) as Hb. cbn [halves fst snd] in Hb. destruct (Hp p Hpp) as [_ Hlen].
        destruct Hq as [<-|[<-|[]]]; (split; [|lia]); intro E; rewrite E in Hb; cbn in Hb; lia.
      + rewrite G1. exists (fun i => h i * g i). split; [f_equal; apply map_ext; intro; f_equal; ring|]. split.
        * intros p i Hpp Hip. destruct (Hp p Hpp) as [Hne Hlen]. destruct (Nat.lt_ge_cases 1 (length p)) as [Hl|Hl].
          -- destruct (E2 p i Hpp Hl) as [F1 F2]. pose proof (halves_app p) as Ha. pose proof (halves_len p) as Hhl. pose proof (halves_bounds Hl) as Hb.
             assert (In1 : In (fst (halves p)) (bisect parts) /\ In (snd (halves p)) (bisect parts)).
             { unfold bisect. split; apply in_flat_map; exists p; (split; [auto|]); rewrite (proj2 (Nat.ltb_lt _ _) Hl); cbn; auto. }
             destruct In1 as [I1 I2]. rewrite <- Ha in Hip. apply in_app_or in Hip as [Hip|Hip].
             ++ rewrite F1 by auto. rewrite <- Ha at 1. apply share_left; [now rewrite Ha|intro E; rewrite E in Hb; cbn in Hb; lia|]. now apply G2.
             ++ rewrite F2 by auto. rewrite <- Ha at 1. apply share_right; [now rewrite Ha|intro E; rewrite E in Hb; cbn in Hb; lia|]. now apply G2.
          -- assert (L1 : length p = 1%nat) by (destruct p as [|a p]; [congruence|]; cbn in *; lia).
             assert (Hnot : ~ In i (concat (bisect parts))) by (rewrite bisect_concat; apply (nodup_concat_disjoint Hn Hpp Hip); apply Nat.ltb_ge; lia).
             rewrite E3, G3 by auto. rewrite Qcmult_1_r. now apply share_len1.
        * intros i Hni. assert (Hnot : ~ In i (concat (bisect parts))) by (rewrite bisect_concat; intro Hin; now apply Hni, (filter_concat_incl Hin)).
          rewrite E3, G3 by auto. ring.
  Qed.
  Lemma share_in p i m : share cov p i m -> In i p.
  Proof. induction 1; cbn; auto; apply in_or_app; auto. Qed.
  Lemma app_len_inj A (a b c d : list A) : a ++ b = c ++ d -> length a = length c -> a = c /\ b = d.
  Proof. revert c. induction a as [|x a IH]; intros [|y c] E L; cbn in *; try lia; auto. injection E as -> E. apply IH in E as [-> ->]; auto. Qed.
  Lemma share_inv p1 p2 i m : length p1 = (length (p1 ++ p2) / 2)%nat -> p1 <> [] -> NoDup (p1 ++ p2) -> share cov (p1 ++ p2) i m ->
    (In i p1 /\ exists m', share cov p1 i m' /\ m = first_share p1 p2 * m') \/ (In i p2 /\ exists m', share cov p2 i m' /\ m = second_share p1 p2 * m').
  Proof.
    intros Hl Hne Hn Hs. remember (p1 ++ p2) as p eqn:Ep. destruct Hs as [j|q1 q2 j m' Hq Hqn Hs|q1 q2 j m' Hq Hqn Hs].
    - destruct p1 as [|a p1]; [congruence|]. cbn in Hl. discriminate.
    - assert (E : q1 = p1 /\ q2 = p2) by (apply app_len_inj; auto; congruence). destruct E as [-> ->]. left. split; [now apply share_in in Hs|]. eauto.
    - assert (E : q1 = p1 /\ q2 = p2) by (apply app_len_inj; auto; congruence). destruct E as [-> ->]. right. split; [now apply share_in in Hs|]. eauto.
  Qed.
  Lemma share_total n : forall p g, (length p <= n)%nat -> p <> [] -> NoDup p -> incl p idx -> (forall i, In i p -> share cov p i (g i)) ->
    qsum (map g p) = 1 /\ forall i, In i p -> 0 < g i.
  Proof.
    induction n as [|n IH]; intros p g Hlen Hne Hn Hi Hg; [destruct p; cbn in Hlen; [congruence|lia]|].
    destruct (Nat.lt_ge_cases 1 (length p)) as [Hl|Hl].
    - pose proof (halves_app p) as Ha. pose proof (halves_len p) as Hhl. pose proof (halves_bounds Hl) as Hb.
      set (p1 := fst (halves p)) in *. set (p2 := snd (halves p)) in *. clearbody p1 p2. subst p.
      assert (N1 : p1 <> []) by (destruct p1; cbn in Hb; [lia|discriminate]). assert (N2 : p2 <> []) by (destruct p2; cbn in Hb; [lia|discriminate]).
      pose proof Hn as Hn'. apply NoDup_app_iff in Hn' as (D1 & D2 & D3).
      assert (Q1 : incl p1 idx) by (intros x Hx; apply Hi, in_or_app; auto). assert (Q2 : incl p2 idx) by (intros x Hx; apply Hi, in_or_app; auto).
      pose proof (var_pos N1 D1 Q1) as V1. pose proof (var_pos N2 D2 Q2) as V2.
      assert (S1 : 0 < first_share p1 p2) by (apply Qcdiv_pos; auto; qlra). assert (S2 : 0 < second_share p1 p2) by (apply Qcdiv_pos; auto; qlra).
      destruct (IH p1 (fun i => g i / first_share p1 p2)) as [T1 T2]; auto; [lia| |].
      { intros i Hin. destruct (@share_inv p1 p2 i (g i) Hhl N1 Hn) as [[_ (m' & Hm & Em)]|[H2 _]].
        - apply Hg, in_or_app; auto. - rewrite Em. replace (first_share p1 p2 * m' / first_share p1 p2) with m'; auto. field. now apply Qc_pos_neq. - now apply D3 in H2. }
      destruct (IH p2 (fun i => g i / second_share p1 p2)) as [T3 T4]; auto; [lia| |].
      { intros i Hin. destruct (@share_inv p1 p2 i (g i) Hhl N1 Hn) as [[H2 _]|[_ (m' & Hm & Em)]].
        - apply Hg, in_or_app; auto. - now apply D3 in H2. - rewrite Em. replace (second_share p1 p2 * m' / second_share p1 p2) with m'; auto. field. now apply Qc_pos_neq. }
      split.
      + rewrite map_app, qsum_app.
        rewrite (@qsum_map_ext _ g (fun i => first_share p1 p2 * (g i / first_share p1 p2)) p1) by (intros; field; now apply Qc_pos_neq).
        rewrite (@qsum_map_ext _ g (fun i => second_share p1 p2 * (g i / second_share p1 p2)) p2) by (intros; field; now apply Qc_pos_neq).
        rewrite !qsum_map_scale, T1, T3. unfold first_share, second_share. field. apply Qc_pos_neq. qlra.
      + intros i Hin. apply in_app_or in Hin as [Hin|Hin]; [specialize (T2 i Hin)|specialize (T4 i Hin)].
        * replace (g i) with (g i / first_share p1 p2 * first_share p1 p2) by (field; now apply Qc_pos_neq). now apply Qcmul_pos.
        * replace (g i) with (g i / second_share p1 p2 * second_share p1 p2) by (field; now apply Qc_pos_neq). now apply Qcmul_pos.
    - destruct p as [|a [|b p]]; cbn in Hl; try lia; [congruence|]. specialize (Hg a (or_introl eq_refl)).
      assert (E : g a = 1).
      { remember [a] as p eqn:Ep. remember (g a) as m eqn:Em. destruct Hg as [j|q1 q2 j m' Hq Hqn Hs|q1 q2 j m' Hq Hqn Hs]; auto; destruct q1 as [|x q1]; try congruence; injection Ep as -> Ep; destruct q1; [|discriminate| |discriminate]; cbn in Ep; subst q2; cbn in Hq; lia. }
      cbn. rewrite E. split; [ring|]. intros i [<-|[]]. rewrite E. reflexivity.
  Qed.
  Lemma recursive_bisection_ok fuel : idx <> [] -> NoDup idx -> (length idx <= fuel)%nat ->
    exists g, recursive_bisection fuel cov idx = Some (map (fun i => (i, g i)) idx) /\ forall i, In i idx -> share cov idx i (g i).
  Proof.
    intros Hne Hn Hf. destruct (@bisect_loop_ok fuel [idx] idx (fun _ => 1)) as (g & E & Hs & _).
    - cbn. now rewrite app_nil_r. - cbn. rewrite app_nil_r. intros x; auto. - intros p [<-|[]]. auto.
    - exists g. split; [unfold recursive_bisection; rewrite E; f_equal; apply map_ext; intro; f_equal; ring|]. intros i Hi. apply Hs; cbn; auto.
  Qed.
End Bisect.

Lemma cluster_var_quad cov idx : cluster_var cov idx = quad cov idx (fun i => 1 / cov i i / qsum (map (fun i => 1 / cov i i) idx)).
Proof.
  unfold cluster_var, quad, inverse_cov_portfolio. rewrite map_map.
  assert (G : forall l (f : nat -> Qc), combine l (map f l) = map (fun i => (i, f i)) l) by (induction l as [|a l IH]; intro f; cbn; auto; now rewrite IH).
  rewrite G, map_map. f_equal. apply map_ext. intro i. cbn [fst snd]. rewrite map_map. reflexivity.
Qed.
Lemma pos_def_diag cov idx i : pos_def cov idx -> In i idx -> 0 < cov i i.
Proof.
  intros H Hi. specialize (H [i] (fun _ => 1)). unfold quad in H. cbn in H.
  replace (cov i i) with (1 * (1 * cov i i + 0) + 0) by ring. apply H.
  - constructor; auto. constructor. - intros x [<-|[]]; auto. - exists i. split; auto. discriminate.
Qed.
Lemma pos_def_var cov idx c : pos_def cov idx -> c <> [] -> NoDup c -> incl c idx -> 0 < cluster_var cov c.
Proof.
  intros H Hne Hn Hi. rewrite cluster_var_quad. apply H; auto. destruct c as [|a c]; [congruence|]. exists a. split; [now left|].
  assert (Hd : forall i, In i (a :: c) -> 0 < 1 / cov i i) by (intros i Hin; apply Qcdiv_pos; [reflexivity|]; apply (pos_def_diag H); auto).
  apply Qc_pos_neq, Qcdiv_pos; [apply Hd; now left|]. apply qsum_pos; [discriminate|]. intros x Hx. apply in_map_iff in Hx as (i & <- & Hin). auto.
Qed.

(** ** Real vectors *)
Open Scope R_scope.
Lemma rdot_add_l n u v w : rdot n (fun i => u i + v i) w = rdot n u w + rdot n v w.
Proof. unfold rdot. rewrite <- rsum_map_add. apply rsum_map_ext. intros; ring. Qed.
Lemma rdot_scale_l n c u w : rdot n (fun i => c * u i) w = c * rdot n u w.
Proof. unfold rdot. rewrite <- rsum_map_scale. apply rsum_map_ext. intros; ring. Qed.
Lemma rdot_comm n u v : rdot n u v = rdot n v u.
Proof. unfold rdot. apply rsum_map_ext. intros; ring. Qed.
Lemma rdot_ext n u u' v v' : (forall i, (i < n)%nat -> u i = u' i) -> (forall i, (i < n)%nat -> v i = v' i) -> rdot n u v = rdot n u' v'.
Proof. intros H1 H2. unfold rdot. apply rsum_map_ext. intros i Hi. apply in_seq in Hi. rewrite H1, H2 by lia. auto. Qed.
Lemma rdot_self_nonneg n u : 0 <= rdot n u u.
Proof. apply rsum_nonneg. intros x Hx. apply in_map_iff in Hx as (i & <- & _). nra. Qed.
Lemma cauchy_schwarz n u v : rdot n u v * rdot n u v <= rdot n u u * rdot n v v.
Proof.
  set (a := rdot n u u). set (b := rdot n v v). set (c := rdot n u v).
  assert (Q : forall s t, 0 <= s * s * a + 2 * s * t * c + t * t * b).
  { intros s t. pose proof (rdot_self_nonneg n (fun i => s * u i + t * v i)) as H.
    rewrite rdot_add_l, rdot_scale_l, rdot_scale_l in H. rewrite (rdot_comm n u), (rdot_comm n v) in H.
    rewrite !rdot_add_l, !rdot_scale_l in H. rewrite (rdot_comm n v u) in H. fold a b c in H. nra. }
  assert (Ha : 0 <= a) by apply rdot_self_nonneg. assert (Hb : 0 <= b) by apply rdot_self_nonneg.
  destruct (Req_dec b 0) as [E|E].
  - rewrite E. rewrite Rmult_0_r. destruct (Req_dec c 0) as [Ec|Ec]; [rewrite Ec; lra|].
    pose proof (Q 1 (- (a + 1) / (2 * c))) as H. rewrite E in H. replace (1 * 1 * a + 2 * 1 * (- (a + 1) / (2 * c)) * c + - (a + 1) / (2 * c) * (- (a + 1) / (2 * c)) * 0) with (-1) in H by (field; auto). lra.
  - assert (Hb' : 0 < b) by lra. pose proof (Q b (- c)) as H. replace (b * b * a + 2 * b * - c * c + - c * - c * b) with (b * (a * b - c * c)) in H by ring.
    assert (0 <= a * b - c * c); [|lra]. apply (Rmult_le_reg_l b); auto. rewrite Rmult_0_r. exact H.
Qed.
Lemma minkowski n u v : sqrt (rdot n (fun i => u i + v i) (fun i => u i + v i)) <= sqrt (rdot n u u) + sqrt (rdot n v v).
Proof.
  apply Rsqr_incr_0_var; [|apply Rplus_le_le_0_compat; apply sqrt_pos]. unfold Rsqr.
  rewrite sqrt_sqrt by apply rdot_self_nonneg. rewrite rdot_add_l, (rdot_comm n u), (rdot_comm n v), !rdot_add_l, (rdot_comm n v u).
  pose proof (rdot_self_nonneg n u) as Ha. pose proof (rdot_self_nonneg n v) as Hb. pose proof (cauchy_schwarz n u v) as Hc.
  set (a := rdot n u u) in *. set (b := rdot n v v) in *. set (c := rdot n u v) in *.
  assert (c <= sqrt a * sqrt b).
  { rewrite <- sqrt_mult by auto. apply Rle_trans with (sqrt (c * c)).
    - replace (c * c) with (Rsqr c) by reflexivity. rewrite sqrt_Rsqr_abs. apply Rle_abs.
    - now apply sqrt_le_1_alt. }
  pose proof (sqrt_sqrt a Ha). pose proof (sqrt_sqrt b Hb). nra.
Qed.

Lemma rdot_diff n u v : rdot n (fun x => u x + - 1 * v x) (fun x => u x + - 1 * v x) = rdot n u u - 2 * rdot n u v + rdot n v v.
Proof. unfold rdot. rewrite <- rsum_map_scale, <- rsum_map_sub, <- rsum_map_add. apply rsum_map_ext. intros; ring. Qed.

(** ** PCA hedge *)
Lemma einsert_perm e l : Permutation (einsert e l) (e :: l).
Proof. induction l as [|x l IH]; cbn; auto. destruct (Rle_lt_dec (fst e) (fst x)); auto. rewrite IH. apply perm_swap. Qed.
Lemma esort_perm l : Permutation (esort l) l.
Proof. induction l as [|e l IH]; cbn; auto. rewrite einsert_perm. now constructor. Qed.
Lemma eig_desc_perm l : Permutation (eig_desc l) l.
Proof. unfold eig_desc. rewrite <- Permutation_rev. apply esort_perm. Qed.
Lemma einsert_sorted e l : StronglySorted (fun a b => fst a <= fst b) l -> StronglySorted (fun a b : R * (nat -> R) => fst a <= fst b) (einsert e l).
Proof.
  induction 1 as [|x l Hs IH Hf]; cbn; [repeat constructor|]. rewrite Forall_forall in Hf. destruct (Rle_lt_dec (fst e) (fst x)) as [H|H].
  - constructor; [constructor; auto; now apply Forall_forall|]. constructor; auto. apply Forall_forall. intros y Hy. specialize (Hf y Hy). lra.
  - constructor; auto. apply Forall_forall. intros y Hy. apply (Permutation_in _ (einsert_perm e l)) in Hy as [<-|Hy]; auto. lra.
Qed.
Lemma esort_sorted l : StronglySorted (fun a b : R * (nat -> R) => fst a <= fst b) (esort l).
Proof. induction l; cbn; [constructor|]. now apply einsert_sorted. Qed.
Lemma FOP_perm A (P : A -> A -> Prop) l1 l2 : (forall a b, P a b -> P b a) -> Permutation l1 l2 -> ForallOrdPairs P l1 -> ForallOrdPairs P l2.
Proof.
  intros Hs. induction 1 as [|x l l' Hp IH|x y l|l l' l'' H1 IH1 H2 IH2]; auto.
  - inversion_clear 1 as [|? ? Hf Ho]. constructor; auto. rewrite Forall_forall in *. intros a Ha. apply Hf. now apply (Permutation_in _ (Permutation_sym Hp)).
  - inversion_clear 1 as [|? ? Hf Ho]. inversion_clear Ho as [|? ? Hf' Ho']. inversion_clear Hf as [|? ? Hxy Hf'']. repeat constructor; auto.
Qed.
Lemma eigen_system_perm n c e1 e2 : Permutation e1 e2 -> eigen_system n c e1 -> eigen_system n c e2.
Proof.
  intros P (H1 & H2 & H3). split; [now rewrite <- (Permutation_length P)|]. split.
  - intros l v Hin. apply H2. now apply (Permutation_in _ (Permutation_sym P)).
  - apply (FOP_perm (P := fun a b => rdot n (snd a) (snd b) = 0) (l1 := e1)); auto. intros a b H. now rewrite rdot_comm.
Qed.
Definition combo (ps : list (R * (R * (nat -> R)))) : nat -> R := fun i => rsum (map (fun p => fst p * snd (snd p) i) ps).
Lemma mat_vec_combo n c ps i : (forall p, In p ps -> mat_vec n c (snd (snd p)) i = fst (snd p) * snd (snd p) i) ->
  mat_vec n c (combo ps) i = rsum (map (fun p => fst p * (fst (snd p) * snd (snd p) i)) ps).
Proof.
  intro H. induction ps as [|p ps IH].
  - unfold mat_vec, combo. cbn. rewrite rsum_map_0; auto. intros; ring.
  - cbn [map rsum]. rewrite <- IH by (intros; apply H; now right). rewrite <- (H p) by now left. unfold mat_vec. rewrite <- rsum_map_scale, <- rsum_map_add.
    apply rsum_map_ext. intros j _. unfold combo. cbn [map rsum]. ring.
Qed.
Lemma rdot_combo n ps w : rdot n (combo ps) w = rsum (map (fun p => fst p * rdot n (snd (snd p)) w) ps).
Proof.
  induction ps as [|p ps IH].
  - unfold rdot, combo. cbn. apply rsum_map_0. intros; ring.
  - cbn [map rsum]. rewrite <- IH, <- rdot_scale_l, <- rdot_add_l. reflexivity.
Qed.
Lemma combo_variance n c ps : (forall p, In p ps -> rdot n (snd (snd p)) (snd (snd p)) = 1 /\ forall i, (i < n)%nat -> mat_vec n c (snd (snd p)) i = fst (snd p) * snd (snd p) i) ->
  ForallOrdPairs (fun a b => rdot n (snd (snd a)) (snd (snd b)) = 0) ps ->
  rdot n (combo ps) (mat_vec n c (combo ps)) = rsum (map (fun p => fst p * fst p * fst (snd p)) ps).
Proof.
  intros H Ho. set (ps2 := map (fun p => (fst p * fst (snd p), snd p)) ps).
  rewrite (@rdot_ext n (combo ps) (combo ps) (mat_vec n c (combo ps)) (combo ps2)); auto.
  - unfold ps2. clear ps2. induction ps as [|p ps IH]; [unfold rdot, combo; cbn; apply rsum_map_0; intros; ring|].
    inversion_clear Ho as [|? ? Hf Ho']. specialize (IH ltac:(intros; apply H; now right) Ho'). destruct (H p (or_introl eq_refl)) as [Hu _].
    assert (Z : forall l, Forall (fun b => rdot n (snd (snd p)) (snd (snd b)) = 0) l -> rdot n (combo l) (snd (snd p)) = 0).
    { intros l Hl. rewrite rdot_combo. apply rsum_map_0. intros q Hq. rewrite Forall_forall in Hl. rewrite rdot_comm, Hl by auto. ring. }
    assert (Hf2 : Forall (fun b => rdot n (snd (snd p)) (snd (snd b)) = 0) (map (fun p => (fst p * fst (snd p), snd p)) ps)) by (apply Forall_map; cbn; exact Hf).
    set (q := (fst p * fst (snd p), snd p)). set (qs := map (fun p => (fst p * fst (snd p), snd p)) ps) in *.
    assert (E1 : rdot n (combo (p :: ps)) (combo (q :: qs)) = rdot n (fun i => fst p * snd (snd p) i + combo ps i) (fun i => fst q * snd (snd q) i + combo qs i)) by reflexivity.
    cbn [map rsum]. fold q qs. rewrite E1, rdot_add_l, rdot_scale_l, (rdot_comm n (snd (snd p))), (rdot_comm n (combo ps)), !rdot_add_l, !rdot_scale_l.
    unfold q. cbn [fst snd]. rewrite Hu, (Z qs Hf2), (rdot_comm n (snd (snd p)) (combo ps)), (Z ps Hf), (rdot_comm n (combo qs)), IH. ring.
  - intros i Hi. rewrite mat_vec_combo by (intros p Hp; now apply (H p Hp)). unfold combo, ps2. rewrite map_map. apply rsum_map_ext. intros; cbn; ring.
Qed.
