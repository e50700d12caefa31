(** Theorems about the entropy estimators and encoders (C44-C47, C88). *)
From Verif Require Import Py RNum EntropyModel EntropySpec EntropyProofs.
Set Implicit Arguments.
Unset Strict Implicit.
Open Scope nat_scope.

(** ** C44: word probabilities and plug-in entropy *)
Theorem c44_word_pmf_is_frequencies (msg : str) (w : nat) : w <= length msg ->
  NoDup (map fst (word_pmf msg w)) /\
  (forall x, In x (map fst (word_pmf msg w)) <-> In x (windows w msg)) /\
  (forall x p, In (x, p) (word_pmf msg w) -> p = (INR (occurrences x (windows w msg)) / INR (length (windows w msg)))%R) /\
  rsum (map snd (word_pmf msg w)) = 1%R.
Proof.
  intro Hw. unfold word_pmf. rewrite word_lib_adds, (n_words_eq Hw). set (items := map _ (seq _ _)).
  assert (EW : map fst items = windows w msg) by apply windows_items. assert (EL : length items = length (windows w msg)) by now rewrite <- EW, map_length.
  destruct (adds_ok items) as [A1 [A2 [A3 A4]]]. set (lib := adds items) in *. rewrite map_map. cbn [fst].
  split; [exact A1|]. split; [intro x; rewrite (A2 x), EW; tauto|]. split.
  - intros x p H. apply in_map_iff in H. destruct H as [[x' ps] [E H]]. cbn in E. inversion E; subst. now rewrite (A3 _ _ H), EW.
  - rewrite map_map. cbn [snd]. rewrite (rsum_map_ext (g := fun e => (/ INR (length (windows w msg)) * INR (length (snd e)))%R)); [|intros; unfold Rdiv; ring].
    rewrite rsum_map_scale, rsum_INR, A4, EL. apply Rinv_l. apply not_0_INR. unfold windows. rewrite map_length, seq_length. lia.
Qed.
Print Assumptions c44_word_pmf_is_frequencies.

Lemma pmf_distribution msg w : w <= length msg -> distribution (map snd (word_pmf msg w)).
Proof.
  intro Hw. destruct (c44_word_pmf_is_frequencies Hw) as [H1 [H2 [H3 H4]]]. split; auto. intros p Hp. apply in_map_iff in Hp. destruct Hp as [[x p'] [E H]]. cbn in E. subst p'.
  rewrite (H3 x p H). apply Rdiv_lt_0_compat; apply lt_0_INR.
  - unfold occurrences. apply (count_occ_In (list_eq_dec Nat.eq_dec)). apply H2. now apply (in_map fst) in H.
  - unfold windows. rewrite map_length, seq_length. lia.
Qed.
(** the number of different words *)
Lemma pmf_length msg w : w <= length msg -> length (word_pmf msg w) = length (nodup (list_eq_dec Nat.eq_dec) (windows w msg)).
Proof.
  intro Hw. destruct (c44_word_pmf_is_frequencies Hw) as [H1 [H2 _]]. rewrite <- (map_length fst). apply Permutation_length. apply NoDup_Permutation; auto; [apply NoDup_nodup|].
  intro x. now rewrite nodup_In.
Qed.

Theorem c44_plugin_entropy_bounds (msg : str) (w : nat) : 0 < w <= length msg ->
  (0 <= plugin_entropy msg w <= log2 (INR (length (nodup (list_eq_dec Nat.eq_dec) (windows w msg)))) / INR w)%R.
Proof.
  intros [W0 Hw]. pose proof (pmf_distribution Hw) as D. pose proof (gibbs D) as G. rewrite map_length, (pmf_length Hw) in G. unfold plugin_entropy.
  rewrite <- (map_map snd (fun p => p * log2 p)%R), entropy_log2. set (H := (- rsum _)%R) in *. clearbody H. pose proof ln2_pos. assert (0 < INR w)%R by now apply lt_0_INR. unfold log2.
  split.
  - unfold Rdiv. apply Rmult_le_pos; [apply Rmult_le_pos; [lra|]|]; left; now apply Rinv_0_lt_compat.
  - unfold Rdiv. apply Rmult_le_compat_r; [left; now apply Rinv_0_lt_compat|]. apply Rmult_le_compat_r; [left; now apply Rinv_0_lt_compat|]. lra.
Qed.
Print Assumptions c44_plugin_entropy_bounds.

Theorem c44_plugin_entropy_zero_iff_one_word (msg : str) (w : nat) : 0 < w <= length msg ->
  (plugin_entropy msg w = 0%R <-> forall x y, In x (windows w msg) -> In y (windows w msg) -> x = y).
Proof.
  intros [W0 Hw]. pose proof (entropy_zero (pmf_distribution Hw)) as Z. unfold plugin_entropy.
  rewrite <- (map_map snd (fun p => p * log2 p)%R), entropy_log2. set (H := (- rsum _)%R) in *. clearbody H. pose proof ln2_pos. assert (0 < INR w)%R by now apply lt_0_INR.
  assert (E : (H / ln 2 / INR w = 0 <-> H = 0)%R).
  { split; [intro E|intros ->; field; lra]. replace H with (H / ln 2 / INR w * INR w * ln 2)%R by (field; lra). rewrite E. ring. }
  rewrite E, Z, map_length, (pmf_length Hw). set (ws := windows w msg). split.
  - intros L x y Hx Hy. apply (nodup_In (list_eq_dec Nat.eq_dec) ws) in Hx. apply (nodup_In (list_eq_dec Nat.eq_dec) ws) in Hy. destruct (nodup _ ws) as [|a [|b l]]; try discriminate. destruct Hx as [<-|[]], Hy as [<-|[]]. reflexivity.
  - intro U. assert (NE : ws <> []). { intro C. apply (f_equal (@length _)) in C. unfold ws, windows in C. rewrite map_length, seq_length in C. cbn [length] in C. lia. }
    pose proof (NoDup_nodup (list_eq_dec Nat.eq_dec) ws) as ND. destruct (nodup _ ws) as [|a [|b l]] eqn:EN; auto.
    + exfalso. destruct ws as [|x ws']; [congruence|]. assert (In x (nodup (list_eq_dec Nat.eq_dec) (x :: ws'))) by (apply nodup_In; now left). rewrite EN in H2. destruct H2.
    + exfalso. inversion ND as [|? ? N _]; subst. apply N. left. apply U; apply (nodup_In (list_eq_dec Nat.eq_dec)); rewrite EN; [right; now left|now left].
Qed.
Print Assumptions c44_plugin_entropy_zero_iff_one_word.

(** The entropy is that of the relative frequencies of the distinct words, in bits per symbol. *)
Theorem c44_plugin_entropy_value (msg : str) (w : nat) : 0 < w <= length msg ->
  let ws := windows w msg in let p x := (INR (occurrences x ws) / INR (length ws))%R in
  (plugin_entropy msg w * INR w = - rsum (map (fun x => p x * (ln (p x) / ln 2)) (nodup (list_eq_dec Nat.eq_dec) ws)))%R.
Proof.
  intros [W0 Hw] ws p. destruct (c44_word_pmf_is_frequencies Hw) as (N & I & F & _). assert (0 < INR w)%R by now apply lt_0_INR.
  unfold plugin_entropy, log2. replace (rsum (map (fun e => snd e * (ln (snd e) / ln 2)) (word_pmf msg w)))%R
    with (rsum (map (fun x => p x * (ln (p x) / ln 2)) (nodup (list_eq_dec Nat.eq_dec) ws)))%R; [field; lra|].
  transitivity (rsum (map (fun x => p x * (ln (p x) / ln 2)) (map fst (word_pmf msg w))))%R.
  - apply rsum_perm, Permutation_map, NoDup_Permutation; [apply NoDup_nodup|exact N|]. intro x. now rewrite nodup_In, I.
  - f_equal. rewrite map_map. apply map_ext_in. intros [x q] Hx. cbn [fst snd]. now rewrite (F x q Hx).
Qed.
Print Assumptions c44_plugin_entropy_value.

Example c44_example : map fst (word_pmf [0;1;0;1;1] 2) = [[0;1];[1;0];[1;1]] /\ windows 2 [0;1;0;1;1] = [[0;1];[1;0];[0;1];[1;1]].
Proof. split; reflexivity. Qed.

(** ** C45: Lempel-Ziv *)
Theorem c45_lempelziv_is_lz78 (c : nat) (rest : str) : exists lib, lempelziv_lib (c :: rest) = Ok lib /\
  lz78 [[c]] rest lib /\ (forall lib', lz78 [[c]] rest lib' -> lib' = lib).
Proof.
  exists (lz_outer (length rest) [[c]] rest). split; auto. assert (H : lz78 [[c]] rest (lz_outer (length rest) [[c]] rest)) by now apply lz_outer_spec.
  split; auto. intros lib' H'. symmetry. now apply (lz78_det H).
Qed.
Print Assumptions c45_lempelziv_is_lz78.

Theorem c45_lempelziv_dictionary (msg : str) (d : list str) : lempelziv_lib msg = Ok d ->
  NoDup d /\
  (exists tail, msg = concat d ++ tail /\ (tail = [] \/ In tail d)) /\
  (forall p, In p d -> p <> [] /\ substring p msg) /\
  (forall p p', In p d -> prefix p' p -> p' <> [] -> In p' d) /\
  1 <= length d <= length msg.
Proof.
  destruct msg as [|c rest]; [discriminate|]. intro H. destruct (c45_lempelziv_is_lz78 c rest) as [l [E [L _]]]. rewrite E in H. inversion H; subst l. clear H E.
  destruct (lz78_parse L) as [ps [tail [E1 [E2 [E3 [E4 E5]]]]]]. assert (EM : c :: rest = concat d ++ tail) by (rewrite E1, E2; reflexivity).
  assert (NN : forall p, In p d -> p <> []). { intros p Hp. rewrite E1 in Hp. destruct Hp as [<-|Hp]; [discriminate|]. apply In_nth_error in Hp. destruct Hp as [k Hk]. apply (E5 k p Hk). }
  split; [apply E4; repeat constructor; auto|]. split; [exists tail; auto|]. split; [|split].
  - intros p Hp. split; auto. apply in_split in Hp. destruct Hp as [l1 [l2 EL]]. exists (concat l1), (concat l2 ++ tail). rewrite EM, EL, concat_app. cbn. now rewrite <- !app_assoc.
  - intros p p' Hp Hpre N. destruct (str_dec p' p) as [->|D]; auto. rewrite E1 in Hp. destruct Hp as [<-|Hp].
    + destruct Hpre as [r R]. destruct p' as [|x p']; [congruence|]. cbn in R. inversion R as [[X Y]]. destruct p'; [|discriminate]. exfalso. apply D. now rewrite X.
    + apply In_nth_error in Hp. destruct Hp as [k Hk]. destruct (E5 k p Hk) as [_ B]. specialize (B p' Hpre D N). rewrite E1. apply in_app_iff in B. apply in_app_iff. destruct B as [B|B]; auto.
      right. rewrite <- (firstn_skipn k ps). apply in_app_iff. now left.
  - split; [rewrite E1; cbn; lia|]. rewrite EM, app_length. assert (LL : length d <= length (concat d)).
    { clear - NN. induction d as [|p d IH]; auto. cbn. rewrite app_length. specialize (IH (fun q Hq => NN q (or_intror Hq))). specialize (NN p (or_introl eq_refl)). destruct p; [congruence|]. cbn. lia. }
    lia.
Qed.
Print Assumptions c45_lempelziv_dictionary.
Example c45_example : lempelziv_lib [0;1;0;1;1;0;1;0;1;0] = Ok [[0];[1];[0;1];[1;0];[1;0;1]].
Proof. reflexivity. Qed.
Example c45_empty_raises : lempelziv_lib [] = Err IndexError.
Proof. reflexivity. Qed.

(** ** C46: longest match and Kontoyiannis entropy *)
Theorem c46_longest_match_is_longest (msg : str) (i n : nat) : n <= i -> i + n <= length msg ->
  exists L, fst (longest_match msg i n) = L + 1 /\ snd (longest_match msg i n) = firstn L (skipn i msg) /\ L <= n /\
    (L = 0 \/ matches msg i n L) /\ forall L', L < L' <= n -> ~ matches msg i n L'.
Proof.
  intros H1 H2. destruct (longest_match_spec H1 H2) as [L [E [A [B C]]]]. exists L. rewrite E. cbn [fst snd]. unfold slice. replace (i + L - i) with L by lia.
  repeat split; auto. lia.
Qed.
Print Assumptions c46_longest_match_is_longest.
Example c46_example : longest_match [0;1;1;0;1;0;0] 3 3 = (3, [0;1]) /\ 3 <= 3 /\ 3 + 3 <= length [0;1;1;0;1;0;0].
Proof. repeat split; cbn; lia. Qed.

(** the positions and window lengths used are always within the message *)
Theorem c46_points_in_range (msg : str) (window : option nat) i n : In (i, n) (konto_points msg window) -> n <= i /\ i + n <= length msg /\ n <= length msg / 2.
Proof.
  assert (D : length msg / 2 * 2 <= length msg) by (rewrite Nat.mul_comm; apply Nat.mul_div_le; lia).
  set (q := length msg / 2) in *. destruct window as [w|]; cbn [konto_points]; fold q; clearbody q; intro H; apply in_map_iff in H; destruct H as [k [E H]]; apply in_seq in H; injection E; intros; lia.
Qed.
Print Assumptions c46_points_in_range.

(** exactly these positions: with an expanding window every i from 1 to half the length with a window of i; with a window w, cut to half the length,
    every position that has w symbols before it and w from it on; each once *)
Theorem c46_points (msg : str) (window : option nat) :
  NoDup (konto_points msg window) /\
  forall i n, In (i, n) (konto_points msg window) <->
    match window with
    | None => n = i /\ 1 <= i /\ 2 * i <= length msg
    | Some w => (n = w /\ 2 * w <= length msg \/ length msg < 2 * w /\ 2 * n <= length msg <= 2 * n + 1) /\ n <= i /\ i + n <= length msg
    end.
Proof.
  assert (D := Nat.div_mod (length msg) 2 ltac:(lia)). assert (D2 := Nat.mod_upper_bound (length msg) 2 ltac:(lia)).
  unfold konto_points. set (q := length msg / 2) in *. set (r := length msg mod 2) in *. clearbody q r. split.
  - destruct window as [w|]; apply FinFun.Injective_map_NoDup; auto using seq_NoDup; intros x y E; injection E; auto.
  - intros i n. destruct window as [w|]; rewrite in_map_iff.
    + split.
      * intros [k [E H]]. apply in_seq in H. injection E as -> <-. lia.
      * intro H. exists i. split; [f_equal; lia|]. apply in_seq. lia.
    + split.
      * intros [k [E H]]. apply in_seq in H. injection E as -> <-. lia.
      * intros [-> H]. exists i. split; auto. apply in_seq. lia.
Qed.
Print Assumptions c46_points.

(** the estimate is the mean over the points of the binary logarithm of the window length plus one over the match length plus one *)
Theorem c46_konto_value (msg : str) (window : option nat) h : konto_entropy msg window = Ok h ->
  exists pts, konto_points msg window = map fst pts /\
    (forall i n L, In ((i, n), L) pts -> L <= n /\ (L = 0 \/ matches msg i n L) /\ forall L', L < L' <= n -> ~ matches msg i n L') /\
    (h = rsum (map (fun p => ln (INR (snd (fst p)) + 1) / ln 2 / (INR (snd p) + 1)) pts) / INR (length pts))%R.
Proof.
  intro H. exists (map (fun p => (p, fst (longest_match msg (fst p) (snd p)) - 1)) (konto_points msg window)). split; [|split].
  - rewrite map_map. cbn [fst]. now rewrite map_id.
  - intros i n L HI. apply in_map_iff in HI. destruct HI as [p [E HI]].
    pose proof (f_equal fst E) as E1. pose proof (f_equal snd E) as E2. clear E. change (p = (i, n)) in E1. subst p. change (fst (longest_match msg i n) - 1 = L) in E2.
    destruct (c46_points_in_range HI) as [R1 [R2 _]]. destruct (c46_longest_match_is_longest R1 R2) as [L0 [EL [_ [A [B C]]]]]. rewrite EL, Nat.add_sub in E2. subst L0. auto.
  - unfold konto_entropy in H. rewrite map_length. rewrite map_map. cbn [fst snd].
    replace (map (fun p => (ln (INR (snd p) + 1) / ln 2 / (INR (fst (longest_match msg (fst p) (snd p)) - 1) + 1))%R) (konto_points msg window))
      with (map (fun p : nat * nat => (log2 (INR (snd p) + 1) / INR (fst (longest_match msg (fst p) (snd p))))%R) (konto_points msg window)).
    + destruct (konto_points msg window); [discriminate|]. injection H as <-. reflexivity.
    + apply map_ext_in. intros [i n] HI. cbn [fst snd]. destruct (c46_points_in_range HI) as [R1 [R2 _]]. destruct (c46_longest_match_is_longest R1 R2) as [L [-> _]].
      rewrite Nat.add_sub, plus_INR. reflexivity.
Qed.
Print Assumptions c46_konto_value.

Theorem c46_konto_defined (msg : str) (window : option nat) :
  (window = None -> length msg < 2 -> konto_entropy msg window = Err ZeroDivisionError) /\
  (window <> None \/ 2 <= length msg -> exists h, konto_entropy msg window = Ok h /\ (0 <= h <= log2 (INR (length msg / 2) + 1))%R).
Proof.
  assert (D : length msg / 2 * 2 <= length msg) by (rewrite Nat.mul_comm; apply Nat.mul_div_le; lia). split.
  - intros -> L. unfold konto_entropy, konto_points. rewrite Nat.div_small by auto. reflexivity.
  - intro G. assert (NE : konto_points msg window <> []).
    { intro C. apply (f_equal (@length _)) in C. destruct window as [w|]; cbn [konto_points] in C; rewrite map_length, seq_length in C; cbn [length] in C.
      - set (m := Nat.min w (length msg / 2)) in *. assert (m <= length msg / 2) by (unfold m; lia). lia.
      - destruct G as [G|G]; [congruence|]. assert (1 <= length msg / 2) by (apply Nat.div_le_lower_bound; lia). lia. }
    unfold konto_entropy. set (pts := konto_points msg window) in *. set (f := fun p : nat * nat => (log2 (INR (snd p) + 1) / INR (fst (longest_match msg (fst p) (snd p))))%R).
    exists (rsum (map f pts) / INR (length pts))%R. split; [destruct pts; [congruence|reflexivity]|].
    pose proof (INR_length_pos NE) as LP. set (M := log2 (INR (length msg / 2) + 1)).
    assert (B : forall p, In p pts -> (0 <= f p <= M)%R).
    { intros [i n] Hp. destruct (c46_points_in_range Hp) as [R1 [R2 R3]]. destruct (longest_match_spec R1 R2) as [L [E _]]. unfold f. cbn [fst snd]. rewrite E. cbn [fst].
      pose proof ln2_pos. assert (N0 : (0 <= INR n)%R) by apply pos_INR. assert (L1 : (1 <= INR (S L))%R) by (rewrite S_INR; pose proof (pos_INR L); lra).
      assert (NM : (INR n <= INR (length msg / 2))%R) by now apply le_INR.
      assert (A0 : (0 <= log2 (INR n + 1))%R). { unfold log2, Rdiv. apply Rmult_le_pos; [|left; now apply Rinv_0_lt_compat]. rewrite <- ln_1. destruct N0 as [N0|N0]; [left; apply ln_increasing; lra|right; f_equal; lra]. }
      assert (AM : (log2 (INR n + 1) <= M)%R). { unfold M, log2, Rdiv. apply Rmult_le_compat_r; [left; now apply Rinv_0_lt_compat|]. destruct NM as [NM|NM]; [left; apply ln_increasing; lra|rewrite NM; lra]. }
      assert (I1 : (0 < / INR (S L) <= 1)%R) by (split; [apply Rinv_0_lt_compat; lra|rewrite <- Rinv_1; apply Rinv_le_contravar; lra]).
      unfold Rdiv. split; [apply Rmult_le_pos; lra|]. apply Rle_trans with (log2 (INR n + 1) * 1)%R; [apply Rmult_le_compat_l; lra|lra]. }
    assert (S0 : (0 <= rsum (map f pts))%R) by (apply rsum_nonneg; intros x Hx; apply in_map_iff in Hx; destruct Hx as [p [<- Hp]]; now apply B).
    assert (S1 : (rsum (map f pts) <= INR (length pts) * M)%R) by (rewrite <- rsum_map_const; apply rsum_map_le; intros p Hp; now apply B).
    split.
    + unfold Rdiv. apply Rmult_le_pos; auto. left. now apply Rinv_0_lt_compat.
    + apply (Rmult_le_reg_r (INR (length pts))); auto. unfold Rdiv. rewrite Rmult_assoc, Rinv_l by lra. lra.
Qed.
Print Assumptions c46_konto_defined.
Example c46_short_message : konto_entropy [5] None = Err ZeroDivisionError.
Proof. reflexivity. Qed.

(** ** C47: encoders *)
Open Scope Qc_scope.

Theorem c47_binary_encode (series : list Qc) (threshold : Qc) :
  length (binary_encode series threshold) = length series /\
  forall i x, nth_error series i = Some x -> nth_error (binary_encode series threshold) i = Some (if qlt threshold x then 1%nat else 0%nat).
Proof. unfold binary_encode. split; [apply map_length|]. intros i x H. now rewrite nth_error_map, H. Qed.
Print Assumptions c47_binary_encode.

Lemma linspace_range n p : In p (linspace01 n) -> 0 <= p <= 1.
Proof.
  unfold linspace01. intro H. apply in_map_iff in H. destruct H as [k [<- H]]. apply in_seq in H. destruct (n <=? 1)%nat eqn:E; [split; qlra|].
  apply Nat.leb_gt in E. assert (P : 0 < qn (n - 1)) by (apply qn_pos; lia). split.
  - apply Qcdiv_nonneg; auto. apply qn_nonneg.
  - apply Qcdiv_le_iff; auto. replace (1 * qn (n - 1)) with (qn (n - 1)) by ring. apply qn_le. lia.
Qed.
Lemma linspace_sorted n : StronglySorted Qcle (linspace01 n).
Proof.
  unfold linspace01. destruct (n <=? 1)%nat eqn:E; [destruct n as [|[|n]]; [constructor|repeat constructor|apply Nat.leb_le in E; lia]|].
  apply Nat.leb_gt in E. assert (P : 0 < qn (n - 1)) by (apply qn_pos; lia). set (d := qn (n - 1)) in *. clearbody d. generalize 0%nat as a. generalize n at 1 as m. induction m as [|m IH]; intro a; cbn [seq map]; constructor; auto.
  apply Forall_forall. intros x Hx. apply in_map_iff in Hx. destruct Hx as [k [<- Hk]]. apply in_seq in Hk. apply Qcdiv_le_iff; auto. rewrite Qcdiv_mul_cancel by now apply Qc_pos_neq. apply qn_le. lia.
Qed.
Lemma linspace_last n : (2 <= n)%nat -> In 1 (linspace01 n).
Proof.
  intro H. unfold linspace01. apply in_map_iff. exists (n - 1)%nat. replace (n <=? 1)%nat with false by (symmetry; apply Nat.leb_gt; lia). split; [|apply in_seq; lia].
  assert (P : qn (n - 1) <> 0) by (apply Qc_pos_neq, qn_pos; lia). field. exact P.
Qed.

(** the fitted quantiles: one per letter, in increasing order, within the range of the training data *)
Theorem c47_quantile_fit (n : nat) (training : list Qc) : training <> [] -> exists qs, quantile_fit n training = Ok qs /\
  length qs = n /\ StronglySorted Qcle qs /\
  (forall q, In q qs -> exists lo hi, In lo training /\ In hi training /\ lo <= q <= hi) /\
  ((2 <= n)%nat -> exists m, In m qs /\ In m training /\ forall x, In x training -> x <= m).
Proof.
  intro NE. destruct training as [|x0 xs] eqn:ET; [congruence|]. rewrite <- ET in *. clear x0 xs ET. set (s := qsort_asc training).
  assert (SS : StronglySorted Qcle s) by apply qsort_sorted. assert (PM : Permutation training s) by apply qsort_perm.
  assert (NS : s <> []) by (intro C; rewrite C in PM; apply Permutation_sym, Permutation_nil in PM; congruence).
  assert (L : (0 < length s)%nat) by (destruct s; [congruence|cbn; lia]).
  assert (RG : forall p, 0 <= p <= 1 -> 0 <= p * qn (length s - 1) <= qn (length s - 1)).
  { intros p [P0 P1]. pose proof (@qn_nonneg (length s - 1)) as Q. split; [now apply Qcmul_nonneg|]. assert (0 <= (1 - p) * qn (length s - 1)) by (apply Qcmul_nonneg; auto; qlra). qnra. }
  exists (map (np_quantile s) (linspace01 n)). split; [destruct training; [congruence|reflexivity]|]. split; [unfold linspace01; now rewrite !map_length, seq_length|].
  assert (IN : forall i, (i < length s)%nat -> In (nth i s 0) training) by (intros i Hi; apply (Permutation_in _ (Permutation_sym PM)), nth_In; auto).
  split; [|split].
  - pose proof (linspace_sorted n) as LS. pose proof (@linspace_range n) as LR. induction LS as [|p l H IH HF]; cbn [map]; constructor.
    + apply IH. intros q Hq. apply LR. now right.
    + apply Forall_forall. intros y Hy. apply in_map_iff in Hy. destruct Hy as [q [<- Hq]]. rewrite !np_quantile_interp. rewrite Forall_forall in HF. specialize (HF q Hq).
      assert (P1 := LR p (or_introl eq_refl)). assert (P2 := LR q (or_intror Hq)). pose proof (@qn_nonneg (length s - 1)) as Q. apply RG in P1, P2.
      apply interp_mono; auto; try apply P1; try apply P2. assert (0 <= (q - p) * qn (length s - 1)) by (apply Qcmul_nonneg; auto; qlra). qnra.
  - intros q Hq. apply in_map_iff in Hq. destruct Hq as [p [<- Hp]]. apply linspace_range in Hp. rewrite np_quantile_interp. apply RG in Hp.
    destruct (floor_range SS NS Hp) as [_ [F1 _]]. exists (nth (Z.to_nat (qfloor (p * qn (length s - 1)))) s 0), (nth (length s - 1) s 0). split; [now apply IN|]. split; [apply IN; lia|].
    split; [now apply interp_bounds|now apply interp_max].
  - intro N2. exists (nth (length s - 1) s 0). split; [|split].
    + apply in_map_iff. exists 1. split; [|now apply linspace_last]. rewrite np_quantile_interp. replace (1 * qn (length s - 1)) with (qn (length s - 1)) by ring. apply interp_last.
    + apply IN. lia.
    + intros x Hx. apply (last_is_max SS NS). now apply (Permutation_in _ PM).
Qed.
Print Assumptions c47_quantile_fit.

(** encoding: one code per value, never an error; the code of x is the number of quantiles strictly below x *)
Theorem c47_quantile_encode (n : nat) (training qs data : list Qc) : quantile_fit n training = Ok qs ->
  exists codes, quantile_transform qs data = Ok codes /\ length codes = length data /\
  (forall i x c, nth_error data i = Some x -> nth_error codes i = Some c ->
     (c <= n)%nat /\ (forall j q, nth_error qs j = Some q -> ((j < c)%nat <-> q < x)) /\
     ((2 <= n)%nat -> (c = n <-> forall t, In t training -> t < x))) /\
  (forall i i' x x' c c', nth_error data i = Some x -> nth_error data i' = Some x' -> nth_error codes i = Some c -> nth_error codes i' = Some c' ->
     x <= x' -> (c <= c')%nat).
Proof.
  intro HF. destruct training as [|t0 ts] eqn:ET; [discriminate|]. assert (NE : training <> []) by (rewrite ET; discriminate). rewrite <- ET in *.
  destruct (c47_quantile_fit n NE) as [qs' [E [L [SS [R M]]]]]. rewrite E in HF. inversion HF; subst qs'. clear HF.
  assert (EM : quantile_transform qs data = Ok (map (qsearch_left qs) data)).
  { unfold quantile_transform. clear - L. induction data as [|x d IH]; auto. cbn [mapM map]. unfold get at 1. rewrite nth_error_nth' with (d := 0%nat) by (rewrite seq_length; pose proof (qsearch_le qs x); lia).
    rewrite seq_nth by (pose proof (qsearch_le qs x); lia). rewrite IH. reflexivity. }
  exists (map (qsearch_left qs) data). split; auto. split; [apply map_length|]. split.
  - intros i x c Hx Hc. rewrite nth_error_map, Hx in Hc. cbn in Hc. inversion Hc; subst c. clear Hc. split; [rewrite <- L; apply qsearch_le|]. split.
    + intros j q Hq. now apply qsearch_spec.
    + intro N2. rewrite <- L, qsearch_full. destruct (M N2) as [m [M1 [M2 M3]]]. split.
      * intros H t Ht. apply Qcle_lt_trans with m; auto.
      * intros H q Hq. destruct (R q Hq) as [lo [hi [_ [Hh [_ Hle]]]]]. apply Qcle_lt_trans with hi; auto.
  - intros i i' x x' c c' Hx Hx' Hc Hc' Hle. rewrite nth_error_map, Hx in Hc. rewrite nth_error_map, Hx' in Hc'. cbn in Hc, Hc'. inversion Hc; inversion Hc'; subst. now apply qsearch_mono.
Qed.
Print Assumptions c47_quantile_encode.

(** with a single quantile the only boundary is the minimum, so training values themselves are encoded as unknown *)
Theorem c47_one_quantile_refuted : exists training qs codes, quantile_fit 1 training = Ok qs /\ quantile_transform qs training = Ok codes /\
  exists i, nth_error codes i = Some 1%nat.
Proof. exists [qz 1; qz 2], [qz 1], [0%nat; 1%nat]. split; [|split; [reflexivity|exists 1%nat; reflexivity]]. cbn. do 2 f_equal. Qed.
Print Assumptions c47_one_quantile_refuted.


(** sigma encoding: the code is the number of whole sigmas above the minimum, and the last letter '?' (62) beyond 62 of them *)
Theorem c47_sigma_encode (series : list Qc) (sigma : Qc) : series <> [] -> 0 < sigma ->
  exists codes lo, sigma_encode series sigma = Ok codes /\ In lo series /\ (forall x, In x series -> lo <= x) /\ length codes = length series /\
  (forall i x c, nth_error series i = Some x -> nth_error codes i = Some c ->
     (c <= 62)%nat /\ (forall k, (k < 62)%nat -> (c = k <-> lo + qn k * sigma <= x /\ x < lo + qn (k + 1) * sigma)) /\ (c = 62%nat <-> lo + qn 62 * sigma <= x)) /\
  (forall i i' x x' c c', nth_error series i = Some x -> nth_error series i' = Some x' -> nth_error codes i = Some c -> nth_error codes i' = Some c' ->
     x <= x' -> (c <= c')%nat).
Proof.
  intros NE HS. destruct series as [|x0 xs] eqn:ES; [congruence|]. rewrite <- ES in *. set (lo := lmin x0 xs).
  assert (LO : forall x, In x series -> lo <= x) by (intros x Hx; rewrite ES in Hx; now apply lmin_le).
  set (f := fun x => Nat.min (Z.to_nat (qfloor ((x - lo) / sigma))) 62).
  assert (EM : sigma_encode series sigma = Ok (map f series)).
  { replace (sigma_encode series sigma) with (mapM (fun x => get (seq 0 alphabet_size) (Nat.min (Z.to_nat (qfloor ((x - lo) / sigma))) (alphabet_size - 1))) series) by (now rewrite ES).
    clear - series. induction series as [|x d IH]; auto. cbn [mapM map]. rewrite IH. fold (f x). unfold get at 1. change (alphabet_size - 1)%nat with 62%nat. fold (f x).
    rewrite nth_error_nth' with (d := 0%nat) by (rewrite seq_length; unfold alphabet_size, f; lia). rewrite seq_nth by (unfold alphabet_size, f; lia). reflexivity. }
  assert (FM : forall x x', x <= x' -> (f x <= f x')%nat).
  { intros x x' H. unfold f. assert ((x - lo) / sigma <= (x' - lo) / sigma) by (apply Qcdiv_le_iff; auto; rewrite Qcdiv_mul_cancel by (now apply Qc_pos_neq); qlra).
    apply qfloor_mono in H0. lia. }
  assert (GE : forall x k, In x series -> ((k <= Z.to_nat (qfloor ((x - lo) / sigma)))%nat <-> lo + qn k * sigma <= x)).
  { intros x k Hx. specialize (LO x Hx). assert (Z0 : (0 <= qfloor ((x - lo) / sigma))%Z) by (apply qfloor_ge; rewrite qz_0; apply Qcdiv_nonneg; auto; qlra).
    rewrite Nat2Z.inj_le, Z2Nat.id by auto. rewrite qfloor_ge, Qcdiv_ge_iff by auto. fold (qn k). split; intro; qlra. }
  exists (map f series), lo. split; auto. split; [rewrite ES; apply lmin_in|]. split; auto. split; [apply map_length|]. split.
  - intros i x c Hx Hc. rewrite nth_error_map, Hx in Hc. cbn [option_map] in Hc. inversion Hc; subst c. clear Hc. apply nth_error_In in Hx. split; [unfold f; lia|]. split.
    + intros k Hk. pose proof (GE x k Hx) as G1. pose proof (GE x (k + 1)%nat Hx) as G2. unfold f. set (z := Z.to_nat _) in *. clearbody z. split.
      * intro E. split; [apply G1; lia|]. apply Qcnot_le_lt. intro C. apply G2 in C. lia.
      * intros [A B]. apply G1 in A. assert (~ (k + 1 <= z)%nat) by (intro C; apply G2 in C; now apply (Qclt_not_le _ _ B)). lia.
    + rewrite <- (GE x 62%nat Hx). unfold f. lia.
  - intros i i' x x' c c' Hx Hx' Hc Hc' Hle. rewrite nth_error_map, Hx in Hc. rewrite nth_error_map, Hx' in Hc'. cbn [option_map] in Hc, Hc'. inversion Hc; inversion Hc'; subst. now apply FM.
Qed.
Print Assumptions c47_sigma_encode.
Example c47_example : exists qs, quantile_fit 3 [qz 5; qz 1; qz 3; qz 9] = Ok qs /\ map this qs = [1#1; 4#1; 9#1]%Q /\
  quantile_transform qs [qz 0; qz 4; qz 5; qz 10] = Ok [0;1;2;3]%nat /\ sigma_encode [qz 2; qz 0; qz 100; qz 3] (qz 2) = Ok [1;0;50;1]%nat.
Proof. eexists. split; [reflexivity|]. split; [vm_compute; reflexivity|]. split; vm_compute; reflexivity. Qed.

(** ** C88: lists of tokens *)
Close Scope Qc_scope.
(** a message given as a list of tokens is concatenated, so different token sequences can be treated as the same message *)
Theorem c88_token_lists_refuted : exists a b : list str, a <> b /\ length a = length b /\
  (forall w, word_pmf (stringify a) w = word_pmf (stringify b) w) /\ lempelziv_lib (stringify a) = lempelziv_lib (stringify b) /\
  (forall w, konto_entropy (stringify a) w = konto_entropy (stringify b) w).
Proof. exists [[1];[1;1]], [[1;1];[1]]. split; [discriminate|]. repeat split; reflexivity. Qed.
Print Assumptions c88_token_lists_refuted.

(** when every token is a single character, tokens are characters *)
Theorem c88_single_character_tokens (tokens : list nat) : stringify (map (fun c => [c]) tokens) = tokens.
Proof. unfold stringify. induction tokens; cbn; congruence. Qed.
Print Assumptions c88_single_character_tokens.
Theorem c88_fixed_width_tokens_injective (k : nat) (a b : list str) : 0 < k -> (forall t, In t a \/ In t b -> length t = k) ->
  stringify a = stringify b -> a = b.
Proof.
  intros K H E. unfold stringify in E. revert b H E. induction a as [|t a IH]; intros [|u b] H E; auto.
  - exfalso. cbn in E. assert (length u = k) by (apply H; right; now left). apply (f_equal (@length _)) in E. rewrite app_length in E. cbn in E. lia.
  - exfalso. cbn in E. assert (length t = k) by (apply H; left; now left). apply (f_equal (@length _)) in E. rewrite app_length in E. cbn in E. lia.
  - cbn in E. assert (LT : length t = k) by (apply H; left; now left). assert (LU : length u = k) by (apply H; right; now left).
    assert (t = u /\ concat a = concat b).
    { clear - LT LU E. revert u k LT LU E. induction t as [|x t IH]; intros [|y u] k LT LU E; cbn in LT, LU; try (subst; discriminate); auto; try (rewrite <- LT in LU; discriminate).
      cbn in E. inversion E; subst y. destruct k; [discriminate|]. destruct (IH u k) as [-> ?]; auto. }
    destruct H0 as [-> E2]. f_equal. apply IH; auto. intros v [Hv|Hv]; apply H; [left|right]; now right.
Qed.
Print Assumptions c88_fixed_width_tokens_injective.
