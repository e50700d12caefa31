(** Lemmas for FiltersProps. *)
From Verif Require Import Py RNum EntropyModel EntropyProofs FiltersModel FiltersSpec.
Set Implicit Arguments.
Unset Strict Implicit.
Open Scope Qc_scope.

(** ** CUSUM *)
(** [p] is the height above the minimum since the last event, reset by events *)
Section Height.
Variable y p : nat -> Qc.
Variable thr : Qc.
Variable u : nat -> bool.
Hypothesis T0 : 0 <= thr.
Hypothesis U0 : u 0 = false.
Hypothesis P0 : p 0%nat = 0.
Hypothesis US : forall t, u (S t) = true <-> thr < p t + (y (S t) - y t).
Hypothesis PS : forall t, p (S t) = if u (S t) then 0 else qmax 0 (p t + (y (S t) - y t)).
Lemma height_inv t :
  (forall s, (s <= t)%nat -> (forall v, (s < v <= t)%nat -> u v = false) -> y t - y s <= p t) /\
  (exists s, (s <= t)%nat /\ (forall v, (s < v <= t)%nat -> u v = false) /\ y t - y s = p t).
Proof.
  induction t as [|t [IH1 IH2]].
  - split.
    + intros s Hs _. assert (s = 0%nat) by lia. subst. rewrite P0. qlra.
    + exists 0%nat. split; auto. split; [intros; lia|]. rewrite P0. ring.
  - rewrite PS. destruct (u (S t)) eqn:E; split.
    + intros s Hs HF. destruct (Nat.eq_dec s (S t)) as [->|N]; [qlra|]. rewrite HF in E by lia. discriminate.
    + exists (S t). split; auto. split; [intros; lia|ring].
    + intros s Hs HF. destruct (Nat.eq_dec s (S t)) as [->|N]; [apply Qcle_trans with 0; [qlra|apply qmax_l]|].
      apply Qcle_trans with (p t + (y (S t) - y t)); [|apply qmax_r]. assert (L : y t - y s <= p t) by (apply IH1; [lia|intros v Hv; apply HF; lia]). qlra.
    + destruct (qmax_cases 0 (p t + (y (S t) - y t))) as [-> | ->].
      * exists (S t). split; auto. split; [intros; lia|ring].
      * destruct IH2 as [s [A [B C]]]. exists s. split; [lia|]. split; [|rewrite <- C; ring]. intros v Hv. destruct (Nat.eq_dec v (S t)) as [->|N]; auto. apply B. lia.
Qed.
Lemma height_up : up_events y thr u.
Proof.
  intro t. destruct t as [|t]; [rewrite U0; split; [discriminate|intros [C _]; lia]|]. rewrite US. destruct (height_inv t) as [H1 [s [A [B C]]]]. split.
  - intro L. split; [lia|]. exists s. split; [lia|]. split; [intros v Hv; apply B; lia|]. qlra.
  - intros [_ [s' [A' [B' C']]]]. destruct (Nat.eq_dec s' (S t)) as [->|N]; [exfalso; qlra|].
    assert (L : y t - y s' <= p t) by (apply H1; [lia|intros v Hv; apply B'; lia]). qlra.
Qed.
End Height.
Lemma up_events_unique y thr u1 u2 : up_events y thr u1 -> up_events y thr u2 -> forall t, u1 t = u2 t.
Proof.
  intros H1 H2 t. induction t as [t IH] using (well_founded_induction lt_wf). apply eq_true_iff_eq. rewrite (H1 t), (H2 t).
  split; intros [A [s [B [C D]]]]; (split; [auto|]); exists s; (split; [auto|]); (split; [|auto]); intros v Hv; [rewrite <- IH by lia|rewrite IH by lia]; auto.
Qed.
Section Cusum.
Variable y : nat -> Qc.
Variable thr : Qc.
Hypothesis T0 : 0 <= thr.

Record st := { s_pos : Qc; s_neg : Qc; s_up : bool; s_down : bool }.
Definition step (pos neg d : Qc) : st :=
  let pos' := py_max0 (Some (pos + d)) in
  let neg' := py_min0 (Some (neg + d)) in
  if qlt neg' (- thr) then {| s_pos := pos'; s_neg := 0; s_up := false; s_down := true |}
  else if qlt thr pos' then {| s_pos := 0; s_neg := neg'; s_up := true; s_down := false |}
  else {| s_pos := pos'; s_neg := neg'; s_up := false; s_down := false |}.
Fixpoint run (t : nat) : st :=
  match t with O => {| s_pos := 0; s_neg := 0; s_up := false; s_down := false |} | S t' => step (s_pos (run t')) (s_neg (run t')) (y t - y t') end.
Definition up (t : nat) : bool := s_up (run t).
Definition down (t : nat) : bool := s_down (run t).

Lemma run_inv t : 0 <= s_pos (run t) /\ s_neg (run t) <= 0 /\ s_pos (run t) <= thr /\ - thr <= s_neg (run t).
Proof.
  induction t as [|t IH]; [cbn; (split; [|split; [|split]]); qlra|]. cbn [run]. set (d := y (S t) - y t). destruct IH as [A [B [C D]]]. set (p := s_pos (run t)) in *. set (n := s_neg (run t)) in *. clearbody p n d.
  unfold step, py_max0, py_min0. destruct (qlt_spec 0 (p + d)); destruct (qlt_spec (n + d) 0); repeat qcase; cbn [s_pos s_neg]; (split; [|split; [|split]]); qlra.
Qed.
(** the two sides never fire together *)
Lemma up_iff t : up (S t) = true <-> thr < s_pos (run t) + (y (S t) - y t).
Proof.
  unfold up. cbn [run]. set (d := y (S t) - y t). destruct (run_inv t) as [A [B [C D]]]. set (p := s_pos (run t)) in *. set (n := s_neg (run t)) in *. clearbody p n d.
  unfold step, py_max0, py_min0. destruct (qlt_spec 0 (p + d)); destruct (qlt_spec (n + d) 0); repeat qcase; cbn [s_up]; split; intro; try discriminate; try reflexivity; qlra.
Qed.
Lemma down_iff t : down (S t) = true <-> s_neg (run t) + (y (S t) - y t) < - thr.
Proof.
  unfold down. cbn [run]. set (d := y (S t) - y t). destruct (run_inv t) as [A [B [C D]]]. set (p := s_pos (run t)) in *. set (n := s_neg (run t)) in *. clearbody p n d.
  unfold step, py_max0, py_min0. destruct (qlt_spec 0 (p + d)); destruct (qlt_spec (n + d) 0); repeat qcase; cbn [s_down]; split; intro; try discriminate; try reflexivity; qlra.
Qed.
Lemma pos_step t : s_pos (run (S t)) = if up (S t) then 0 else qmax 0 (s_pos (run t) + (y (S t) - y t)).
Proof.
  unfold up. cbn [run]. set (d := y (S t) - y t). destruct (run_inv t) as [A [B [C D]]]. set (p := s_pos (run t)) in *. set (n := s_neg (run t)) in *. clearbody p n d.
  unfold step, py_max0, py_min0, qmax. destruct (qlt_spec 0 (p + d)); destruct (qlt_spec (n + d) 0); repeat qcase; cbn [s_pos s_up]; repeat qcase; try reflexivity; qlra.
Qed.
Lemma neg_step t : s_neg (run (S t)) = if down (S t) then 0 else qmin 0 (s_neg (run t) + (y (S t) - y t)).
Proof.
  unfold down. cbn [run]. set (d := y (S t) - y t). destruct (run_inv t) as [A [B [C D]]]. set (p := s_pos (run t)) in *. set (n := s_neg (run t)) in *. clearbody p n d.
  unfold step, py_max0, py_min0, qmin. destruct (qlt_spec 0 (p + d)); destruct (qlt_spec (n + d) 0); repeat qcase; cbn [s_neg s_down]; repeat qcase; try reflexivity; qlra.
Qed.
Lemma run_up : up_events y thr up.
Proof. apply (@height_up y (fun t => s_pos (run t)) thr up); auto; [apply up_iff|apply pos_step]. Qed.
Lemma run_down : down_events y thr down.
Proof.
  apply (@height_up (fun t => - y t) (fun t => - s_neg (run t)) thr down); auto; [intro t; rewrite down_iff; split; intro; qlra|].
  intro t. rewrite neg_step. destruct (down (S t)); [ring|]. unfold qmax, qmin. repeat qcase; try ring; qlra.
Qed.
Lemma not_both t : up t = true -> down t = true -> False.
Proof.
  destruct t as [|t]; [discriminate|]. rewrite up_iff, down_iff. destruct (run_inv t) as [A [B [C D]]]. intros; qlra.
Qed.

Lemma fired_step t : up (S t) || down (S t) = qlt (py_min0 (Some (s_neg (run t) + (y (S t) - y t)))) (- thr) || qlt thr (py_max0 (Some (s_pos (run t) + (y (S t) - y t)))).
Proof. unfold up, down. cbn [run]. unfold step. destruct (qlt _ (- thr)); cbn; auto. destruct (qlt thr _); cbn; auto. Qed.
Lemma loop_run ds : forall i, (forall k d, nth_error ds k = Some d -> d = Some (y (S (i + k)) - y (i + k)%nat)) ->
  cusum_loop thr (s_pos (run i)) (s_neg (run i)) (S i) ds = filter (fun t => up t || down t) (seq (S i) (length ds)).
Proof.
  induction ds as [|d ds IH]; intros i H; auto. assert (E : d = Some (y (S i) - y i)) by (specialize (H 0%nat d eq_refl); now rewrite Nat.add_0_r in H). subst d.
  assert (IH' := IH (S i)). cbn [length seq filter]. rewrite fired_step. cbn [cusum_loop oadd option_map].
  assert (HH : forall k d, nth_error ds k = Some d -> d = Some (y (S (S i + k)) - y (S i + k)%nat)) by (intros k d Hk; rewrite (H (S k) d Hk); now replace (i + S k)%nat with (S i + k)%nat by lia).
  specialize (IH' HH). cbn [run] in IH'. unfold step in IH'. destruct (qlt _ (- thr)); [cbn [s_pos s_neg] in IH'; now rewrite IH'|]. destruct (qlt thr _); cbn [s_pos s_neg] in IH'; now rewrite IH'.
Qed.
End Cusum.
Lemma diffs_length l : forall p, length (diffs p l) = length l.
Proof. induction l; intros; cbn; auto. Qed.
Lemma diffs_nth l : forall p k, (k < length l)%nat -> nth_error (diffs p l) k = Some (osub (nth (S k) (p :: l) None) (nth k (p :: l) None)).
Proof.
  induction l as [|x l IH]; intros p k H; cbn [length] in H; [lia|]. destruct k as [|k]; [reflexivity|]. cbn [diffs nth_error]. rewrite IH by lia. reflexivity.
Qed.
Lemma cusum_run series thr : 0 <= thr ->
  cusum (map Some series) thr = filter (fun t => up (fun t => nth t series 0) thr t || down (fun t => nth t series 0) thr t) (seq 1 (length series - 1)).
Proof.
  intro T0. destruct series as [|x l]; auto. set (y := fun t => nth t (x :: l) 0). unfold cusum. cbn [map length].
  replace (S (length l) - 1)%nat with (length (diffs (Some x) (map Some l))) by (rewrite diffs_length, map_length; lia).
  apply (@loop_run y thr (diffs (Some x) (map Some l)) 0%nat). intros k d H. assert (L : (k < length (map Some l))%nat) by (rewrite <- (diffs_length (map Some l) (Some x)); apply nth_error_Some; congruence).
  rewrite diffs_nth in H by auto. injection H as <-. cbn [Nat.add]. rewrite map_length in L.
  assert (N : forall j, (j < S (length l))%nat -> nth j (Some x :: map Some l) None = Some (y j)).
  { intros j Hj. change (Some x :: map Some l) with (map Some (x :: l)). rewrite nth_indep with (d' := Some 0) by (rewrite map_length; cbn; lia). rewrite map_nth. reflexivity. }
  change (osub (nth (S k) (Some x :: map Some l) None) (nth k (Some x :: map Some l) None) = Some (y (S k) - y k)). now rewrite !N by lia.
Qed.


(** a missing value restarts the filter *)
Lemma loop_app thr ds1 ds2 : forall pos neg i, cusum_loop thr pos neg i (ds1 ++ None :: ds2) =
  cusum_loop thr pos neg i (ds1 ++ [None]) ++ cusum_loop thr 0 0 (i + length ds1 + 1) ds2.
Proof.
  induction ds1 as [|d ds1 IH]; intros pos neg i; cbn [app cusum_loop length].
  - cbn [oadd option_map py_max0 py_min0]. replace (i + 0 + 1)%nat with (S i) by lia. destruct (qlt 0 (- thr)); [reflexivity|]. destruct (qlt thr 0); reflexivity.
  - replace (i + S (length ds1) + 1)%nat with (S i + length ds1 + 1)%nat by lia. destruct (qlt _ (- thr)); [rewrite IH; reflexivity|]. destruct (qlt thr _); rewrite IH; reflexivity.
Qed.
Lemma loop_shift thr ds : forall pos neg i k, cusum_loop thr pos neg (i + k) ds = map (fun t => (t + k)%nat) (cusum_loop thr pos neg i ds).
Proof.
  induction ds as [|d ds IH]; intros pos neg i k; auto. cbn [cusum_loop]. replace (S (i + k)) with (S i + k)%nat by lia. rewrite !IH. destruct (qlt _ (- thr)); auto. destruct (qlt thr _); auto.
Qed.
Lemma loop_none_end thr ds : 0 <= thr -> forall pos neg i, cusum_loop thr pos neg i (ds ++ [None]) = cusum_loop thr pos neg i ds.
Proof.
  intro T0. assert (E1 : qlt 0 (- thr) = false) by (apply qlt_false; qlra). assert (E2 : qlt thr 0 = false) by (now apply qlt_false).
  induction ds as [|d ds IH]; intros pos neg i; cbn [app cusum_loop]; [|rewrite !IH; reflexivity]. cbn [oadd option_map py_max0 py_min0]. now rewrite E1, E2.
Qed.
Lemma diffs_app l1 l2 : forall p, diffs p (l1 ++ l2) = diffs p l1 ++ diffs (last l1 p) l2.
Proof.
  induction l1 as [|x l1 IH]; intro p; auto. cbn [app diffs]. rewrite IH. cbn [app]. do 3 f_equal. destruct l1; auto. cbn. clear. revert o. induction l1; intros; auto. cbn in *. destruct l1; auto.
Qed.

(** ** Median *)
Lemma sorted_perm_eq l1 : forall l2, StronglySorted Qcle l1 -> StronglySorted Qcle l2 -> Permutation l1 l2 -> l1 = l2.
Proof.
  induction l1 as [|x l1 IH]; intros l2 H1 H2 P; [apply Permutation_nil in P; now subst|]. destruct l2 as [|z l2]; [apply Permutation_sym, Permutation_nil in P; discriminate|].
  inversion H1 as [|? ? S1 F1]; inversion H2 as [|? ? S2 F2]; subst. rewrite Forall_forall in F1, F2.
  assert (E : x = z). { assert (Hx : In x (z :: l2)) by (apply (Permutation_in _ P); now left). assert (Hz : In z (x :: l1)) by (apply (Permutation_in _ (Permutation_sym P)); now left).
    destruct Hx as [Hx|Hx]; auto. destruct Hz as [Hz|Hz]; auto. apply Qcle_antisym; auto. }
  subst z. f_equal. apply IH; auto. now apply Permutation_cons_inv in P.
Qed.
Lemma sorted_map_incr (f : Qc -> Qc) l : (forall a b, a <= b -> f a <= f b) -> StronglySorted Qcle l -> StronglySorted Qcle (map f l).
Proof.
  intros HF. induction 1 as [|x l H IH F]; cbn; constructor; auto. rewrite Forall_forall in *. intros z Hz. apply in_map_iff in Hz. destruct Hz as [w [<- Hw]]. auto.
Qed.
Lemma sorted_snoc l x : StronglySorted Qcle l -> (forall y, In y l -> y <= x) -> StronglySorted Qcle (l ++ [x]).
Proof.
  induction 1 as [|z l H IH F]; intro HX; cbn; [repeat constructor|]. constructor; [apply IH; intros y Hy; apply HX; now right|]. rewrite Forall_forall in *. intros y Hy. apply in_app_iff in Hy.
  destruct Hy as [Hy|[<-|[]]]; auto. apply HX. now left.
Qed.
Lemma sorted_map_decr (f : Qc -> Qc) l : (forall a b, a <= b -> f b <= f a) -> StronglySorted Qcle l -> StronglySorted Qcle (rev (map f l)).
Proof.
  intros HF. induction 1 as [|x l H IH F]; cbn; [constructor|]. apply sorted_snoc; auto. intros y Hy. apply in_rev, in_map_iff in Hy. destruct Hy as [w [<- Hw]]. rewrite Forall_forall in F. auto.
Qed.
Lemma qsort_map_incr (f : Qc -> Qc) l : (forall a b, a <= b -> f a <= f b) -> qsort_asc (map f l) = map f (qsort_asc l).
Proof.
  intro HF. apply sorted_perm_eq; [apply qsort_sorted|apply sorted_map_incr; auto; apply qsort_sorted|]. apply perm_trans with (map f l); [apply Permutation_sym, qsort_perm|apply Permutation_map, qsort_perm].
Qed.
Lemma qsort_map_decr (f : Qc -> Qc) l : (forall a b, a <= b -> f b <= f a) -> qsort_asc (map f l) = rev (map f (qsort_asc l)).
Proof.
  intro HF. apply sorted_perm_eq; [apply qsort_sorted|apply sorted_map_decr; auto; apply qsort_sorted|]. apply perm_trans with (map f l); [apply Permutation_sym, qsort_perm|].
  apply perm_trans with (map f (qsort_asc l)); [apply Permutation_map, qsort_perm|apply Permutation_rev].
Qed.
Lemma qsort_length l : length (qsort_asc l) = length l.
Proof. symmetry. apply Permutation_length, qsort_perm. Qed.
Lemma half_lt n : (0 < n)%nat -> ((n - 1) / 2 <= n / 2 < n)%nat /\ (n - S ((n - 1) / 2) = n / 2)%nat /\ (n <= 2 * (n / 2) + 1)%nat /\ (2 * (n / 2) <= n)%nat /\ (n - 1 <= 2 * ((n - 1) / 2) + 1)%nat.
Proof.
  intro H. pose proof (Nat.div_mod n 2 ltac:(lia)). pose proof (Nat.mod_upper_bound n 2 ltac:(lia)). pose proof (Nat.div_mod (n - 1) 2 ltac:(lia)). pose proof (Nat.mod_upper_bound (n - 1) 2 ltac:(lia)). lia.
Qed.
Lemma nth_map_lt A B (f : A -> B) l i d d' : (i < length l)%nat -> nth i (map f l) d' = f (nth i l d).
Proof. intro H. rewrite nth_indep with (d' := f d) by now rewrite map_length. apply map_nth. Qed.
Lemma median_affine a b l : l <> [] -> median (map (fun x => a * x + b) l) = a * median l + b.
Proof.
  intro NE. set (f := fun x => a * x + b). assert (L : (0 < length l)%nat) by (destruct l; [congruence|cbn; lia]). destruct (half_lt L) as [[H1 H2] [H3 _]].
  unfold median. rewrite map_length. assert (F2 : (2 : Qc) <> 0) by discriminate. assert (LS := qsort_length l). destruct (Qclt_le_dec a 0) as [A|A].
  - rewrite qsort_map_decr by (intros u v H; unfold f; assert (0 <= (v - u) * (- a)) by (apply Qcmul_nonneg; qlra); qnra).
    rewrite !rev_nth by (rewrite map_length, LS; lia). rewrite map_length, LS. rewrite !(@nth_map_lt _ _ f _ _ 0) by (rewrite LS; lia). rewrite H3.
    replace (length l - S (length l / 2))%nat with ((length l - 1) / 2)%nat by lia. unfold f. field. exact F2.
  - rewrite qsort_map_incr by (intros u v H; unfold f; assert (0 <= (v - u) * a) by (apply Qcmul_nonneg; qlra); qnra).
    rewrite !(@nth_map_lt _ _ f _ _ 0) by (rewrite LS; lia). unfold f. field. exact F2.
Qed.
Lemma nth_firstn_lt A (l : list A) n i d : (i < n)%nat -> nth i (firstn n l) d = nth i l d.
Proof. revert n i. induction l as [|x l IH]; intros [|n] [|i] H; cbn; auto; try lia. apply IH. lia. Qed.
Lemma nth_skipn_add A (l : list A) n i d : nth i (skipn n l) d = nth (n + i) l d.
Proof. revert l. induction n as [|n IH]; intros [|x l]; cbn; auto. destruct i; auto. Qed.
(** a median: at least half the values on either side *)
Lemma filter_length_perm A (P : A -> bool) l1 l2 : Permutation l1 l2 -> length (filter P l1) = length (filter P l2).
Proof. induction 1; cbn; auto; try congruence; [destruct (P x); cbn; auto|destruct (P x), (P y); cbn; auto]. Qed.
Lemma filter_all A (P : A -> bool) l : (forall x, In x l -> P x = true) -> filter P l = l.
Proof. induction l as [|x l IH]; intro H; auto. cbn. rewrite (H x (or_introl eq_refl)), IH; auto. intros; apply H; now right. Qed.
Lemma median_halves l : l <> [] ->
  (length l <= 2 * length (filter (fun x => qle x (median l)) l))%nat /\ (length l <= 2 * length (filter (fun x => qle (median l) x) l))%nat.
Proof.
  intro NE. assert (L : (0 < length l)%nat) by (destruct l; [congruence|cbn; lia]). destruct (half_lt L) as [[H1 H2] [H3 [H4 [H5 H6]]]].
  set (s := qsort_asc l). assert (LS : length s = length l) by apply qsort_length. assert (SS : StronglySorted Qcle s) by apply qsort_sorted.
  set (i := ((length l - 1) / 2)%nat) in *. set (j := (length l / 2)%nat) in *.
  assert (M : nth i s 0 <= median l /\ median l <= nth j s 0).
  { assert (LE : nth i s 0 <= nth j s 0) by (apply nth_sorted; auto; lia). unfold median. fold i j s. rewrite Qcdiv_ge_iff, Qcdiv_le_iff by reflexivity. split; qlra. }
  set (m := median l) in *. clearbody m. rewrite !(@filter_length_perm _ _ l s) by apply qsort_perm. split.
  - assert (S i <= length (filter (fun x => qle x m) s))%nat; [|lia]. rewrite <- (firstn_skipn (S i) s), filter_app, app_length, filter_all, firstn_length; [lia|].
    intros x Hx. apply (In_nth _ _ 0) in Hx. destruct Hx as [k [Hk <-]]. rewrite firstn_length in Hk. rewrite nth_firstn_lt by lia. apply qle_iff. apply Qcle_trans with (nth i s 0); [apply nth_sorted; auto; lia|apply M].
  - assert (length s - j <= length (filter (fun x => qle m x) s))%nat; [|lia]. rewrite <- (firstn_skipn j s), filter_app, !app_length, (filter_all (l := skipn j s)), firstn_length, skipn_length; [lia|].
    intros x Hx. apply (In_nth _ _ 0) in Hx. destruct Hx as [k [Hk <-]]. rewrite skipn_length in Hk. rewrite nth_skipn_add. apply qle_iff. apply Qcle_trans with (nth j s 0); [apply M|apply nth_sorted; auto; lia].
Qed.

(** ** Rolling means *)
Lemma combine_nth_error A B (l1 : list A) (l2 : list B) : forall i a b, nth_error l1 i = Some a -> nth_error l2 i = Some b -> nth_error (combine l1 l2) i = Some (a, b).
Proof.
  revert l2. induction l1 as [|x l1 IH]; intros [|y l2] [|i] a b H1 H2; try discriminate; cbn in *; [congruence|auto].
Qed.
(** [l] holds the values [x a], ..., [x (N-1)] at their positions and nothing before [a] *)
Definition observed (a : nat) (x : nat -> Qc) (N : nat) (l : list (option Qc)) : Prop :=
  length l = N /\ forall i, (i < N)%nat -> nth_error l i = Some (if (i <? a)%nat then None else Some (x i)).
Lemma observed_full xs : observed 0 (fun i => nth i xs 0) (length xs) (map Some xs).
Proof.
  split; [apply map_length|]. intros i H. rewrite nth_error_map, (nth_error_nth' xs 0 H). reflexivity.
Qed.
Lemma all_obs_full x l : all_obs (map (fun k : nat => Some (x k)) l) = Some (map x l).
Proof. induction l as [|k l IH]; auto. cbn. now rewrite IH. Qed.
Lemma map_rev_index (x : nat -> Qc) w i : (w <= S i)%nat -> qsum (map x (seq (S i - w) w)) = qsum (map (fun j => x (i - j)%nat) (seq 0 w)).
Proof.
  revert i. induction w as [|w IH]; intros i H; auto. rewrite seq_S, map_app, qsum_app. cbn [map qsum Nat.add seq]. rewrite <- seq_shift, map_map.
  replace (S i - S w + w)%nat with i by lia. replace (i - 0)%nat with i by lia. destruct i as [|i].
  - assert (w = 0%nat) by lia. subst. cbn. ring.
  - replace (S (S i) - S w)%nat with (S i - w)%nat by lia. rewrite IH by lia. cbn [Nat.sub]. ring.
Qed.
Lemma rolling_observed a x N l w : (0 < w)%nat -> observed a x N l -> observed (a + w - 1) (mean_ending x w) N (rolling_mean w l).
Proof.
  intros W [HL HN]. split; [unfold rolling_mean; now rewrite map_length, seq_length|]. intros i Hi. unfold rolling_mean. rewrite nth_error_map, HL.
  rewrite nth_error_nth' with (d := 0%nat) by now rewrite seq_length. rewrite seq_nth by auto. cbn [option_map Nat.add]. f_equal.
  replace (w =? 0)%nat with false by (symmetry; apply Nat.eqb_neq; lia). rewrite orb_false_r. destruct (Nat.ltb_spec (S i) w) as [C|C].
  - replace (i <? a + w - 1)%nat with true; auto. symmetry. apply Nat.ltb_lt. lia.
  - assert (ES : slice l (S i - w) (S i) = map (fun k => if (k <? a)%nat then None else Some (x k)) (seq (S i - w) w)).
    { apply nth_error_ext. intro k. rewrite nth_error_map. destruct (Nat.lt_ge_cases k w) as [K|K].
      - rewrite nth_error_slice by lia. rewrite HN by lia. rewrite nth_error_nth' with (d := 0%nat) by now rewrite seq_length. now rewrite seq_nth by auto.
      - rewrite !(proj2 (nth_error_None _ _)); auto; [now rewrite seq_length|]. unfold slice. rewrite firstn_length, skipn_length. lia. }
    rewrite ES. destruct (Nat.ltb_spec i (a + w - 1)) as [D|D].
    + destruct w as [|w]; [lia|]. cbn [seq map all_obs]. replace (S i - S w <? a)%nat with true by (symmetry; apply Nat.ltb_lt; lia). reflexivity.
    + replace (map (fun k => if (k <? a)%nat then None else Some (x k)) (seq (S i - w) w)) with (map (fun k => Some (x k)) (seq (S i - w) w)).
      * rewrite all_obs_full. cbn [option_map]. f_equal. unfold qmean, mean_ending. rewrite map_length, seq_length. f_equal. now apply map_rev_index.
      * apply map_ext_in. intros k Hk. apply in_seq in Hk. replace (k <? a)%nat with false; auto. symmetry. apply Nat.ltb_ge. lia.
Qed.
Lemma mean_ending_ext x x' w i : (0 < w <= S i)%nat -> (forall k, (S i - w <= k <= i)%nat -> x k = x' k) -> mean_ending x w i = mean_ending x' w i.
Proof. intros W H. unfold mean_ending. f_equal. apply qsum_map_ext. intros j Hj. apply in_seq in Hj. apply H. lia. Qed.
Lemma mean_ending_all x x' w i : (forall k, x k = x' k) -> mean_ending x w i = mean_ending x' w i.
Proof. intro H. unfold mean_ending. f_equal. apply qsum_map_ext. intros. apply H. Qed.
Lemma mean_ending_linear a b x x' w i : mean_ending (fun k => a * x k + b * x' k) w i = a * mean_ending x w i + b * mean_ending x' w i.
Proof. unfold mean_ending. rewrite qsum_map_add, !qsum_map_scale. unfold Qcdiv. ring. Qed.
Lemma mean_ending_const c w i : (0 < w)%nat -> mean_ending (fun _ => c) w i = c.
Proof. intro W. unfold mean_ending. rewrite qsum_map_const, seq_length. field. now apply qn_neq_0. Qed.
(** a straight line is lagged by (w-1)/2 *)
Lemma qsum_index_line a b n : qsum (map (fun j => a - b * qn j) (seq 0 n)) = qn n * (a - b * (qn n - 1) / 2).
Proof.
  induction n as [|n IH]; [cbn; rewrite qn_0; ring|]. rewrite seq_S, map_app, qsum_app, IH. cbn [map qsum Nat.add]. rewrite qn_S. field. discriminate.
Qed.
Lemma mean_ending_line a b w i : (0 < w <= S i)%nat -> mean_ending (fun k => a + b * qn k) w i = a + b * (qn i - (qn w - 1) / 2).
Proof.
  intros [W H]. unfold mean_ending. rewrite (@qsum_map_ext _ _ (fun j => (a + b * qn i) - b * qn j)).
  - rewrite qsum_index_line. field. split; [discriminate|now apply qn_neq_0].
  - intros j Hj. apply in_seq in Hj. replace (qn i) with (qn (i - j) + qn j) by (rewrite <- qn_add; f_equal; lia). ring.
Qed.
Lemma sqrt_bounds n : (2 <= n)%nat -> (1 <= Nat.sqrt n <= n)%nat /\ (1 <= n / 2 <= n)%nat.
Proof.
  intro H. pose proof (Nat.sqrt_le_lin n). assert (1 <= Nat.sqrt n)%nat by (apply Nat.sqrt_le_square; lia). assert (1 <= n / 2)%nat by (apply Nat.div_le_lower_bound; lia).
  assert (n / 2 <= n)%nat by (apply Nat.div_le_upper_bound; lia). lia.
Qed.
Lemma hull_observed xs n : (2 <= n)%nat -> observed (n + Nat.sqrt n - 2) (hull_at (fun i => nth i xs 0) n) (length xs) (hull_ma (map Some xs) n).
Proof.
  intro N. destruct (sqrt_bounds N) as [[R1 R2] [H1 H2]]. set (x := fun i => nth i xs 0). pose proof (observed_full xs) as O. fold x in O. unfold hull_ma.
  pose proof (rolling_observed (w := n / 2) ltac:(lia) O) as [LS OS]. pose proof (rolling_observed (w := n) ltac:(lia) O) as [LL OL].
  set (short := rolling_mean (n / 2) _) in *. set (long := rolling_mean n _) in *.
  assert (OC : observed (n - 1) (fun k => 2 * mean_ending x (n / 2) k - mean_ending x n k) (length xs) (map (fun p => osub (option_map (Qcmult 2) (fst p)) (snd p)) (combine short long))).
  { split; [rewrite map_length, combine_length, LS, LL; lia|]. intros i Hi. rewrite nth_error_map. specialize (OS i Hi). specialize (OL i Hi).
    assert (E : nth_error (combine short long) i = Some ((if (i <? 0 + n / 2 - 1)%nat then None else Some (mean_ending x (n / 2) i)), (if (i <? 0 + n - 1)%nat then None else Some (mean_ending x n i)))).
    { apply combine_nth_error; auto. }
    rewrite E. cbn [option_map fst snd]. f_equal. destruct (Nat.ltb_spec i (n - 1)) as [C|C].
    - replace (i <? 0 + n - 1)%nat with true by (symmetry; apply Nat.ltb_lt; lia). destruct (i <? 0 + n / 2 - 1)%nat; reflexivity.
    - replace (i <? 0 + n - 1)%nat with false by (symmetry; apply Nat.ltb_ge; lia). replace (i <? 0 + n / 2 - 1)%nat with false by (symmetry; apply Nat.ltb_ge; lia). reflexivity. }
  replace (n + Nat.sqrt n - 2)%nat with (n - 1 + Nat.sqrt n - 1)%nat by lia. apply (rolling_observed (w := Nat.sqrt n)); auto.
Qed.
