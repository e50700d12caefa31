(** Theorems about the event filter and the market indicators (C48, C49). *)
From Verif Require Import Py RNum EntropyModel EntropyProofs FiltersModel FiltersSpec FiltersProofs.
Set Implicit Arguments.
Unset Strict Implicit.
Open Scope Qc_scope.

(** ** C48: symmetric CUSUM filter *)
(** the events are the up and down events, no instant being both; up and down events are determined by the series *)
Theorem c48_cusum_events (series : list Qc) (threshold : Qc) : 0 <= threshold -> let y := fun t => nth t series 0 in
  exists up down, up_events y threshold up /\ down_events y threshold down /\ (forall t, up t = true -> down t = true -> False) /\
  (forall up', up_events y threshold up' -> forall t, up' t = up t) /\ (forall down', down_events y threshold down' -> forall t, down' t = down t) /\
  cusum (map Some series) threshold = filter (fun t => up t || down t) (seq 1 (length series - 1)).
Proof.
  intros T0 y. exists (up y threshold), (down y threshold). pose proof (run_up y T0) as HU. pose proof (run_down y T0) as HD. split; auto. split; auto. split; [intro t; now apply not_both|].
  split; [intros up' H t; now apply (up_events_unique H HU)|]. split; [intros down' H t; now apply (up_events_unique H HD)|]. now apply cusum_run.
Qed.
Print Assumptions c48_cusum_events.

(** events up to an instant depend only on the data up to it *)
Theorem c48_cusum_causal (past future : list Qc) (threshold : Qc) : 0 <= threshold ->
  filter (fun t => t <? length past)%nat (cusum (map Some (past ++ future)) threshold) = cusum (map Some past) threshold.
Proof.
  intro T0. destruct (c48_cusum_events past T0) as [up [down [HU [HD [_ [_ [_ E]]]]]]]. destruct (c48_cusum_events (past ++ future) T0) as [up' [down' [HU' [HD' [_ [_ [_ E']]]]]]].
  rewrite E, E'. clear E E'.
  assert (A : forall y1 y2 thr u1 u2 n, (forall t, (t < n)%nat -> y1 t = y2 t) -> up_events y1 thr u1 -> up_events y2 thr u2 -> forall t, (t < n)%nat -> u1 t = u2 t).
  { clear. intros y1 y2 thr u1 u2 n HY H1 H2 t. induction t as [t IH] using (well_founded_induction lt_wf). intro L. apply eq_true_iff_eq. rewrite (H1 t), (H2 t).
    split; intros [A [s [B [C D]]]]; (split; [auto|]); exists s; (split; [auto|]).
    - split; [intros v Hv; rewrite <- IH by lia; auto|]. rewrite <- !HY by lia. auto.
    - split; [intros v Hv; rewrite IH by lia; auto|]. rewrite !HY by lia. auto. }
  assert (Y : forall t, (t < length past)%nat -> nth t (past ++ future) 0 = nth t past 0) by (intros; now apply app_nth1).
  assert (EU : forall t, (t < length past)%nat -> up' t = up t) by (apply (A _ _ _ _ _ _ Y HU' HU)).
  assert (ED : forall t, (t < length past)%nat -> down' t = down t) by (refine (A _ _ _ _ _ _ _ HD' HD); intros t Ht; cbn beta; now rewrite Y).
  destruct past as [|x past]; [cbn [length Nat.sub app seq filter]; clear; induction (filter _ (seq 1 _)); auto|].
  replace (seq 1 (length ((x :: past) ++ future) - 1)) with (seq 1 (length (x :: past) - 1) ++ seq (length (x :: past)) (length future)) by (rewrite app_length; cbn [length]; replace (S (length past) + length future - 1)%nat with ((S (length past) - 1) + length future)%nat by lia; rewrite seq_app; do 2 f_equal; lia).
  rewrite !filter_app. replace (filter _ (filter _ (seq (length (x :: past)) (length future)))) with (@nil nat).
  - rewrite app_nil_r. set (P := seq 1 (length (x :: past) - 1)). assert (IN : forall t, In t P -> (t < length (x :: past))%nat) by (intros t Ht; apply in_seq in Ht; cbn [length] in *; lia). clearbody P.
    induction P as [|t P IH]; auto. cbn [filter]. rewrite <- EU, <- ED by (apply IN; now left). assert (IHP : forall t, In t P -> (t < length (x :: past))%nat) by (intros; apply IN; now right). specialize (IH IHP).
    destruct (up' t || down' t); auto. cbn [filter]. replace (t <? length (x :: past))%nat with true by (symmetry; apply Nat.ltb_lt, IN; now left). now rewrite IH.
  - symmetry. set (P := seq _ _). assert (IN : forall t, In t P -> (length (x :: past) <= t)%nat) by (intros t Ht; apply in_seq in Ht; lia). clearbody P. induction P as [|t P IH]; auto. cbn [filter].
    assert (IHP : forall t, In t P -> (length (x :: past) <= t)%nat) by (intros; apply IN; now right). destruct (up' t || down' t); auto. cbn [filter].
    replace (t <? length (x :: past))%nat with false by (symmetry; apply Nat.ltb_ge, IN; now left). auto.
Qed.
Print Assumptions c48_cusum_causal.

(** the filter does not distinguish rises from falls *)
Theorem c48_cusum_symmetric (series : list Qc) (threshold : Qc) : 0 <= threshold ->
  cusum (map Some (map Qcopp series)) threshold = cusum (map Some series) threshold.
Proof.
  intro T0. destruct (c48_cusum_events series T0) as [up [down [HU [HD [_ [_ [_ E]]]]]]]. destruct (c48_cusum_events (map Qcopp series) T0) as [up' [down' [HU' [HD' [_ [_ [_ E']]]]]]].
  rewrite E, E', map_length. assert (Y : forall t, nth t (map Qcopp series) 0 = - nth t series 0) by (intro t; rewrite <- (map_nth Qcopp); f_equal).
  assert (EXT : forall y1 y2 u, (forall t, y1 t = y2 t) -> up_events y1 threshold u -> up_events y2 threshold u).
  { intros y1 y2 u H HH t. rewrite (HH t). split; intros [A [s [B [C D]]]]; (split; [auto|]); exists s; (split; [auto|]); (split; [auto|]); [rewrite <- !H|rewrite !H]; auto. }
  apply filter_ext. intro t. assert (E1 : up' t = down t) by (apply (@up_events_unique (fun t => - nth t series 0) threshold); auto; now apply (EXT (fun t => nth t (map Qcopp series) 0))).
  assert (E2 : down' t = up t). { apply (@up_events_unique (fun t => nth t series 0) threshold); auto. apply (EXT (fun t => - nth t (map Qcopp series) 0)); auto. intro k. rewrite Y. ring. }
  rewrite E1, E2. apply orb_comm.
Qed.
Print Assumptions c48_cusum_symmetric.

(** a missing value restarts the filter: what happened before the gap is forgotten *)
Theorem c48_gap_restarts (before : list (option Qc)) (after : list (option Qc)) (threshold : Qc) : 0 <= threshold ->
  cusum (before ++ None :: after) threshold = cusum before threshold ++ map (fun t => (t + (length before + 1))%nat) (cusum after threshold).
Proof.
  intro T0. destruct before as [|x before]; cbn [app length].
  - cbn [cusum app]. destruct after as [|z after]; auto. cbn [cusum diffs]. assert (EN : osub z None = None) by (destruct z; reflexivity). rewrite EN.
    change (None :: diffs z after) with ([] ++ None :: diffs z after). rewrite (loop_app threshold [] (diffs z after) 0 0 1). cbn [app length Nat.add]. rewrite <- loop_shift.
    pose proof (@loop_none_end threshold [] T0 0 0 1%nat) as L. cbn [app] in L. rewrite L. reflexivity.
  - cbn [cusum]. rewrite diffs_app. cbn [diffs]. assert (EN : osub None (last before x) = None) by reflexivity. rewrite EN, loop_app, loop_none_end by auto. f_equal. rewrite diffs_length.
    destruct after as [|z after]; auto. cbn [cusum diffs]. assert (EN' : osub z None = None) by (destruct z; reflexivity). rewrite EN'.
    change (None :: diffs z after) with ([] ++ None :: diffs z after). rewrite (loop_app threshold [] (diffs z after)). rewrite (@loop_none_end threshold [] T0). cbn [app cusum_loop].
    rewrite <- loop_shift. f_equal. cbn [length]. lia.
Qed.
Print Assumptions c48_gap_restarts.

Example c48_example : cusum (map Some (qs [1; 2; 4; 3; 1; 0; 5]%Q)) 2 = [2; 4; 6]%nat.
Proof. vm_compute. reflexivity. Qed.
(** a steady climb of 1 per step with one gap: no event, though 4 > 3 *)
Example c48_gap_example : cusum [Some (qz 0); Some (qz 2); None; Some (qz 4); Some (qz 6)] (qz 3) = [] /\ cusum (map Some [qz 0; qz 2; qz 4; qz 6]) (qz 3) = [2%nat].
Proof. split; vm_compute; reflexivity. Qed.

(** ** C49: market meanness index *)
Lemma steps_nth l : forall x k, (k < length l)%nat -> nth_error (steps x l) k = Some (nth k (x :: l) 0, nth (S k) (x :: l) 0).
Proof. induction l as [|y l IH]; intros x k H; cbn [length] in H; [lia|]. destruct k as [|k]; [reflexivity|]. cbn [steps nth_error]. rewrite IH by lia. reflexivity. Qed.
Lemma steps_length l : forall x, length (steps x l) = length l.
Proof. induction l; intros; cbn; auto. Qed.
Lemma steps_seq x l : steps x l = map (fun k => (nth k (x :: l) 0, nth (S k) (x :: l) 0)) (seq 0 (length l)).
Proof.
  apply nth_error_ext. intro k. rewrite nth_error_map. destruct (Nat.lt_ge_cases k (length l)) as [C|C].
  - rewrite steps_nth by auto. rewrite nth_error_nth' with (d := 0%nat) by now rewrite seq_length. now rewrite seq_nth by auto.
  - rewrite !(proj2 (nth_error_None _ _)); auto; [now rewrite seq_length|now rewrite steps_length].
Qed.
Lemma filter_map A B (f : A -> B) (P : B -> bool) l : filter P (map f l) = map f (filter (fun x => P (f x)) l).
Proof. induction l as [|x l IH]; auto. cbn. rewrite IH. destruct (P (f x)); reflexivity. Qed.
Lemma filter_disjoint_length A (P Q : A -> bool) l : (forall x, In x l -> P x = true -> Q x = true -> False) ->
  (length (filter P l) + length (filter Q l) = length (filter (fun x => P x || Q x) l))%nat.
Proof.
  induction l as [|x l IH]; intro H; auto. specialize (IH (fun y Hy => H y (or_intror Hy))). specialize (H x (or_introl eq_refl)). cbn [filter]. destruct (P x), (Q x); cbn [orb length]; try lia.
Qed.
Lemma filter_len_le A (P : A -> bool) l : (length (filter P l) <= length l)%nat.
Proof. induction l as [|x l IH]; cbn; [lia|]. destruct (P x); cbn; lia. Qed.

(** the index is the fraction of steps that move further away from a median of the series *)
Theorem c49_mmi_is_fraction (series : list Qc) : (2 <= length series)%nat -> exists m,
  (length series <= 2 * length (filter (fun x => qle x m) series))%nat /\ (length series <= 2 * length (filter (fun x => qle m x) series))%nat /\
  get_mmi series = Ok (qn (length (filter (fun t => qlt m (nth t series 0) && qlt (nth (t - 1) series 0) (nth t series 0) ||
                                                    qlt (nth t series 0) m && qlt (nth t series 0) (nth (t - 1) series 0)) (seq 1 (length series - 1)))) / qn (length series - 1)).
Proof.
  intro L. destruct series as [|x l] eqn:ES; [cbn in L; lia|]. rewrite <- ES in *. exists (median series). assert (NE : series <> []) by (rewrite ES; discriminate).
  destruct (median_halves NE) as [M1 M2]. split; auto. split; auto. set (m := median series). destruct l as [|z l]; [rewrite ES in L; cbn in L; lia|]. set (r := z :: l) in *.
  assert (EQ : get_mmi series = Ok ((qn (length (filter (fun p => qlt m (snd p) && qlt 0 (snd p - fst p)) (steps x r))) + qn (length (filter (fun p => qlt (snd p) m && qlt (snd p - fst p) 0) (steps x r)))) / qn (length series - 1))) by (unfold m; rewrite ES; reflexivity).
  rewrite EQ. do 2 f_equal. rewrite <- qn_add. f_equal. rewrite filter_disjoint_length by (intros p _ A B; apply andb_true_iff in A, B; destruct A as [A _], B as [B _]; apply qlt_iff in A, B; apply (Qclt_not_le _ _ A); now apply Qclt_le_weak).
  rewrite steps_seq, <- ES. replace (length series - 1)%nat with (length r) by (rewrite ES; cbn [length]; lia). rewrite <- seq_shift, !filter_map, !map_length. f_equal. apply filter_ext. intro t. cbn [fst snd].
  replace (S t - 1)%nat with t by lia. set (a := nth t series 0). set (b := nth (S t) series 0). f_equal; f_equal; apply eq_true_iff_eq; rewrite !qlt_iff; split; intro; qlra.
Qed.
Print Assumptions c49_mmi_is_fraction.
Theorem c49_mmi_bounds (series : list Qc) : (2 <= length series)%nat -> exists v, get_mmi series = Ok v /\ 0 <= v <= 1.
Proof.
  intro L. destruct (c49_mmi_is_fraction L) as [m [_ [_ ->]]]. eexists. split; [reflexivity|]. set (f := fun t => _). assert (P : 0 < qn (length series - 1)) by (apply qn_pos; lia). split.
  - apply Qcdiv_nonneg; auto. apply qn_nonneg.
  - apply Qcdiv_le_iff; auto. replace (1 * qn (length series - 1)) with (qn (length series - 1)) by ring. apply qn_le. eapply Nat.le_trans; [apply filter_len_le|]. now rewrite seq_length.
Qed.
Print Assumptions c49_mmi_bounds.
Lemma steps_map f x l : steps (f x) (map f l) = map (fun p => (f (fst p), f (snd p))) (steps x l).
Proof. revert x. induction l as [|y l IH]; intro x; auto. cbn. now rewrite IH. Qed.
Lemma get_mmi_eq x z l : let m := median (x :: z :: l) in
  get_mmi (x :: z :: l) = Ok ((qn (length (filter (fun p => qlt m (snd p) && qlt 0 (snd p - fst p)) (steps x (z :: l)))) + qn (length (filter (fun p => qlt (snd p) m && qlt (snd p - fst p) 0) (steps x (z :: l))))) / qn (length (x :: z :: l) - 1)).
Proof. reflexivity. Qed.
(** scaling (also mirroring) and shifting the series do not change the index *)
Theorem c49_mmi_affine_invariant (series : list Qc) (a b : Qc) : a <> 0 -> get_mmi (map (fun x => a * x + b) series) = get_mmi series.
Proof.
  intro A. destruct series as [|x [|z l]]; auto. set (f := fun x => a * x + b). change (map f (x :: z :: l)) with (f x :: f z :: map f l). rewrite !get_mmi_eq.
  change (f z :: map f l) with (map f (z :: l)). change (f x :: map f (z :: l)) with (map f (x :: z :: l)). assert (EM : median (map f (x :: z :: l)) = a * median (x :: z :: l) + b) by (apply median_affine; discriminate). cbv zeta. rewrite EM. set (m := median (x :: z :: l)).
  rewrite !steps_map, !filter_map, !map_length. unfold f. cbn [fst snd]. do 2 f_equal.
  destruct (Qclt_le_dec a 0) as [N|P0].
  - rewrite Qcplus_comm. f_equal; do 2 f_equal; apply filter_ext; intros [u v]; cbn [fst snd]; f_equal; apply eq_true_iff_eq; rewrite !qlt_iff; split; intro H.
    all: try (assert (HH : 0 < (- a) * (v - m)) by (apply Qcmul_pos; qlra); qnra).
    all: try (assert (HH : 0 < (- a) * (m - v)) by (apply Qcmul_pos; qlra); qnra).
    all: try (assert (HH : 0 < (- a) * (v - u)) by (apply Qcmul_pos; qlra); qnra).
    all: try (assert (HH : 0 < (- a) * (u - v)) by (apply Qcmul_pos; qlra); qnra).
    all: apply Qcnot_le_lt; intro C.
    all: try (assert (HH : 0 <= (- a) * (v - m)) by (apply Qcmul_nonneg; qlra); qnra).
    all: try (assert (HH : 0 <= (- a) * (m - v)) by (apply Qcmul_nonneg; qlra); qnra).
    all: try (assert (HH : 0 <= (- a) * (v - u)) by (apply Qcmul_nonneg; qlra); qnra).
    all: try (assert (HH : 0 <= (- a) * (u - v)) by (apply Qcmul_nonneg; qlra); qnra).
  - assert (P : 0 < a) by (apply Qcnot_le_lt; intro C; apply A; now apply Qcle_antisym).
    f_equal; do 2 f_equal; apply filter_ext; intros [u v]; cbn [fst snd]; f_equal; apply eq_true_iff_eq; rewrite !qlt_iff; split; intro H.
    all: try (assert (HH : 0 < a * (v - m)) by (apply Qcmul_pos; qlra); qnra).
    all: try (assert (HH : 0 < a * (m - v)) by (apply Qcmul_pos; qlra); qnra).
    all: try (assert (HH : 0 < a * (v - u)) by (apply Qcmul_pos; qlra); qnra).
    all: try (assert (HH : 0 < a * (u - v)) by (apply Qcmul_pos; qlra); qnra).
    all: apply Qcnot_le_lt; intro C.
    all: try (assert (HH : 0 <= a * (v - m)) by (apply Qcmul_nonneg; qlra); qnra).
    all: try (assert (HH : 0 <= a * (m - v)) by (apply Qcmul_nonneg; qlra); qnra).
    all: try (assert (HH : 0 <= a * (v - u)) by (apply Qcmul_nonneg; qlra); qnra).
    all: try (assert (HH : 0 <= a * (u - v)) by (apply Qcmul_nonneg; qlra); qnra).
Qed.
Print Assumptions c49_mmi_affine_invariant.
Example c49_mmi_example : exists v, get_mmi (qs [1; 3; 2; 5; 4]%Q) = Ok v /\ this v = (1#2)%Q.
Proof. eexists. split; [reflexivity|]. vm_compute. reflexivity. Qed.

(** ** C49: Hull average *)
(** defined exactly from position n + sqrt n - 2 on, with the textbook value *)
Theorem c49_hull_formula (xs : list Qc) (n i : nat) : (2 <= n)%nat -> (i < length xs)%nat ->
  nth_error (hull_ma (map Some xs) n) i = Some (if (i <? n + Nat.sqrt n - 2)%nat then None else Some (hull_at (fun k => nth k xs 0) n i)).
Proof. intros N L. destruct (hull_observed xs N) as [_ H]. now apply H. Qed.
Print Assumptions c49_hull_formula.
Theorem c49_hull_length (xs : list Qc) (n : nat) : (2 <= n)%nat -> length (hull_ma (map Some xs) n) = length xs.
Proof. intro N. apply (hull_observed xs N). Qed.
Print Assumptions c49_hull_length.
(** causal: depends only on the data up to the position *)
Theorem c49_hull_causal (xs ys : list Qc) (n i : nat) : (2 <= n)%nat -> (i < length xs)%nat -> (i < length ys)%nat ->
  firstn (S i) xs = firstn (S i) ys -> nth_error (hull_ma (map Some xs) n) i = nth_error (hull_ma (map Some ys) n) i.
Proof.
  intros N L1 L2 E. rewrite !c49_hull_formula by auto. destruct (Nat.ltb_spec i (n + Nat.sqrt n - 2)) as [C|C]; auto. do 2 f_equal. destruct (sqrt_bounds N) as [[R1 R2] [H1 H2]].
  assert (X : forall k, (k <= i)%nat -> nth k xs 0 = nth k ys 0) by (intros k Hk; rewrite <- (nth_firstn_lt xs (n := S i)), <- (nth_firstn_lt ys (n := S i)) by lia; now rewrite E).
  unfold hull_at. apply mean_ending_ext; [lia|]. intros k Hk. rewrite (@mean_ending_ext (fun k => nth k xs 0) (fun k => nth k ys 0) (n / 2) k) by (try lia; intros; apply X; lia).
  rewrite (@mean_ending_ext (fun k => nth k xs 0) (fun k => nth k ys 0) n k) by (try lia; intros; apply X; lia). reflexivity.
Qed.
Print Assumptions c49_hull_causal.
Theorem c49_hull_linear (x x' : nat -> Qc) (a b : Qc) (n i : nat) : hull_at (fun k => a * x k + b * x' k) n i = a * hull_at x n i + b * hull_at x' n i.
Proof.
  unfold hull_at. rewrite <- mean_ending_linear. apply mean_ending_all. intro k. rewrite !mean_ending_linear. ring.
Qed.
Print Assumptions c49_hull_linear.
Theorem c49_hull_constant (c : Qc) (n i : nat) : (2 <= n)%nat -> hull_at (fun _ => c) n i = c.
Proof.
  intro N. destruct (sqrt_bounds N) as [[R1 R2] [H1 H2]]. unfold hull_at. rewrite (@mean_ending_all _ (fun _ => c)); [apply mean_ending_const; lia|].
  intro k. rewrite !mean_ending_const by lia. ring.
Qed.
Print Assumptions c49_hull_constant.
(** on a straight line the average lags by (sqrt n - 1)/2 - ((n+1)/2 - n//2) steps *)
Theorem c49_hull_lag (a b : Qc) (n i : nat) : (2 <= n)%nat -> (n + Nat.sqrt n - 2 <= i)%nat ->
  hull_at (fun k => a + b * qn k) n i = a + b * (qn i - ((qn (Nat.sqrt n) - 1) / 2 - ((qn n + 1) / 2 - qn (n / 2)))).
Proof.
  intros N L. destruct (sqrt_bounds N) as [[R1 R2] [H1 H2]]. unfold hull_at.
  rewrite (@mean_ending_ext _ (fun k => (a + b * ((qn n + 1) / 2 - qn (n / 2))) + b * qn k)) by (try lia; intros k Hk; rewrite !mean_ending_line by lia; field; discriminate).
  rewrite mean_ending_line by lia. field. discriminate.
Qed.
Print Assumptions c49_hull_lag.
Example c49_hull_example : map (option_map this) (hull_ma (map Some (qs [1; 2; 4; 3; 1; 0; 5]%Q)) 4) = [None; None; None; None; Some (3#1)%Q; Some (1#4)%Q; Some (7#8)%Q].
Proof. vm_compute. reflexivity. Qed.
