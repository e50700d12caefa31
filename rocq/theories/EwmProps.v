(** C122, C123: daily volatility. *)
From Verif Require Import Py SeriesModel SeriesSpec SeriesProofs UtilsModel UtilsProps EwmModel.
From Coq Require Import Lia Reals Qreals.
Set Implicit Arguments.
Unset Strict Implicit.
Open Scope Qc_scope.

(** weighted sums over the values seen so far: the value j steps back has weight [f^j] *)
Definition weight_total (f : Qc) (seen : list Qc) : Qc := power_sum f 0 (map (fun _ => 1) seen).
(** unbiased exponentially weighted variance *)
Definition exp_weighted_var (f : Qc) (seen : list Qc) : Qc :=
  let W := weight_total f seen in let W2 := weight_total (f * f) seen in let m := exp_weighted_mean f seen in
  W * W / (W * W - W2) * (power_sum f 0 (map (fun x => (x - m) * (x - m)) (rev seen)) / W).

Lemma power_sum_map_lin f j (l : list Qc) (g h : Qc -> Qc) c d : power_sum f j (map (fun x => c * g x + d * h x) l) = c * power_sum f j (map g l) + d * power_sum f j (map h l).
Proof. revert j. induction l as [|x l IH]; intro j; cbn [map power_sum]; [ring|]. rewrite IH. ring. Qed.
Lemma squares_expand f j l m : power_sum f j (map (fun x => (x - m) * (x - m)) l) = power_sum f j (map (fun x => x * x) l) - (1 + 1) * m * power_sum f j l + m * m * power_sum f j (map (fun _ => 1) l).
Proof. revert j. induction l as [|x l IH]; intro j; cbn [map power_sum]; [ring|]. rewrite IH. ring. Qed.

(** the state after the values [rev l] *)
Local Notation total := weight_total.
Lemma total_cons f x l : total f (x :: l) = 1 + f * total f l.
Proof. unfold weight_total. cbn [map]. apply power_sum_cons. Qed.
Lemma total_pos f l : 0 <= f -> l <> [] -> 0 < total f l.
Proof. intros Hf Hl. apply power_sum_pos; auto; [destruct l; [congruence|discriminate]|]. intros x Hx. apply in_map_iff in Hx. destruct Hx as (y & <- & _). reflexivity. Qed.
Lemma total_rev f l : total f (rev l) = weight_total f l.
Proof. unfold weight_total. rewrite map_rev. f_equal. induction l as [|x l IH]; auto. cbn. rewrite IH. clear IH. induction l as [|y l IH]; auto. cbn. now rewrite IH. Qed.
Definition mean_of f l := power_sum f 0 l / total f l.
Definition cov_of f l := power_sum f 0 (map (fun x => (x - mean_of f l) * (x - mean_of f l)) l) / total f l.
Definition state_of f l : ewm_state := {| em_mean := mean_of f l; em_cov := cov_of f l; em_sum_wt := total f l; em_sum_wt2 := total (f * f) l; em_old_wt := total f l |}.
Lemma state_ext a b : em_mean a = em_mean b -> em_cov a = em_cov b -> em_sum_wt a = em_sum_wt b -> em_sum_wt2 a = em_sum_wt2 b -> em_old_wt a = em_old_wt b -> a = b.
Proof. destruct a, b; cbn; intros; subst; reflexivity. Qed.
Lemma first_state f x : ewm_first x = state_of f [x].
Proof.
  apply state_ext; cbn; unfold cov_of, mean_of, weight_total; cbn; field; discriminate.
Qed.
Lemma step_state alpha l x : 0 <= 1 - alpha -> l <> [] -> ewm_step alpha (state_of (1 - alpha) l) x = state_of (1 - alpha) (x :: l).
Proof.
  intros Hf Hl. set (f := 1 - alpha). pose proof (@total_pos f l Hf Hl) as TP. assert (TP' : 0 < f * total f l + 1). { assert (0 <= f * total f l) by (apply Qcmul_nonneg; auto; now apply Qclt_le_weak). qlra. }
  assert (N1 : total f l <> 0) by now apply Qc_pos_neq. assert (N2 : f * total f l + 1 <> 0) by now apply Qc_pos_neq.
  apply state_ext; cbn [ewm_step state_of em_mean em_cov em_sum_wt em_sum_wt2 em_old_wt]; fold f; rewrite ?total_cons; try ring.
  - unfold mean_of. rewrite total_cons, power_sum_cons. field. split; auto. intro C. apply N2. rewrite <- C. ring.
  - unfold cov_of. rewrite !squares_expand. unfold mean_of. fold (total f l) (total f (x :: l)). rewrite !total_cons, !power_sum_cons. cbn [map]. rewrite !power_sum_cons. fold (total f l).
    set (T := total f l) in *. set (S1 := power_sum f 0 l). set (S2 := power_sum f 0 (map (fun x0 => x0 * x0) l)). field. repeat split; auto; intro C; apply N2; rewrite <- C; ring.
Qed.

Lemma denominator_cons f x l : total f (x :: l) * total f (x :: l) - total (f * f) (x :: l) = (1 + 1) * (f * total f l) + f * f * (total f l * total f l - total (f * f) l).
Proof. rewrite !total_cons. ring. Qed.
Lemma denominator_nonneg f l : 0 <= f -> 0 <= total f l * total f l - total (f * f) l.
Proof.
  intro Hf. induction l as [|x l IH]; [unfold weight_total; cbn; discriminate|]. rewrite denominator_cons.
  assert (0 <= total f l). { destruct l as [|y l]; [unfold weight_total; cbn; discriminate|]. apply Qclt_le_weak, total_pos; auto; discriminate. }
  assert (0 <= f * total f l) by (apply Qcmul_nonneg; auto). assert (0 <= f * f) by (apply Qcmul_nonneg; auto). assert (0 <= f * f * (total f l * total f l - total (f * f) l)) by (apply Qcmul_nonneg; auto). qlra.
Qed.
Lemma denominator_pos f x l : 0 < f -> l <> [] -> 0 < total f (x :: l) * total f (x :: l) - total (f * f) (x :: l).
Proof.
  intros Hf Hl. rewrite denominator_cons. assert (Hf' : 0 <= f) by now apply Qclt_le_weak. pose proof (@total_pos f l Hf' Hl).
  assert (0 < f * total f l) by (apply Qcmul_pos; auto). assert (0 <= f * f) by (apply Qcmul_nonneg; auto).
  assert (0 <= f * f * (total f l * total f l - total (f * f) l)) by (apply Qcmul_nonneg; auto; now apply denominator_nonneg). qlra.
Qed.
Lemma alpha_one span : (1 <= span)%Z -> 1 - ewma_alpha span = 0 <-> span = 1%Z.
Proof.
  intro H. unfold ewma_alpha. assert (Hp : 2 <= qz (span + 1)) by (apply qz_le; lia). assert (Hn : qz (span + 1) <> 0) by (apply Qc_pos_neq; qlra). split.
  - intro E. assert (E2 : qz (span + 1) = qz 2). { assert (qz 2 / qz (span + 1) = 1) by (change (qz 2) with 2; qlra). replace (qz (span + 1)) with (qz (span + 1) * (qz 2 / qz (span + 1))) by (rewrite H0; ring). field. auto. }
    apply qz_inj in E2. lia.
  - intros ->. vm_compute. now apply Qc_is_canon.
Qed.
Lemma out_state f l : ewm_out (state_of f l) =
  if qlt 0 (total f l * total f l - total (f * f) l) then Some (total f l * total f l / (total f l * total f l - total (f * f) l) * cov_of f l) else None.
Proof. reflexivity. Qed.
Lemma out_value f l x : 0 < f -> l <> [] -> ewm_out (state_of f (rev (l ++ [x]))) = Some (exp_weighted_var f (l ++ [x])).
Proof.
  intros Hf Hl. rewrite out_state. rewrite rev_app_distr. cbn [rev app]. destruct (qlt_spec 0 (total f (x :: rev l) * total f (x :: rev l) - total (f * f) (x :: rev l))) as [H|H].
  - f_equal. unfold exp_weighted_var, cov_of, mean_of, exp_weighted_mean. cbv zeta. fold (weight_total f (l ++ [x])).
    assert (E : forall g, weight_total g (l ++ [x]) = weight_total g (x :: rev l)). { intro g. rewrite <- (total_rev g (l ++ [x])), rev_app_distr. reflexivity. }
    rewrite !E, !rev_app_distr. reflexivity.
  - exfalso. apply H. apply denominator_pos; auto. destruct l; [congruence|]. cbn. intro C. apply app_eq_nil in C. destruct C; discriminate.
Qed.
Lemma out_none l : ewm_out (state_of 0 l) = None.
Proof.
  rewrite out_state. destruct (qlt_spec 0 (total 0 l * total 0 l - total (0 * 0) l)) as [H|H]; auto. exfalso. destruct l as [|x l].
  - unfold weight_total in H; cbn in H. revert H. apply Qcle_not_lt. discriminate.
  - rewrite denominator_cons in H. revert H. apply Qcle_not_lt. qlra.
Qed.
Lemma loop_ok alpha pre xs : 0 <= 1 - alpha -> pre <> [] ->
  length (ewm_loop alpha (state_of (1 - alpha) (rev pre)) xs) = length xs /\
  forall i, (i < length xs)%nat -> nth_error (ewm_loop alpha (state_of (1 - alpha) (rev pre)) xs) i = Some (ewm_out (state_of (1 - alpha) (rev (pre ++ firstn (S i) xs)))).
Proof.
  intro Hf. revert pre. induction xs as [|x xs IH]; intros pre Hp.
  - split; auto. cbn. intros; lia.
  - cbn [ewm_loop]. cbv zeta. rewrite step_state; auto; [|destruct pre; [congruence|]; cbn; intro C; apply app_eq_nil in C; destruct C; discriminate].
    assert (Er : x :: rev pre = rev (pre ++ [x])) by now rewrite rev_app_distr. rewrite Er.
    destruct (IH (pre ++ [x])) as [L N]; [destruct pre; discriminate|]. split; [cbn [length]; now rewrite L|].
    intros [|i] Hi; [reflexivity|]. cbn [nth_error]. rewrite N by (cbn in Hi; lia). rewrite <- app_assoc. reflexivity.
Qed.
Lemma var_ok xs span : (1 <= span)%Z -> exists vs, ewm_var xs span = Ok vs /\ length vs = length xs /\
  forall i, (i < length xs)%nat -> nth_error vs i = Some (if (i =? 0)%nat || (span =? 1)%Z then None else Some (exp_weighted_var (1 - ewma_alpha span) (firstn (S i) xs))).
Proof.
  intro Hs. unfold ewm_var. destruct (Z.ltb_spec span 1); [lia|]. eexists. split; [reflexivity|]. destruct xs as [|x xs]; [split; auto; cbn; intros; lia|].
  destruct (alpha_range Hs) as [A1 A2]. assert (Hf : 0 <= 1 - ewma_alpha span) by qlra.
  destruct (@loop_ok (ewma_alpha span) [x] xs Hf) as [L N]; [discriminate|]. cbn [rev app] in L, N. rewrite (first_state (1 - ewma_alpha span) x).
  split; [cbn [length]; now rewrite L|]. intros [|i] Hi; [reflexivity|]. cbn [nth_error]. rewrite N by (cbn in Hi; lia). f_equal. cbn [Nat.eqb orb].
  destruct (Z.eqb_spec span 1) as [->|Hn].
  - assert (E : 1 - ewma_alpha 1 = 0) by (apply alpha_one; auto; lia). rewrite E. apply out_none.
  - assert (Hf' : 0 < 1 - ewma_alpha span). { destruct (Qcle_lt_or_eq _ _ Hf) as [|E]; auto. exfalso. apply Hn. apply alpha_one; auto. }
    assert (Hi' : (i < length xs)%nat) by (cbn in Hi; lia). destruct (nth_error xs i) as [y|] eqn:Ey; [|apply nth_error_None in Ey; lia].
    assert (Ef : firstn (S (S i)) (x :: xs) = (x :: firstn i xs) ++ [y]).
    { cbn [firstn app]. f_equal. clear -Ey. revert i Ey. induction xs as [|z xs IH]; intros [|i] E; cbn in *; try discriminate; [congruence|]. f_equal. apply IH; auto. }
    assert (Ef' : x :: firstn (S i) xs = (x :: firstn i xs) ++ [y]) by exact Ef. rewrite Ef. change (rev (firstn (S i) xs) ++ [x]) with (rev (x :: firstn (S i) xs)). rewrite Ef'. apply out_value; [exact Hf'|discriminate].
Qed.

Lemma nth_error_combine_both A B (l1 : list A) (l2 : list B) i a b : nth_error l1 i = Some a -> nth_error l2 i = Some b -> nth_error (combine l1 l2) i = Some (a, b).
Proof. revert l1 l2. induction i as [|i IH]; intros [|x l1] [|y l2] H1 H2; cbn in *; try discriminate; [congruence|auto]. Qed.
(** The i-th volatility is the square root of the debiased exponentially weighted variance of the first i+1 returns; the first is NaN, and for a span of 1
    all are. *)
Theorem c122_value day times close span intraday : (1 <= span)%Z ->
  let rets := daily_returns day times close intraday in
  exists out, get_daily_volatility day times close span intraday = Ok out /\ length out = length rets /\
    forall i, (i < length rets)%nat ->
      nth_error out i = Some (i, if (i =? 0)%nat || (span =? 1)%Z then None
                                 else Some (sqrt (Q2R (this (exp_weighted_var (1 - 2 / qz (span + 1)) (firstn (S i) rets)))))).
Proof.
  intros Hs rets. unfold get_daily_volatility. fold rets. destruct (@var_ok rets span Hs) as (vs & E & L & N). rewrite E. cbn [bind].
  eexists. split; [reflexivity|]. split; [rewrite combine_length, seq_length, map_length; lia|].
  intros i Hi. assert (Hseq : nth_error (seq 0 (length rets)) i = Some i). { rewrite (nth_error_nth' _ 0%nat) by (rewrite seq_length; auto). now rewrite seq_nth. }
  assert (Hv : nth_error (map (option_map (fun v : Qc => sqrt (Q2R (this v)))) vs) i =
               Some (if (i =? 0)%nat || (span =? 1)%Z then None else Some (sqrt (Q2R (this (exp_weighted_var (1 - ewma_alpha span) (firstn (S i) rets))))))).
  { rewrite nth_error_map, N by auto. cbn. now destruct ((i =? 0)%nat || (span =? 1)%Z)%bool. }
  exact (nth_error_combine_both Hseq Hv).
Qed.
Print Assumptions c122_value.
(** A span below one raises. *)
Theorem c122_span_error day times close span intraday : (span < 1)%Z -> get_daily_volatility day times close span intraday = Err ValueError.
Proof. intro H. unfold get_daily_volatility, ewm_var. destruct (Z.ltb_spec span 1); [reflexivity|lia]. Qed.
Print Assumptions c122_span_error.

(** The second volatility depends on the first two returns only through their distance, and not on the span. *)
Theorem c122_second f a b : 0 < f -> exp_weighted_var f [a; b] = (b - a) * (b - a) / (1 + 1).
Proof.
  intro Hf. unfold exp_weighted_var, exp_weighted_mean, weight_total. cbn [rev app map power_sum Qcpower]. assert (N : f <> 0) by now apply Qc_pos_neq.
  assert (N2 : 1 + f <> 0) by (apply Qc_pos_neq; qlra). 
  field. repeat split; auto; try discriminate; intro C; first [apply N2; rewrite <- C; ring|apply N; assert (f + f = 0) by (rewrite <- C; ring); qlra|idtac].
Qed.
Print Assumptions c122_second.

Lemma power_sum_nonneg f l : 0 <= f -> (forall x, In x l -> 0 <= x) -> 0 <= power_sum f 0 l.
Proof.
  intros Hf. induction l as [|x l IH]; intro H; [cbn; discriminate|]. rewrite power_sum_cons. assert (0 <= x) by (apply H; now left).
  assert (0 <= f * power_sum f 0 l) by (apply Qcmul_nonneg; auto; apply IH; intros; apply H; now right). qlra.
Qed.
Lemma power_sum_zero f l : 0 < f -> (forall x, In x l -> 0 <= x) -> power_sum f 0 l = 0 -> forall x, In x l -> x = 0.
Proof.
  intros Hf. assert (Hf' : 0 <= f) by now apply Qclt_le_weak. induction l as [|a l IH]; intros H E x Hx; [destruct Hx|]. rewrite power_sum_cons in E.
  assert (Ha : 0 <= a) by (apply H; now left). assert (Hl : forall y, In y l -> 0 <= y) by (intros; apply H; now right). pose proof (@power_sum_nonneg f l Hf' Hl) as P.
  assert (Pf : 0 <= f * power_sum f 0 l) by (apply Qcmul_nonneg; auto). destruct Hx as [<-|Hx]; [qlra|]. apply IH; auto.
  assert (E' : f * power_sum f 0 l = 0) by qlra. destruct (Qcmult_integral _ _ E') as [C|C]; auto. exfalso. revert C. now apply Qc_pos_neq.
Qed.
Lemma square_nonneg (a : Qc) : 0 <= a * a.
Proof. destruct (qle_spec 0 a) as [H|H]; [now apply Qcmul_nonneg|]. assert (0 <= - a) by qlra. replace (a * a) with (- a * - a) by ring. now apply Qcmul_nonneg. Qed.
Lemma square_zero (a : Qc) : a * a = 0 -> a = 0.
Proof. intro H. now destruct (Qcmult_integral _ _ H). Qed.
Lemma var_factor f l : 0 < f -> (1 < length l)%nat -> exists k, 0 < k /\
  exp_weighted_var f l = k * power_sum f 0 (map (fun x => (x - exp_weighted_mean f l) * (x - exp_weighted_mean f l)) (rev l)).
Proof.
  intros Hf Hl. assert (Hf' : 0 <= f) by now apply Qclt_le_weak. assert (W : 0 < weight_total f l) by (apply total_pos; auto; destruct l; [cbn in Hl; lia|discriminate]).
  assert (D : 0 < weight_total f l * weight_total f l - weight_total (f * f) l). { destruct l as [|x l]; [cbn in Hl; lia|]. apply denominator_pos; auto. destruct l; [cbn in Hl; lia|discriminate]. }
  exists (weight_total f l / (weight_total f l * weight_total f l - weight_total (f * f) l)). split; [now apply Qcdiv_pos|].
  unfold exp_weighted_var. cbv zeta. field. split; now apply Qc_pos_neq.
Qed.
(** The variance is never negative, and it is zero exactly when all returns so far are equal. *)
Theorem c122_zero_iff f l : 0 < f -> (1 < length l)%nat ->
  0 <= exp_weighted_var f l /\ (exp_weighted_var f l = 0 <-> exists c, forall x, In x l -> x = c).
Proof.
  intros Hf Hl. assert (Hf' : 0 <= f) by now apply Qclt_le_weak. destruct (var_factor Hf Hl) as (k & Hk & E). set (m := exp_weighted_mean f l) in *.
  assert (NN : forall x, In x (map (fun x => (x - m) * (x - m)) (rev l)) -> 0 <= x) by (intros x Hx; apply in_map_iff in Hx; destruct Hx as (y & <- & _); apply square_nonneg).
  split; [rewrite E; apply Qcmul_nonneg; [now apply Qclt_le_weak|now apply power_sum_nonneg]|]. split.
  - intro Z. exists m. intros x Hx. rewrite E in Z. destruct (Qcmult_integral _ _ Z) as [C|C]; [exfalso; revert C; now apply Qc_pos_neq|].
    assert (S : (x - m) * (x - m) = 0). { apply (@power_sum_zero f _ Hf NN C). apply (in_map (fun x => (x - m) * (x - m))). now apply -> in_rev. }
    apply square_zero in S. qlra.
  - intros (c & Hc). assert (Em : m = c).
    { unfold m, exp_weighted_mean. assert (W : 0 < weight_total f l) by (apply total_pos; auto; destruct l; [cbn in Hl; lia|discriminate]). fold (weight_total f l).
      assert (Ep : forall j l', (forall x, In x l' -> x = c) -> power_sum f j l' = c * power_sum f j (map (fun _ => 1) l')).
      { intros j l'. revert j. induction l' as [|a l' IH]; intros j H; cbn [map power_sum]; [ring|]. rewrite IH by (intros; apply H; now right). rewrite (H a) by now left. ring. }
      rewrite Ep by (intros x Hx; apply Hc; now apply in_rev). fold (weight_total f (rev l)). rewrite total_rev. field. now apply Qc_pos_neq. }
    rewrite E. assert (Z : forall j l', (forall x, In x l' -> x = c) -> power_sum f j (map (fun x => (x - m) * (x - m)) l') = 0).
    { intros j l'. revert j. induction l' as [|a l' IH]; intros j H; cbn [map power_sum]; auto. rewrite IH by (intros; apply H; now right). rewrite (H a) by now left. rewrite Em. ring. }
    rewrite Z by (intros x Hx; apply Hc; now apply in_rev). ring.
Qed.
Print Assumptions c122_zero_iff.
(** Scaling all returns scales the variance with the square, adding a constant leaves it unchanged. *)
Theorem c122_affine f l a b : 0 < f -> (1 < length l)%nat -> exp_weighted_var f (map (fun x => a * x + b) l) = a * a * exp_weighted_var f l.
Proof.
  intros Hf Hl. assert (Hf' : 0 <= f) by now apply Qclt_le_weak. assert (W : 0 < weight_total f l) by (apply total_pos; auto; destruct l; [cbn in Hl; lia|discriminate]).
  assert (Ew : forall g, weight_total g (map (fun x => a * x + b) l) = weight_total g l) by (intro g; unfold weight_total; now rewrite map_map).
  assert (Em : exp_weighted_mean f (map (fun x => a * x + b) l) = a * exp_weighted_mean f l + b).
  { unfold exp_weighted_mean. fold (weight_total f (map (fun x => a * x + b) l)) (weight_total f l). rewrite Ew, <- map_rev.
    assert (Ep : forall j l', power_sum f j (map (fun x => a * x + b) l') = a * power_sum f j l' + b * power_sum f j (map (fun _ => 1) l')).
    { intros j l'. revert j. induction l' as [|y l' IH]; intro j; cbn [map power_sum]; [ring|]. rewrite IH. ring. }
    rewrite Ep. fold (weight_total f (rev l)). rewrite total_rev. field. now apply Qc_pos_neq. }
  unfold exp_weighted_var. cbv zeta. rewrite !Ew, Em, <- map_rev, map_map. set (m := exp_weighted_mean f l).
  assert (Ep : forall j l', power_sum f j (map (fun x => (a * x + b - (a * m + b)) * (a * x + b - (a * m + b))) l') = a * a * power_sum f j (map (fun x => (x - m) * (x - m)) l')).
  { intros j l'. revert j. induction l' as [|y l' IH]; intro j; cbn [map power_sum]; [ring|]. rewrite IH. ring. }
  rewrite Ep. field. split; [now apply Qc_pos_neq|]. apply Qc_pos_neq. destruct l as [|x l]; [cbn in Hl; lia|]. apply denominator_pos; auto. destruct l; [cbn in Hl; lia|discriminate].
Qed.
Print Assumptions c122_affine.

Lemma combine_seq_nth A z m (l : list A) i k x : nth_error (combine (seq z m) l) i = Some (k, x) -> k = (z + i)%nat.
Proof.
  revert z m i. induction l as [|a l IH]; intros z m i H; [rewrite combine_nil in H; destruct i; discriminate|]. destruct m as [|m]; [destruct i; discriminate|].
  cbn [seq combine] in H. destruct i as [|i]; cbn in H; [injection H as <- <-; lia|]. apply IH in H. lia.
Qed.
Lemma filter_shorter A (p : A -> bool) l : (length (filter p l) <= length l)%nat.
Proof. induction l as [|x l IH]; cbn; auto. destruct (p x); cbn; lia. Qed.
Lemma first_bar_unpaired day t times : zssorted (t :: times) -> (0 <= day)%Z -> (length (prev_day_indices day (t :: times) true) <= length times)%nat /\ (length (prev_day_indices day (t :: times) false) <= length times)%nat.
Proof.
  intros Hs Hd. assert (Z0 : searchsorted_left (t :: times) (t - day) = 0%nat).
  { destruct (Nat.eq_dec (searchsorted_left (t :: times) (t - day)) 0) as [|Hn]; auto. exfalso. apply zssorted_sorted in Hs.
    assert (H : (0 < searchsorted_left (t :: times) (t - day))%nat) by lia. apply (@searchsorted_left_spec (t :: times) (t - day) 0%nat t Hs eq_refl) in H. lia. }
  assert (F : (length (filter (fun i => (0 <? i)%nat) (map (fun u => searchsorted_left (t :: times) (u - day)) (t :: times))) <= length times)%nat).
  { cbn [map filter]. rewrite Z0. cbn [Nat.ltb Nat.leb]. etransitivity; [apply filter_shorter|]. now rewrite map_length. }
  unfold prev_day_indices. split; [now rewrite map_length|auto].
Qed.
(** REFUTED: the volatilities are not labelled by the bars they belong to.  Entry i is computed from the return of bar k as its last return, but carries the label i, always
    smaller than k. *)
Theorem c123_labels_refuted day times close span intraday out i k j : zssorted times -> (0 <= day)%Z ->
  get_daily_volatility day times close span intraday = Ok out -> nth_error (day_pairs day times intraday) i = Some (k, j) ->
  (i < k)%nat /\ exists v, nth_error out i = Some (i, v).
Proof.
  intros Hs Hd E H. split.
  - unfold day_pairs in H. pose proof (combine_seq_nth H) as ->. destruct times as [|t times]; [destruct intraday, i; discriminate|].
    destruct (first_bar_unpaired Hs Hd) as [H1 H2]. cbn [length]. destruct intraday; lia.
  - assert (Hsp : (1 <= span)%Z). { unfold get_daily_volatility, ewm_var in E. destruct (Z.ltb_spec span 1); [discriminate|lia]. }
    destruct (@c122_value day times close span intraday Hsp) as (out' & E' & L & N). rewrite E in E'. injection E' as <-.
    eexists. apply N. unfold daily_returns. rewrite map_length. apply nth_error_Some. congruence.
Qed.
Print Assumptions c123_labels_refuted.

Lemma search_prefix t1 t2 v x : zssorted (t1 ++ t2) -> In x t1 -> (v <= x)%Z -> searchsorted_left (t1 ++ t2) v = searchsorted_left t1 v.
Proof.
  intros _. induction t1 as [|a t1 IH]; intros Hx Hv; [destruct Hx|]. cbn [app searchsorted_left]. destruct (Z.ltb_spec a v) as [L|L]; auto. f_equal. apply IH; auto.
  destruct Hx as [<-|Hx]; auto. lia.
Qed.
Lemma day_pairs_prefix day t1 t2 intraday : zssorted (t1 ++ t2) -> (0 <= day)%Z -> exists rest, day_pairs day (t1 ++ t2) intraday = day_pairs day t1 intraday ++ rest.
Proof.
  intros Hs Hd. assert (M : map (fun t => searchsorted_left (t1 ++ t2) (t - day)) t1 = map (fun t => searchsorted_left t1 (t - day)) t1).
  { apply map_ext_in. intros t Ht. apply (@search_prefix t1 t2 (t - day) t); auto. lia. }
  pose proof (@ss_sorted _ day Hs) as SS. rewrite map_app, M in SS.
  set (P := fun i => (0 <? i)%nat). set (A := map (fun t => searchsorted_left t1 (t - day)) t1) in *. set (B := map (fun t => searchsorted_left (t1 ++ t2) (t - day)) t2) in *.
  assert (LA : length A = length t1) by (unfold A; now rewrite map_length). assert (LB : length B = length t2) by (unfold B; now rewrite map_length).
  set (g := fun l : list nat => if intraday then map (fun i => (i - 1)%nat) l else l).
  assert (Gl : forall l, length (g l) = length l) by (intro l; unfold g; destruct intraday; auto; apply map_length).
  assert (Ga : forall l l', g (l ++ l') = g l ++ g l') by (intros l l'; unfold g; destruct intraday; auto; apply map_app).
  assert (I1 : prev_day_indices day t1 intraday = g (filter P A)) by reflexivity.
  assert (I2 : prev_day_indices day (t1 ++ t2) intraday = g (filter P A) ++ g (filter P B)).
  { rewrite <- Ga, <- filter_app. unfold prev_day_indices. rewrite map_app, M. reflexivity. }
  unfold day_pairs. rewrite I1, I2. destruct (filter P A) as [|a FA] eqn:EA.
  - exists (combine (seq (length (t1 ++ t2) - length (g [] ++ g (filter P B))) (length (g [] ++ g (filter P B)))) (g [] ++ g (filter P B))).
    replace (g (@nil nat)) with (@nil nat) by (unfold g; now destruct intraday). reflexivity.
  - assert (EB : filter P B = B).
    { assert (Ha : In a A /\ P a = true) by (apply filter_In; rewrite EA; now left). destruct Ha as [HaA Hpa].
      assert (Hall : forall b, In b B -> P b = true).
      { intros b Hb. assert (Hle : (a <= b)%nat). { clear -SS HaA Hb. induction A as [|c A IH]; [destruct HaA|]. cbn in SS. inversion SS as [|? ? S1 S2]; subst. destruct HaA as [<-|HaA]; [|auto].
          rewrite Forall_forall in S2. apply S2. apply in_or_app. now right. }
        unfold P in *. apply Nat.ltb_lt in Hpa. apply Nat.ltb_lt. lia. }
      clear -Hall. induction B as [|b B IH]; cbn [filter]; auto. rewrite (Hall b) by now left. f_equal. apply IH. intros; apply Hall; now right. }
    rewrite EB. pose proof (filter_shorter P A) as SA. rewrite EA in SA.
    rewrite !app_length, !Gl, LB. set (m1 := length (a :: FA)) in *. replace (length t1 + length t2 - (m1 + length t2))%nat with (length t1 - m1)%nat by lia.
    rewrite seq_app. assert (CA : forall X Y (u1 u2 : list X) (v1 v2 : list Y), length u1 = length v1 -> combine (u1 ++ u2) (v1 ++ v2) = combine u1 v1 ++ combine u2 v2).
    { intros X Y u1. induction u1 as [|x u1 IH]; intros u2 [|y v1] v2 H; cbn in *; try discriminate; auto. f_equal. apply IH. congruence. }
    rewrite CA by (rewrite seq_length, Gl; reflexivity). eexists. reflexivity.
Qed.
Lemma pair_bounds day times intraday k j : zssorted times -> (0 <= day)%Z -> In (k, j) (day_pairs day times intraday) -> (k < length times)%nat /\ (j < length times)%nat.
Proof.
  intros Hs Hd H. destruct intraday.
  - apply c89_intraday_pairs in H; auto. destruct H as (t & u & H1 & H2 & _). split; apply nth_error_Some; congruence.
  - apply c89_daily_pairs in H; auto. destruct H as (_ & t & u & H1 & H2 & _). split; apply nth_error_Some; congruence.
Qed.
Lemma zssorted_prefix t1 t2 : zssorted (t1 ++ t2) -> zssorted t1.
Proof.
  induction t1 as [|a t1 IH]; cbn; intro H; [constructor|]. inversion H as [|? ? H1 H2]; subst. constructor; auto. rewrite Forall_app in H2. tauto.
Qed.
Lemma returns_prefix day t1 t2 c1 c2 intraday : zssorted (t1 ++ t2) -> (0 <= day)%Z -> length t1 = length c1 ->
  exists rest, daily_returns day (t1 ++ t2) (c1 ++ c2) intraday = daily_returns day t1 c1 intraday ++ rest.
Proof.
  intros Hs Hd Hl. destruct (@day_pairs_prefix day t1 t2 intraday Hs Hd) as (rest & E). unfold daily_returns. rewrite E, map_app. eexists. f_equal.
  apply map_ext_in. intros [k j] Hin. destruct (pair_bounds (zssorted_prefix Hs) Hd Hin) as [Hk Hj]. cbn [fst snd]. rewrite !app_nth1 by lia. reflexivity.
Qed.
(** No lookahead: later bars do not change the volatilities already there. *)
Theorem c122_causal day t1 t2 c1 c2 span intraday out : zssorted (t1 ++ t2) -> (0 <= day)%Z -> length t1 = length c1 ->
  get_daily_volatility day (t1 ++ t2) (c1 ++ c2) span intraday = Ok out ->
  exists out1, get_daily_volatility day t1 c1 span intraday = Ok out1 /\ out1 = firstn (length out1) out.
Proof.
  intros Hs Hd Hl E. assert (Hsp : (1 <= span)%Z). { unfold get_daily_volatility, ewm_var in E. destruct (Z.ltb_spec span 1); [discriminate|lia]. }
  destruct (@returns_prefix day t1 t2 c1 c2 intraday Hs Hd Hl) as (rest & R).
  destruct (@c122_value day t1 c1 span intraday Hsp) as (out1 & E1 & L1 & N1). destruct (@c122_value day (t1 ++ t2) (c1 ++ c2) span intraday Hsp) as (out2 & E2 & L2 & N2).
  rewrite E in E2. injection E2 as <-. exists out1. split; auto. rewrite R in L2, N2. set (r1 := daily_returns day t1 c1 intraday) in *. rewrite app_length in L2, N2.
  assert (Lf : length (firstn (length out1) out) = length out1) by (rewrite firstn_length; lia).
  apply nth_error_ext. intro i. destruct (Nat.lt_ge_cases i (length out1)) as [Hi|Hi].
  - rewrite nth_error_firstn_lt by auto. rewrite N1 by lia. rewrite N2 by lia. rewrite firstn_app. replace (S i - length r1)%nat with 0%nat by lia. cbn [firstn]. now rewrite app_nil_r.
  - rewrite (proj2 (nth_error_None out1 i)) by auto. symmetry. apply nth_error_None. lia.
Qed.
Print Assumptions c122_causal.

(** Non-vacuity: returns 1/10, 1/5 and 1, span 3, so weights 1, 1/2, 1/4. *)
Example c122_example : zssorted [0; 3; 4; 8]%Z /\ map this (daily_returns 2 [0; 3; 4; 8]%Z [qz 10; qz 11; qz 12; qz 24] true) = [1 # 10; 1 # 5; 1]%Q /\
  get_daily_volatility 2 [0; 3; 4; 8]%Z [qz 10; qz 11; qz 12; qz 24] 3 true
  = Ok [(0%nat, None); (1%nat, Some (sqrt (Q2R (1 # 200)))); (2%nat, Some (sqrt (Q2R (419 # 1400))))].
Proof.
  split; [repeat constructor; lia|]. split; [vm_compute; reflexivity|]. unfold get_daily_volatility. set (r := daily_returns _ _ _ _).
  assert (L : length r = 3%nat) by (vm_compute; reflexivity). set (v := ewm_var r 3).
  assert (E : match v with Ok l => map (option_map this) l | Err _ => [] end = [None; Some (1 # 200); Some (419 # 1400)]%Q) by (vm_compute; reflexivity).
  destruct v as [l|e]; [|discriminate]. cbn [bind]. rewrite L.
  destruct l as [|[a|] [|[b|] [|[c|] [|]]]]; try discriminate. cbn [map option_map] in *. injection E as Eb Ec. rewrite Eb, Ec. reflexivity.
Qed.
