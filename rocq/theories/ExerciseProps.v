(** C73: the American price of the binomial tree is the best value that any exercise policy attains.  The policies see the
    moves made so far and nothing else; the value of one is the expectation, over all paths of moves, of the discounted
    amount received at the time of exercise. *)
From Verif Require Import Py RNum Normal OptionModel OptionProofs OptionProps.
Set Implicit Arguments.
Unset Strict Implicit.
Open Scope R_scope.

(** all sequences of [n] moves; [true] is up *)
Fixpoint paths (n : nat) : list (list bool) :=
  match n with O => [[]] | S n' => map (cons true) (paths n') ++ map (cons false) (paths n') end.
Definition path_probability (p : R) (w : list bool) : R := fold_right (fun (b : bool) acc => (if b then p else 1 - p) * acc) 1 w.
Definition spot_after (s0 u : R) (w : list bool) : R := fold_left (fun s (b : bool) => if b then s * u else s / u) w s0.
(** number of moves before the holder exercises; at expiry the option is exercised or lapses *)
Fixpoint exercise_time (policy : list bool -> bool) (seen w : list bool) : nat :=
  match w with [] => 0%nat | b :: w' => if policy seen then 0%nat else S (exercise_time policy (seen ++ [b]) w') end.
Definition policy_value (ty : option_type) (s0 k T r sigma q : R) (n : nat) (policy : list bool -> bool) : R :=
  let dt := T / INR n in let u := exp (sigma * sqrt dt) in let p := (exp ((r - q) * dt) - / u) / (u - / u) in
  rsum (map (fun w => let t := exercise_time policy [] w in
    path_probability p w * (exp (- r * (INR t * dt)) * intrinsic ty (spot_after s0 u (firstn t w)) k)) (paths n)).

Section Policy.
  Variables (ty : option_type) (s0 k u p disc : R).
  Hypothesis Hp : 0 <= p <= 1.
  Hypothesis Hd : 0 < disc.
  Hypothesis Hu : 0 < u.
  Definition ups (w : list bool) : nat := count_occ Bool.bool_dec w true.
  Definition V (policy : list bool -> bool) (seen : list bool) (m : nat) : R :=
    rsum (map (fun w => path_probability p w * (disc ^ exercise_time policy seen w * payoff ty (spot_after s0 u (seen ++ firstn (exercise_time policy seen w) w)) k)) (paths m)).
  Lemma prob_total m : rsum (map (path_probability p) (paths m)) = 1.
  Proof.
    induction m as [|m IH]; [cbn; ring|]. cbn [paths]. rewrite map_app, rsum_app, !map_map. cbn [path_probability fold_right].
    rewrite !(@rsum_map_scale _ (path_probability p)), IH. ring.
  Qed.
  Lemma ups_le w : (ups w <= length w)%nat. Proof. apply count_occ_bound. Qed.
  Lemma spot_node w : spot_after s0 u w = node s0 u (1 / u) (length w) (ups w).
  Proof.
    induction w as [|b w IH] using rev_ind. { unfold node. cbn. ring. }
    unfold spot_after in *. rewrite fold_left_app, IH. cbn [fold_left]. unfold ups. rewrite count_occ_app, app_length. cbn [length count_occ].
    fold (ups w). pose proof (ups_le w). destruct b; cbn [Bool.bool_dec]; unfold node.
    - destruct (Bool.bool_dec true true); [|congruence]. replace (length w + 1 - (ups w + 1))%nat with (length w - ups w)%nat by lia.
      rewrite (Nat.add_1_r (ups w)). cbn [pow]. ring.
    - destruct (Bool.bool_dec false true); [congruence|]. rewrite Nat.add_0_r. replace (length w + 1 - ups w)%nat with (S (length w - ups w)) by lia. cbn [pow]. field. lra.
  Qed.
  Lemma V_stop policy seen m : policy seen = true \/ m = 0%nat -> V policy seen m = payoff ty (node s0 u (1 / u) (length seen) (ups seen)) k.
  Proof.
    intros H. unfold V. rewrite <- spot_node. transitivity (payoff ty (spot_after s0 u seen) k * rsum (map (path_probability p) (paths m))); [|rewrite prob_total; ring].
    rewrite <- rsum_map_scale. apply rsum_map_ext. intros w Hw. replace (exercise_time policy seen w) with 0%nat.
    - cbn [firstn pow]. rewrite app_nil_r. ring.
    - destruct w as [|b w]; auto. cbn [exercise_time]. destruct H as [->| ->]; auto. destruct Hw as [Hw|[]]. discriminate.
  Qed.
  Lemma V_go policy seen m : policy seen = false -> V policy seen (S m) = disc * (p * V policy (seen ++ [true]) m + (1 - p) * V policy (seen ++ [false]) m).
  Proof.
    intros H. unfold V. cbn [paths]. rewrite map_app, rsum_app, !map_map, Rmult_plus_distr_l, <- !Rmult_assoc, <- !rsum_map_scale.
    f_equal; apply rsum_map_ext; intros w _; cbn [exercise_time path_probability fold_right]; rewrite H; cbn [pow firstn]; rewrite <- app_assoc; cbn [app]; fold (path_probability p w); ring.
  Qed.
  Local Notation A := (tree ty American s0 k u (1 / u) p disc).
  Lemma ups_true w : ups (w ++ [true]) = S (ups w).
  Proof. unfold ups. rewrite count_occ_app. cbn. lia. Qed.
  Lemma ups_false w : ups (w ++ [false]) = ups w.
  Proof. unfold ups. rewrite count_occ_app. cbn. lia. Qed.
  Lemma len1 (w : list bool) b : length (w ++ [b]) = S (length w).
  Proof. rewrite app_length. cbn. lia. Qed.
  Lemma policy_le m : forall policy seen, V policy seen m <= A m (length seen) (ups seen).
  Proof.
    induction m as [|m IH]; intros policy seen; [rewrite V_stop by auto; right; reflexivity|].
    cbn [tree exercise_value]. destruct (policy seen) eqn:E; [rewrite V_stop by auto; apply Rmax_r|]. rewrite V_go by exact E.
    eapply Rle_trans; [|apply Rmax_l]. pose proof (IH policy (seen ++ [true])) as H1. pose proof (IH policy (seen ++ [false])) as H2.
    rewrite ups_true, len1 in H1. rewrite ups_false, len1 in H2. apply Rmult_le_compat_l; [lra|]. apply Rplus_le_compat; apply Rmult_le_compat_l; lra.
  Qed.
  (** exercise as soon as the immediate value is at least that of holding on *)
  Definition greedy (n : nat) (seen : list bool) : bool :=
    if Rle_dec (A (n - length seen) (length seen) (ups seen)) (payoff ty (node s0 u (1 / u) (length seen) (ups seen)) k) then true else false.
  Lemma greedy_eq n m : forall seen, (length seen + m = n)%nat -> V (greedy n) seen m = A m (length seen) (ups seen).
  Proof.
    induction m as [|m IH]; intros seen Hn; [rewrite V_stop by auto; reflexivity|].
    assert (Em : (n - length seen)%nat = S m) by lia. destruct (greedy n seen) eqn:E.
    - rewrite V_stop by auto. unfold greedy in E. rewrite Em in E. destruct (Rle_dec _ _) as [H|H]; [|discriminate].
      apply Rle_antisym; [apply american_ge_intrinsic|exact H].
    - rewrite V_go by exact E. rewrite !IH by (rewrite len1; lia). rewrite !len1, ups_true, ups_false. cbn [tree exercise_value].
      unfold greedy in E. rewrite Em in E. destruct (Rle_dec _ _) as [H|H]; [discriminate|]. cbn [tree exercise_value] in H.
      unfold Rmax in *. destruct (Rle_dec _ _); [|reflexivity]. exfalso. apply H. lra.
  Qed.
End Policy.

Lemma policy_value_V ty s0 k T r sigma q n policy : (0 < n)%nat -> let dt := T / INR n in let u := exp (sigma * sqrt dt) in
  policy_value ty s0 k T r sigma q n policy = V ty s0 k u ((exp ((r - q) * dt) - 1 / u) / (u - 1 / u)) (exp (- r * dt)) policy [] n.
Proof.
  intros Hn dt u. unfold policy_value, V. cbv zeta. fold dt. fold u. replace (1 / u) with (/ u) by (unfold Rdiv; ring). apply rsum_map_ext. intros w _.
  rewrite <- payoff_intrinsic. cbn [app]. rewrite exp_pow. do 2 f_equal. f_equal. ring.
Qed.

(** no exercise policy is worth more than the American price, and one is worth that much *)
Theorem c73_american_is_best_exercise ty s0 k T r sigma q fut n : tree_sound T r sigma (carry r q fut) n ->
  exists am, binom_option_price ty American s0 k T r sigma q fut n = Ok am
    /\ (forall policy, policy_value ty s0 k T r sigma (carry r q fut) n policy <= am)
    /\ (exists policy, policy_value ty s0 k T r sigma (carry r q fut) n policy = am).
Proof.
  intros (HT & Hg & Hn & Hb). eexists. split; [apply binom_is_tree; exact Hn|]. cbv zeta.
  pose proof (proj2 (c73_probability r (carry r q fut) HT Hg Hn) Hb) as Hp. pose proof (exp_pos (sigma * sqrt (T / INR n))) as Hu.
  pose proof (exp_pos (- r * (T / INR n))) as Hd. split.
  - intros policy. rewrite policy_value_V by exact Hn. cbv zeta. apply (@policy_le ty s0 k _ _ _ Hp Hd Hu n policy []).
  - eexists (greedy ty s0 k _ _ _ n). rewrite policy_value_V by exact Hn. cbv zeta. apply (@greedy_eq ty s0 k _ _ _ Hu n n []). reflexivity.
Qed.
(** the European price is the value of never exercising before expiry *)
Theorem c73_european_never_exercises ty s0 k T r sigma q fut n : tree_sound T r sigma (carry r q fut) n ->
  binom_option_price ty European s0 k T r sigma q fut n = Ok (policy_value ty s0 k T r sigma (carry r q fut) n (fun _ => false)).
Proof.
  intros (HT & Hg & Hn & Hb). rewrite binom_is_tree by exact Hn. f_equal. cbv zeta.
  pose proof (proj2 (c73_probability r (carry r q fut) HT Hg Hn) Hb) as Hp. pose proof (exp_pos (sigma * sqrt (T / INR n))) as Hu.
  pose proof (exp_pos (- r * (T / INR n))) as Hd. rewrite policy_value_V by exact Hn. cbv zeta.
  set (u := exp (sigma * sqrt (T / INR n))) in *. set (p := (exp ((r - carry r q fut) * (T / INR n)) - 1 / u) / (u - 1 / u)) in *. set (disc := exp (- r * (T / INR n))) in *.
  enough (H : forall m seen, tree ty European s0 k u (1 / u) p disc m (length seen) (ups seen) = V ty s0 k u p disc (fun _ => false) seen m) by apply (H n []).
  induction m as [|m IH]; intros seen; [rewrite (@V_stop ty s0 k u p disc) by auto; reflexivity|].
  rewrite (@european_tree_S s0 k u (1 / u) p disc) by auto. rewrite (@V_go ty s0 k u p disc) by reflexivity. rewrite <- !IH, !len1, ups_true, ups_false. reflexivity.
Qed.
(** a policy that depends on the moves: exercise after two downs *)
Example c73_policy_ex : map (exercise_time (fun seen => (count_occ Bool.bool_dec seen false =? 2)%nat) []) (paths 3) = [3; 3; 3; 3; 3; 3; 2; 2]%nat.
Proof. reflexivity. Qed.
Print Assumptions c73_american_is_best_exercise.
Print Assumptions c73_european_never_exercises.
