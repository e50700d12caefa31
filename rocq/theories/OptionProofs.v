(** Proofs about the option models. *)
From Verif Require Import Py RNum Normal OptionModel.
Set Implicit Arguments.
Unset Strict Implicit.
Open Scope R_scope.

(** ** Black-Scholes in forward form: present values A (asset), B (strike), total volatility s *)
Definition bsD (A B s : R) : R := (ln A - ln B) * / s + s / 2.
Definition bs (cdf : R -> R) (A B s : R) : R := A * cdf (bsD A B s) - B * cdf (bsD A B s - s).

Section BS.
  Variable cdf : R -> R.
  Hypothesis N : is_normal_cdf cdf.
  Lemma bell_identity A B s : 0 < A -> 0 < B -> 0 < s -> A * bell (bsD A B s) = B * bell (bsD A B s - s).
  Proof.
    intros HA HB Hs. rewrite <- (exp_ln A HA) at 1. rewrite <- (exp_ln B HB) at 2. unfold bell. rewrite <- !exp_plus. f_equal. unfold bsD. field. lra.
  Qed.
  Lemma bs_spot_derivative A B s : 0 < A -> 0 < B -> 0 < s -> derivable_pt_lim (fun A => bs cdf A B s) A (cdf (bsD A B s)).
  Proof.
    intros HA HB Hs. destruct (nc_derivative N) as (c & Hc & Hd). pose proof (@bell_identity A B s HA HB Hs) as Id.
    assert (HD : derivable_pt_lim (fun A => bsD A B s) A (/ A * / s)).
    { unfold bsD. replace (/ A * / s) with ((/ A - 0) * / s + (ln A - ln B) * 0 + 0) by ring.
      apply (derivable_pt_lim_plus (fun A => (ln A - ln B) * / s) (fun _ => s / 2)); [|apply derivable_pt_lim_const].
      apply (derivable_pt_lim_mult (fun A => ln A - ln B) (fun _ => / s)); [|apply derivable_pt_lim_const].
      apply (derivable_pt_lim_minus ln (fun _ => ln B)); [now apply derivable_pt_lim_ln|apply derivable_pt_lim_const]. }
    assert (HD2 : derivable_pt_lim (fun A => bsD A B s - s) A (/ A * / s - 0)) by (apply (derivable_pt_lim_minus (fun A => bsD A B s) (fun _ => s)); auto; apply derivable_pt_lim_const).
    pose proof (derivable_pt_lim_comp (fun A => bsD A B s) cdf A _ _ HD (Hd _)) as C1. pose proof (derivable_pt_lim_comp (fun A => bsD A B s - s) cdf A _ _ HD2 (Hd _)) as C2.
    pose proof (derivable_pt_lim_mult id _ A 1 _ (derivable_pt_lim_id A) C1) as M1.
    pose proof (derivable_pt_lim_scal _ B A _ C2) as M2. pose proof (derivable_pt_lim_minus _ _ A _ _ M1 M2) as M.
    unfold id, comp, mult_fct, minus_fct, mult_real_fct in M. cbv beta in M.
    replace (cdf (bsD A B s)) with (1 * cdf (bsD A B s) + A * (c * bell (bsD A B s) * (/ A * / s)) - B * (c * bell (bsD A B s - s) * (/ A * / s - 0))); [exact M|].
    replace (A * (c * bell (bsD A B s) * (/ A * / s))) with (A * bell (bsD A B s) * (c * (/ A * / s))) by ring.
    replace (B * (c * bell (bsD A B s - s) * (/ A * / s - 0))) with (B * bell (bsD A B s - s) * (c * (/ A * / s))) by ring. rewrite Id. ring.
  Qed.
  Lemma bs_strike_derivative A B s : 0 < A -> 0 < B -> 0 < s -> derivable_pt_lim (fun B => bs cdf A B s) B (- cdf (bsD A B s - s)).
  Proof.
    intros HA HB Hs. destruct (nc_derivative N) as (c & Hc & Hd). pose proof (@bell_identity A B s HA HB Hs) as Id.
    assert (HD : derivable_pt_lim (fun B => bsD A B s) B (- / B * / s)).
    { unfold bsD. replace (- / B * / s) with ((0 - / B) * / s + (ln A - ln B) * 0 + 0) by ring.
      apply (derivable_pt_lim_plus (fun B => (ln A - ln B) * / s) (fun _ => s / 2)); [|apply derivable_pt_lim_const].
      apply (derivable_pt_lim_mult (fun B => ln A - ln B) (fun _ => / s)); [|apply derivable_pt_lim_const].
      apply (derivable_pt_lim_minus (fun _ => ln A) ln); [apply derivable_pt_lim_const|now apply derivable_pt_lim_ln]. }
    assert (HD2 : derivable_pt_lim (fun B => bsD A B s - s) B (- / B * / s - 0)) by (apply (derivable_pt_lim_minus (fun B => bsD A B s) (fun _ => s)); auto; apply derivable_pt_lim_const).
    pose proof (derivable_pt_lim_comp (fun B => bsD A B s) cdf B _ _ HD (Hd _)) as C1. pose proof (derivable_pt_lim_comp (fun B => bsD A B s - s) cdf B _ _ HD2 (Hd _)) as C2.
    pose proof (derivable_pt_lim_scal _ A B _ C1) as M1.
    pose proof (derivable_pt_lim_mult id _ B 1 _ (derivable_pt_lim_id B) C2) as M2. pose proof (derivable_pt_lim_minus _ _ B _ _ M1 M2) as M.
    unfold id, comp, mult_fct, minus_fct, mult_real_fct in M. cbv beta in M.
    replace (- cdf (bsD A B s - s)) with (A * (c * bell (bsD A B s) * (- / B * / s)) - (1 * cdf (bsD A B s - s) + B * (c * bell (bsD A B s - s) * (- / B * / s - 0)))); [exact M|].
    replace (A * (c * bell (bsD A B s) * (- / B * / s))) with (A * bell (bsD A B s) * (c * (- / B * / s))) by ring.
    replace (B * (c * bell (bsD A B s - s) * (- / B * / s - 0))) with (B * bell (bsD A B s - s) * (c * (- / B * / s))) by ring. rewrite Id. ring.
  Qed.
  Lemma bs_vol_derivative : exists c, 0 < c /\ forall A B s, 0 < A -> 0 < B -> 0 < s -> derivable_pt_lim (fun s => bs cdf A B s) s (c * (A * bell (bsD A B s))).
  Proof.
    destruct (nc_derivative N) as (c & Hc & Hd). exists c. split; auto. intros A B s HA HB Hs. pose proof (@bell_identity A B s HA HB Hs) as Id.
    set (D' := (ln A - ln B) * - / (s * s) + / 2).
    assert (HD : derivable_pt_lim (fun s => bsD A B s) s D').
    { unfold bsD, D'. apply (derivable_pt_lim_plus (fun s => (ln A - ln B) * / s) (fun s => s / 2)).
      - pose proof (derivable_pt_lim_div (fun _ => ln A - ln B) id s 0 1 (derivable_pt_lim_const _ _) (derivable_pt_lim_id s) ltac:(unfold id; lra)) as Hi.
        unfold id, div_fct, Rsqr, Rdiv in Hi. cbv beta in Hi. replace ((ln A - ln B) * - / (s * s)) with ((0 * s - 1 * (ln A - ln B)) * / (s * s)) by ring. exact Hi.
      - replace (/ 2) with (1 * / 2 + s * 0) by ring. unfold Rdiv. apply (derivable_pt_lim_mult id (fun _ => / 2)); [apply derivable_pt_lim_id|apply derivable_pt_lim_const]. }
    assert (HD2 : derivable_pt_lim (fun s => bsD A B s - s) s (D' - 1)) by (apply (derivable_pt_lim_minus (fun s => bsD A B s) id); auto; apply derivable_pt_lim_id).
    pose proof (derivable_pt_lim_comp (fun s => bsD A B s) cdf s _ _ HD (Hd _)) as C1. pose proof (derivable_pt_lim_comp (fun s => bsD A B s - s) cdf s _ _ HD2 (Hd _)) as C2.
    pose proof (derivable_pt_lim_scal _ A s _ C1) as M1. pose proof (derivable_pt_lim_scal _ B s _ C2) as M2. pose proof (derivable_pt_lim_minus _ _ s _ _ M1 M2) as M.
    unfold id, comp, mult_fct, minus_fct, mult_real_fct in M. cbv beta in M.
    replace (c * (A * bell (bsD A B s))) with (A * (c * bell (bsD A B s) * D') - B * (c * bell (bsD A B s - s) * (D' - 1))); [exact M|].
    replace (A * (c * bell (bsD A B s) * D') - B * (c * bell (bsD A B s - s) * (D' - 1))) with (c * D' * (A * bell (bsD A B s) - B * bell (bsD A B s - s)) + c * (B * bell (bsD A B s - s))) by ring.
    rewrite Id. ring.
  Qed.
  Lemma bs_spot_increasing A1 A2 B s : 0 < A1 -> A1 < A2 -> 0 < B -> 0 < s -> bs cdf A1 B s < bs cdf A2 B s.
  Proof.
    intros HA HA2 HB Hs. destruct (MVT_cor2 (fun A => bs cdf A B s) (fun A => cdf (bsD A B s)) A1 A2 HA2) as (c & E & Hc).
    - intros c Hc. apply bs_spot_derivative; lra.
    - pose proof (nc_pos N (bsD c B s)). nra.
  Qed.
  Lemma bs_strike_decreasing A B1 B2 s : 0 < A -> 0 < B1 -> B1 < B2 -> 0 < s -> bs cdf A B2 s < bs cdf A B1 s.
  Proof.
    intros HA HB HB2 Hs. destruct (MVT_cor2 (fun B => bs cdf A B s) (fun B => - cdf (bsD A B s - s)) B1 B2 HB2) as (c & E & Hc).
    - intros c Hc. apply bs_strike_derivative; lra.
    - pose proof (nc_pos N (bsD A c s - s)). nra.
  Qed.
  Lemma bs_vol_increasing A B s1 s2 : 0 < A -> 0 < B -> 0 < s1 -> s1 < s2 -> bs cdf A B s1 < bs cdf A B s2.
  Proof.
    intros HA HB Hs Hs2. destruct bs_vol_derivative as (c & Hc & Hd). destruct (MVT_cor2 (fun s => bs cdf A B s) (fun s => c * (A * bell (bsD A B s))) s1 s2 Hs2) as (x & E & Hx).
    - intros x Hx. apply Hd; lra.
    - pose proof (bell_pos (bsD A B x)). assert (0 < A * bell (bsD A B x)) by now apply Rmult_lt_0_compat. assert (0 < c * (A * bell (bsD A B x))) by now apply Rmult_lt_0_compat. nra.
  Qed.
  Lemma bsD_swap A B s : 0 < s -> bsD B A s = - (bsD A B s - s) /\ bsD B A s - s = - bsD A B s.
  Proof. intros Hs. unfold bsD. split; field; lra. Qed.
  (** the put is the call with asset and strike exchanged *)
  Lemma bs_put A B s : 0 < s -> - A * cdf (- bsD A B s) + B * cdf (- (bsD A B s - s)) = bs cdf B A s.
  Proof. intros Hs. unfold bs. destruct (@bsD_swap A B s Hs) as [-> ->]. ring. Qed.
  Lemma bs_parity A B s : 0 < s -> bs cdf A B s - bs cdf B A s = A - B.
  Proof. intros Hs. rewrite <- (@bs_put A B s Hs). unfold bs. rewrite !(nc_symmetry N). ring. Qed.
  Lemma bsD_mono A1 A2 B s : 0 < A1 -> A1 <= A2 -> 0 < s -> bsD A1 B s <= bsD A2 B s.
  Proof.
    intros HA H Hs. unfold bsD. assert (ln A1 <= ln A2) by (destruct H as [H| ->]; [left; now apply ln_increasing|right; reflexivity]).
    apply Rplus_le_compat_r, Rmult_le_compat_r; [left; now apply Rinv_0_lt_compat|lra].
  Qed.
  Lemma bs_positive A B s : 0 < A -> 0 < B -> 0 < s -> 0 < bs cdf A B s.
  Proof.
    intros HA HB Hs. destruct (Rlt_le_dec 0 (bs cdf A B s)) as [H|H]; auto. exfalso.
    assert (H1 : bs cdf (A / 2) B s < bs cdf A B s) by (apply bs_spot_increasing; lra).
    set (e := - bs cdf (A / 2) B s). assert (He : 0 < e) by (unfold e; lra).
    assert (HeB : 0 < e / B) by now apply Rdiv_lt_0_compat. destruct (nc_limit N HeB) as (x & Hx).
    set (A0 := exp (ln B + s * (x + s / 2))). assert (HA0 : 0 < A0) by apply exp_pos.
    assert (ED : bsD A0 B s - s = x) by (unfold bsD, A0; rewrite ln_exp; field; lra).
    set (Am := Rmin (A / 4) A0). assert (Hm : 0 < Am) by (apply Rmin_glb_lt; lra).
    assert (H2 : bs cdf Am B s < bs cdf (A / 2) B s) by (apply bs_spot_increasing; auto; pose proof (Rmin_l (A / 4) A0); unfold Am; lra).
    pose proof (@bsD_mono Am A0 B s Hm (Rmin_r _ _) Hs) as HD. assert (Hl : cdf (bsD Am B s - s) <= cdf x) by (apply (normal_increasing_le N); lra).
    unfold bs in H2 at 1. pose proof (nc_pos N (bsD Am B s)). assert (B * cdf x < e) by (apply Rmult_lt_compat_l with (r := B) in Hx; auto; replace (B * (e / B)) with e in Hx by (field; lra); exact Hx).
    assert (0 < Am * cdf (bsD Am B s)) by (apply Rmult_lt_0_compat; auto). assert (B * cdf (bsD Am B s - s) <= B * cdf x) by (apply Rmult_le_compat_l; lra). unfold e in *. lra.
  Qed.
  Lemma bs_lt_spot A B s : 0 < A -> 0 < B -> bs cdf A B s < A.
  Proof. intros HA HB. unfold bs. pose proof (nc_pos N (bsD A B s - s)). pose proof (normal_lt_1 N (bsD A B s)). nra. Qed.
End BS.

(** ** The binomial tree as a recursive value *)
Section Tree.
  Variables (ty : option_type) (ex : exercise) (s0 k u d p disc : R).
  Definition exercise_value (i j : nat) : R := match ex with American => payoff ty (node s0 u d i j) k | European => 0 end.
  (** value at level [i], after [j] ups, with [m] steps to go *)
  Fixpoint tree (m i j : nat) : R := match m with
    | O => payoff ty (node s0 u d i j) k
    | S m' => Rmax (disc * (p * tree m' (S i) (S j) + (1 - p) * tree m' (S i) j)) (exercise_value i j)
    end.
  Lemma nth_seq_map' (f : nat -> R) n j : (j < n)%nat -> nth j (map f (seq 0 n)) 0 = f j.
  Proof. intros H. rewrite (nth_indep _ 0 (f 0%nat)) by (rewrite map_length, seq_length; exact H). rewrite map_nth, seq_nth by exact H. reflexivity. Qed.
  Lemma back_level_tree m i : back_level ty ex s0 k u d p disc i (map (tree m (S i)) (seq 0 (S (S i)))) = map (tree (S m) i) (seq 0 (S i)).
  Proof. unfold back_level. apply map_ext_in. intros j Hj. apply in_seq in Hj. rewrite !nth_seq_map' by lia. reflexivity. Qed.
  Lemma levels_tree i : forall m, levels ty ex s0 k u d p disc i (map (tree m i) (seq 0 (S i))) = [tree (m + i) 0 0].
  Proof.
    induction i as [|i IH]; intros m. { cbn [levels seq map]. rewrite Nat.add_0_r. reflexivity. }
    cbn [levels]. rewrite back_level_tree, IH. do 2 f_equal. lia.
  Qed.
  Lemma price_tree n : nth 0 (levels ty ex s0 k u d p disc n (last_level ty s0 k u d n)) 0 = tree n 0 0.
  Proof. change (last_level ty s0 k u d n) with (map (tree 0 n) (seq 0 (S n))). rewrite levels_tree. reflexivity. Qed.
End Tree.

Lemma payoff_nonneg ty s k : 0 <= payoff ty s k. Proof. destruct ty; apply Rmax_r. Qed.
Lemma payoff_parity s k : payoff Call s k - payoff Put s k = s - k.
Proof. unfold payoff, Rmax. destruct (Rle_dec (s - k) 0), (Rle_dec (k - s) 0); lra. Qed.
Lemma node_up s0 u d i j : (j <= i)%nat -> node s0 u d (S i) (S j) = u * node s0 u d i j.
Proof. intros H. unfold node. cbn [Nat.sub pow]. ring. Qed.
Lemma node_down s0 u d i j : (j <= i)%nat -> node s0 u d (S i) j = d * node s0 u d i j.
Proof. intros H. unfold node. rewrite Nat.sub_succ_l by exact H. cbn [pow]. ring. Qed.

(** the binomial expectation of a function of the number of ups *)
Fixpoint binomial (n l : nat) : nat := match n, l with _, O => 1 | O, S _ => 0 | S n', S l' => binomial n' l' + binomial n' l end%nat.
Definition binomial_expectation (p : R) (m : nat) (g : nat -> R) : R := rsum (map (fun l => INR (binomial m l) * p ^ l * (1 - p) ^ (m - l) * g l) (seq 0 (S m))).
Lemma binomial_0_r n : binomial n 0 = 1%nat. Proof. now destruct n. Qed.
Lemma binomial_gt n : forall l, (n < l)%nat -> binomial n l = 0%nat.
Proof. induction n as [|n IH]; intros [|l] H; cbn [binomial]; try lia. rewrite !IH by lia. reflexivity. Qed.
Lemma rsum_S_first (f : nat -> R) n : rsum (map f (seq 0 (S n))) = f 0%nat + rsum (map (fun l => f (S l)) (seq 0 n)).
Proof. cbn [seq map rsum fold_right]. rewrite <- seq_shift, map_map. reflexivity. Qed.
Lemma rsum_S_last (f : nat -> R) n : rsum (map f (seq 0 (S n))) = rsum (map f (seq 0 n)) + f n.
Proof. rewrite seq_S, map_app, rsum_app. cbn. ring. Qed.
Lemma rsum_ext_in (f g : nat -> R) l : (forall x, In x l -> f x = g x) -> rsum (map f l) = rsum (map g l).
Proof. intros H. f_equal. now apply map_ext_in. Qed.
Lemma rsum_scale (c : R) (f : nat -> R) l : rsum (map (fun x => c * f x) l) = c * rsum (map f l).
Proof. induction l as [|x l IH]; cbn; [ring|]. cbn in IH. rewrite IH. ring. Qed.
Lemma rsum_plus (f g : nat -> R) l : rsum (map (fun x => f x + g x) l) = rsum (map f l) + rsum (map g l).
Proof. induction l as [|x l IH]; cbn; [ring|]. cbn in IH. rewrite IH. ring. Qed.
Lemma binomial_expectation_S p m g : binomial_expectation p (S m) g = p * binomial_expectation p m (fun l => g (S l)) + (1 - p) * binomial_expectation p m g.
Proof.
  unfold binomial_expectation. rewrite rsum_S_first.
  rewrite (@rsum_ext_in (fun l => INR (binomial (S m) (S l)) * p ^ S l * (1 - p) ^ (S m - S l) * g (S l))
    (fun l => p * (INR (binomial m l) * p ^ l * (1 - p) ^ (m - l) * g (S l)) + INR (binomial m (S l)) * p ^ S l * (1 - p) ^ (m - l) * g (S l)) (seq 0 (S m))).
  2: { intros l _. cbn [binomial Nat.sub pow]. rewrite plus_INR. ring. }
  rewrite rsum_plus, rsum_scale, (rsum_S_last (fun l => INR (binomial m (S l)) * p ^ S l * (1 - p) ^ (m - l) * g (S l))). rewrite (@binomial_gt m (S m)) by lia.
  rewrite (rsum_S_first (fun l => INR (binomial m l) * p ^ l * (1 - p) ^ (m - l) * g l)). rewrite !binomial_0_r. rewrite !Nat.sub_0_r.
  rewrite (@rsum_ext_in (fun l => INR (binomial m (S l)) * p ^ S l * (1 - p) ^ (m - l) * g (S l)) (fun l => (1 - p) * (INR (binomial m (S l)) * p ^ S l * (1 - p) ^ (m - S l) * g (S l))) (seq 0 m)).
  2: { intros l Hl. apply in_seq in Hl. replace (m - l)%nat with (S (m - S l)) by lia. cbn [pow]. ring. }
  rewrite rsum_scale. cbn [INR pow]. ring.
Qed.

Section TreeFacts.
  Variables (s0 k u d p disc : R).
  Hypothesis Hp : 0 <= p <= 1.
  Hypothesis Hdisc : 0 < disc.
  Local Notation T ty ex := (tree ty ex s0 k u d p disc).
  Lemma tree_nonneg ty ex m i j : 0 <= T ty ex m i j.
  Proof.
    revert i j. induction m as [|m IH]; intros i j; cbn [tree]. { apply payoff_nonneg. }
    destruct ex; cbn [exercise_value]; [eapply Rle_trans; [apply (payoff_nonneg ty)|apply Rmax_r]|apply Rmax_r].
  Qed.
  Lemma hold_nonneg ty ex m i j : 0 <= disc * (p * T ty ex m (S i) (S j) + (1 - p) * T ty ex m (S i) j).
  Proof. pose proof (tree_nonneg ty ex m (S i) (S j)). pose proof (tree_nonneg ty ex m (S i) j). apply Rmult_le_pos; [lra|]. apply Rplus_le_le_0_compat; apply Rmult_le_pos; lra. Qed.
  Lemma european_tree_S ty m i j : T ty European (S m) i j = disc * (p * T ty European m (S i) (S j) + (1 - p) * T ty European m (S i) j).
  Proof. cbn [tree exercise_value]. apply Rmax_left, hold_nonneg. Qed.
  Lemma european_tree_binomial ty m : forall i j, T ty European m i j = disc ^ m * binomial_expectation p m (fun l => payoff ty (node s0 u d (i + m) (j + l)) k).
  Proof.
    induction m as [|m IH]; intros i j.
    - unfold binomial_expectation. cbn. rewrite !Nat.add_0_r. ring.
    - rewrite european_tree_S, binomial_expectation_S, !IH. cbn [pow].
      replace (i + S m)%nat with (S i + m)%nat by lia.
      replace (binomial_expectation p m (fun l => payoff ty (node s0 u d (S i + m) (j + S l)) k)) with (binomial_expectation p m (fun l => payoff ty (node s0 u d (S i + m) (S j + l)) k)).
      + ring.
      + apply rsum_ext_in. intros l _. replace (j + S l)%nat with (S j + l)%nat by lia. reflexivity.
  Qed.
  (** put-call parity node by node, with carry [g] per step *)
  Lemma european_tree_parity g m : disc * (p * u + (1 - p) * d) = g -> forall i j, (j <= i)%nat ->
    T Call European m i j - T Put European m i j = node s0 u d i j * g ^ m - k * disc ^ m.
  Proof.
    intros Hg. induction m as [|m IH]; intros i j Hj. { cbn [tree pow]. rewrite payoff_parity. ring. }
    rewrite !european_tree_S. pose proof (IH (S i) (S j) ltac:(lia)) as H1. pose proof (IH (S i) j ltac:(lia)) as H2.
    rewrite node_up in H1 by exact Hj. rewrite node_down in H2 by exact Hj. cbn [pow]. rewrite <- Hg at 1.
    replace (disc * (p * T Call European m (S i) (S j) + (1 - p) * T Call European m (S i) j) - disc * (p * T Put European m (S i) (S j) + (1 - p) * T Put European m (S i) j))
      with (disc * (p * (T Call European m (S i) (S j) - T Put European m (S i) (S j)) + (1 - p) * (T Call European m (S i) j - T Put European m (S i) j))) by ring.
    rewrite H1, H2. ring.
  Qed.
  Lemma american_ge_european ty m : forall i j, T ty European m i j <= T ty American m i j.
  Proof.
    induction m as [|m IH]; intros i j; [right; reflexivity|]. rewrite european_tree_S. cbn [tree]. eapply Rle_trans; [|apply Rmax_l].
    apply Rmult_le_compat_l; [lra|]. apply Rplus_le_compat; apply Rmult_le_compat_l; try lra; apply IH.
  Qed.
  Lemma american_ge_intrinsic ty m i j : payoff ty (node s0 u d i j) k <= T ty American m i j.
  Proof. destruct m; cbn [tree exercise_value]; [right; reflexivity|apply Rmax_r]. Qed.
  Lemma american_call_european g m : disc * (p * u + (1 - p) * d) = g -> 1 <= g -> disc <= 1 -> 0 <= k -> 0 <= s0 -> 0 <= u -> 0 <= d ->
    forall i j, (j <= i)%nat -> T Call American m i j = T Call European m i j.
  Proof.
    intros Hg H1 Hd Hk Hs Hu Hd0. induction m as [|m IH]; intros i j Hj; [reflexivity|].
    rewrite european_tree_S. cbn [tree exercise_value]. rewrite !IH by lia.
    apply Rmax_left. rewrite <- european_tree_S. unfold payoff. apply Rmax_lub; [|apply tree_nonneg].
    pose proof (@european_tree_parity g (S m) Hg i j Hj) as P. pose proof (tree_nonneg Put European (S m) i j).
    assert (Hn : 0 <= node s0 u d i j) by (unfold node; repeat apply Rmult_le_pos; auto using pow_le).
    assert (1 <= g ^ S m) by now apply pow_R1_Rle. assert (disc ^ S m <= 1) by (rewrite <- (pow1 (S m)); apply pow_incr; lra). nra.
  Qed.
  Lemma american_call_le_spot g m : disc * (p * u + (1 - p) * d) = g -> g <= 1 -> 0 <= k -> 0 <= s0 -> 0 <= u -> 0 <= d -> forall i j, (j <= i)%nat -> T Call American m i j <= node s0 u d i j.
  Proof.
    intros Hg H1 Hk Hs Hu Hd. assert (Hn : forall i j, 0 <= node s0 u d i j) by (intros; unfold node; repeat apply Rmult_le_pos; auto using pow_le).
    assert (Hpay : forall i j, payoff Call (node s0 u d i j) k <= node s0 u d i j) by (intros i j; unfold payoff; apply Rmax_lub; pose proof (Hn i j); lra).
    induction m as [|m IH]; intros i j Hj; cbn [tree exercise_value]; [apply Hpay|]. apply Rmax_lub; [|apply Hpay].
    pose proof (IH (S i) (S j) ltac:(lia)) as A1. pose proof (IH (S i) j ltac:(lia)) as A2. rewrite node_up in A1 by exact Hj. rewrite node_down in A2 by exact Hj.
    apply Rle_trans with (disc * (p * (u * node s0 u d i j) + (1 - p) * (d * node s0 u d i j))).
    - apply Rmult_le_compat_l; [lra|]. apply Rplus_le_compat; apply Rmult_le_compat_l; lra.
    - replace (disc * (p * (u * node s0 u d i j) + (1 - p) * (d * node s0 u d i j))) with (g * node s0 u d i j) by (rewrite <- Hg; ring). pose proof (Hn i j). nra.
  Qed.
  Lemma american_put_le_strike m : disc <= 1 -> 0 <= k -> 0 <= s0 -> 0 <= u -> 0 <= d -> forall i j, T Put American m i j <= k.
  Proof.
    intros H1 Hk Hs Hu Hd. assert (Hpay : forall i j, payoff Put (node s0 u d i j) k <= k).
    { intros i j. assert (0 <= node s0 u d i j) by (unfold node; repeat apply Rmult_le_pos; auto using pow_le). unfold payoff. apply Rmax_lub; lra. }
    induction m as [|m IH]; intros i j; cbn [tree exercise_value]; [apply Hpay|]. apply Rmax_lub; [|apply Hpay].
    pose proof (IH (S i) (S j)) as A1. pose proof (IH (S i) j) as A2.
    assert (p * T Put American m (S i) (S j) + (1 - p) * T Put American m (S i) j <= k) by nra.
    pose proof (tree_nonneg Put American m (S i) (S j)). pose proof (tree_nonneg Put American m (S i) j).
    assert (0 <= p * T Put American m (S i) (S j) + (1 - p) * T Put American m (S i) j) by nra. nra.
  Qed.
End TreeFacts.

(** ** Medians of a constant *)
Lemma rinsert_in x y l : In y (rinsert x l) <-> y = x \/ In y l.
Proof. induction l as [|z l IH]; cbn; [firstorder|]. destruct (Rle_lt_dec x z); cbn; [firstorder|]. rewrite IH. firstorder. Qed.
Lemma rinsert_length x l : length (rinsert x l) = S (length l).
Proof. induction l as [|z l IH]; cbn; auto. destruct (Rle_lt_dec x z); cbn; auto. Qed.
Lemma rsort_in y l : In y (rsort l) <-> In y l.
Proof. induction l as [|z l IH]; cbn; [tauto|]. rewrite rinsert_in, IH. firstorder. Qed.
Lemma rsort_length l : length (rsort l) = length l.
Proof. induction l as [|z l IH]; cbn; auto. fold (rsort l); now rewrite rinsert_length, IH. Qed.
Lemma median_const r l : l <> [] -> (forall x, In x l -> x = r) -> median l = Some r.
Proof.
  intros Hne H. unfold median. assert (Hl : length l <> 0%nat) by (destruct l; [congruence|discriminate]).
  assert (E : (length l =? 0)%nat = false) by (now apply Nat.eqb_neq). rewrite E.
  assert (Hn : forall i, (i < length l)%nat -> nth i (rsort l) 0 = r).
  { intros i Hi. apply H, rsort_in, nth_In. now rewrite rsort_length. }
  assert (length l / 2 < length l)%nat by (apply Nat.div_lt; lia).
  destruct (Nat.even (length l)); rewrite !Hn by lia; f_equal; lra.
Qed.
