(** Proofs about the systematic default model. *)
From Verif Require Import Py RNum Normal OptionModel OptionProofs SysDefaultModel.
Set Implicit Arguments.
Unset Strict Implicit.
Open Scope R_scope.

(** ** Weighted sums of a count vector *)
Fixpoint W (v : list R) (g : nat -> R) : R := match v with [] => 0 | x :: v' => x * g 0%nat + W v' (fun t => g (S t)) end.
Fixpoint E (vs : list (list R)) (g : nat -> R) : R := match vs with [] => g 0%nat | v :: vs' => W v (fun i => E vs' (fun t => g (i + t)%nat)) end.

Lemma W_ext v : forall f g, (forall t, f t = g t) -> W v f = W v g.
Proof. induction v as [|x v IH]; intros f g H; cbn; auto. rewrite H, (IH _ (fun t => g (S t))); auto. Qed.
Lemma E_ext vs : forall f g, (forall t, f t = g t) -> E vs f = E vs g.
Proof. induction vs as [|v vs IH]; intros f g H; cbn; auto. apply W_ext. intros i. apply IH. auto. Qed.
Lemma W_add v : forall f g, W v (fun t => f t + g t) = W v f + W v g.
Proof. induction v as [|x v IH]; intros f g; cbn; [ring|]. rewrite (IH (fun t => f (S t)) (fun t => g (S t))). ring. Qed.
Lemma W_scale c v : forall f, W v (fun t => c * f t) = c * W v f.
Proof. induction v as [|x v IH]; intros f; cbn; [ring|]. rewrite (IH (fun t => f (S t))). ring. Qed.
Lemma W_zero v : W v (fun _ => 0) = 0.
Proof. induction v as [|x v IH]; cbn; [reflexivity|]. rewrite IH. ring. Qed.
Lemma E_add vs : forall f g, E vs (fun t => f t + g t) = E vs f + E vs g.
Proof. induction vs as [|v vs IH]; intros f g; cbn; [reflexivity|]. rewrite <- W_add. apply W_ext. intros i. apply (IH (fun t => f (i + t)%nat) (fun t => g (i + t)%nat)). Qed.
Lemma W_swap a : forall b (F : nat -> nat -> R), W a (fun i => W b (fun j => F i j)) = W b (fun j => W a (fun i => F i j)).
Proof.
  induction a as [|x a IH]; intros b F; cbn. { now rewrite W_zero. }
  rewrite (IH b (fun i j => F (S i) j)), <- (W_scale x b (fun j => F 0%nat j)), <- (W_add b (fun t => x * F 0%nat t) (fun j => W a (fun i => F (S i) j))). reflexivity.
Qed.
Lemma add_at_length v : forall i x, length (add_at v i x) = length v.
Proof. induction v as [|y v IH]; intros [|i] x; cbn; auto. Qed.
Lemma W_add_at v : forall i x g, (i < length v)%nat -> W (add_at v i x) g = W v g + x * g i.
Proof. induction v as [|y v IH]; intros [|i] x g H; cbn in *; [lia|lia|ring|]. rewrite (IH i x (fun t => g (S t))) by lia. ring. Qed.
Lemma W_repeat0 n : forall g, W (repeat 0 n) g = 0.
Proof. induction n as [|n IH]; intros g; cbn; [reflexivity|]. rewrite IH. ring. Qed.
Lemma W_seq v : forall g, W v g = rsum (map (fun t => nth t v 0 * g t) (seq 0 (length v))).
Proof. induction v as [|x v IH]; intros g; cbn [W length seq map rsum]; auto. rewrite IH, <- seq_shift, map_map. reflexivity. Qed.
Lemma fold_add_at (f : nat * nat -> R) l : forall acc g, (forall jk, In jk l -> (fst jk + snd jk < length acc)%nat) ->
  W (fold_left (fun acc jk => add_at acc (fst jk + snd jk) (f jk)) l acc) g = W acc g + rsum (map (fun jk => f jk * g (fst jk + snd jk)%nat) l)
  /\ length (fold_left (fun acc jk => add_at acc (fst jk + snd jk) (f jk)) l acc) = length acc.
Proof.
  induction l as [|jk l IH]; intros acc g H; cbn [fold_left map rsum]; [split; [ring|reflexivity]|].
  destruct (IH (add_at acc (fst jk + snd jk) (f jk)) g) as [E1 E2]. { intros jk' Hin. rewrite add_at_length. apply H. now right. }
  rewrite E1, E2, add_at_length, W_add_at by (apply H; now left). split; [ring|reflexivity].
Qed.
Lemma rsum_list_prod A B (F : A * B -> R) la lb : rsum (map F (list_prod la lb)) = rsum (map (fun a => rsum (map (fun b => F (a, b)) lb)) la).
Proof. induction la as [|a la IH]; cbn [list_prod map rsum]; auto. rewrite map_app, rsum_app, IH, map_map. reflexivity. Qed.
Lemma merge_counts_spec a b : a <> [] -> b <> [] ->
  (forall g, W (merge_counts a b) g = W a (fun j => W b (fun k => g (j + k)%nat))) /\ length (merge_counts a b) = (length a + length b - 1)%nat.
Proof.
  intros Ha Hb. assert (La : (0 < length a)%nat) by (destruct a; [congruence|cbn; lia]). assert (Lb : (0 < length b)%nat) by (destruct b; [congruence|cbn; lia]).
  assert (Hlt : forall jk : nat * nat, In jk (list_prod (seq 0 (length a)) (seq 0 (length b))) -> (fst jk + snd jk < length (repeat 0%R (length a + length b - 2 + 1)))%nat).
  { intros [j k] H. apply in_prod_iff in H. destruct H as [Hj Hk]. apply in_seq in Hj, Hk. rewrite repeat_length. cbn. lia. }
  unfold merge_counts. split.
  - intros g. destruct (@fold_add_at (fun jk => nth (fst jk) a 0 * nth (snd jk) b 0) _ _ g Hlt) as [-> _].
    rewrite W_repeat0, Rplus_0_l, rsum_list_prod, W_seq. apply rsum_map_ext. intros j _. rewrite W_seq, <- rsum_map_scale. apply rsum_map_ext. intros k _. cbn [fst snd]. ring.
  - destruct (@fold_add_at (fun jk => nth (fst jk) a 0 * nth (snd jk) b 0) _ _ (fun _ => 0) Hlt) as [_ ->]. rewrite repeat_length. lia.
Qed.
Definition nonempty_all (vs : list (list R)) : Prop := forall v, In v vs -> v <> [].
Definition spare (vs : list (list R)) : nat := list_sum (map (fun v => length v - 1)%nat vs).
Lemma list2_ind A (P : list A -> Prop) : P [] -> (forall a, P [a]) -> (forall a b l, P l -> P (a :: b :: l)) -> forall l, P l.
Proof. intros H0 H1 H2 l. enough (P l /\ forall a, P (a :: l)) by tauto. induction l as [|a l [IH1 IH2]]; split; auto. Qed.
Lemma merge_pairs_spec vs : nonempty_all vs -> nonempty_all (merge_pairs vs) /\ (forall g, E (merge_pairs vs) g = E vs g) /\ spare (merge_pairs vs) = spare vs
  /\ (merge_pairs vs = [] <-> vs = []) /\ (length (merge_pairs vs) <= length vs)%nat /\ ((1 < length vs)%nat -> (length (merge_pairs vs) < length vs)%nat).
Proof.
  induction vs as [|a|a b l IH] using list2_ind; intros H.
  - cbn. repeat split; auto; lia.
  - cbn. repeat split; auto; lia.
  - assert (Ha : a <> []) by (apply H; now left). assert (Hb : b <> []) by (apply H; right; now left). destruct (merge_counts_spec Ha Hb) as [HW HL].
    destruct IH as (I1 & I2 & I3 & I4 & I5 & I6). { intros v Hv. apply H. right. now right. }
    assert (La : (0 < length a)%nat) by (destruct a; [congruence|cbn; lia]). assert (Lb : (0 < length b)%nat) by (destruct b; [congruence|cbn; lia]).
    cbn [merge_pairs length]. split; [|split; [|split; [|split; [split; discriminate|lia]]]].
    + intros v [<-|Hv]; [|now apply I1]. intros E0. rewrite E0 in HL. cbn in HL. lia.
    + intros g. cbn [E]. rewrite HW. apply W_ext. intros j. apply W_ext. intros k. rewrite I2. apply E_ext. intros t. now rewrite Nat.add_assoc.
    + unfold spare in *. cbn [map list_sum fold_right]. change (fold_right plus 0%nat) with list_sum. rewrite I3. lia.
Qed.
Lemma merge_all_spec fuel : forall vs, nonempty_all vs -> vs <> [] -> (length vs <= fuel)%nat ->
  exists v, merge_all fuel vs = [v] /\ (forall g, W v g = E vs g) /\ length v = S (spare vs).
Proof.
  induction fuel as [|f IH]; intros vs H Hne Hlen. { destruct vs; [congruence|cbn in Hlen; lia]. }
  destruct (merge_pairs_spec H) as (I1 & I2 & I3 & I4 & I5 & I6). cbn [merge_all]. destruct (1 <? length vs)%nat eqn:E1.
  - apply Nat.ltb_lt in E1. specialize (I6 E1). destruct (IH (merge_pairs vs) I1) as (v & -> & HW & HL); [intros H0; apply Hne; now apply I4|lia|].
    exists v. rewrite HL, I3. split; auto. split; auto. intros g. now rewrite HW, I2.
  - apply Nat.ltb_ge in E1. destruct vs as [|v [|w vs]]; [congruence| |cbn in E1; lia]. exists v. split; auto. split.
    + intros g. cbn. apply W_ext. intros i. now rewrite Nat.add_0_r.
    + assert (v <> []) by (apply H; now left). destruct v; [congruence|]. cbn. lia.
Qed.
Lemma E_swap a b vs g : E (a :: b :: vs) g = E (b :: a :: vs) g.
Proof. cbn [E]. rewrite W_swap. apply W_ext. intros j. apply W_ext. intros i. apply E_ext. intros t. f_equal. lia. Qed.
Lemma E_perm vs ws : Permutation vs ws -> forall g, E vs g = E ws g.
Proof. induction 1 as [|v vs ws _ IH|a b vs|? ? ? _ IH1 _ IH2]; intros g; auto; [cbn; apply W_ext; intros i; apply IH|apply E_swap|now rewrite IH1]. Qed.
Lemma W_indicator v : forall m, W v (fun t => if (t =? m)%nat then 1 else 0) = nth m v 0.
Proof.
  induction v as [|x v IH]; intros [|m]; cbn [W nth Nat.eqb]; auto.
  - rewrite W_zero. ring.
  - rewrite (IH m). ring.
Qed.

(** ** Least squares *)
Section OLS.
  Variables (A : Type) (fy fx : A -> R) (l : list A).
  Hypothesis Hl : l <> [].
  Let my := rmean (map fy l).
  Let mx := rmean (map fx l).
  Let sxx := rsum (map (fun a => (fx a - mx) * (fx a - mx)) l).
  Let b := rsum (map (fun a => (fy a - my) * (fx a - mx)) l) / sxx.
  Lemma sum_centered (f : A -> R) : rsum (map (fun a => f a - rmean (map f l)) l) = 0.
  Proof. rewrite (@rsum_map_sub _ f (fun _ => rmean (map f l))), rsum_map_const. unfold rmean. rewrite map_length. field. apply not_0_INR. destruct l; [congruence|discriminate]. Qed.
  Lemma ols_resid_sum : rsum (map (fun a => fy a - (my - b * mx + b * fx a)) l) = 0.
  Proof.
    rewrite (@rsum_map_ext _ _ (fun a => (fy a - my) - b * (fx a - mx))) by (intros; ring). rewrite rsum_map_sub, rsum_map_scale. unfold my, mx. rewrite !sum_centered. ring.
  Qed.
  Lemma ols_resid_orth : sxx <> 0 -> rsum (map (fun a => (fy a - (my - b * mx + b * fx a)) * fx a) l) = 0.
  Proof.
    intros Hs. rewrite (@rsum_map_ext _ _ (fun a => ((fy a - my) * (fx a - mx) - b * ((fx a - mx) * (fx a - mx))) + mx * (fy a - (my - b * mx + b * fx a)))) by (intros; ring).
    rewrite (@rsum_map_add _ (fun a => (fy a - my) * (fx a - mx) - b * ((fx a - mx) * (fx a - mx))) (fun a => mx * (fy a - (my - b * mx + b * fx a)))), rsum_map_scale, ols_resid_sum.
    rewrite (@rsum_map_sub _ (fun a => (fy a - my) * (fx a - mx)) (fun a => b * ((fx a - mx) * (fx a - mx)))), rsum_map_scale. fold sxx. unfold b. field. exact Hs.
  Qed.
  Lemma sse_split e c d a' b' : (forall a, In a l -> fy a - (c + d * fx a) = e a) -> rsum (map e l) = 0 -> rsum (map (fun a => e a * fx a) l) = 0 ->
    rsum (map (fun a => (fy a - (c + d * fx a)) * (fy a - (c + d * fx a))) l) <= rsum (map (fun a => (fy a - (a' + b' * fx a)) * (fy a - (a' + b' * fx a))) l).
  Proof.
    intros He H1 H2.
    rewrite (@rsum_map_ext _ (fun a => (fy a - (a' + b' * fx a)) * (fy a - (a' + b' * fx a)))
      (fun a => ((fy a - (c + d * fx a)) * (fy a - (c + d * fx a)) + (2 * (c - a') * e a + 2 * (d - b') * (e a * fx a))) + ((c - a') + (d - b') * fx a) * ((c - a') + (d - b') * fx a))).
    2: { intros a Ha. rewrite <- (He a Ha). ring. }
    rewrite (@rsum_map_add _ (fun a => (fy a - (c + d * fx a)) * (fy a - (c + d * fx a)) + (2 * (c - a') * e a + 2 * (d - b') * (e a * fx a))) (fun a => ((c - a') + (d - b') * fx a) * ((c - a') + (d - b') * fx a))).
    rewrite (@rsum_map_add _ (fun a => (fy a - (c + d * fx a)) * (fy a - (c + d * fx a))) (fun a => 2 * (c - a') * e a + 2 * (d - b') * (e a * fx a))).
    rewrite (@rsum_map_add _ (fun a => 2 * (c - a') * e a) (fun a => 2 * (d - b') * (e a * fx a))), !rsum_map_scale, H1, H2.
    assert (0 <= rsum (map (fun a => ((c - a') + (d - b') * fx a) * ((c - a') + (d - b') * fx a)) l)).
    { apply rsum_nonneg. intros x Hx. apply in_map_iff in Hx. destruct Hx as (a & <- & _). apply Rle_0_sqr. }
    lra.
  Qed.
End OLS.
Lemma zip_with_map A B C D (f : B -> C -> D) (g : A -> B) (h : A -> C) l : zip_with f (map g l) (map h l) = map (fun a => f (g a) (h a)) l.
Proof. unfold zip_with. induction l as [|a l IH]; cbn; auto. now rewrite IH. Qed.
Lemma zip_with_length A B C (f : A -> B -> C) a b : length a = length b -> length (zip_with f a b) = length a.
Proof. intros H. unfold zip_with. rewrite map_length, combine_length. lia. Qed.
Lemma combine_map_fst_snd A B (l : list (A * B)) : combine (map fst l) (map snd l) = l.
Proof. induction l as [|[a b] l IH]; cbn; auto. now rewrite IH. Qed.
Lemma paired A B (a : list A) (b : list B) : length a = length b -> exists l, map fst l = a /\ map snd l = b.
Proof. intros H. exists (combine a b). revert b H. induction a as [|x a IH]; intros [|y b] H; try discriminate; cbn; auto. destruct (IH b ltac:(now injection H)) as [-> ->]. auto. Qed.
