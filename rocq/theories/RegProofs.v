(** Lemmas about RegModel.v. *)
From Verif Require Import Py RNum StructModel StructProps RegModel.
Set Implicit Arguments.
Unset Strict Implicit.
Open Scope R_scope.

Lemma sum_n_S m f : sum_n (S m) f = f 0%nat + sum_n m (fun j => f (S j)).
Proof. unfold sum_n. cbn [seq map rsum]. rewrite <- seq_shift, map_map. reflexivity. Qed.
Lemma sum_n_0 n f : (forall i, (i < n)%nat -> f i = 0) -> sum_n n f = 0.
Proof. intro H. unfold sum_n. apply rsum_map_0. intros i Hi. apply in_seq in Hi. apply H. lia. Qed.
Lemma sum_n_sq_zero n f : sum_n n (fun i => f i * f i) = 0 -> forall i, (i < n)%nat -> f i = 0.
Proof.
  revert f. induction n as [|n IH]; intros f H i Hi; [lia|]. rewrite sum_n_S in H.
  assert (N : 0 <= sum_n n (fun j => f (S j) * f (S j))) by (apply rsum_nonneg; intros x Hx; apply in_map_iff in Hx as (j & <- & _); apply Rle_0_sqr).
  pose proof (Rle_0_sqr (f 0%nat)) as N0. unfold Rsqr in N0. destruct i as [|i]; [apply Rsqr_0_uniq; unfold Rsqr; lra|]. apply (IH (fun j => f (S j))); [lra|lia].
Qed.
Lemma pivot_spec n A : (0 < n)%nat -> (pivot n A < n)%nat /\ forall i, (i < n)%nat -> Rabs (A i 0%nat) <= Rabs (A (pivot n A) 0%nat).
Proof.
  intro Hn. unfold pivot. set (f := fun p i => _).
  assert (G : forall l p, (forall i, In i l -> (i < n)%nat) -> (p < n)%nat -> (fold_left f l p < n)%nat /\ Rabs (A p 0%nat) <= Rabs (A (fold_left f l p) 0%nat) /\ forall i, In i l -> Rabs (A i 0%nat) <= Rabs (A (fold_left f l p) 0%nat)).
  { induction l as [|a l IH]; intros p Hl Hp; cbn [fold_left]; [split; auto; split; [lra|intros i []]|].
    assert (Hf : (f p a < n)%nat /\ Rabs (A p 0%nat) <= Rabs (A (f p a) 0%nat) /\ Rabs (A a 0%nat) <= Rabs (A (f p a) 0%nat)).
    { unfold f. destruct (Rlt_dec _ _) as [L|L]; [split; [apply Hl; now left|lra]|split; [exact Hp|lra]]. }
    destruct Hf as (F1 & F2 & F3). destruct (IH (f p a) (fun i Hi => Hl i (or_intror Hi)) F1) as (I1 & I2 & I3). split; auto. split; [lra|]. intros i [<-|Hi]; [lra|auto]. }
  destruct (G (seq 1 (n - 1)) 0%nat) as (G1 & G2 & G3); [intros i Hi; apply in_seq in Hi; lia|exact Hn|]. split; auto. intros i Hi. destruct i as [|i]; auto. apply G3, in_seq. lia.
Qed.
Lemma swapped_lt n p i : (p < n)%nat -> (i < n)%nat -> (swapped p i < n)%nat.
Proof. unfold swapped. intros. destruct (Nat.eqb_spec i 0); auto. destruct (Nat.eqb_spec i p); lia. Qed.
Lemma swapped_twice p i : swapped p (swapped p i) = i.
Proof. unfold swapped. destruct (Nat.eqb_spec i 0) as [->|]; [destruct (Nat.eqb_spec p 0); auto; rewrite Nat.eqb_refl; auto|]. destruct (Nat.eqb_spec i p) as [->|]; [reflexivity|]. now rewrite (proj2 (Nat.eqb_neq i 0)), (proj2 (Nat.eqb_neq i p)). Qed.
Lemma swapped_all n p (P : nat -> Prop) : (p < n)%nat -> (forall i, (i < n)%nat -> P (swapped p i)) -> forall i, (i < n)%nat -> P i.
Proof. intros Hp H i Hi. rewrite <- (swapped_twice p i). apply H, swapped_lt; auto. Qed.

Section Elimination.
  Variables (m : nat) (A : nat -> nat -> R) (b : nat -> R).
  Hypothesis Ha : A 0%nat 0%nat <> 0.
  Let S0 (i j : nat) := A (S i) (S j) - A (S i) 0%nat / A 0%nat 0%nat * A 0%nat (S j).
  Let b0 (i : nat) := b (S i) - A (S i) 0%nat / A 0%nat 0%nat * b 0%nat.
  (** one step of elimination keeps the solutions *)
  Lemma elimination_step v : (forall i, (i < S m)%nat -> sum_n (S m) (fun j => A i j * v j) = b i) <->
    (v 0%nat = (b 0%nat - sum_n m (fun j => A 0%nat (S j) * v (S j))) / A 0%nat 0%nat /\ forall i, (i < m)%nat -> sum_n m (fun j => S0 i j * v (S j)) = b0 i).
  Proof.
    assert (E : forall i, sum_n m (fun j => S0 i j * v (S j)) = sum_n m (fun j => A (S i) (S j) * v (S j)) - A (S i) 0%nat / A 0%nat 0%nat * sum_n m (fun j => A 0%nat (S j) * v (S j))).
    { intro i. rewrite <- sum_n_scale, <- sum_n_sub. apply sum_n_ext. intros j _. unfold S0. ring. }
    split.
    - intro H. assert (H0 := H 0%nat ltac:(lia)). rewrite sum_n_S in H0. split; [rewrite <- H0; field; exact Ha|]. intros i Hi. assert (Hi' := H (S i) ltac:(lia)). rewrite sum_n_S in Hi'. rewrite E. unfold b0. rewrite <- H0, <- Hi'. field. exact Ha.
    - intros [H0 H] i Hi. rewrite sum_n_S. destruct i as [|i]; [rewrite H0; field; exact Ha|]. assert (Hi' := H i ltac:(lia)). rewrite E in Hi'. unfold b0 in Hi'.
      replace (sum_n m (fun j => A (S i) (S j) * v (S j))) with (b (S i) - A (S i) 0%nat / A 0%nat 0%nat * b 0%nat + A (S i) 0%nat / A 0%nat 0%nat * sum_n m (fun j => A 0%nat (S j) * v (S j))) by lra.
      rewrite H0. field. exact Ha.
  Qed.
End Elimination.

Lemma gesv_correct n A b x : gesv n A b = Some x -> forall i, (i < n)%nat -> sum_n n (fun j => A i j * x j) = b i.
Proof.
  revert A b x. induction n as [|m IH]; intros A b x H; [intros; lia|]. cbn [gesv] in H. set (p := pivot (S m) A) in *. destruct (@pivot_spec (S m) A ltac:(lia)) as [Hp _]. fold p in Hp.
  destruct (Req_EM_T _ 0) as [|Ha]; [discriminate|]. destruct (gesv m _ _) as [x'|] eqn:E; [|discriminate]. injection H as <-.
  apply (@swapped_all (S m) p); auto. apply (@elimination_step m (fun i j => A (swapped p i) j) (fun i => b (swapped p i)) Ha). split; [reflexivity|]. intros i Hi. apply (IH _ _ _ E i Hi).
Qed.
Lemma gesv_unique n A b x v : gesv n A b = Some x -> (forall i, (i < n)%nat -> sum_n n (fun j => A i j * v j) = b i) -> forall j, (j < n)%nat -> v j = x j.
Proof.
  revert A b x v. induction n as [|m IH]; intros A b x v H Hv; [intros; lia|]. cbn [gesv] in H. set (p := pivot (S m) A) in *. destruct (@pivot_spec (S m) A ltac:(lia)) as [Hp _]. fold p in Hp.
  destruct (Req_EM_T _ 0) as [|Ha]; [discriminate|]. destruct (gesv m _ _) as [x'|] eqn:E; [|discriminate]. injection H as <-.
  destruct (proj1 (@elimination_step m (fun i j => A (swapped p i) j) (fun i => b (swapped p i)) Ha v)) as [V0 V1]; [intros i Hi; apply Hv, swapped_lt; auto|].
  assert (VS : forall j, (j < m)%nat -> v (S j) = x' j) by (intros j Hj; apply (IH _ _ _ (fun j => v (S j)) E V1 j Hj)).
  intros j Hj. destruct j as [|j]; [|apply VS; lia]. rewrite V0. do 2 f_equal. apply sum_n_ext. intros j Hj'. now rewrite VS.
Qed.
(** what it means that nothing but zero is mapped to zero *)
Definition regular (n : nat) (A : nat -> nat -> R) : Prop := forall v, (forall i, (i < n)%nat -> sum_n n (fun j => A i j * v j) = 0) -> forall j, (j < n)%nat -> v j = 0.
Lemma gesv_regular n A b x : gesv n A b = Some x -> regular n A.
Proof.
  intros H v Hv j Hj. assert (E : (fun j => x j + v j) j = x j).
  { apply (@gesv_unique n A b x (fun j => x j + v j) H); auto. intros i Hi. rewrite (@sum_n_ext n _ (fun j => A i j * x j + A i j * v j)) by (intros; ring). rewrite sum_n_add, (gesv_correct H) by auto. rewrite Hv by auto. ring. }
  cbn in E. lra.
Qed.
Lemma gesv_none n A b : gesv n A b = None -> exists v, (exists j, (j < n)%nat /\ v j <> 0) /\ forall i, (i < n)%nat -> sum_n n (fun j => A i j * v j) = 0.
Proof.
  revert A b. induction n as [|m IH]; intros A b H; [discriminate|]. cbn [gesv] in H. set (p := pivot (S m) A) in *. destruct (@pivot_spec (S m) A ltac:(lia)) as [Hp Hmax]. fold p in Hp, Hmax.
  destruct (Req_EM_T _ 0) as [Ha|Ha].
  - change (swapped p 0) with p in Ha. exists (unit_vec 0). split; [exists 0%nat; split; [lia|]; unfold unit_vec; cbn; lra|]. intros i Hi. rewrite sum_n_S, sum_n_0 by (intros j Hj; unfold unit_vec; cbn; ring).
    unfold unit_vec. cbn [Nat.eqb]. specialize (Hmax i Hi). rewrite Ha, Rabs_R0 in Hmax. assert (A i 0%nat = 0); [|lra]. destruct (Req_EM_T (A i 0%nat) 0) as [|N]; auto. apply Rabs_pos_lt in N. lra.
  - destruct (gesv m _ _) as [x'|] eqn:E; [discriminate|]. destruct (IH _ _ E) as (v & (j & Hj & Nz) & Hv). cbv beta in Hv.
    set (A' := fun i j => A (swapped p i) j). exists (fun j => match j with O => (0 - sum_n m (fun j => A' 0%nat (S j) * v j)) / A' 0%nat 0%nat | S j' => v j' end).
    split; [exists (S j); split; [lia|exact Nz]|]. apply (@swapped_all (S m) p); auto.
    apply (@elimination_step m A' (fun _ => 0) Ha). split; [reflexivity|]. intros i Hi. transitivity 0; [exact (Hv i Hi)|ring].
Qed.
Lemma gesv_some n A b : regular n A -> exists x, gesv n A b = Some x.
Proof. intro H. destruct (gesv n A b) as [x|] eqn:E; [eauto|]. destruct (gesv_none E) as (v & (j & Hj & N) & Hv). exfalso. apply N. now apply H. Qed.

(** ** the inverse *)
Lemma inv_spec n A : (exists N, inv n A = Ok N /\ regular n A /\ forall i l, (i < n)%nat -> (l < n)%nat -> sum_n n (fun j => A i j * N j l) = if (i =? l)%nat then 1 else 0) \/
  (inv n A = Err ValueError /\ ~ regular n A).
Proof.
  unfold inv. destruct (mapM _ (seq 0 n)) as [cols|e] eqn:E; cbn [bind].
  - left. eexists. split; [reflexivity|]. apply mapM_ok in E. split.
    + destruct n as [|n]; [intros v _ j Hj; lia|]. destruct (@Forall2_nth _ _ _ _ _ 0%nat 0%nat E eq_refl) as (x & _ & Hx). destruct (gesv (S n) A (unit_vec 0)) as [x'|] eqn:G; [|discriminate]. now apply gesv_regular in G.
    + intros i l Hi Hl. destruct (@Forall2_nth _ _ _ _ _ l l E) as (x & Hx & Gx); [now rewrite nth_error_nth' with (d := 0%nat), seq_nth by (rewrite ?seq_length; lia)|].
      destruct (gesv n A (unit_vec l)) as [x'|] eqn:G; [|discriminate]. injection Gx as ->. rewrite (@sum_n_ext n _ (fun j => A i j * x j)) by (intros; now rewrite (nth_error_nth _ _ _ Hx)). rewrite (gesv_correct G) by auto. reflexivity.
  - right. assert (He : exists l, gesv n A (unit_vec l) = None /\ e = ValueError).
    { revert E. generalize (seq 0 n). intro l. induction l as [|a l IH]; cbn; [discriminate|]. destruct (gesv n A (unit_vec a)) eqn:G; [|intros [= <-]; eauto]. cbn. destruct (mapM _ l); cbn; [discriminate|]. intros [= ->]. now apply IH. }
    destruct He as (l & G & ->). split; auto. intro C. destruct (gesv_some (unit_vec l) C) as [x Hx]. congruence.
Qed.
Lemma inv_ok n A N : inv n A = Ok N -> regular n A /\ forall i l, (i < n)%nat -> (l < n)%nat -> sum_n n (fun j => A i j * N j l) = if (i =? l)%nat then 1 else 0.
Proof. intro H. destruct (inv_spec n A) as [(N' & E & R & P)|(E & _)]; [|congruence]. rewrite H in E. injection E as <-. auto. Qed.
Lemma inv_left n A N : inv n A = Ok N -> forall i l, (i < n)%nat -> (l < n)%nat -> sum_n n (fun j => N i j * A j l) = if (i =? l)%nat then 1 else 0.
Proof.
  intros H. destruct (inv_ok H) as [R P]. intros i l Hi Hl.
  assert (G : sum_n n (fun j => N i j * A j l) - unit_vec l i = 0).
  { apply (R (fun i => sum_n n (fun j => N i j * A j l) - unit_vec l i)); auto. intros i' Hi'.
    rewrite (@sum_n_ext n _ (fun j => sum_n n (fun j' => A j' l * (A i' j * N j j')) - A i' j * unit_vec l j)).
    2:{ intros j _. rewrite Rmult_minus_distr_l, <- sum_n_scale. f_equal. apply sum_n_ext. intros; ring. }
    rewrite sum_n_sub, sum_n_swap. rewrite (@sum_n_ext n _ (fun j' => (if (i' =? j')%nat then 1 else 0) * A j' l)).
    2:{ intros j' Hj'. rewrite sum_n_scale, P by auto. ring. }
    rewrite sum_n_delta by auto. rewrite (@sum_n_ext n _ (fun j => (if (l =? j)%nat then 1 else 0) * A i' j)) by (intros; unfold unit_vec; rewrite Nat.eqb_sym; ring). rewrite sum_n_delta by auto. ring. }
  unfold unit_vec in G. lra.
Qed.
Lemma inv_contract_holds : inv_contract inv.
Proof. intros k M N H. apply (inv_ok H). Qed.

(** ** linear independence of regressors *)
Definition dependent (T k : nat) (X : nat -> nat -> R) : Prop := exists v, (exists j, (j < k)%nat /\ v j <> 0) /\ forall t, (t < T)%nat -> sum_n k (fun j => X t j * v j) = 0.
Lemma gram_apply T k X v i : sum_n k (fun j => xx T X i j * v j) = sum_n T (fun t => X t i * sum_n k (fun j => X t j * v j)).
Proof.
  rewrite (@sum_n_ext k _ (fun j => sum_n T (fun t => X t i * (X t j * v j)))).
  - rewrite sum_n_swap. apply sum_n_ext. intros t _. apply sum_n_scale.
  - intros j _. unfold xx. rewrite Rmult_comm, <- sum_n_scale. apply sum_n_ext. intros; ring.
Qed.
Lemma gram_regular T k X : regular k (xx T X) <-> ~ dependent T k X.
Proof.
  split.
  - intros H (v & (j & Hj & N) & Hv). apply N. apply (H v); auto. intros i Hi. rewrite gram_apply. apply sum_n_0. intros t Ht. rewrite Hv by auto. ring.
  - intros H v Hv j Hj. destruct (Req_EM_T (v j) 0) as [|N]; auto. exfalso. apply H. exists v. split; [eauto|]. apply sum_n_sq_zero.
    transitivity (sum_n k (fun i => v i * sum_n k (fun j => xx T X i j * v j))).
    + rewrite (@sum_n_ext k _ (fun i => sum_n T (fun t => v i * (X t i * sum_n k (fun j => X t j * v j))))) by (intros i _; now rewrite gram_apply, <- sum_n_scale).
      rewrite sum_n_swap. apply sum_n_ext. intros t _. rewrite <- sum_n_scale. apply sum_n_ext. intros; ring.
    + apply sum_n_0. intros i Hi. rewrite Hv by auto. ring.
Qed.
(** fewer rows than columns *)
Lemma wide_dependent T k X : (T < k)%nat -> dependent T k X.
Proof.
  intro H. set (A := fun i j => if (i <? T)%nat then X i j else 0). destruct (gesv k A (unit_vec (k - 1))) as [x|] eqn:E.
  - exfalso. assert (C := gesv_correct E (i := k - 1)%nat ltac:(lia)). rewrite sum_n_0 in C.
    + unfold unit_vec in C. rewrite Nat.eqb_refl in C. lra.
    + intros j _. unfold A. rewrite (proj2 (Nat.ltb_ge _ _)) by lia. ring.
  - destruct (gesv_none E) as (v & Hv & H0). exists v. split; auto. intros t Ht. rewrite <- (H0 t ltac:(lia)). apply sum_n_ext. intros j _. unfold A. rewrite (proj2 (Nat.ltb_lt _ _)) by lia. reflexivity.
Qed.

(** ** least squares *)
Section LS.
  Variables (T k : nat) (X : nat -> nat -> R) (y : nat -> R).
  Notation res_ := (residual k X y).
  Notation sse_ := (sse T k X y).
  Definition normal_eq (b : nat -> R) : Prop := forall i, (i < k)%nat -> sum_n T (fun t => X t i * res_ b t) = 0.
  Definition unit_eq (z : nat -> R) : Prop := forall i, (i < k)%nat -> sum_n T (fun t => X t i * sum_n k (fun j => X t j * z j)) = if (i =? 0)%nat then 1 else 0.
  Lemma sse_split b c : normal_eq b -> sse_ c = sse_ b + sum_n T (fun t => sum_n k (fun j => X t j * (b j - c j)) * sum_n k (fun j => X t j * (b j - c j))).
  Proof.
    intro HN.
    assert (E : sse_ c = sse_ b + 2 * sum_n k (fun j => (b j - c j) * sum_n T (fun t => X t j * res_ b t)) + sum_n T (fun t => sum_n k (fun j => X t j * (b j - c j)) * sum_n k (fun j => X t j * (b j - c j)))).
    { rewrite (@sum_n_ext k (fun j => (b j - c j) * sum_n T (fun t => X t j * res_ b t)) (fun j => sum_n T (fun t => (b j - c j) * (X t j * res_ b t)))) by (intros; now rewrite sum_n_scale).
      rewrite sum_n_swap. unfold sse. rewrite <- sum_n_scale, <- !sum_n_add. apply sum_n_ext. intros t _.
      assert (Er : res_ c t = res_ b t + sum_n k (fun j => X t j * (b j - c j))).
      { unfold residual. rewrite (@sum_n_ext k (fun j => X t j * (b j - c j)) (fun j => X t j * b j - X t j * c j)) by (intros; ring). rewrite sum_n_sub. ring. }
      rewrite Er. rewrite (@sum_n_ext k (fun j => (b j - c j) * (X t j * res_ b t)) (fun j => res_ b t * (X t j * (b j - c j)))) by (intros; ring). rewrite sum_n_scale. ring. }
    rewrite E. rewrite (@sum_n_0 k) by (intros j Hj; rewrite (HN j Hj); ring). ring.
  Qed.
  Lemma sse_nonneg b : 0 <= sse_ b.
  Proof. apply rsum_nonneg. intros x Hx. apply in_map_iff in Hx as (t & <- & _). apply Rle_0_sqr. Qed.
  Lemma normal_least b : normal_eq b -> forall c, sse_ b <= sse_ c.
  Proof. intros H c. rewrite (@sse_split b c H). assert (0 <= sum_n T (fun t => sum_n k (fun j => X t j * (b j - c j)) * sum_n k (fun j => X t j * (b j - c j)))); [|lra]. apply rsum_nonneg. intros x Hx. apply in_map_iff in Hx as (t & <- & _). apply Rle_0_sqr. Qed.
  Lemma independent_ext : ~ dependent T k X -> forall v w, (forall t, (t < T)%nat -> sum_n k (fun j => X t j * v j) = sum_n k (fun j => X t j * w j)) -> forall j, (j < k)%nat -> v j = w j.
  Proof.
    intros H v w E j Hj. destruct (Req_EM_T (v j - w j) 0) as [|N]; [lra|]. exfalso. apply H. exists (fun j => v j - w j). split; [eauto|]. intros t Ht.
    rewrite (@sum_n_ext k _ (fun j => X t j * v j - X t j * w j)) by (intros; ring). rewrite sum_n_sub, E by auto. ring.
  Qed.
  Lemma least_unique b c : ~ dependent T k X -> normal_eq b -> (forall d, sse_ c <= sse_ d) -> forall j, (j < k)%nat -> c j = b j.
  Proof.
    intros HD HN HM. apply independent_ext; auto. specialize (HM b). rewrite (@sse_split b c HN) in HM.
    assert (G : sum_n T (fun t => sum_n k (fun j => X t j * (b j - c j)) * sum_n k (fun j => X t j * (b j - c j))) = 0).
    { apply Rle_antisym; [lra|]. apply rsum_nonneg. intros x Hx. apply in_map_iff in Hx as (t & <- & _). apply Rle_0_sqr. }
    intros t Ht. pose proof (@sum_n_sq_zero T _ G t Ht) as Z. cbv beta in Z. rewrite (@sum_n_ext k _ (fun j => X t j * b j - X t j * c j)) in Z by (intros; ring). rewrite sum_n_sub in Z. lra.
  Qed.
  Lemma sse_ext b c : (forall j, (j < k)%nat -> b j = c j) -> sse_ b = sse_ c.
  Proof. intro H. unfold sse, residual. apply sum_n_ext. intros t _. now rewrite (@sum_n_ext k (fun j => X t j * b j) (fun j => X t j * c j)) by (intros; now rewrite H). Qed.
  Lemma unit_unique z w : ~ dependent T k X -> unit_eq z -> unit_eq w -> forall j, (j < k)%nat -> z j = w j.
  Proof.
    intros HD HZ HW j Hj. assert (R := proj2 (@gram_regular T k X) HD). assert (z j - w j = 0); [|lra]. apply (R (fun j => z j - w j)); auto. intros i Hi.
    rewrite (@sum_n_ext k _ (fun j => xx T X i j * z j - xx T X i j * w j)) by (intros; ring). rewrite sum_n_sub, !gram_apply, HZ, HW by auto. ring.
  Qed.
  Lemma unit_pos z : ~ dependent T k X -> (0 < k)%nat -> unit_eq z -> 0 < z 0%nat.
  Proof.
    intros HD Hk HZ.
    assert (E : z 0%nat = sum_n T (fun t => sum_n k (fun j => X t j * z j) * sum_n k (fun j => X t j * z j))).
    { transitivity (sum_n k (fun i => z i * sum_n T (fun t => X t i * sum_n k (fun j => X t j * z j)))).
      - rewrite (@sum_n_ext k _ (fun i => (if (0 =? i)%nat then 1 else 0) * z i)) by (intros i Hi; rewrite HZ by auto; rewrite Nat.eqb_sym; ring). now rewrite sum_n_delta.
      - rewrite (@sum_n_ext k _ (fun i => sum_n T (fun t => z i * (X t i * sum_n k (fun j => X t j * z j))))) by (intros; now rewrite sum_n_scale). rewrite sum_n_swap. apply sum_n_ext. intros t _.
        rewrite <- sum_n_scale. apply sum_n_ext. intros; ring. }
    destruct (Rle_lt_or_eq_dec 0 (z 0%nat)) as [|Z]; auto.
    { rewrite E. apply rsum_nonneg. intros x Hx. apply in_map_iff in Hx as (t & <- & _). apply Rle_0_sqr. }
    exfalso. rewrite <- Z in E. symmetry in E. assert (Z' := @sum_n_sq_zero T _ E). cbv beta in Z'. assert (C := HZ 0%nat Hk). rewrite sum_n_0 in C by (intros t Ht; rewrite Z' by auto; ring). cbn in C. lra.
  Qed.
  Lemma fit_cases : (fit_adf inv T k X y = Err ValueError /\ dependent T k X) \/
    (~ dependent T k X /\ exists b V, fit_adf inv T k X y = Ok (b, V) /\ normal_eq b /\ ((0 < k)%nat -> exists z, unit_eq z /\ V 0%nat 0%nat = sse_ b / (INR T - INR k) * z 0%nat)).
  Proof.
    destruct (inv_spec k (xx T X)) as [(N & E & R & P)|(E & NR)].
    - right. split; [now apply gram_regular|]. assert (F : exists b V, fit_adf inv T k X y = Ok (b, V)) by (unfold fit_adf; rewrite E; cbn [bind]; eauto). destruct F as (b & V & F). exists b, V. split; auto.
      split; [intros i Hi; exact (@c101_normal_equations inv T k X y b V inv_contract_holds F i Hi)|]. intro Hk.
      destruct (@c101_variance inv T k X y b V F) as (xi & Hxi & HV). change (fun i j => sum_n T (fun t => X t i * X t j)) with (xx T X) in Hxi. rewrite E in Hxi. injection Hxi as <-.
      exists (fun j => N j 0%nat). split; [|apply HV]. intros i Hi. rewrite <- gram_apply. now apply P.
    - left. unfold fit_adf. rewrite E. split; auto. apply Classical_Prop.NNPP. intro C. apply NR. now apply gram_regular.
  Qed.
End LS.
