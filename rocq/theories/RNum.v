(** Finite sums over the reals, used by the models with square roots, exponentials or logarithms. *)
From Coq Require Export Reals Lra.
From Verif Require Import Py.
Set Implicit Arguments.
Unset Strict Implicit.
Open Scope R_scope.

Fixpoint rsum (l : list R) : R := match l with [] => 0 | x :: l' => x + rsum l' end.
Definition rmean (l : list R) : R := rsum l / INR (length l).

Lemma rsum_app l1 l2 : rsum (l1 ++ l2) = rsum l1 + rsum l2.
Proof. induction l1; cbn; lra. Qed.
Lemma rsum_map_add A (f g : A -> R) l : rsum (map (fun x => f x + g x) l) = rsum (map f l) + rsum (map g l).
Proof. induction l; cbn; lra. Qed.
Lemma rsum_map_sub A (f g : A -> R) l : rsum (map (fun x => f x - g x) l) = rsum (map f l) - rsum (map g l).
Proof. induction l; cbn; lra. Qed.
Lemma rsum_map_scale A (f : A -> R) c l : rsum (map (fun x => c * f x) l) = c * rsum (map f l).
Proof. induction l; cbn; lra. Qed.
Lemma rsum_map_const A (l : list A) c : rsum (map (fun _ => c) l) = INR (length l) * c.
Proof. induction l as [|a l IH]; [cbn; lra|]. cbn [map rsum length]. rewrite S_INR, IH. lra. Qed.
Lemma rsum_map_ext A (f g : A -> R) l : (forall x, In x l -> f x = g x) -> rsum (map f l) = rsum (map g l).
Proof. intro H. f_equal. now apply map_ext_in. Qed.
Lemma rsum_map_0 A (f : A -> R) l : (forall x, In x l -> f x = 0) -> rsum (map f l) = 0.
Proof. intro H. induction l as [|a l IH]; auto. cbn. rewrite H by now left. rewrite IH; [lra|]. intros; apply H; now right. Qed.
Lemma rsum_nonneg l : (forall x, In x l -> 0 <= x) -> 0 <= rsum l.
Proof.
  induction l as [|a l IH]; intro H; cbn; [lra|]. assert (0 <= a) by (apply H; now left). assert (0 <= rsum l) by (apply IH; intros; apply H; now right). lra.
Qed.
Lemma rsum_pos l : l <> [] -> (forall x, In x l -> 0 < x) -> 0 < rsum l.
Proof.
  intros N H. destruct l as [|a l]; [congruence|]. cbn. assert (0 < a) by (apply H; now left).
  assert (0 <= rsum l) by (apply rsum_nonneg; intros x Hx; left; apply H; now right). lra.
Qed.
Lemma rsum_map_le A (f g : A -> R) l : (forall x, In x l -> f x <= g x) -> rsum (map f l) <= rsum (map g l).
Proof.
  induction l as [|a l IH]; intro H; cbn; [lra|]. assert (f a <= g a) by (apply H; now left).
  assert (rsum (map f l) <= rsum (map g l)) by (apply IH; intros; apply H; now right). lra.
Qed.
Lemma rsum_perm l1 l2 : Permutation l1 l2 -> rsum l1 = rsum l2.
Proof. induction 1; cbn; lra. Qed.
Lemma rsum_ge_elem l x : (forall y, In y l -> 0 <= y) -> In x l -> x <= rsum l.
Proof.
  induction l as [|a l IH]; intros H Hx; [destruct Hx|]. destruct Hx as [<-|Hx]; cbn.
  - assert (0 <= rsum l) by (apply rsum_nonneg; intros; apply H; now right). lra.
  - assert (0 <= a) by (apply H; now left). assert (x <= rsum l) by (apply IH; auto; intros; apply H; now right). lra.
Qed.
Lemma rsum_zero_all l : (forall x, In x l -> 0 <= x) -> rsum l = 0 -> forall x, In x l -> x = 0.
Proof. intros H E x Hx. assert (x <= rsum l) by now apply rsum_ge_elem. assert (0 <= x) by auto. lra. Qed.
Lemma INR_length_pos A (l : list A) : l <> [] -> 0 < INR (length l).
Proof. intro H. destruct l; [congruence|]. apply lt_0_INR. cbn. lia. Qed.

Lemma rmean_map_add A (f g : A -> R) l : rmean (map (fun x => f x + g x) l) = rmean (map f l) + rmean (map g l).
Proof. unfold rmean. rewrite rsum_map_add, !map_length. lra. Qed.
Lemma rmean_map_sub A (f g : A -> R) l : rmean (map (fun x => f x - g x) l) = rmean (map f l) - rmean (map g l).
Proof. unfold rmean. rewrite rsum_map_sub, !map_length. lra. Qed.
Lemma rmean_map_scale A (f : A -> R) c l : rmean (map (fun x => c * f x) l) = c * rmean (map f l).
Proof. unfold rmean. rewrite rsum_map_scale, !map_length. lra. Qed.
Lemma rmean_map_const A (l : list A) c : l <> [] -> rmean (map (fun _ => c) l) = c.
Proof. intro H. unfold rmean. rewrite rsum_map_const, !map_length. apply INR_length_pos in H. field. lra. Qed.
Lemma rmean_map_ext A (f g : A -> R) l : (forall x, In x l -> f x = g x) -> rmean (map f l) = rmean (map g l).
Proof. intro H. f_equal. now apply map_ext_in. Qed.
Lemma rmean_nonneg l : l <> [] -> (forall x, In x l -> 0 <= x) -> 0 <= rmean l.
Proof. intros N H. unfold rmean. apply INR_length_pos in N. apply rsum_nonneg in H. apply Rmult_le_pos; auto. left. now apply Rinv_0_lt_compat. Qed.
