(** C168: the Shapiro-Wilk p-value. *)
From Verif Require Import Py RNum OptionModel OptionProofs ShapiroModel.
From Coq Require Import Sorting.
Set Implicit Arguments.
Unset Strict Implicit.
Open Scope R_scope.

(** fewer than three observations raise, and nothing else does *)
Theorem c168_raises swilk l : (shapiro_wilk_pval swilk l = Err ValueError <-> (length l < 3)%nat) /\ (forall e, shapiro_wilk_pval swilk l = Err e -> e = ValueError).
Proof.
  unfold shapiro_wilk_pval, shapiro. destruct (Nat.ltb_spec (length l) 3) as [H|H]; cbn; split; try split; auto; try easy; try lia. intros e E. now injection E as <-.
Qed.
(** the p-value, not the statistic, of the sample in ascending order *)
Theorem c168_value swilk l s : (3 <= length l)%nat -> Permutation s l -> Sorted Rle s -> shapiro_wilk_pval swilk l = Ok (snd (swilk s)).
Proof.
  intros H P S. unfold shapiro_wilk_pval, shapiro. destruct (Nat.ltb_spec (length l) 3); [lia|]. cbn [bind]. do 3 f_equal.
  assert (IC : forall x y t, rinsert x (rinsert y t) = rinsert y (rinsert x t)).
  { intros x y t. induction t as [|z t IH]; cbn.
    - destruct (Rle_lt_dec x y), (Rle_lt_dec y x); cbn; auto; try lra. now replace y with x by lra.
    - destruct (Rle_lt_dec y z); cbn; destruct (Rle_lt_dec x z); cbn; repeat match goal with |- context [Rle_lt_dec ?a ?b] => destruct (Rle_lt_dec a b); cbn end; try lra; try (now rewrite ?IH); auto. now replace y with x by lra. }
  assert (RP : forall a b, Permutation a b -> rsort a = rsort b).
  { intros a b Hp. induction Hp; auto; [cbn; fold (rsort l0) (rsort l'); now rewrite IHHp|cbn; apply IC|congruence]. }
  rewrite <- (RP _ _ P). clear - S. induction s as [|x s IH]; auto. cbn. fold (rsort s). inversion_clear S as [|? ? S' Hd]. rewrite IH by auto. destruct s as [|y s]; auto. inversion_clear Hd. cbn. destruct (Rle_lt_dec x y); auto. lra.
Qed.
(** so the order of the observations does not matter *)
Theorem c168_order swilk l l' : Permutation l l' -> shapiro_wilk_pval swilk l = shapiro_wilk_pval swilk l'.
Proof.
  intro P. pose proof (Permutation_length P) as L. destruct (Nat.lt_ge_cases (length l) 3) as [H|H].
  - rewrite (proj2 (proj1 (c168_raises swilk l)) H). rewrite L in H. now rewrite (proj2 (proj1 (c168_raises swilk l')) H).
  - assert (SP : forall t, Permutation (rsort t) t /\ Sorted Rle (rsort t)).
    { assert (IP : forall x t, Permutation (rinsert x t) (x :: t)) by (intros x t; induction t as [|y t IH]; cbn; auto; destruct (Rle_lt_dec x y); auto; rewrite IH; constructor).
      induction t as [|x t [IH1 IH2]]; cbn; [split; constructor|]. fold (rsort t). split; [rewrite IP; now constructor|]. clear - IH2. induction IH2 as [|y u S IH Hd]; cbn; [repeat constructor|].
      destruct (Rle_lt_dec x y) as [R|R]; [apply Sorted_cons; [now apply Sorted_cons|now apply HdRel_cons]|]. apply Sorted_cons; [exact IH|]. destruct u as [|z u]; cbn; [apply HdRel_cons; lra|]. inversion_clear Hd. destruct (Rle_lt_dec x z); apply HdRel_cons; lra. }
    destruct (SP l) as [P1 S1]. rewrite (@c168_value swilk l (rsort l)) by auto. symmetry. apply c168_value; [lia|now transitivity l|auto].
Qed.
Print Assumptions c168_raises.
Print Assumptions c168_value.
Print Assumptions c168_order.
(** a sample out of order, with a routine that reports the first and the last observation *)
Example c168_example : let swilk := fun l => (hd 0 l, last l 0) in shapiro_wilk_pval swilk [2; 3; 1] = Ok 3 /\ shapiro_wilk_pval swilk [2; 3] = Err ValueError.
Proof.
  cbv zeta. split; [|reflexivity]. rewrite (@c168_value _ [2; 3; 1] [1; 2; 3]); [reflexivity|cbn; lia| |repeat constructor; lra].
  transitivity [2; 1; 3]; [constructor|]. constructor. constructor.
Qed.
