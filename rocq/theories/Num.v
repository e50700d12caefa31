(** Rational arithmetic used by the models.

    Python floats are modelled by canonical rationals [Qc] (Leibniz equality, decidable order,
    executable).  Every finite float64 value is such a rational; rounding of intermediate results
    is the simplification stated in DESIGN.md. *)
From Coq Require Export QArith Qcanon ZArith List Bool Lia Permutation Sorted Morphisms.
From Coq Require Import Lqa Qround Qabs.
Export ListNotations.

Set Implicit Arguments.
Open Scope Qc_scope.

(** ** Booleans for comparisons *)
Definition qle (a b : Qc) : bool := Qle_bool (this a) (this b).
Definition qlt (a b : Qc) : bool := negb (Qle_bool (this b) (this a)).
Definition qeq (a b : Qc) : bool := Qeq_bool (this a) (this b).

Lemma qle_iff a b : qle a b = true <-> a <= b.
Proof. unfold qle. apply Qle_bool_iff. Qed.

Lemma qlt_iff a b : qlt a b = true <-> a < b.
Proof.
  unfold qlt. rewrite negb_true_iff. split; intro H.
  - apply Qnot_le_lt. intro C. apply Qle_bool_iff in C. congruence.
  - destruct (Qle_bool b a) eqn:E; auto. apply Qle_bool_iff in E.
    exfalso. apply (Qlt_not_le _ _ H E).
Qed.

Lemma qeq_iff a b : qeq a b = true <-> a = b.
Proof.
  unfold qeq. split; intro H.
  - apply Qc_is_canon. now apply Qeq_bool_iff.
  - subst. apply Qeq_bool_iff. reflexivity.
Qed.

Lemma qle_false a b : qle a b = false <-> b < a.
Proof.
  split; intro H.
  - apply Qnot_le_lt. intro C. apply qle_iff in C. congruence.
  - destruct (qle a b) eqn:E; auto. apply qle_iff in E. exfalso. apply (Qlt_not_le _ _ H E).
Qed.

Lemma qlt_false a b : qlt a b = false <-> b <= a.
Proof.
  unfold qlt. rewrite negb_false_iff. apply Qle_bool_iff.
Qed.

Lemma qeq_false a b : qeq a b = false <-> a <> b.
Proof.
  split; intro H.
  - intro E. apply qeq_iff in E. congruence.
  - destruct (qeq a b) eqn:E; auto. apply qeq_iff in E. contradiction.
Qed.

Lemma qle_spec a b : reflect (a <= b) (qle a b).
Proof. apply iff_reflect. symmetry. apply qle_iff. Qed.
Lemma qlt_spec a b : reflect (a < b) (qlt a b).
Proof. apply iff_reflect. symmetry. apply qlt_iff. Qed.
Lemma qeq_spec a b : reflect (a = b) (qeq a b).
Proof. apply iff_reflect. symmetry. apply qeq_iff. Qed.

(** ** Injections and other operations *)
Definition qz (z : Z) : Qc := Q2Qc (inject_Z z).
Definition qn (n : nat) : Qc := qz (Z.of_nat n).
(** literal: [q 3 2] is three halves *)
Definition q (n : Z) (d : positive) : Qc := Q2Qc (n # d).
(** numerals: [3] in [Qc_scope] is [qz 3] (while [0] and [1] stay the library's constants) *)
Inductive IQc := Iqz : Z -> IQc.
Definition IQc_of_Z (z : Z) : IQc := Iqz z.
Definition IQc_to_Z (i : IQc) : option Z := match i with Iqz z => Some z end.
Number Notation Qc IQc_of_Z IQc_to_Z (via IQc mapping [qz => Iqz]) : Qc_scope.
Definition qs (l : list Q) : list Qc := map Q2Qc l.

Definition qmax (a b : Qc) : Qc := if qle a b then b else a.
Definition qmin (a b : Qc) : Qc := if qle a b then a else b.
Definition qabs (a : Qc) : Qc := if qle 0 a then a else - a.
(** floor, as an integer; Python [math.floor] / numpy [//] *)
Definition qfloor (a : Qc) : Z := Qfloor (this a).
(** Python [int()] of a float: truncation towards zero *)
Definition qtrunc (a : Qc) : Z := if qle 0 a then qfloor a else (- qfloor (- a))%Z.
(** sign, as returned by [np.sign] *)
Definition qsign (a : Qc) : Z := if qlt 0 a then 1%Z else if qlt a 0 then (-1)%Z else 0%Z.

Lemma this_add a b : (this (a + b) == this a + this b)%Q.
Proof. apply Qred_correct. Qed.
Lemma this_opp a : (this (- a) == - this a)%Q.
Proof. apply Qred_correct. Qed.
Lemma this_sub a b : (this (a - b) == this a - this b)%Q.
Proof. unfold Qcminus. rewrite this_add, this_opp. reflexivity. Qed.
Lemma this_mul a b : (this (a * b) == this a * this b)%Q.
Proof. apply Qred_correct. Qed.
Lemma this_inv a : (this (/ a) == / this a)%Q.
Proof. apply Qred_correct. Qed.
Lemma this_div a b : (this (a / b) == this a / this b)%Q.
Proof. unfold Qcdiv. rewrite this_mul, this_inv. reflexivity. Qed.
Lemma this_Q2Qc x : (this (Q2Qc x) == x)%Q.
Proof. apply Qred_correct. Qed.
Lemma this_qz z : (this (qz z) == inject_Z z)%Q.
Proof. apply Qred_correct. Qed.
Lemma this_q n d : (this (q n d) == n # d)%Q.
Proof. apply Qred_correct. Qed.
Lemma this_0 : (this 0 == 0)%Q.  Proof. reflexivity. Qed.
Lemma this_1 : (this 1 == 1)%Q.  Proof. reflexivity. Qed.

Lemma Qceq_this (a b : Qc) : a = b <-> (this a == this b)%Q.
Proof. split; intro H; [ subst; reflexivity | now apply Qc_is_canon ]. Qed.

(** ** A linear-arithmetic tactic for [Qc] *)
Ltac qc_push :=
  repeat match goal with
  | H : context [this (?a + ?b)] |- _ => rewrite (this_add a b) in H
  | H : context [this (?a - ?b)] |- _ => rewrite (this_sub a b) in H
  | H : context [this (- ?a)] |- _ => rewrite (this_opp a) in H
  | H : context [this (?a * ?b)] |- _ => rewrite (this_mul a b) in H
  | H : context [this (q ?a ?b)] |- _ => rewrite (this_q a b) in H
  | H : context [this (Q2Qc ?a)] |- _ => rewrite (this_Q2Qc a) in H
  | H : context [this (qz ?a)] |- _ => rewrite (this_qz a) in H
  | |- context [this (?a + ?b)] => rewrite (this_add a b)
  | |- context [this (?a - ?b)] => rewrite (this_sub a b)
  | |- context [this (- ?a)] => rewrite (this_opp a)
  | |- context [this (?a * ?b)] => rewrite (this_mul a b)
  | |- context [this (q ?a ?b)] => rewrite (this_q a b)
  | |- context [this (Q2Qc ?a)] => rewrite (this_Q2Qc a)
  | |- context [this (qz ?a)] => rewrite (this_qz a)
  end.

Ltac qc_hyps :=
  repeat match goal with
  | H : qle _ _ = true |- _ => apply qle_iff in H
  | H : qle _ _ = false |- _ => apply qle_false in H
  | H : qlt _ _ = true |- _ => apply qlt_iff in H
  | H : qlt _ _ = false |- _ => apply qlt_false in H
  | H : qeq _ _ = true |- _ => apply qeq_iff in H
  | H : @eq Qc ?a ?b |- _ => apply (proj1 (Qceq_this a b)) in H
  | H : ~ (?a <= ?b)%Qc |- _ => apply Qcnot_le_lt in H
  | H : ~ (?a < ?b)%Qc |- _ => apply Qcnot_lt_le in H
  | H : (?a <= ?b)%Qc |- _ => unfold Qcle in H
  | H : (?a < ?b)%Qc |- _ => unfold Qclt in H
  | H : (_ /\ _) |- _ => destruct H
  end.

Ltac qc_goal :=
  match goal with
  | |- @eq Qc _ _ => apply Qc_is_canon
  | |- (_ <= _)%Qc => unfold Qcle
  | |- (_ < _)%Qc => unfold Qclt
  | |- ~ _ => intro; qc_goal
  | |- False => idtac
  | _ => exfalso
  end.

(** generalise the remaining [this x] atoms so that [lra] sees variables *)
Ltac qc_prep :=
  qc_goal; qc_hyps; qc_push;
  repeat match goal with
         | H : context [this 0] |- _ => change (this 0) with 0%Q in H
         | H : context [this 1] |- _ => change (this 1) with 1%Q in H
         | |- context [this 0] => change (this 0) with 0%Q
         | |- context [this 1] => change (this 1) with 1%Q
         | H : context [inject_Z (Zpos ?p)] |- _ => change (inject_Z (Zpos p)) with (Zpos p # 1)%Q in H
         | H : context [inject_Z (Zneg ?p)] |- _ => change (inject_Z (Zneg p)) with (Zneg p # 1)%Q in H
         | H : context [inject_Z Z0] |- _ => change (inject_Z Z0) with 0%Q in H
         | |- context [inject_Z (Zpos ?p)] => change (inject_Z (Zpos p)) with (Zpos p # 1)%Q
         | |- context [inject_Z (Zneg ?p)] => change (inject_Z (Zneg p)) with (Zneg p # 1)%Q
         | |- context [inject_Z Z0] => change (inject_Z Z0) with 0%Q
         end.

Ltac qlra := qc_prep; lra.
Ltac qnra := qc_prep; nra.


Ltac qcase :=
  match goal with
  | |- context [qle ?a ?b] => destruct (qle_spec a b)
  | |- context [qlt ?a ?b] => destruct (qlt_spec a b)
  | |- context [qeq ?a ?b] => destruct (qeq_spec a b)
  end.

(** ** Integers as rationals *)
Lemma qz_0 : qz 0 = 0.  Proof. reflexivity. Qed.
Lemma qz_1 : qz 1 = 1.  Proof. reflexivity. Qed.

Lemma qz_add a b : qz (a + b) = qz a + qz b.
Proof. apply Qc_is_canon. rewrite this_add, !this_qz. now rewrite inject_Z_plus. Qed.
Lemma qz_mul a b : qz (a * b) = qz a * qz b.
Proof. apply Qc_is_canon. rewrite this_mul, !this_qz. now rewrite inject_Z_mult. Qed.
Lemma qz_opp a : qz (- a) = - qz a.
Proof. apply Qc_is_canon. rewrite this_opp, !this_qz. now rewrite inject_Z_opp. Qed.
Lemma qz_sub a b : qz (a - b) = qz a - qz b.
Proof. unfold Z.sub, Qcminus. now rewrite qz_add, qz_opp. Qed.
Lemma qz_le a b : qz a <= qz b <-> (a <= b)%Z.
Proof. unfold Qcle. rewrite !this_qz. rewrite <- Zle_Qle. reflexivity. Qed.
Lemma qz_lt a b : qz a < qz b <-> (a < b)%Z.
Proof. unfold Qclt. rewrite !this_qz. rewrite <- Zlt_Qlt. reflexivity. Qed.
Lemma qz_inj a b : qz a = qz b <-> a = b.
Proof.
  split; intro H; [|now subst].
  apply Qceq_this in H. rewrite !this_qz in H. unfold Qeq in H. cbn in H. lia.
Qed.
Lemma qz_S z : qz (Z.succ z) = qz z + 1.
Proof. unfold Z.succ. now rewrite qz_add. Qed.

Lemma qn_0 : qn 0 = 0.  Proof. reflexivity. Qed.
Lemma qn_S n : qn (S n) = qn n + 1.
Proof. unfold qn. rewrite Nat2Z.inj_succ. apply qz_S. Qed.
Lemma qn_add a b : qn (a + b) = qn a + qn b.
Proof. unfold qn. rewrite Nat2Z.inj_add. apply qz_add. Qed.
Lemma qn_mul a b : qn (a * b) = qn a * qn b.
Proof. unfold qn. rewrite Nat2Z.inj_mul. apply qz_mul. Qed.
Lemma qn_le a b : qn a <= qn b <-> (a <= b)%nat.
Proof. unfold qn. rewrite qz_le. lia. Qed.
Lemma qn_lt a b : qn a < qn b <-> (a < b)%nat.
Proof. unfold qn. rewrite qz_lt. lia. Qed.
Lemma qn_inj a b : qn a = qn b <-> a = b.
Proof. unfold qn. rewrite qz_inj. lia. Qed.
Lemma qn_nonneg n : 0 <= qn n.
Proof. rewrite <- qn_0. apply qn_le. lia. Qed.
Lemma qn_pos n : (0 < n)%nat -> 0 < qn n.
Proof. intro. rewrite <- qn_0. apply qn_lt. lia. Qed.
Lemma qn_neq_0 n : (0 < n)%nat -> qn n <> 0.
Proof. intros H E. apply qn_pos in H. rewrite E in H. apply (Qclt_not_eq _ _ H). reflexivity. Qed.

(** Make [ring] and [field] understand [qz] literals. *)
Lemma qz_morph :
  ring_morph 0 1 Qcplus Qcmult Qcminus Qcopp (@eq Qc)
             0%Z 1%Z Z.add Z.mul Z.sub Z.opp Zeq_bool qz.
Proof.
  constructor; intros; try reflexivity.
  - apply qz_add.
  - apply qz_sub.
  - apply qz_mul.
  - apply qz_opp.
  - apply Zeq_bool_eq in H. now subst.
Qed.

Lemma Qcpower_theory : power_theory 1 Qcmult (@eq Qc) N.to_nat Qcpower.
Proof.
  constructor. intros r n. destruct n as [|p]; cbn; auto.
  rewrite <- (Pos2Nat.id p) at 2.
  destruct (Pos2Nat.is_succ p) as [m Hm]. rewrite Hm. clear Hm p.
  induction m as [|m IH].
  - cbn. apply Qcmult_1_r.
  - change (Qcpower r (S (S m))) with (r * Qcpower r (S m)). rewrite IH.
    rewrite (Nat2Pos.inj_succ (S m)) by discriminate.
    generalize (Pos.of_nat (S m)). intro k.
    assert (A : forall a b : Qc, a * b = b * a) by apply Qcmult_comm.
    assert (S : forall k, pow_pos Qcmult r (Pos.succ k) = r * pow_pos Qcmult r k).
    { clear. induction k as [k IH|k IH|]; cbn; auto.
      rewrite IH. ring. }
    symmetry. apply S.
Qed.

Ltac qz_cst t :=
  match t with
  | qz (Zpos ?p) => let b := isPcst p in match b with true => constr:(Zpos p) | _ => constr:(NotConstant) end
  | qz (Zneg ?p) => let b := isPcst p in match b with true => constr:(Zneg p) | _ => constr:(NotConstant) end
  | qz Z0 => constr:(Z0)
  | 0 => constr:(0%Z)
  | 1 => constr:(1%Z)
  | _ => constr:(NotConstant)
  end.
Ltac Qc_pow_cst t :=
  match isnatcst t with
  | true => constr:(N.of_nat t)
  | _ => constr:(NotConstant)
  end.

Add Field Qcfield_lit : Qcft
  (morphism qz_morph, constants [qz_cst], power_tac Qcpower_theory [Qc_pow_cst]).

Goal forall a b : Qc, (a + b) * (a + b) = a * a + 2 * a * b + b * b.
Proof. intros. ring. Abort.
Goal forall a b : Qc, b <> 0 -> (a / b + a / b) = 2 * a / b.
Proof. intros. field. auto. Abort.
Goal forall a b : Qc, (a + b)^2  = a * a + 2 * a * b + b^2.
Proof. intros. ring. Abort.

(** ** Floor and truncation *)
Lemma qfloor_le a : qz (qfloor a) <= a.
Proof. unfold Qcle. rewrite this_qz. apply Qfloor_le. Qed.
Lemma qfloor_lt a : a < qz (qfloor a) + 1.
Proof.
  rewrite <- qz_S. unfold Qclt. rewrite this_qz.
  unfold Z.succ. apply Qlt_floor.
Qed.
Lemma qfloor_unique a z : qz z <= a -> a < qz z + 1 -> qfloor a = z.
Proof.
  intros H1 H2. pose proof (qfloor_le a). pose proof (qfloor_lt a).
  assert (z < qfloor a + 1)%Z.
  { apply qz_lt. rewrite qz_add, qz_1. qlra. }
  assert (qfloor a < z + 1)%Z.
  { apply qz_lt. rewrite qz_add, qz_1. qlra. }
  lia.
Qed.
Lemma qfloor_mono a b : a <= b -> (qfloor a <= qfloor b)%Z.
Proof. intro H. apply Qfloor_resp_le. exact H. Qed.
Lemma qfloor_qz z : qfloor (qz z) = z.
Proof. apply qfloor_unique; qlra. Qed.
Lemma qfloor_ge a z : (z <= qfloor a)%Z <-> qz z <= a.
Proof.
  split; intro H.
  - apply qz_le in H. pose proof (qfloor_le a). qlra.
  - rewrite <- (qfloor_qz z). now apply qfloor_mono.
Qed.
Lemma qfloor_lt_iff a z : (qfloor a < z)%Z <-> a < qz z.
Proof.
  split; intro H.
  - pose proof (qfloor_lt a). assert (qfloor a + 1 <= z)%Z by lia.
    apply qz_le in H1. rewrite qz_add, qz_1 in H1. qlra.
  - apply Z.nle_gt. intro C. apply qfloor_ge in C. qlra.
Qed.

(** ** Order lemmas *)
Lemma Qcdiv_pos a b : 0 < a -> 0 < b -> 0 < a / b.
Proof.
  intros. unfold Qcdiv. unfold Qclt in *. rewrite this_mul, this_inv.
  change (this 0) with 0%Q in *. apply Qmult_lt_0_compat; auto.
  now apply Qinv_lt_0_compat.
Qed.
Lemma Qcdiv_nonneg a b : 0 <= a -> 0 < b -> 0 <= a / b.
Proof.
  intros. unfold Qcdiv. unfold Qclt, Qcle in *. rewrite this_mul, this_inv.
  change (this 0) with 0%Q in *. apply Qmult_le_0_compat; auto.
  apply Qlt_le_weak. now apply Qinv_lt_0_compat.
Qed.
Lemma Qc_pos_neq a : 0 < a -> a <> 0.
Proof. intros H E. subst. apply (Qclt_not_eq _ _ H). reflexivity. Qed.
Lemma Qclt_irrefl a : ~ a < a.
Proof. intro H. now apply (Qclt_not_eq a a H). Qed.
Lemma Qcdiv_mul_cancel a b : b <> 0 -> a / b * b = a.
Proof. intros. field. auto. Qed.
Lemma Qcdiv_le_iff a b c : 0 < b -> (a / b <= c <-> a <= c * b).
Proof.
  intro Hb. pose proof (Qcdiv_mul_cancel a (Qc_pos_neq Hb)) as E.
  split; intro H.
  - rewrite <- E. apply Qcmult_le_compat_r; auto. qlra.
  - apply Qcnot_lt_le. intro C. revert E H. generalize (a / b) C. intros d Hd E H. subst a.
    assert (c * b < d * b) by (apply Qcmult_lt_compat_r; auto). qlra.
Qed.
Lemma Qcdiv_ge_iff a b c : 0 < b -> (c <= a / b <-> c * b <= a).
Proof.
  intro Hb. pose proof (Qcdiv_mul_cancel a (Qc_pos_neq Hb)) as E.
  split; intro H.
  - rewrite <- E. apply Qcmult_le_compat_r; auto. qlra.
  - apply Qcnot_lt_le. intro C. revert E H. generalize (a / b) C. intros d Hd E H. subst a.
    assert (d * b < c * b) by (apply Qcmult_lt_compat_r; auto). qlra.
Qed.
Lemma Qcdiv_lt_iff a b c : 0 < b -> (a / b < c <-> a < c * b).
Proof.
  intro Hb. split; intro H; apply Qcnot_le_lt; intro C.
  - apply Qcdiv_ge_iff in C; auto. qlra.
  - apply Qcdiv_ge_iff in C; auto. qlra.
Qed.
Lemma Qcdiv_gt_iff a b c : 0 < b -> (c < a / b <-> c * b < a).
Proof.
  intro Hb. split; intro H; apply Qcnot_le_lt; intro C.
  - apply Qcdiv_le_iff in C; auto. qlra.
  - apply Qcdiv_le_iff in C; auto. qlra.
Qed.
Lemma Qcmul_pos a b : 0 < a -> 0 < b -> 0 < a * b.
Proof. intros. qnra. Qed.
Lemma Qcmul_nonneg a b : 0 <= a -> 0 <= b -> 0 <= a * b.
Proof. intros. qnra. Qed.
Lemma Qcmul_neq_0 a b : a <> 0 -> b <> 0 -> a * b <> 0.
Proof. intros Ha Hb E. apply Qcmult_integral in E. tauto. Qed.
Lemma Qcdiv_0 a b : b <> 0 -> a / b = 0 -> a = 0.
Proof. intros Hb E. rewrite <- (Qcdiv_mul_cancel a Hb), E. ring. Qed.

Lemma Qcmul_cancel_r a b c : c <> 0 -> a * c = b * c -> a = b.
Proof.
  intros Hc E. assert (H : a * c / c = b * c / c) by now rewrite E.
  replace (a * c / c) with a in H by (field; auto). now replace (b * c / c) with b in H by (field; auto).
Qed.
Lemma qmax_l a b : a <= qmax a b.
Proof. unfold qmax. qcase; qlra. Qed.
Lemma qmax_r a b : b <= qmax a b.
Proof. unfold qmax. qcase; qlra. Qed.
Lemma qmin_l a b : qmin a b <= a.
Proof. unfold qmin. qcase; qlra. Qed.
Lemma qmin_r a b : qmin a b <= b.
Proof. unfold qmin. qcase; qlra. Qed.
Lemma qmax_cases a b : qmax a b = a \/ qmax a b = b.
Proof. unfold qmax. destruct (qle a b); auto. Qed.
Lemma qmin_cases a b : qmin a b = a \/ qmin a b = b.
Proof. unfold qmin. destruct (qle a b); auto. Qed.
Lemma qmax_lub a b c : a <= c -> b <= c -> qmax a b <= c.
Proof. unfold qmax. destruct (qle a b); auto. Qed.
Lemma qmin_glb a b c : c <= a -> c <= b -> c <= qmin a b.
Proof. unfold qmin. destruct (qle a b); auto. Qed.
Lemma qabs_nonneg a : 0 <= qabs a.
Proof. unfold qabs. qcase; qlra. Qed.
Lemma qabs_pos a : 0 <= a -> qabs a = a.
Proof. unfold qabs. qcase; auto; intros; qlra. Qed.
Lemma qabs_neg a : a <= 0 -> qabs a = - a.
Proof. unfold qabs. qcase; intros; auto; qlra. Qed.
Lemma qabs_opp a : qabs (- a) = qabs a.
Proof. unfold qabs. repeat qcase; qlra. Qed.
Lemma qabs_mul a b : qabs (a * b) = qabs a * qabs b.
Proof.
  unfold qabs. repeat qcase; try qlra; qnra.
Qed.
Lemma qabs_triangle a b : qabs (a + b) <= qabs a + qabs b.
Proof. unfold qabs. repeat qcase; qlra. Qed.
Lemma qabs_0 a : qabs a = 0 <-> a = 0.
Proof. unfold qabs. qcase; split; intro; qlra. Qed.
Lemma qabs_le a b : qabs a <= b <-> - b <= a /\ a <= b.
Proof. unfold qabs. qcase; split; intro; try split; qlra. Qed.

(** ** Sums of lists *)
Fixpoint qsum (l : list Qc) : Qc :=
  match l with [] => 0 | x :: l' => x + qsum l' end.

Lemma qsum_app l1 l2 : qsum (l1 ++ l2) = qsum l1 + qsum l2.
Proof. induction l1; cbn; [ring|rewrite IHl1; ring]. Qed.
Lemma qsum_concat ls : qsum (concat ls) = qsum (map qsum ls).
Proof. induction ls; cbn; auto. now rewrite qsum_app, IHls. Qed.
Lemma qsum_perm l1 l2 : Permutation l1 l2 -> qsum l1 = qsum l2.
Proof. induction 1; cbn; try ring; congruence. Qed.
Lemma qsum_map_add A (f g : A -> Qc) l :
  qsum (map (fun x => f x + g x) l) = qsum (map f l) + qsum (map g l).
Proof. induction l; cbn; [ring|rewrite IHl; ring]. Qed.
Lemma qsum_map_sub A (f g : A -> Qc) l :
  qsum (map (fun x => f x - g x) l) = qsum (map f l) - qsum (map g l).
Proof. induction l; cbn; [ring|rewrite IHl; ring]. Qed.
Lemma qsum_map_scale A (f : A -> Qc) c l :
  qsum (map (fun x => c * f x) l) = c * qsum (map f l).
Proof. induction l; cbn; [ring|rewrite IHl; ring]. Qed.
Lemma qsum_map_scale_r A (f : A -> Qc) c l :
  qsum (map (fun x => f x * c) l) = qsum (map f l) * c.
Proof. induction l; cbn; [ring|rewrite IHl; ring]. Qed.
Lemma qsum_map_const A (l : list A) c : qsum (map (fun _ => c) l) = qn (length l) * c.
Proof.
  induction l; cbn [length map qsum]; [rewrite qn_0; ring|rewrite IHl, qn_S; ring].
Qed.
Lemma qsum_map_ext A (f g : A -> Qc) l :
  (forall x, In x l -> f x = g x) -> qsum (map f l) = qsum (map g l).
Proof. intro H. f_equal. now apply map_ext_in. Qed.
Lemma qsum_map_0 A (f : A -> Qc) l : (forall x, In x l -> f x = 0) -> qsum (map f l) = 0.
Proof.
  intro H. induction l as [|a l IH]; cbn; auto.
  rewrite H by (now left). rewrite IH; [ring|]. intros. apply H. now right.
Qed.
Lemma qsum_nonneg l : (forall x, In x l -> 0 <= x) -> 0 <= qsum l.
Proof.
  induction l as [|a l IH]; cbn; intro H; [qlra|].
  assert (0 <= a) by auto. assert (0 <= qsum l) by auto. qlra.
Qed.
Lemma qsum_pos l : l <> [] -> (forall x, In x l -> 0 < x) -> 0 < qsum l.
Proof.
  destruct l as [|a l]; [congruence|]. cbn. intros _ H.
  assert (0 < a) by auto. assert (0 <= qsum l).
  { apply qsum_nonneg. intros x Hx. assert (0 < x) by auto. qlra. }
  qlra.
Qed.
Lemma qsum_map_le A (f g : A -> Qc) l :
  (forall x, In x l -> f x <= g x) -> qsum (map f l) <= qsum (map g l).
Proof.
  induction l as [|a l IH]; cbn; intro H; [qlra|].
  assert (f a <= g a) by auto. assert (qsum (map f l) <= qsum (map g l)) by auto. qlra.
Qed.
Lemma qsum_map_swap A B (f : A -> B -> Qc) la lb :
  qsum (map (fun a => qsum (map (f a) lb)) la) = qsum (map (fun b => qsum (map (fun a => f a b) la)) lb).
Proof.
  induction la as [|a la IH]; cbn.
  - symmetry. now apply qsum_map_0.
  - rewrite IH, <- qsum_map_add. reflexivity.
Qed.
Lemma qsum_ge_elem l x : (forall y, In y l -> 0 <= y) -> In x l -> x <= qsum l.
Proof.
  induction l as [|a l IH]; cbn; intros H Hx; [tauto|].
  assert (0 <= a) by auto. assert (0 <= qsum l) by (apply qsum_nonneg; auto).
  destruct Hx as [->|Hx]; [qlra|]. assert (x <= qsum l) by auto. qlra.
Qed.
Lemma qsum_zero_all l : (forall x, In x l -> 0 <= x) -> qsum l = 0 -> forall x, In x l -> x = 0.
Proof.
  intros H E x Hx. pose proof (qsum_ge_elem l x H Hx). assert (0 <= x) by auto. qlra.
Qed.
Lemma qsum_map_abs A (f : A -> Qc) l : qabs (qsum (map f l)) <= qsum (map (fun x => qabs (f x)) l).
Proof.
  induction l as [|a l IH]; cbn [map qsum]; [rewrite qabs_pos; qlra|].
  pose proof (qabs_triangle (f a) (qsum (map f l))). qlra.
Qed.

(** ** Arithmetic mean, numpy [mean] of a non-empty list *)
Definition qmean (l : list Qc) : Qc := qsum l / qn (length l).

Lemma qmean_bounds l lo hi :
  l <> [] -> (forall x, In x l -> lo <= x /\ x <= hi) -> lo <= qmean l /\ qmean l <= hi.
Proof.
  intros Hl H. assert (Hn : 0 < qn (length l)) by (apply qn_pos; destruct l; cbn; [congruence|lia]).
  assert (A : forall c, c * qn (length l) = qsum (map (fun _ => c) l)) by (intro; rewrite qsum_map_const; ring).
  unfold qmean. rewrite Qcdiv_ge_iff, Qcdiv_le_iff by auto. rewrite !A.
  rewrite <- (map_id l) at 2 3. split; apply qsum_map_le; intros; now apply H.
Qed.

(** ** Minimum and maximum of a non-empty list, head given separately *)
Fixpoint lmax (x : Qc) (l : list Qc) : Qc := match l with [] => x | y :: l' => lmax (qmax x y) l' end.
Fixpoint lmin (x : Qc) (l : list Qc) : Qc := match l with [] => x | y :: l' => lmin (qmin x y) l' end.

Lemma lmax_ge x l y : In y (x :: l) -> y <= lmax x l.
Proof.
  revert x y. induction l as [|a l IH]; intros x y; cbn [lmax].
  - intros [->|[]]. qlra.
  - intros [->|[->|H]].
    + pose proof (qmax_l y a). pose proof (IH (qmax y a) _ (or_introl eq_refl)). qlra.
    + pose proof (qmax_r x y). pose proof (IH (qmax x y) _ (or_introl eq_refl)). qlra.
    + apply IH. now right.
Qed.
Lemma lmax_in x l : In (lmax x l) (x :: l).
Proof.
  revert x. induction l as [|a l IH]; intros x; cbn [lmax]; [now left|].
  destruct (IH (qmax x a)) as [E|H].
  - rewrite <- E. destruct (qmax_cases x a) as [->| ->]; [now left|right; now left].
  - right. now right.
Qed.
Lemma lmin_le x l y : In y (x :: l) -> lmin x l <= y.
Proof.
  revert x y. induction l as [|a l IH]; intros x y; cbn [lmin].
  - intros [->|[]]. qlra.
  - intros [->|[->|H]].
    + pose proof (qmin_l y a). pose proof (IH (qmin y a) _ (or_introl eq_refl)). qlra.
    + pose proof (qmin_r x y). pose proof (IH (qmin x y) _ (or_introl eq_refl)). qlra.
    + apply IH. now right.
Qed.
Lemma lmin_in x l : In (lmin x l) (x :: l).
Proof.
  revert x. induction l as [|a l IH]; intros x; cbn [lmin]; [now left|].
  destruct (IH (qmin x a)) as [E|H].
  - rewrite <- E. destruct (qmin_cases x a) as [->| ->]; [now left|right; now left].
  - right. now right.
Qed.

(** ** Powers *)
Lemma Qcpower_pos_lt a n : 0 < a -> 0 < a ^ n.
Proof. intro H. induction n; cbn; [qlra|apply Qcmul_pos; auto]. Qed.
Lemma Qcpower_nonneg a n : 0 <= a -> 0 <= a ^ n.
Proof. intro H. induction n; cbn; [qlra|apply Qcmul_nonneg; auto]. Qed.
