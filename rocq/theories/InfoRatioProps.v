(** C182: the information ratio of two Series. *)
From Coq Require Import ZArith List Bool Reals Lra Lia Permutation.
From Verif Require Import Py RNum BarrierModel SharpeModel BasketColsModel InfoRatioModel.
Import ListNotations.
Set Implicit Arguments.
Unset Strict Implicit.
Open Scope R_scope.

Lemma same_eq a : forall b, same_labels a b = true -> a = b.
Proof. induction a as [|x a IH]; intros [|y b] H; try discriminate; auto. cbn in H. apply andb_prop in H as [H1 H2]. apply Z.eqb_eq in H1. subst. f_equal. auto. Qed.
Lemma insert_perm x l : Permutation (insert_label x l) (x :: l).
Proof. induction l as [|y l IH]; cbn; auto. destruct (x <=? y)%Z; auto. rewrite IH. apply perm_swap. Qed.
Lemma sort_perm l : Permutation (sort_labels l) l.
Proof. induction l as [|x l IH]; cbn; auto. fold (sort_labels l). rewrite insert_perm. now constructor. Qed.
Lemma lookup_in (s : labelled) l v : NoDup (map fst s) -> lookup l s = Some v <-> In (l, v) s.
Proof.
  induction s as [|[l' v'] s IH]; intro N; cbn [lookup map fst] in *; [split; [discriminate|intros []]|]. inversion N as [|? ? N1 N2]; subst. destruct (Z.eqb_spec l l') as [->|NE].
  - split; [intros [= ->]; now left|]. intros [[= ->]|H]; auto. exfalso. apply N1. apply in_map_iff. now exists (l', v).
  - rewrite IH by auto. split; [now right|]. intros [[= E _]|H]; auto. congruence.
Qed.
Lemma value_in s l x : NoDup (map fst s) -> value_at s l = Some x <-> In (l, Some x) s.
Proof. intro N. rewrite <- lookup_in by auto. unfold value_at. destruct (lookup l s) as [v|]; split; intro H; congruence. Qed.
Lemma values s : NoDup (map fst s) -> map (value_at s) (map fst s) = map snd s.
Proof.
  intro N. rewrite map_map. apply map_ext_in. intros [l v] H. cbn. unfold value_at. apply lookup_in in H; auto. now rewrite H.
Qed.
(** the labels the difference is taken over *)
Definition index (s b : labelled) : list Z := if same_labels (map fst s) (map fst b) then map fst s else sort_labels (nodup Z.eq_dec (map fst s ++ map fst b)).
Lemma excess_at s b : NoDup (map fst s) -> NoDup (map fst b) -> excess_series s b = map (fun l => nan_sub (value_at s l) (value_at b l)) (index s b).
Proof.
  intros Ns Nb. unfold excess_series, index. destruct (same_labels (map fst s) (map fst b)) eqn:E; auto. apply same_eq in E.
  assert (C : forall (u v : labelled), map (fun p => nan_sub (snd (fst p)) (snd (snd p))) (combine u v) = map (fun p => nan_sub (fst p) (snd p)) (combine (map snd u) (map snd v))) by (induction u as [|x u IH]; intros [|y v]; cbn; auto; f_equal; apply IH).
  rewrite C, <- (values Ns), <- (values Nb), <- E. generalize (map fst s). intro L. induction L as [|l L IH]; cbn; auto. f_equal. exact IH.
Qed.
Lemma index_nodup s b : NoDup (map fst s) -> NoDup (index s b).
Proof. intro N. unfold index. destruct (same_labels _ _); auto. apply (Permutation_NoDup (Permutation_sym (sort_perm _))), NoDup_nodup. Qed.
Lemma index_in s b l : In l (map fst s) -> In l (map fst b) -> In l (index s b).
Proof. intros H H'. unfold index. destruct (same_labels _ _); auto. apply (Permutation_in _ (Permutation_sym (sort_perm _))). apply nodup_In, in_app_iff. now left. Qed.

(** the rows both Series have a value for, in any order *)
Definition common_rows (s b : labelled) (rows : list (Z * (R * R))) : Prop :=
  NoDup (map fst rows) /\ forall l x y, In (l, (x, y)) rows <-> In (l, Some x) s /\ In (l, Some y) b.
Definition tagged (s b : labelled) (l : Z) : list (Z * (R * R)) := match value_at s l, value_at b l with Some x, Some y => [(l, (x, y))] | _, _ => [] end.
Lemma tagged_nodup s b L : NoDup L -> NoDup (flat_map (tagged s b) L).
Proof.
  intro N. assert (F : forall l t, In t (tagged s b l) -> fst t = l) by (intros l t; unfold tagged; destruct (value_at s l), (value_at b l); cbn; try tauto; intros [<-|[]]; reflexivity).
  induction N as [|l L NI N IH]; cbn; [constructor|]. unfold tagged at 1. destruct (value_at s l) as [x|]; auto. destruct (value_at b l) as [y|]; auto. cbn. constructor; auto. intro H. apply in_flat_map in H as (l' & H1 & H2). apply F in H2. cbn in H2. now subst.
Qed.
Lemma drop_tagged s b L : drop_nan (map (fun l => nan_sub (value_at s l) (value_at b l)) L) = map (fun t => fst (snd t) - snd (snd t)) (flat_map (tagged s b) L).
Proof. induction L as [|l L IH]; cbn; auto. rewrite map_app, <- IH. unfold tagged. destruct (value_at s l) as [x|], (value_at b l) as [y|]; reflexivity. Qed.
Lemma common_perm s b rows : NoDup (map fst s) -> NoDup (map fst b) -> common_rows s b rows -> Permutation (drop_nan (excess_series s b)) (map (fun t => fst (snd t) - snd (snd t)) rows).
Proof.
  intros Ns Nb [N C]. rewrite excess_at, drop_tagged by auto. apply Permutation_map, NoDup_Permutation; [now apply tagged_nodup, index_nodup|eapply NoDup_map_inv; eauto|].
  intros [l [x y]]. rewrite C, in_flat_map. split.
  - intros (l' & H1 & H2). unfold tagged in H2. destruct (value_at s l') as [x'|] eqn:E1; [|destruct H2]. destruct (value_at b l') as [y'|] eqn:E2; [|destruct H2]. destruct H2 as [[= -> -> ->]|[]]. split; now apply value_in.
  - intros [H1 H2]. exists l. split; [apply index_in; apply in_map_iff; eexists; split; [|eassumption| |eassumption]; reflexivity|]. unfold tagged. apply value_in in H1, H2; auto. rewrite H1, H2. now left.
Qed.
Lemma moment_perm k l m : Permutation l m -> moment k l = moment k m.
Proof.
  intro P. assert (M : rmean l = rmean m) by (unfold rmean; now rewrite (rsum_perm P), (Permutation_length P)). unfold moment. rewrite M. unfold rmean. rewrite !map_length, (Permutation_length P). f_equal. now apply rsum_perm, Permutation_map.
Qed.
Lemma ratio_perm l m : Permutation l m -> sharpe_ratio l = sharpe_ratio m.
Proof. intro P. assert (M : rmean l = rmean m) by (unfold rmean; now rewrite (rsum_perm P), (Permutation_length P)). unfold sharpe_ratio, np_std, np_var. now rewrite (moment_perm 2 P), M. Qed.

(** The information ratio is that of the rows both Series have a value for, matched by label. *)
Theorem c182_common s b rows : NoDup (map fst s) -> NoDup (map fst b) -> common_rows s b rows ->
  information_ratio_series s b = information_ratio (map (fun t => fst (snd t)) rows) (map (fun t => snd (snd t)) rows).
Proof.
  intros Ns Nb C. change (sharpe_ratio (drop_nan (excess_series s b)) = information_ratio (map (fun t => fst (snd t)) rows) (map (fun t => snd (snd t)) rows)). rewrite (ratio_perm (common_perm Ns Nb C)). unfold information_ratio. fold (sharpe_ratio (map (fun p => fst p - snd p) (combine (map (fun t => fst (snd t)) rows) (map (fun t => snd (snd t)) rows)))). f_equal.
  clear. induction rows as [|t rows IH]; cbn; auto. f_equal. exact IH.
Qed.
Print Assumptions c182_common.
Lemma common_exists s b : NoDup (map fst s) -> NoDup (map fst b) -> exists rows, common_rows s b rows.
Proof.
  intros Ns Nb. exists (flat_map (tagged s b) (map fst s)). split.
  - assert (F : forall L, incl (map fst (flat_map (tagged s b) L)) L) by (induction L as [|l L IH]; cbn; intros z; [intros []|]; rewrite map_app, in_app_iff; unfold tagged at 1; destruct (value_at s l), (value_at b l); cbn; intros [H|H]; try destruct H; auto; try (right; now apply IH); tauto).
    revert Ns. generalize (map fst s) as L. induction L as [|l L IH]; intro N; cbn; [constructor|]. inversion N; subst. rewrite map_app. unfold tagged at 1. destruct (value_at s l); cbn; auto. destruct (value_at b l); cbn; auto. constructor; auto. intro H. now apply F in H.
  - intros l x y. rewrite in_flat_map. split.
    + intros (l' & H1 & H2). unfold tagged in H2. destruct (value_at s l') as [x'|] eqn:E1; [|destruct H2]. destruct (value_at b l') as [y'|] eqn:E2; [|destruct H2]. destruct H2 as [[= -> -> ->]|[]]. split; now apply value_in.
    + intros [H1 H2]. exists l. split; [apply in_map_iff; now exists (l, Some x)|]. unfold tagged. apply value_in in H1, H2; auto. rewrite H1, H2. now left.
Qed.
(** The order of the rows does not matter, nor do rows only one of them has, nor NaN. *)
Theorem c182_same_rows s b s' b' : NoDup (map fst s) -> NoDup (map fst b) -> NoDup (map fst s') -> NoDup (map fst b') ->
  (forall l x y, In (l, Some x) s /\ In (l, Some y) b <-> In (l, Some x) s' /\ In (l, Some y) b') -> information_ratio_series s b = information_ratio_series s' b'.
Proof.
  intros Ns Nb Ns' Nb' H. destruct (common_exists Ns Nb) as (rows & C). rewrite (c182_common Ns Nb C). symmetry. apply c182_common; auto. destruct C as [C1 C2]. split; auto. intros l x y. now rewrite C2.
Qed.
Print Assumptions c182_same_rows.
(** no row in common: NaN *)
Theorem c182_disjoint s b : NoDup (map fst s) -> NoDup (map fst b) -> (forall l, In l (map fst s) -> ~ In l (map fst b)) -> information_ratio_series s b = None.
Proof.
  intros Ns Nb H. rewrite (@c182_common s b []); auto.
  - unfold information_ratio. cbn [map combine]. destruct (Req_EM_T (np_std []) 0) as [|E]; auto. exfalso. apply E. unfold np_std, np_var, moment, rmean. cbn. unfold Rdiv. rewrite Rmult_0_l. apply sqrt_0.
  - split; [constructor|]. intros l x y. split; [intros []|]. intros [H1 H2]. apply (H l); apply in_map_iff; eexists; split; [|eassumption| |eassumption]; reflexivity.
Qed.
Print Assumptions c182_disjoint.
(** REFUTED: "the same returns give the same ratio, whether as arrays or as Series".  Two returns, and a benchmark listed the other way round. *)
Lemma ratio_value v u k : 0 < u -> np_var v = u ^ 2 -> rmean v = k * u -> sharpe_ratio v = Some k.
Proof.
  intros U V E. assert (SD : np_std v = u) by (unfold np_std; rewrite V, <- (Rsqr_pow2 u); apply sqrt_Rsqr; lra). unfold sharpe_ratio. rewrite SD. destruct (Req_EM_T u 0); [lra|]. f_equal. rewrite E. field. lra.
Qed.
Theorem c182_position_refuted : let s := [(1%Z, Some 1); (2%Z, Some 3)] in let b := [(2%Z, Some 1); (1%Z, Some 0)] in
  NoDup (map fst s) /\ NoDup (map fst b) /\ information_ratio_series s b = Some 3 /\ information_ratio [1; 3] [1; 0] = Some 1.
Proof.
  intros s b. split; [repeat constructor; cbn; lia|]. split; [repeat constructor; cbn; lia|]. split.
  - change (sharpe_ratio [1 - 0; 3 - 1] = Some 3). apply ratio_value with (/ 2); [lra| |]; unfold np_var, moment, rmean; cbn; field.
  - change (sharpe_ratio [1 - 1; 3 - 0] = Some 1). apply ratio_value with (3 / 2); [lra| |]; unfold np_var, moment, rmean; cbn; field.
Qed.
Print Assumptions c182_position_refuted.
(** A benchmark with a row more and a NaN: the two rows in common count. *)
Example c182_ex : let s := [(1%Z, Some 1); (2%Z, Some 3); (4%Z, Some 9)] in let b := [(3%Z, Some 7); (2%Z, Some 1); (1%Z, Some 0); (4%Z, None)] in
  NoDup (map fst s) /\ NoDup (map fst b) /\ common_rows s b [(2%Z, (3, 1)); (1%Z, (1, 0))] /\ information_ratio_series s b = Some 3.
Proof.
  intros s b. assert (Ns : NoDup (map fst s)) by (repeat constructor; cbn; lia). assert (Nb : NoDup (map fst b)) by (repeat constructor; cbn; lia). split; auto. split; auto.
  assert (C : common_rows s b [(2%Z, (3, 1)); (1%Z, (1, 0))]).
  { split; [repeat constructor; cbn; lia|]. intros l x y. split.
    - intros [[= <- <- <-]|[[= <- <- <-]|[]]]; unfold s, b; cbn; tauto.
    - intros [H H']. cbn in H, H'. destruct H as [[= <- <-]|[[= <- <-]|[[= <- <-]|[]]]]; destruct H' as [[= H]|[[= H]|[[= H]|[[= H]|[]]]]]; try discriminate; subst; cbn; tauto. }
  split; auto. rewrite (c182_common Ns Nb C). change (sharpe_ratio [3 - 1; 1 - 0] = Some 3). apply ratio_value with (/ 2); [lra| |]; unfold np_var, moment, rmean; cbn; field.
Qed.
