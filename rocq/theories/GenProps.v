(** C160: paths of geometric Brownian motion as generators sharing numpy's global random state.  The theorems use the axioms of the standard real numbers. *)
From Verif Require Import Py RNum UtilsModel GenModel.
From Coq Require Import Lia Lra.
Set Implicit Arguments.
Unset Strict Implicit.
Open Scope R_scope.

Section Streams.
  Variable St : Type.
  Variable reset : Z -> St.
  Variable draw : St -> R * St.
  (** the state after k draws and the draw number k from a state *)
  Fixpoint after (k : nat) (st : St) : St := match k with O => st | S k' => after k' (snd (draw st)) end.
  Definition stream (st : St) (k : nat) : R := fst (draw (after k st)).
  Lemma stream_S st k : stream (snd (draw st)) k = stream st (S k). Proof. reflexivity. Qed.
  Lemma after_add a : forall b st, after a (after b st) = after (b + a) st.
  Proof. intros b. induction b as [|b IH]; intros st; [reflexivity|]. cbn [Nat.add after]. apply IH. Qed.
  Lemma gbm_ext drift vol dt n : forall z z' k k' s, (forall i, (i < n)%nat -> z (k + i)%nat = z' (k' + i)%nat) -> gbm z drift vol dt k s n = gbm z' drift vol dt k' s n.
  Proof.
    induction n as [|n IH]; intros z z' k k' s H; [reflexivity|]. cbn [gbm]. pose proof (H 0%nat ltac:(lia)) as H0. rewrite !Nat.add_0_r in H0. rewrite H0. f_equal. apply IH. intros i Hi. specialize (H (S i) ltac:(lia)). now rewrite !Nat.add_succ_r in H.
  Qed.
  Definition running (s drift vol : R) (n : nat) (dt : R) (seed : Z) : path := {| p_started := true; p_value := s; p_left := n; p_drift := drift; p_vol := vol; p_dt := dt; p_seed := seed |}.
  Lemma collect_running drift vol dt seed n : forall f s st, (n <= f)%nat -> collect reset draw f (running s drift vol n dt seed) st = gbm (stream st) drift vol dt 0 s n.
  Proof.
    induction n as [|n IH]; intros [|f] s st Hf; try lia; try reflexivity. cbn [collect]. unfold next. cbn [running p_started p_left p_value p_drift p_vol p_dt p_seed].
    destruct (draw st) as [z st'] eqn:E. cbn [gbm]. assert (S0 : stream st 0 = z) by (unfold stream; cbn; now rewrite E). rewrite S0. f_equal.
    fold (running (s + s * (drift * dt + vol * sqrt dt * z)) drift vol n dt seed). rewrite IH by lia. apply gbm_ext. intros i Hi. cbn [Nat.add].
    replace st' with (snd (draw st)) by now rewrite E. apply stream_S.
  Qed.
  (** a path consumed on its own is determined by its arguments: whatever the global state was, it follows the draws of its seed *)
  Theorem c160_alone s0 drift vol n dt seed st : collect reset draw (S n) (new_path s0 drift vol n dt seed) st = gen_geometric_brownian (stream (reset seed)) s0 drift vol n dt.
  Proof.
    unfold gen_geometric_brownian. rewrite <- (@collect_running drift vol dt seed n (S n) s0 (reset seed)) by lia. cbn [collect]. unfold next. cbn [new_path running p_started p_left p_value p_drift p_vol p_dt p_seed]. reflexivity.
  Qed.
  Lemma zip_running d v e a d' v' e' b n : forall f s u st, (n <= f)%nat ->
    collect_zip reset draw f (running s d v n e a) (running u d' v' n e' b) st = combine (gbm (fun k => stream st (2 * k)) d v e 0 s n) (gbm (fun k => stream st (2 * k + 1)) d' v' e' 0 u n).
  Proof.
    induction n as [|n IH]; intros [|f] s u st Hf; try lia; try reflexivity. cbn [collect_zip]. unfold next. cbn [running p_started p_left p_value p_drift p_vol p_dt p_seed].
    destruct (draw st) as [z st1] eqn:E1. destruct (draw st1) as [w st2] eqn:E2. cbn [gbm combine].
    assert (S0 : stream st (2 * 0) = z) by (unfold stream; cbn; now rewrite E1). assert (S1 : stream st (2 * 0 + 1) = w) by (unfold stream; cbn; rewrite E1; cbn; now rewrite E2).
    rewrite S0, S1. f_equal. fold (running (s + s * (d * e + v * sqrt e * z)) d v n e a) (running (u + u * (d' * e' + v' * sqrt e' * w)) d' v' n e' b).
    rewrite IH by lia. assert (T : forall k, stream st2 k = stream st (S (S k))) by (intro k; unfold stream; cbn [after]; rewrite E1; cbn [snd]; now rewrite E2).
    f_equal; apply gbm_ext; intros i Hi; rewrite T; f_equal; lia.
  Qed.
  Lemma gbm_length z d v e n : forall k s, length (gbm z d v e k s n) = n.
  Proof. induction n as [|n IH]; intros k s; cbn [gbm length]; auto. Qed.
  (** what two paths consumed together follow: the first takes one draw of its own seed and then, like the second, every other draw of the second's seed *)
  Theorem c160_together s drift vol dt a s' drift' vol' dt' b n st :
    collect_zip reset draw (S n) (new_path s drift vol n dt a) (new_path s' drift' vol' n dt' b) st =
    combine (gen_geometric_brownian (fun k => match k with O => stream (reset a) 0 | S _ => stream (reset b) (2 * k - 1) end) s drift vol n dt)
            (gen_geometric_brownian (fun k => stream (reset b) (2 * k)) s' drift' vol' n dt').
  Proof.
    cbn [collect_zip]. unfold next. cbn [new_path p_started p_left p_value p_drift p_vol p_dt p_seed]. destruct n as [|n]; [reflexivity|].
    destruct (draw (reset a)) as [z st1] eqn:E1. destruct (draw (reset b)) as [w st2] eqn:E2. unfold gen_geometric_brownian. cbn [gbm combine].
    assert (S0 : stream (reset a) 0 = z) by (unfold stream; cbn; now rewrite E1). assert (S1 : stream (reset b) (2 * 0) = w) by (unfold stream; cbn; now rewrite E2).
    rewrite S0, S1. f_equal. fold (running (s + s * (drift * dt + vol * sqrt dt * z)) drift vol n dt a) (running (s' + s' * (drift' * dt' + vol' * sqrt dt' * w)) drift' vol' n dt' b).
    rewrite zip_running by lia. assert (T : forall k, stream st2 k = stream (reset b) (S k)) by (intro k; unfold stream; cbn [after]; now rewrite E2).
    f_equal; apply gbm_ext; intros i Hi; rewrite T; cbn [Nat.add]; f_equal; lia.
  Qed.
  (** REFUTED: the path of a seed is not reproduced when another path is consumed alongside, not even one of the same seed *)
  Theorem c160_together_refuted s drift vol dt a s' drift' vol' dt' b n st : (2 <= n)%nat -> vol' <> 0 -> 0 < dt' -> s' <> 0 -> 1 + (drift' * dt' + vol' * sqrt dt' * stream (reset b) 0) <> 0 ->
    stream (reset b) 1 <> stream (reset b) 2 ->
    map snd (collect_zip reset draw (S n) (new_path s drift vol n dt a) (new_path s' drift' vol' n dt' b) st) <> collect reset draw (S n) (new_path s' drift' vol' n dt' b) st.
  Proof.
    intros Hn Hv Hdt Hs H1 Hz E. rewrite c160_together, c160_alone in E. unfold gen_geometric_brownian in E.
    assert (MS : forall A B (l : list A) (m : list B), length l = length m -> map snd (combine l m) = m) by (intros A B l; induction l as [|x l IH]; intros [|y m] HL; try discriminate; cbn; auto; f_equal; auto).
    rewrite MS in E by now rewrite !gbm_length. destruct n as [|[|n]]; try lia. cbn [gbm] in E. change (2 * 0)%nat with 0%nat in E. injection E as E _. change (2 * 1)%nat with 2%nat in E.
    set (s1 := s' + s' * (drift' * dt' + vol' * sqrt dt' * stream (reset b) 0)) in *. assert (N1 : s1 <> 0).
    { intro Z. apply H1. apply Rmult_eq_reg_l with s'; auto. unfold s1 in Z. lra. }
    apply Rplus_eq_reg_l in E. apply Rmult_eq_reg_l in E; auto. apply Rplus_eq_reg_l in E. pose proof (sqrt_lt_R0 dt' Hdt). apply Rmult_eq_reg_l in E; [now symmetry in E|].
    intro Z. apply Rmult_integral in Z. lra.
  Qed.
  (** and after its first step the first path no longer depends on its own seed *)
  Theorem c160_seed_lost s drift vol dt a a' s' drift' vol' dt' b n st : stream (reset a) 0 = stream (reset a') 0 ->
    collect_zip reset draw (S n) (new_path s drift vol n dt a) (new_path s' drift' vol' n dt' b) st = collect_zip reset draw (S n) (new_path s drift vol n dt a') (new_path s' drift' vol' n dt' b) st.
  Proof. intro H. rewrite !c160_together. f_equal. unfold gen_geometric_brownian. apply gbm_ext. intros [|i] Hi; auto. Qed.
End Streams.
Print Assumptions c160_alone.
Print Assumptions c160_together.
Print Assumptions c160_together_refuted.
Print Assumptions c160_seed_lost.
(** a counter as random state: two paths of one seed *)
Example c160_ex : let draw := fun k : nat => (INR k, S k) in
  map snd (collect_zip (fun _ => 0%nat) draw 3 (new_path 1 0 1 2 1 7) (new_path 1 0 1 2 1 7) 5%nat) = [1; 3] /\ collect (fun _ => 0%nat) draw 3 (new_path 1 0 1 2 1 7) 5%nat = [1; 2].
Proof. cbn. rewrite sqrt_1. split; repeat (f_equal; try lra). Qed.
