From Coq Require Import ZArith QArith Qcanon Qreals Reals Lra Lia List Bool.
From Flocq Require Import Core BinarySingleNaN.
From Verif Require Import Py Num RNum Float64 FloatBarsModel FloatBarsProofs FloatHRPProofs FloatRetModel FloatRetProps FloatSeriesModel FloatSeriesProofs FloatSeriesProps FloatCusumProps FloatEwmaProps.
From Verif Require Import SeriesModel SeriesSpec SeriesProofs BarsModel BarsSpec BarsProofs InfoBarsProofs RunsBarsProofs FloatInfoModel FloatInfoSpec FloatInfoProofs FloatRunsModel FloatRunsSpec.
Import ListNotations.
Set Implicit Arguments.
Unset Strict Implicit.
Open Scope R_scope.

(** ** the loop: bars end at the first tick where they may close *)
Lemma fbuy_shares_snoc bv h e : forall s, fbuy_shares bv s (h ++ [e]) = fbuy_shares bv s h ++ [fdiv (fbar_sum (fbuy_counts bv) (match h with [] => s | _ => S (last h 0%nat) end) e) (fz (Z.of_nat (S e - match h with [] => s | _ => S (last h 0%nat) end)))].
Proof.
  induction h as [|x h IH]; intro s; [reflexivity|]. cbn [app fbuy_shares]. rewrite IH. destruct h as [|y h]; reflexivity.
Qed.
Lemma fbuy_shares_snoc0 bv h e : fbuy_shares bv 0 (h ++ [e]) = fbuy_shares bv 0 h ++ [fdiv (fbar_sum (fbuy_counts bv) (next_start h) e) (fz (Z.of_nat (S e - next_start h)))].
Proof. rewrite fbuy_shares_snoc. destruct h; reflexivity. Qed.
Lemma fbuy_shares_length bv : forall h s, length (fbuy_shares bv s h) = length h.
Proof. induction h; intro s; cbn; auto. Qed.

Section FRuns.
  Variables (P : fimb_params) (P_buy E_buy E_sell : f64) (bv : list (f64 * f64)).
  Let thr0 := fruns_threshold (fz (Z.of_nat (fm_E_T_init P))) P_buy E_buy E_sell.
  Let thr := fruns_bar_threshold P thr0 bv.
  Let trig := fruns_trigger P thr0 bv.
  Let reached := fruns_size_reached P bv.
  Record fruns_inv (i : nat) (s : fruns_state) : Prop := {
    fri_start : fr_start s = next_start (rev (fr_ends s));
    fri_le : (fr_start s <= i)%nat;
    fri_pos : (1 <= i)%nat;
    fri_T : rev (fr_T s) = map (fun T => fz (Z.of_nat T)) (bar_lengths 0 (rev (fr_ends s)));
    fri_ratio : rev (fr_ratio s) = fbuy_shares bv 0 (rev (fr_ends s));
    fri_vbuys : rev (fr_vbuys s) = fbuys_upto bv (i - 1);
    fri_vsells : rev (fr_vsells s) = fsells_upto bv (i - 1);
    fri_size : fr_size s = fpartial (map snd bv) (fr_start s) i;
    fri_buys : fr_buys s = fpartial (fbuy_counts bv) (fr_start s) i;
    fri_vb : fr_vb s = fpartial (fbuy_amounts bv) (fr_start s) i;
    fri_vs : fr_vs s = fpartial (fsell_amounts bv) (fr_start s) i;
    fri_thr : fr_thr s = thr (rev (fr_ends s));
    fri_pad : fr_pad s = true <-> exists j, (Nat.max 1 (fr_start s) <= j < i)%nat /\ trig (rev (fr_ends s)) (fr_start s) j;
    fri_open : forall j, (j < i)%nat -> ~ may_close trig reached (rev (fr_ends s)) j;
    fri_first : all_first trig reached (rev (fr_ends s));
    fri_both : forall e, In e (rev (fr_ends s)) -> fboth_sides bv e }.
  Lemma fruns_init_inv b0 v0 rest : bv = (b0, v0) :: rest -> fruns_inv 1 (fruns_init P P_buy E_buy E_sell b0 v0).
  Proof.
    intro Ef. constructor; unfold fruns_init; cbn [fr_start fr_ends fr_T fr_ratio fr_vbuys fr_vsells fr_size fr_buys fr_vb fr_vs fr_thr fr_pad rev bar_lengths map]; auto; try lia.
    - unfold fbuys_upto. rewrite Ef. reflexivity.
    - unfold fsells_upto. rewrite Ef. reflexivity.
    - rewrite Ef. reflexivity.
    - unfold fbuy_counts. rewrite Ef. reflexivity.
    - unfold fbuy_amounts. rewrite Ef. reflexivity.
    - unfold fsell_amounts. rewrite Ef. reflexivity.
    - split; [discriminate|]. intros [j [H _]]. lia.
    - intros j Hj [H _]. cbn in H. lia.
    - intros [|k] e; discriminate.
    - intros ? [].
  Qed.
  Lemma fbuys_step i b v : nth_error bv i = Some (b, v) -> (1 <= i)%nat ->
    fbuys_upto bv i = fbuys_upto bv (i - 1) ++ (if fle (fz 0) b then [v] else []) /\ fsells_upto bv i = fsells_upto bv (i - 1) ++ (if flt b (fz 0) then [v] else []).
  Proof.
    intros Hn Hi. unfold fbuys_upto, fsells_upto. replace (S (i - 1)) with i by lia. rewrite (@firstn_S_snoc _ _ _ _ Hn), tl_app.
    2: { destruct bv; [destruct i; discriminate|]. destruct i; [lia|discriminate]. }
    rewrite !filter_app, !map_app. cbn [filter fst]. destruct (fle (fz 0) b), (flt b (fz 0)); cbn [map]; auto.
  Qed.
  Lemma fruns_step_inv i b v s : nth_error bv i = Some (b, v) -> fruns_inv i s ->
    (exists s', fruns_step P i b v s = Some s' /\ fruns_inv (S i) s') \/
    (fruns_step P i b v s = None /\ may_close trig reached (rev (fr_ends s)) i /\ ~ fboth_sides bv i).
  Proof.
    intros Hb [I1 I2 I3 I4 IR IVB IVS I6 IB Ib Is I7 I8 I9 I10 IBS]. assert (Hi : (i < length bv)%nat) by (apply nth_error_Some; congruence).
    assert (N1 : nth_error (map snd bv) i = Some v) by (apply (map_nth_error snd _ _ Hb)).
    assert (N2 : nth_error (fbuy_amounts bv) i = Some (if fle (fz 0) b then v else fz 0)) by (unfold fbuy_amounts; apply (map_nth_error (fun x => if fle (fz 0) (fst x) then snd x else fz 0) _ _ Hb)).
    assert (N3 : nth_error (fsell_amounts bv) i = Some (if flt b (fz 0) then v else fz 0)) by (unfold fsell_amounts; apply (map_nth_error (fun x => if flt (fst x) (fz 0) then snd x else fz 0) _ _ Hb)).
    assert (N4 : nth_error (fbuy_counts bv) i = Some (if fle (fz 0) b then fz 1 else fz 0)).
    { unfold fbuy_counts. revert Hb I3. destruct bv as [|x l]; [destruct i; discriminate|]. destruct i as [|i']; [lia|]. intros Hb _. cbn [nth_error] in Hb |- *. apply (map_nth_error (fun y => if fle (fz 0) (fst y) then fz 1 else fz 0) _ _ Hb). }
    pose proof (fpartial_step I2 I3 N1) as E1. rewrite <- I6 in E1. pose proof (fpartial_step I2 I3 N2) as E2. rewrite <- Ib in E2.
    pose proof (fpartial_step I2 I3 N3) as E3. rewrite <- Is in E3. pose proof (fpartial_step I2 I3 N4) as E4. rewrite <- IB in E4.
    destruct (fbuys_step Hb I3) as [B1 B2].
    assert (B1' : rev (if fle (fz 0) b then v :: fr_vbuys s else fr_vbuys s) = fbuys_upto bv i) by (rewrite B1, <- IVB; destruct (fle (fz 0) b); cbn [rev]; auto; now rewrite app_nil_r).
    assert (B2' : rev (if flt b (fz 0) then v :: fr_vsells s else fr_vsells s) = fsells_upto bv i) by (rewrite B2, <- IVS; destruct (flt b (fz 0)); cbn [rev]; auto; now rewrite app_nil_r).
    unfold fruns_step. cbv zeta. rewrite <- E1, <- E2, <- E3, <- E4. set (vbuys := if fle (fz 0) b then v :: fr_vbuys s else fr_vbuys s) in *. set (vsells := if flt b (fz 0) then v :: fr_vsells s else fr_vsells s) in *. clearbody vbuys vsells.
    set (fire := fle (fr_thr s) (fmax_py (fbar_sum (fbuy_amounts bv) (fr_start s) i) (fbar_sum (fsell_amounts bv) (fr_start s) i)) || fle (fm_max P) (fbar_sum (map snd bv) (fr_start s) i) || fr_pad s).
    assert (Hfire : fire = true <-> exists j, (Nat.max 1 (fr_start s) <= j <= i)%nat /\ trig (rev (fr_ends s)) (fr_start s) j).
    { unfold fire. rewrite I7, !orb_true_iff.
      change (fle (thr (rev (fr_ends s))) (fmax_py (fbar_sum (fbuy_amounts bv) (fr_start s) i) (fbar_sum (fsell_amounts bv) (fr_start s) i)) = true \/ fle (fm_max P) (fbar_sum (map snd bv) (fr_start s) i) = true) with (trig (rev (fr_ends s)) (fr_start s) i). rewrite I8. split.
      - intros [H|[j [Hj H]]]; [exists i; split; auto; lia|exists j; split; auto; lia].
      - intros [j [Hj H]]. destruct (Nat.eq_dec j i) as [->|N]; [now left|]. right. exists j. split; auto. lia. }
    assert (SI : (S i - 1 = i)%nat) by lia. destruct fire eqn:Ef.
    - assert (Hf : exists j, (Nat.max 1 (fr_start s) <= j <= i)%nat /\ trig (rev (fr_ends s)) (fr_start s) j) by now apply Hfire.
      destruct (flt (fbar_sum (map snd bv) (fr_start s) i) (fm_min P)) eqn:Es.
      + left. eexists. split; [reflexivity|]. constructor; cbn [fr_start fr_ends fr_T fr_ratio fr_vbuys fr_vsells fr_size fr_buys fr_vb fr_vs fr_thr fr_pad]; rewrite ?SI; auto; try lia; try (symmetry; now apply fpartial_next).
        * split; auto. intros _. destruct Hf as [j [Hj H]]. exists j. split; auto. lia.
        * intros j Hj. destruct (Nat.eq_dec j i) as [->|N]; [|apply I9; lia]. intros [_ [Hbig _]]. unfold reached, fruns_size_reached in Hbig. rewrite <- I1 in Hbig. congruence.
      + assert (Hclose : may_close trig reached (rev (fr_ends s)) i) by (unfold may_close; rewrite <- I1; split; [lia|]; split; auto).
        assert (HL : rev (fz (Z.of_nat (i - fr_start s + 1)) :: fr_T s) = map (fun T => fz (Z.of_nat T)) (bar_lengths 0 (rev (fr_ends s) ++ [i]))).
        { cbn [rev]. rewrite bar_lengths_snoc0, map_app, I4, I1. cbn [map]. do 4 f_equal. rewrite <- I1. lia. }
        assert (HR : rev (fdiv (fbar_sum (fbuy_counts bv) (fr_start s) i) (fz (Z.of_nat (i - fr_start s + 1))) :: fr_ratio s) = fbuy_shares bv 0 (rev (fr_ends s) ++ [i])).
        { cbn [rev]. rewrite fbuy_shares_snoc0, IR, I1. do 5 f_equal. rewrite <- I1. lia. }
        assert (BS : vbuys <> [] -> vsells <> [] -> fboth_sides bv i). { intros V1 V2. unfold fboth_sides. rewrite <- B1', <- B2'. split; intro C; apply (f_equal (@length _)) in C; rewrite rev_length in C; [destruct vbuys|destruct vsells]; try congruence; discriminate. }
        destruct vbuys as [|x0 xs] eqn:EB; [right; split; [reflexivity|]; split; auto; intros [C _]; now rewrite <- B1' in C|].
        destruct vsells as [|y0 ys] eqn:ES; [right; split; [reflexivity|]; split; auto; intros [_ C]; now rewrite <- B2' in C|].
        rewrite <- EB, <- ES in *. left. eexists. split; [reflexivity|].
        constructor; cbn [fr_start fr_ends fr_T fr_ratio fr_vbuys fr_vsells fr_size fr_buys fr_vb fr_vs fr_thr fr_pad]; rewrite ?SI, ?fpartial_empty; auto; try lia.
        * cbn [rev]. now rewrite next_start_snoc.
        * assert (LL : length (fz (Z.of_nat (i - fr_start s + 1)) :: fr_T s) = length (rev (fr_ends s) ++ [i])) by (apply (f_equal (@length _)) in HL; rewrite rev_length in HL; rewrite HL, map_length, bar_lengths_length; auto).
          rewrite LL, HL, HR, B1', B2'. replace (length vbuys) with (length (fbuys_upto bv i)) by (rewrite <- B1', rev_length; auto). replace (length vsells) with (length (fsells_upto bv i)) by (rewrite <- B2', rev_length; auto).
          cbn [rev]. unfold thr, fruns_bar_threshold. destruct (rev (fr_ends s) ++ [i]) eqn:E; [destruct (rev (fr_ends s)); discriminate|]. rewrite <- E. rewrite last_last. reflexivity.
        * split; [discriminate|]. intros [j [Hj _]]. lia.
        * intros j Hj [H _]. cbn [rev] in H. rewrite next_start_snoc in H. lia.
        * cbn [rev]. apply all_first_snoc; auto. now rewrite <- I1.
        * cbn [rev]. intros e He. apply in_app_or in He. destruct He as [He|[<-|[]]]; [now apply IBS|]. apply BS; [rewrite EB|rewrite ES]; discriminate.
    - assert (Hf : ~ exists j, (Nat.max 1 (fr_start s) <= j <= i)%nat /\ trig (rev (fr_ends s)) (fr_start s) j) by (intro C; apply Hfire in C; discriminate).
      left. eexists. split; [reflexivity|]. constructor; cbn [fr_start fr_ends fr_T fr_ratio fr_vbuys fr_vsells fr_size fr_buys fr_vb fr_vs fr_thr fr_pad]; rewrite ?SI; auto; try lia; try (symmetry; now apply fpartial_next).
      + split.
        * intro H. apply I8 in H. destruct H as [j [Hj H]]. exists j. split; auto. lia.
        * intros [j [Hj H]]. exfalso. apply Hf. exists j. split; auto. lia.
      + intros j Hj. destruct (Nat.eq_dec j i) as [->|N]; [|apply I9; lia]. intros [_ [_ H]]. rewrite <- I1 in H. auto.
  Qed.
  Lemma fboth_sides_later i j : (i <= j)%nat -> fboth_sides bv i -> fboth_sides bv j.
  Proof.
    intros H [B1 B2]. assert (E : exists l, tl (firstn (S j) bv) = tl (firstn (S i) bv) ++ l).
    { exists (firstn (j - i) (skipn (S i) bv)). destruct bv as [|x l]; [now rewrite !firstn_nil|]. cbn [firstn tl skipn]. replace j with (i + (j - i))%nat at 1 by lia. generalize (j - i)%nat as d. clear. revert l. induction i as [|i IH]; intros l d; [reflexivity|]. destruct l as [|y l]; [now rewrite ?skipn_nil, !firstn_nil|]. cbn [Nat.add firstn skipn app]. f_equal. apply IH. }
    destruct E as [l E]. unfold fboth_sides, fbuys_upto, fsells_upto in *. rewrite E, !filter_app, !map_app. split; intro C; apply app_eq_nil in C; tauto.
  Qed.
  Definition ffirst_one_sided : Prop := exists i, (forall j, (j < i)%nat -> ~ may_close trig reached [] j) /\ may_close trig reached [] i /\ (i < length bv)%nat /\ ~ fboth_sides bv i.
  Lemma fruns_loop_inv rest : forall i s, skipn i bv = rest -> fruns_inv i s -> (i <= length bv)%nat ->
    (exists s', fruns_loop P rest i s = Some s' /\ fruns_inv (length bv) s') \/ (fruns_loop P rest i s = None /\ ffirst_one_sided).
  Proof.
    induction rest as [|[b v] rest IH]; intros i s Hr Hi Hle; cbn [fruns_loop].
    - left. exists s. split; auto. assert (i = length bv) by (apply (f_equal (@length _)) in Hr; rewrite skipn_length in Hr; cbn in Hr; lia). now subst i.
    - assert (Hb : nth_error bv i = Some (b, v)). { pose proof (nth_error_skipn bv i 0) as H. rewrite Hr, Nat.add_0_r in H. cbn in H. congruence. }
      assert (Hlt : (i < length bv)%nat) by (apply nth_error_Some; congruence).
      destruct (fruns_step_inv Hb Hi) as [[s' [E Hi']]|[E [Hc Hn]]]; rewrite E.
      + apply IH; auto. replace (S i) with (1 + i)%nat by lia. rewrite <- skipn_skipn, Hr. reflexivity.
      + right. split; auto. destruct Hi. destruct (rev (fr_ends s)) as [|e0 h0] eqn:Eh; [exists i; auto|]. exfalso. apply Hn. destruct (@exists_last _ (e0 :: h0) ltac:(discriminate)) as (h & e & EL). rewrite EL in *.
        rewrite next_start_snoc in fri_start0. apply (@fboth_sides_later e i); [lia|]. apply fri_both0. apply in_or_app. right. now left.
  Qed.
  Lemma fruns_sizes_ok : bv <> [] ->
    (exists ends, fruns_sizes P bv P_buy E_buy E_sell = Some (ends, map (fun T => fz (Z.of_nat T)) (bar_lengths 0 ends)) /\
       ends_at_first_close trig reached (length bv) ends /\ incr_from (length bv) 0 ends /\ ~ ffirst_one_sided) \/
    (fruns_sizes P bv P_buy E_buy E_sell = None /\ ffirst_one_sided).
  Proof.
    intro Hne. assert (exists b0 v0 rest, bv = (b0, v0) :: rest) as [b0 [v0 [rest Ef]]] by (destruct bv as [|[b0 v0] rest]; [congruence|eauto]).
    assert (Hr : skipn 1 bv = rest) by (rewrite Ef; reflexivity). assert (Hl : (1 <= length bv)%nat) by (rewrite Ef; cbn; lia).
    assert (EC : fruns_sizes P bv P_buy E_buy E_sell = match fruns_loop P rest 1 (fruns_init P P_buy E_buy E_sell b0 v0) with None => None | Some s =>
      Some (if (fr_start s <? length bv)%nat then (rev (fr_ends s) ++ [(length bv - 1)%nat], rev (fr_T s) ++ [fz (Z.of_nat (length bv - fr_start s))]) else (rev (fr_ends s), rev (fr_T s))) end) by (rewrite Ef; reflexivity).
    rewrite EC. destruct (fruns_loop_inv Hr (fruns_init_inv Ef) Hl) as [[s [E Hi]]|[E Hc]]; rewrite E; [left|right; auto].
    destruct Hi. pose proof (finish_ends (n := length bv) (h := rev (fr_ends s)) Hl fri_first0 ltac:(lia) fri_open0) as [F1 F2]. 
    assert (NO : ~ ffirst_one_sided).
    { intros (i & F & M & L & B). destruct (rev (fr_ends s)) as [|e0 h0] eqn:Eh; [exact (fri_open0 i L M)|]. destruct (fri_first0 0%nat e0 eq_refl) as (_ & F0 & M0). cbn [firstn] in F0, M0.
      assert (e0 = i) by (destruct (lt_eq_lt_dec e0 i) as [[H|H]|H]; auto; exfalso; [exact (F e0 H M0)|exact (F0 i H M)]). subst e0. apply B. apply fri_both0. now left. }
    rewrite fri_start0 in *. destruct (next_start (rev (fr_ends s)) <? length bv)%nat eqn:EL.
    - eexists. split; [|split; eauto]. rewrite bar_lengths_snoc0, map_app, fri_T0. cbn [map]. do 5 f_equal. f_equal. lia.
    - eexists. split; [|split; eauto]. now rewrite fri_T0.
  Qed.
End FRuns.
