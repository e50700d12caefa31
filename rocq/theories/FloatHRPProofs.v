(** Proofs for recursive bisection in binary64. *)
From Coq Require Import ZArith Reals Lra Lia List Permutation.
From Flocq Require Import Core BinarySingleNaN Sterbenz Relative.
From Verif Require Import RNum Float64 HRPModel HRPProofs FloatBarsProofs FloatHRPModel.
Import ListNotations.
Set Implicit Arguments.
Unset Strict Implicit.
Open Scope R_scope.

(** the two shares of a split are in [0,1] and add up to exactly 1 *)
Lemma format64_sub_half a : format64 a -> / 2 <= a <= 1 -> format64 (1 - a).
Proof.
  intros Fa Ha. apply sterbenz; try typeclasses eauto; auto; [apply (@format64_int 1); lia|lra].
Qed.
Lemma rnd64_01 x : 0 <= x <= 1 -> 0 <= rnd64 x <= 1.
Proof. intros [H1 H2]. apply rnd64_mono in H1, H2. rewrite rnd64_0 in H1. rewrite rnd64_1 in H2. lra. Qed.
Lemma rnd64_0w x w : 0 <= x <= fv w -> 0 <= rnd64 x <= fv w.
Proof. intros [H1 H2]. apply rnd64_mono in H1, H2. rewrite rnd64_0 in H1. rewrite rnd64_fv in H2. lra. Qed.
Definition usable (v1 v2 : f64) : Prop := fin v1 /\ fin v2 /\ 0 <= fv v1 /\ 0 <= fv v2 /\ 0 < fv v1 + fv v2 <= big.
Lemma split_shares v1 v2 : usable v1 v2 -> let a := falpha v1 v2 in let b := fsub (fz 1) a in
  fin a /\ fin b /\ 0 <= fv a <= 1 /\ 0 <= fv b <= 1 /\ fv a + fv b = 1.
Proof.
  intros (F1 & F2 & P1 & P2 & P) a b. destruct (@fz_spec 1) as [Fo Vo]; [lia|]. assert (B1 : 1 <= big) by (change 1 with (bpow radix2 0); apply bpow_le; lia).
  destruct (@fadd_spec v1 v2 F1 F2) as [Fs Vs]; [rewrite Rabs_pos_eq; lra|].
  assert (Ls : fv v1 <= fv (fadd v1 v2)) by (rewrite Vs, <- (rnd64_fv v1) at 1; apply rnd64_mono; lra).
  assert (Ls2 : fv v2 <= fv (fadd v1 v2)) by (rewrite Vs, <- (rnd64_fv v2) at 1; apply rnd64_mono; lra).
  assert (Ps : 0 < fv (fadd v1 v2)) by lra.
  assert (Q : 0 <= fv v1 / fv (fadd v1 v2) <= 1).
  { assert (0 < / fv (fadd v1 v2)) by now apply Rinv_0_lt_compat. split; [apply Rmult_le_pos; lra|]. apply Rmult_le_reg_r with (fv (fadd v1 v2)); auto. unfold Rdiv. rewrite Rmult_assoc, Rinv_l; lra. }
  destruct (@fdiv_spec v1 (fadd v1 v2) F1) as [Fq Vq]; [lra|rewrite Rabs_pos_eq; lra|]. set (q := fdiv v1 (fadd v1 v2)) in *.
  assert (Q' : 0 <= fv q <= 1) by (rewrite Vq; apply rnd64_01; lra).
  destruct (@fsub_spec (fz 1) q Fo Fq) as [Fa Va]; [rewrite Vo; change (IZR 1) with 1; rewrite Rabs_pos_eq; lra|]. change (fsub (fz 1) q) with a in Fa, Va. rewrite Vo in Va. change (IZR 1) with 1 in Va.
  assert (A : 0 <= fv a <= 1) by (rewrite Va; apply rnd64_01; lra).
  destruct (@fsub_spec (fz 1) a Fo Fa) as [Fb Vb]; [rewrite Vo; change (IZR 1) with 1; rewrite Rabs_pos_eq; lra|]. fold b in Fb, Vb. rewrite Vo in Vb. change (IZR 1) with 1 in Vb.
  assert (B : 0 <= fv b <= 1) by (rewrite Vb; apply rnd64_01; lra).
  repeat split; try apply A; try apply B; auto.
  destruct (Rle_or_lt (/ 2) (fv a)) as [H|H].
  - rewrite Vb, rnd64_id; [lra|]. apply format64_sub_half; [apply fv_format|lra].
  - assert (Hq : / 2 <= fv q).
    { destruct (Rle_or_lt (/ 2) (fv q)) as [G|G]; auto. exfalso. assert (/ 2 <= fv a); [|lra]. rewrite Va. replace (/ 2) with (rnd64 (/ 2)); [apply rnd64_mono; lra|].
      apply rnd64_id. change (/ 2) with (bpow radix2 (-1)). apply format64_bpow. lia. }
    rewrite rnd64_id in Va by (apply format64_sub_half; [apply fv_format|lra]). rewrite Vb, Va. replace (1 - (1 - fv q)) with (fv q) by lra. rewrite rnd64_fv. lra.
Qed.

(** the weight handed down from [w] on a list of items to item [i] *)
Inductive fshare (var : list nat -> f64) : list nat -> f64 -> nat -> f64 -> Prop :=
| fshare_one i w : fshare var [i] w i w
| fshare_left p1 p2 w i w' : length p1 = (length (p1 ++ p2) / 2)%nat -> p1 <> [] -> fshare var p1 (fmul w (falpha (var p1) (var p2))) i w' -> fshare var (p1 ++ p2) w i w'
| fshare_right p1 p2 w i w' : length p1 = (length (p1 ++ p2) / 2)%nat -> p1 <> [] -> fshare var p2 (fmul w (fsub (fz 1) (falpha (var p1) (var p2)))) i w' -> fshare var (p1 ++ p2) w i w'.

Section Bisect.
  Variable var : list nat -> f64.
  Lemma fscale_map part a f ks : fscale part a (map (fun i => (i, f i)) ks) = map (fun i => (i, if existsb (Nat.eqb i) part then fmul (f i) a else f i)) ks.
  Proof. unfold fscale. rewrite map_map. reflexivity. Qed.
  Lemma fsplit_pairs_ok parts : forall ks f, NoDup (concat parts) ->
    exists h, fsplit_pairs var (bisect parts) (map (fun i => (i, f i)) ks) = map (fun i => (i, h i)) ks /\
      (forall p i, In p parts -> (1 < length p)%nat -> (In i (fst (halves p)) -> h i = fmul (f i) (falpha (var (fst (halves p))) (var (snd (halves p))))) /\
                                                   (In i (snd (halves p)) -> h i = fmul (f i) (fsub (fz 1) (falpha (var (fst (halves p))) (var (snd (halves p))))))) /\
      (forall i, ~ In i (concat (bisect parts)) -> h i = f i).
  Proof.
    induction parts as [|p ps IH]; intros ks f Hn.
    - exists f. split; [reflexivity|]. split; [intros ? ? []|auto].
    - cbn [concat] in Hn. apply NoDup_app_iff in Hn as (N1 & N2 & N3). cbn [bisect flat_map]. fold (bisect ps).
      assert (Hps : forall q i, In q ps -> In i q -> ~ In i p) by (intros q i Hq Hiq Hip; apply (N3 i Hip); apply in_concat; eauto).
      destruct (Nat.ltb_spec 1 (length p)) as [Hp|Hp].
      + cbn [app fsplit_pairs]. pose proof (halves_app p) as Ha. cbn [halves fst snd] in Ha.
        set (p1 := firstn (length p / 2) p) in *. set (p2 := skipn (length p / 2) p) in *.
        assert (Nd : NoDup (p1 ++ p2)) by (rewrite Ha; auto). apply NoDup_app_iff in Nd as (D1 & D2 & D3).
        rewrite !fscale_map. set (alpha := falpha (var p1) (var p2)).
        destruct (IH ks (fun i => if existsb (Nat.eqb i) p2 then fmul (if existsb (Nat.eqb i) p1 then fmul (f i) alpha else f i) (fsub (fz 1) alpha) else if existsb (Nat.eqb i) p1 then fmul (f i) alpha else f i) N2) as (h & E1 & E2 & E3).
        rewrite E1.
        assert (Hout : forall i, In i p -> ~ In i (concat (bisect ps))).
        { intros i Hip Hin. rewrite bisect_concat in Hin. apply (N3 i Hip), (filter_concat_incl Hin). }
        exists h. split; auto. split.
        * intros q i [<-|Hq] Hl.
          -- cbn [halves fst snd]. fold p1 p2. split; intro Hin.
             ++ assert (~ In i p2) by (now apply D3). apply mem_not in H. rewrite E3 by (apply Hout; rewrite <- Ha; apply in_or_app; auto). rewrite H, (proj2 (mem_in i p1) Hin). reflexivity.
             ++ assert (~ In i p1) by (intro H; now apply (D3 i H)). apply mem_not in H. rewrite E3 by (apply Hout; rewrite <- Ha; apply in_or_app; auto). rewrite H, (proj2 (mem_in i p2) Hin). reflexivity.
          -- assert (G : In i q -> existsb (Nat.eqb i) p1 = false /\ existsb (Nat.eqb i) p2 = false).
             { intro Hiq. pose proof (Hps q i Hq Hiq) as Hnp. rewrite <- Ha, in_app_iff in Hnp. rewrite !mem_not. tauto. }
             destruct (E2 q i Hq Hl) as [F1 F2]. pose proof (halves_app q) as Hqa.
             split; intro Hin; destruct G as [G1 G2]; try (rewrite <- Hqa; apply in_or_app; auto); [rewrite F1|rewrite F2]; auto; rewrite G1, G2; reflexivity.
        * intros i Hni. cbn [concat] in Hni. rewrite !in_app_iff in Hni. fold p1 p2 in Hni. rewrite E3 by tauto. rewrite (proj2 (mem_not i p1)), (proj2 (mem_not i p2)) by tauto. reflexivity.
      + cbn [app]. destruct (IH ks f N2) as (h & E1 & E2 & E3). exists h. split; auto. split; auto. intros q i [<-|Hq] Hl; [lia|auto].
  Qed.
  Lemma fbisect_loop_ok fuel : forall parts ks f, NoDup (concat parts) ->
    (forall p, In p parts -> p <> [] /\ (length p <= fuel)%nat) ->
    exists g, fbisect_loop fuel var parts (map (fun i => (i, f i)) ks) = Some (map (fun i => (i, g i)) ks) /\
      (forall p i w, In p parts -> In i p -> (forall j, In j p -> f j = w) -> fshare var p w i (g i)) /\ (forall i, ~ In i (concat parts) -> g i = f i).
  Proof.
    induction fuel as [|fuel IH]; intros parts ks f Hn Hp.
    - destruct parts as [|p ps]; [|exfalso; destruct (Hp p (or_introl eq_refl)) as [H1 H2]; destruct p; cbn in H2; [congruence|lia]].
      exists f. split; [reflexivity|]. split; [intros ? ? ? []|auto].
    - destruct parts as [|p0 ps0]; [exists f; split; [reflexivity|]; split; [intros ? ? ? []|auto]|].
      set (parts := p0 :: ps0) in *. assert (Eb : fbisect_loop (S fuel) var parts (map (fun i => (i, f i)) ks) = fbisect_loop fuel var (bisect parts) (fsplit_pairs var (bisect parts) (map (fun i => (i, f i)) ks))) by reflexivity.
      rewrite Eb. clearbody parts. clear Eb p0 ps0.
      destruct (fsplit_pairs_ok ks f Hn) as (h & E1 & E2 & E3). rewrite E1.
      destruct (IH (bisect parts) ks h) as (g & G1 & G2 & G3).
      + rewrite bisect_concat. now apply filter_concat_nodup.
      + intros q Hq. unfold bisect in Hq. apply in_flat_map in Hq as (p & Hpp & Hq). destruct (Nat.ltb_spec 1 (length p)) as [Hl|Hl]; [|destruct Hq].
        pose proof (halves_bounds Hl) as Hb. cbn [halves fst snd] in Hb. destruct (Hp p Hpp) as [_ Hlen].
        destruct Hq as [<-|[<-|[]]]; (split; [|lia]); intro E; rewrite E in Hb; cbn in Hb; lia.
      + rewrite G1. exists g. split; auto. split.
        * intros p i w Hpp Hip Hw. destruct (Hp p Hpp) as [Hne Hlen]. destruct (Nat.lt_ge_cases 1 (length p)) as [Hl|Hl].
          -- pose proof (halves_app p) as Ha. pose proof (halves_len p) as Hhl. pose proof (halves_bounds Hl) as Hb.
             assert (In1 : In (fst (halves p)) (bisect parts) /\ In (snd (halves p)) (bisect parts)).
             { unfold bisect. split; apply in_flat_map; exists p; (split; [auto|]); rewrite (proj2 (Nat.ltb_lt _ _) Hl); cbn; auto. }
             destruct In1 as [I1 I2]. pose proof Hip as Hip'. rewrite <- Ha in Hip. apply in_app_or in Hip as [Hip|Hip].
             ++ rewrite <- Ha at 1. apply fshare_left; [now rewrite Ha|intro E; rewrite E in Hb; cbn in Hb; lia|]. apply G2; auto.
                intros j Hj. destruct (E2 p j Hpp Hl) as [F1 _]. rewrite F1, Hw by (auto; rewrite <- Ha; apply in_or_app; auto). reflexivity.
             ++ rewrite <- Ha at 1. apply fshare_right; [now rewrite Ha|intro E; rewrite E in Hb; cbn in Hb; lia|]. apply G2; auto.
                intros j Hj. destruct (E2 p j Hpp Hl) as [_ F2]. rewrite F2, Hw by (auto; rewrite <- Ha; apply in_or_app; auto). reflexivity.
          -- assert (L1 : length p = 1%nat) by (destruct p as [|a p]; [congruence|]; cbn [length] in *; lia).
             assert (Hnot : ~ In i (concat (bisect parts))) by (rewrite bisect_concat; apply (nodup_concat_disjoint Hn Hpp Hip); apply Nat.ltb_ge; lia).
             rewrite G3, E3, (Hw i Hip) by auto. destruct p as [|a [|b p]]; cbn in L1; try lia. destruct Hip as [->|[]]. constructor.
        * intros i Hni. assert (Hnot : ~ In i (concat (bisect parts))) by (rewrite bisect_concat; intro Hin; now apply Hni, (filter_concat_incl Hin)).
          rewrite G3, E3 by auto. reflexivity.
  Qed.
  Lemma fshare_in p w i m : fshare var p w i m -> In i p.
  Proof. induction 1; cbn; auto; apply in_or_app; auto. Qed.
  Lemma fshare_inv p1 p2 w i m : length p1 = (length (p1 ++ p2) / 2)%nat -> p1 <> [] -> NoDup (p1 ++ p2) -> fshare var (p1 ++ p2) w i m ->
    (In i p1 /\ fshare var p1 (fmul w (falpha (var p1) (var p2))) i m) \/ (In i p2 /\ fshare var p2 (fmul w (fsub (fz 1) (falpha (var p1) (var p2)))) i m).
  Proof.
    intros Hl Hne Hn Hs. remember (p1 ++ p2) as p eqn:Ep. destruct Hs as [j w|q1 q2 w j m' Hq Hqn Hs|q1 q2 w j m' Hq Hqn Hs].
    - destruct p1 as [|a p1]; [congruence|]. cbn in Hl. discriminate.
    - assert (E : q1 = p1 /\ q2 = p2) by (apply app_len_inj; auto; congruence). destruct E as [-> ->]. left. split; [now apply fshare_in in Hs|auto].
    - assert (E : q1 = p1 /\ q2 = p2) by (apply app_len_inj; auto; congruence). destruct E as [-> ->]. right. split; [now apply fshare_in in Hs|auto].
  Qed.

  (** half the smallest positive number *)
  Definition eta64 : R := bpow radix2 (-1075).
  Lemma rnd_error_any x : exists e h, Rabs e <= u64 /\ Rabs h <= eta64 /\ rnd64 x = x * (1 + e) + h.
  Proof.
    destruct (@error_N_FLT radix2 (-1074) 53 ltac:(lia) (fun x => negb (Z.even x)) x) as (e & h & H1 & H2 & _ & H3). exists e, h. repeat split; auto.
    - replace u64 with (/ 2 * bpow radix2 (-53 + 1)); auto. change (/ 2) with (bpow radix2 (-1)). rewrite <- bpow_plus. reflexivity.
    - replace eta64 with (/ 2 * bpow radix2 (-1074)); auto. change (/ 2) with (bpow radix2 (-1)). rewrite <- bpow_plus. reflexivity.
  Qed.
  Variable idx : list nat.
  Hypothesis var_ok : forall c1 c2, c1 <> [] -> c2 <> [] -> incl c1 idx -> incl c2 idx -> usable (var c1) (var c2).
  Lemma fshare_total d : forall p g w, (length p <= 2 ^ d)%nat -> p <> [] -> NoDup p -> incl p idx -> (forall i, In i p -> fshare var p w i (g i)) -> fin w -> 0 <= fv w <= 1 ->
    (forall i, In i p -> fin (g i) /\ 0 <= fv (g i) <= fv w) /\
    fv w * (1 - u64) ^ d - 2 * (INR (length p) - 1) * eta64 <= rsum (map (fun i => fv (g i)) p) <= (fv w + 2 * (INR (length p) - 1) * eta64) * (1 + u64) ^ d.
  Proof.
    pose proof (bpow_gt_0 radix2 (-1075)) as E0. fold eta64 in E0. pose proof u64_pos as U. pose proof u64_half as U2.
    induction d as [|d IH]; intros p g w Hlen Hne Hn Hi Hg Fw Hw.
    - destruct p as [|a [|b p]]; cbn in Hlen; try lia; [congruence|]. specialize (Hg a (or_introl eq_refl)).
      assert (E : g a = w).
      { remember [a] as p eqn:Ep. remember (g a) as m eqn:Em. destruct Hg as [j w|q1 q2 w j m' Hq Hqn Hs|q1 q2 w j m' Hq Hqn Hs]; auto; destruct q1 as [|x q1]; try congruence; injection Ep as -> Ep; destruct q1; [|discriminate| |discriminate]; cbn in Ep; subst q2; cbn in Hq; lia. }
      cbn [map rsum length INR pow]. rewrite E. split; [intros i [<-|[]]; rewrite E; split; auto; lra|]. lra.
    - destruct (Nat.lt_ge_cases 1 (length p)) as [Hl|Hl].
      + pose proof (halves_app p) as Ha. pose proof (halves_len p) as Hhl. pose proof (halves_bounds Hl) as Hb.
        set (p1 := fst (halves p)) in *. set (p2 := snd (halves p)) in *. clearbody p1 p2. subst p.
        assert (N1 : p1 <> []) by (destruct p1; cbn in Hb; [lia|discriminate]). assert (N2 : p2 <> []) by (destruct p2; cbn in Hb; [lia|discriminate]).
        pose proof Hn as Hn'. apply NoDup_app_iff in Hn' as (D1 & D2 & D3).
        assert (Q1 : incl p1 idx) by (intros x Hx; apply Hi, in_or_app; auto). assert (Q2 : incl p2 idx) by (intros x Hx; apply Hi, in_or_app; auto).
        destruct (split_shares (var_ok N1 N2 Q1 Q2)) as (Fa & Fb & A & B & AB). set (a := falpha (var p1) (var p2)) in *. set (b := fsub (fz 1) a) in *.
        assert (B1 : 1 <= big) by (change 1 with (bpow radix2 0); apply bpow_le; lia).
        assert (PA : 0 <= fv w * fv a <= fv w) by (split; [apply Rmult_le_pos; lra|rewrite <- (Rmult_1_r (fv w)) at 2; apply Rmult_le_compat_l; lra]).
        assert (PB : 0 <= fv w * fv b <= fv w) by (split; [apply Rmult_le_pos; lra|rewrite <- (Rmult_1_r (fv w)) at 2; apply Rmult_le_compat_l; lra]).
        destruct (@fmul_spec w a Fw Fa) as [F1 V1]; [rewrite Rabs_pos_eq; lra|]. destruct (@fmul_spec w b Fw Fb) as [F2 V2]; [rewrite Rabs_pos_eq; lra|].
        set (w1 := fmul w a) in *. set (w2 := fmul w b) in *.
        assert (W1 : 0 <= fv w1 <= fv w) by (rewrite V1; apply rnd64_0w; lra).
        assert (W2 : 0 <= fv w2 <= fv w) by (rewrite V2; apply rnd64_0w; lra).
        assert (Lp : (length p1 <= 2 ^ d /\ length p2 <= 2 ^ d)%nat).
        { rewrite app_length in Hhl, Hlen. cbn [Nat.pow] in Hlen. pose proof (Nat.div_mod (length p1 + length p2) 2 ltac:(lia)). pose proof (Nat.mod_upper_bound (length p1 + length p2) 2 ltac:(lia)). lia. }
        assert (G1 : forall i, In i p1 -> fshare var p1 w1 i (g i)).
        { intros i Hin. destruct (@fshare_inv p1 p2 w i (g i) Hhl N1 Hn) as [[_ G]|[G _]]; auto; [apply Hg, in_or_app; auto|now apply D3 in G]. }
        assert (G2 : forall i, In i p2 -> fshare var p2 w2 i (g i)).
        { intros i Hin. destruct (@fshare_inv p1 p2 w i (g i) Hhl N1 Hn) as [[G _]|[_ G]]; auto; [apply Hg, in_or_app; auto|now apply D3 in G]. }
        destruct (IH p1 g w1) as [T1 S1]; auto; [lia|lra|]. destruct (IH p2 g w2) as [T2 S2]; auto; [lia|lra|].
        split; [intros i Hin; apply in_app_or in Hin as [Hin|Hin]; [specialize (T1 i Hin)|specialize (T2 i Hin)]; split; try tauto; lra|].
        assert (SW : fv w * (1 - u64) - 2 * eta64 <= fv w1 + fv w2 <= fv w * (1 + u64) + 2 * eta64).
        { rewrite V1, V2. destruct (rnd_error_any (fv w * fv a)) as (e1 & h1 & X1 & Y1 & ->). destruct (rnd_error_any (fv w * fv b)) as (e2 & h2 & X2 & Y2 & ->).
          apply Rabs_le_inv in X1, X2, Y1, Y2. assert (EW : fv w = fv w * fv a + fv w * fv b) by (rewrite <- Rmult_plus_distr_l, AB; ring).
          assert (fv w * fv a * (- u64) <= fv w * fv a * e1 <= fv w * fv a * u64) by (split; apply Rmult_le_compat_l; lra).
          assert (fv w * fv b * (- u64) <= fv w * fv b * e2 <= fv w * fv b * u64) by (split; apply Rmult_le_compat_l; lra).
          assert (fv w * u64 = fv w * fv a * u64 + fv w * fv b * u64) by (rewrite EW at 1; ring). lra. }
        rewrite map_app, rsum_app, app_length, plus_INR. assert (M1 : 1 <= INR (length p1)) by (apply (le_INR 1); lia). assert (M2 : 1 <= INR (length p2)) by (apply (le_INR 1); lia).
        pose proof (pow_lo_pos d) as L0. pose proof (pow_lo_le_1 d) as L1. pose proof (pow_hi_pos d) as H0. pose proof (pow_hi_ge_1 d) as H1.
        set (n1 := INR (length p1)) in *. set (n2 := INR (length p2)) in *. cbn [pow]. set (lo := (1 - u64) ^ d) in *. set (hi := (1 + u64) ^ d) in *. split.
        * assert ((fv w * (1 - u64) - 2 * eta64) * lo <= (fv w1 + fv w2) * lo) by (apply Rmult_le_compat_r; lra).
          assert (2 * eta64 * lo <= 2 * eta64 * 1) by (apply Rmult_le_compat_l; lra). lra.
        * assert ((fv w1 + fv w2 + 2 * (n1 + n2 - 2) * eta64) * hi <= (fv w * (1 + u64) + 2 * eta64 + 2 * (n1 + n2 - 2) * eta64) * hi) by (apply Rmult_le_compat_r; lra).
          assert (0 <= 2 * (n1 + n2 - 1) * eta64 * u64) by (apply Rmult_le_pos; [apply Rmult_le_pos|]; lra).
          assert (0 <= 2 * (n1 + n2 - 1) * eta64 * u64 * hi) by (apply Rmult_le_pos; lra). lra.
      + assert (Hl1 : (length p <= 2 ^ d)%nat) by (pose proof (Nat.pow_nonzero 2 d ltac:(lia)); lia). destruct (IH p g w) as [T [S1 S2]]; auto. split; auto.
        assert (Hp1 : length p = 1%nat) by (destruct p; [congruence|cbn [length] in *; lia]). rewrite Hp1 in *. cbn [INR] in *. replace (2 * (1 - 1) * eta64) with 0 in * by ring. cbn [pow].
        pose proof (pow_lo_pos d) as L0. pose proof (pow_hi_pos d) as H0. split.
        * assert (0 <= fv w * (1 - u64) ^ d * u64) by (apply Rmult_le_pos; [apply Rmult_le_pos|]; lra). lra.
        * assert (0 <= fv w * (1 + u64) ^ d * u64) by (apply Rmult_le_pos; [apply Rmult_le_pos|]; lra). lra.
  Qed.
  Lemma frecursive_bisection_ok fuel : idx <> [] -> NoDup idx -> (length idx <= fuel)%nat ->
    exists g, frecursive_bisection fuel var idx = Some (map (fun i => (i, g i)) idx) /\ forall i, In i idx -> fshare var idx (fz 1) i (g i).
  Proof.
    intros Hne Hn Hf. destruct (@fbisect_loop_ok fuel [idx] idx (fun _ => fz 1)) as (g & E & Hs & _).
    - cbn. now rewrite app_nil_r. - intros p [<-|[]]. auto.
    - exists g. split; [exact E|]. intros i Hi. apply Hs; [now left|exact Hi|auto].
  Qed.
End Bisect.
