(** C180: the average holding period in binary64. *)
From Coq Require Import ZArith List Bool Reals Lra Lia Permutation Sorted.
From Flocq Require Import Core Relative BinarySingleNaN.
From Verif Require Import Py Num RNum Float64 FloatBarsModel FloatBarsProofs FloatBarsProps FloatPosProofs FloatWeightProps FloatStatProps FloatHoldModel.
Import ListNotations.
Set Implicit Arguments.
Unset Strict Implicit.
Open Scope R_scope.

(** ** days *)
Lemma big_bpow e : (e <= 1000)%Z -> bpow radix2 e <= big. Proof. intro H. apply bpow_le. lia. Qed.
Lemma days_spec t0 t : (Z.abs (t - t0) <= 2 ^ 63)%Z -> fin (fdays t0 t) /\ fv (fdays t0 t) = rnd64 (rnd64 (IZR (t - t0)) / 86400000000000) /\ Rabs (fv (fdays t0 t)) <= bpow radix2 64.
Proof.
  intro H. assert (HR : Rabs (IZR (t - t0)) <= bpow radix2 63) by (change (bpow radix2 63) with (IZR (2 ^ 63)); rewrite <- abs_IZR; now apply IZR_le).
  destruct (@ff_spec (t - t0) 0) as [F V]; [cbn [bpow]; rewrite Rmult_1_r; apply Rle_trans with (1 := HR), big_bpow; lia|]. cbn [bpow] in V. rewrite Rmult_1_r in V. change (ff (t - t0) 0) with (fz (t - t0)) in *.
  destruct (@fz_spec 86400000000000) as [FD VD]; [lia|]. assert (B : Rabs (rnd64 (IZR (t - t0))) <= bpow radix2 63) by (apply rnd64_abs_le; auto; now apply format64_bpow).
  assert (Q : Rabs (rnd64 (IZR (t - t0)) / 86400000000000) <= bpow radix2 63) by (unfold Rdiv; rewrite Rabs_mult, (Rabs_pos_eq (/ _)) by lra; pose proof (Rabs_pos (rnd64 (IZR (t - t0)))); apply Rle_trans with (2 := B); rewrite <- (Rmult_1_r (Rabs _)) at 2; apply Rmult_le_compat_l; lra).
  destruct (@fdiv_spec (fz (t - t0)) (fz 86400000000000)) as [FQ VQ]; auto; [rewrite VD; lra|rewrite V, VD; apply Rle_trans with (1 := Q), big_bpow; lia|]. rewrite V, VD in VQ. unfold fdays. split; auto. split; auto. rewrite VQ. apply rnd64_abs_le; [now apply format64_bpow|]. apply Rle_trans with (1 := Q). apply bpow_le. lia.
Qed.
Lemma days_mono t0 s t : (Z.abs (s - t0) <= 2 ^ 63)%Z -> (Z.abs (t - t0) <= 2 ^ 63)%Z -> (s <= t)%Z -> fv (fdays t0 s) <= fv (fdays t0 t).
Proof.
  intros A B H. destruct (days_spec A) as (_ & -> & _). destruct (days_spec B) as (_ & -> & _). apply rnd64_mono. apply Rmult_le_compat_r; [lra|]. apply rnd64_mono, IZR_le. lia.
Qed.

(** ** positions of one unit *)
Definition side (s : Z) : Prop := (s = -1 \/ s = 0 \/ s = 1)%Z.
(** entry and exit of the bets that end, from the times and sides that follow a bar with side [s] entered at [since] *)
Fixpoint bets_ended (since s : Z) (l : list (Z * Z)) : list (Z * Z) :=
  match l with
  | [] => []
  | (t, s') :: l' => if (s' =? s)%Z then bets_ended since s l' else if (s =? 0)%Z then bets_ended t s' l' else (since, t) :: bets_ended t s' l'
  end.
Definition positions (l : list (Z * Z)) : list (Z * f64) := map (fun x => (fst x, fz (snd x))) l.

Lemma side_fz s : side s -> fin (fz s) /\ fv (fz s) = IZR s. Proof. intro H. apply fz_spec. destruct H as [->|[->| ->]]; cbn; lia. Qed.
Lemma small_big x : Rabs x <= bpow radix2 70 -> Rabs x <= big. Proof. intro H. apply Rle_trans with (1 := H), big_bpow. lia. Qed.
Lemma abs_m1 : Rabs (-1) = 1. Proof. rewrite Rabs_left; lra. Qed.
Lemma mul_fin x y k : fin x -> fin y -> fv y = IZR k -> side k -> Rabs (fv x) <= bpow radix2 64 -> fin (fmul x y) /\ fv (fmul x y) = fv x * IZR k.
Proof.
  intros Fx Fy Vy K B. assert (E : Rabs (fv x * IZR k) <= Rabs (fv x)) by (destruct K as [->|[->| ->]]; rewrite Rabs_mult; [rewrite abs_m1|rewrite Rabs_R0|rewrite Rabs_R1]; pose proof (Rabs_pos (fv x)); lra).
  destruct (@fmul_spec x y) as [F V]; auto; [rewrite Vy; apply small_big; apply Rle_trans with (1 := E), Rle_trans with (1 := B), bpow_le; lia|]. split; auto. rewrite V, Vy. apply rnd64_id.
  destruct K as [->|[->| ->]]; [replace (fv x * -1) with (- fv x) by ring; apply generic_format_opp, fv_format|rewrite Rmult_0_r; apply generic_format_0|rewrite Rmult_1_r; apply fv_format].
Qed.
Lemma div_side x s : fin x -> (s = 1 \/ s = -1)%Z -> Rabs (fv x) <= bpow radix2 64 -> fin (fdiv x (fz s)) /\ fv (fdiv x (fz s)) = fv x * IZR s.
Proof.
  intros Fx K B. destruct (@fz_spec s) as [F V]; [destruct K as [->| ->]; cbn; lia|]. assert (E : fv x / IZR s = fv x * IZR s) by (destruct K as [->| ->]; field). assert (A : Rabs (fv x * IZR s) = Rabs (fv x)) by (rewrite Rabs_mult; destruct K as [->| ->]; [rewrite Rabs_R1|rewrite abs_m1]; ring).
  destruct (@fdiv_spec x (fz s)) as [FD VD]; auto; [rewrite V; destruct K as [->| ->]; lra|rewrite V, E, A; apply small_big, Rle_trans with (1 := B), bpow_le; lia|]. split; auto. rewrite VD, V, E. apply rnd64_id. destruct K as [->| ->]; [rewrite Rmult_1_r; apply fv_format|replace (fv x * -1) with (- fv x) by ring; apply generic_format_opp, fv_format].
Qed.
Lemma add_zero_l x y : fin x -> fin y -> fv x = 0 -> Rabs (fv y) <= bpow radix2 64 -> fin (fadd x y) /\ fv (fadd x y) = fv y.
Proof. intros Fx Fy E B. destruct (@fadd_spec x y) as [F V]; auto; [rewrite E, Rplus_0_l; apply small_big, Rle_trans with (1 := B), bpow_le; lia|]. split; auto. now rewrite V, E, Rplus_0_l, rnd64_fv. Qed.
Lemma add_zero_r x y : fin x -> fin y -> fv y = 0 -> Rabs (fv x) <= bpow radix2 64 -> fin (fadd x y) /\ fv (fadd x y) = fv x.
Proof. intros Fx Fy E B. destruct (@fadd_spec x y) as [F V]; auto; [rewrite E, Rplus_0_r; apply small_big, Rle_trans with (1 := B), bpow_le; lia|]. split; auto. now rewrite V, E, Rplus_0_r, rnd64_fv. Qed.

Definition row_of (t0 : Z) (r : f64 * f64) (b : Z * Z) : Prop :=
  fin (fst r) /\ fv (fst r) = rnd64 (fv (fdays t0 (snd b)) - fv (fdays t0 (fst b))) /\ fin (snd r) /\ fv (snd r) = 1.
Lemma unit_step t0 te hp s c tp t since : side s -> side c -> (Z.abs (t - t0) <= 2 ^ 63)%Z -> fin te -> Rabs (fv te) <= bpow radix2 64 -> (s <> 0%Z -> fv te = fv (fdays t0 since)) ->
  exists te' r, fhp_step t0 (te, hp) (tp, fz s) (t, fz c) = (te', hp ++ r) /\ fin te' /\ Rabs (fv te') <= bpow radix2 64 /\
    (if (c =? s)%Z then r = [] /\ (c <> 0%Z -> fv te' = fv (fdays t0 since)) else
     (c <> 0%Z -> fv te' = fv (fdays t0 t)) /\ if (s =? 0)%Z then r = [] else exists x, r = [x] /\ row_of t0 x (since, t)).
Proof.
  intros Ss Sc HT Fte Bte Hte. destruct (days_spec HT) as (Fd & _ & Bd). destruct (side_fz Ss) as [Fs Vs]. destruct (side_fz Sc) as [Fc Vc]. destruct (@fz_spec 0) as [F0 V0]; [lia|].
  destruct (@fsub_spec (fz c) (fz s)) as [Fp Vp]; auto; [rewrite Vc, Vs, <- minus_IZR; apply big_ge; unfold side in *; lia|]. rewrite Vc, Vs, <- minus_IZR, rnd64_int in Vp by (unfold side in *; lia).
  destruct (@fmul_spec (fsub (fz c) (fz s)) (fz s)) as [Fm Vm]; auto; [rewrite Vp, Vs, <- mult_IZR; apply big_ge; unfold side in *; lia|]. rewrite Vp, Vs, <- mult_IZR, rnd64_int in Vm by (unfold side in *; nia).
  destruct (@fmul_spec (fz c) (fz s)) as [Fx Vx]; auto; [rewrite Vc, Vs, <- mult_IZR; apply big_ge; unfold side in *; lia|]. rewrite Vc, Vs, <- mult_IZR, rnd64_int in Vx by (unfold side in *; nia).
  assert (L : fle (fz 0) (fmul (fsub (fz c) (fz s)) (fz s)) = (0 <=? (c - s) * s)%Z) by (apply Bool.eq_true_iff_eq; rewrite fle_spec, V0, Vm, Z.leb_le by auto; split; [apply le_IZR|apply IZR_le]).
  assert (N : flt (fmul (fz c) (fz s)) (fz 0) = (c * s <? 0)%Z) by (apply Bool.eq_true_iff_eq; rewrite flt_spec, V0, Vx, Z.ltb_lt by auto; split; [apply lt_IZR|apply IZR_lt]).
  assert (Q : feq (fz c) (fz 0) = (c =? 0)%Z) by (apply Bool.eq_true_iff_eq; rewrite feq_spec, V0, Vc, Z.eqb_eq by auto; split; [apply eq_IZR|congruence]).
  assert (RW : s <> 0%Z -> fin (fsub (fdays t0 t) te) /\ fv (fsub (fdays t0 t) te) = rnd64 (fv (fdays t0 t) - fv (fdays t0 since))).
  { intro H. rewrite <- (Hte H). apply fsub_spec; auto. apply small_big. apply Rle_trans with (bpow radix2 65); [|apply bpow_le; lia]. apply Rle_trans with (1 := Rabs_triang _ _). rewrite Rabs_Ropp. replace (bpow radix2 65) with (bpow radix2 64 + bpow radix2 64) by (cbn; lra). lra. }
  unfold fhp_step. cbn [fst snd]. rewrite L, N, Q. destruct (Z.eqb_spec c s) as [->|NE].
  - replace ((s - s) * s)%Z with 0%Z by ring. cbn [Z.leb Z.compare]. destruct (Z.eqb_spec s 0) as [->|S0]; [exists te, []; rewrite app_nil_r; repeat split; auto; lia|].
    replace (s - s)%Z with 0%Z in Vp by ring. destruct (@mul_fin te (fz s) s) as [A1 A2]; auto. destruct (@mul_fin (fdays t0 t) (fsub (fz s) (fz s)) 0) as [B1 B2]; auto; [unfold side; lia|]. rewrite Rmult_0_r in B2.
    assert (AB : Rabs (fv (fmul te (fz s))) <= bpow radix2 64) by (rewrite A2, Rabs_mult; replace (Rabs (IZR s)) with 1 by (destruct Ss as [->|[->| ->]]; [now rewrite abs_m1|lia|now rewrite Rabs_R1]); lra).
    destruct (@add_zero_r (fmul te (fz s)) (fmul (fdays t0 t) (fsub (fz s) (fz s)))) as [C1 C2]; auto. rewrite A2 in C2.
    destruct (@div_side (fadd (fmul te (fz s)) (fmul (fdays t0 t) (fsub (fz s) (fz s)))) s) as [D1 D2]; auto; [unfold side in Ss; lia|rewrite C2, <- A2; auto|].
    assert (V : fv (fdiv (fadd (fmul te (fz s)) (fmul (fdays t0 t) (fsub (fz s) (fz s)))) (fz s)) = fv te) by (rewrite D2, C2; destruct Ss as [->|[->| ->]]; [ring|lia|ring]).
    eexists. exists []. rewrite app_nil_r. split; [reflexivity|]. rewrite V. repeat split; auto.
  - destruct (Z.eqb_spec s 0) as [->|S0].
    + rewrite Z.mul_0_r. cbn [Z.leb Z.compare]. destruct (Z.eqb_spec c 0); [lia|]. rewrite Z.sub_0_r in Vp.
      destruct (@mul_fin te (fz 0) 0) as [A1 A2]; auto. rewrite Rmult_0_r in A2. destruct (@mul_fin (fdays t0 t) (fsub (fz c) (fz 0)) c) as [B1 B2]; auto.
      assert (AB : Rabs (fv (fmul (fdays t0 t) (fsub (fz c) (fz 0)))) <= bpow radix2 64) by (rewrite B2, Rabs_mult; replace (Rabs (IZR c)) with 1 by (destruct Sc as [->|[->| ->]]; [now rewrite abs_m1|lia|now rewrite Rabs_R1]); lra).
      destruct (@add_zero_l (fmul te (fz 0)) (fmul (fdays t0 t) (fsub (fz c) (fz 0)))) as [C1 C2]; auto. rewrite B2 in C2.
      destruct (@div_side (fadd (fmul te (fz 0)) (fmul (fdays t0 t) (fsub (fz c) (fz 0)))) c) as [D1 D2]; auto; [unfold side in Sc; lia|rewrite C2, <- B2; auto|].
      assert (V : fv (fdiv (fadd (fmul te (fz 0)) (fmul (fdays t0 t) (fsub (fz c) (fz 0)))) (fz c)) = fv (fdays t0 t)) by (rewrite D2, C2; destruct Sc as [->|[->| ->]]; [ring|lia|ring]).
      eexists. exists []. rewrite app_nil_r. split; [reflexivity|]. rewrite V. repeat split; auto.
    + destruct (RW S0) as [R1 R2]. assert (W : forall p, fin p -> Rabs (fv p) = 1 -> row_of t0 (fsub (fdays t0 t) te, fabs p) (since, t)) by (intros p P1 P2; unfold row_of; cbn [fst snd]; destruct (fabs_spec P1) as [Q1 Q2]; repeat split; auto; congruence).
      destruct (Z.leb_spec 0 ((c - s) * s)) as [G|G]; [unfold side in *; nia|]. destruct (Z.ltb_spec (c * s) 0) as [H|H]; (eexists; eexists; split; [reflexivity|]; split; auto; split; auto; split; [auto|eexists; split; [reflexivity|apply W; auto]]).
      * rewrite Vs. destruct Ss as [->|[->| ->]]; [apply abs_m1|lia|apply Rabs_R1].
      * intro C0. unfold side in *. nia.
      * rewrite Vp. assert (c = 0%Z) as -> by (unfold side in *; nia). destruct Ss as [->|[->| ->]]; [apply Rabs_R1|lia|apply abs_m1].
Qed.

Lemma unit_loop t0 l : forall te hp s tp since, side s -> (forall x, In x l -> side (snd x) /\ (Z.abs (fst x - t0) <= 2 ^ 63)%Z) -> fin te -> Rabs (fv te) <= bpow radix2 64 -> (s <> 0%Z -> fv te = fv (fdays t0 since)) ->
  exists rows, snd (fhp_loop t0 (te, hp) (tp, fz s) (positions l)) = hp ++ rows /\ Forall2 (row_of t0) rows (bets_ended since s l).
Proof.
  induction l as [|[t c] l IH]; intros te hp s tp since Ss HL Fte Bte Hte; [exists []; cbn; rewrite app_nil_r; split; auto|].
  destruct (HL (t, c)) as [Sc Ht]; [now left|]. cbn [fst snd] in Sc, Ht. assert (HL' : forall x, In x l -> side (snd x) /\ (Z.abs (fst x - t0) <= 2 ^ 63)%Z) by (intros; apply HL; now right).
  destruct (@unit_step t0 te hp s c tp t since) as (te' & r & E & F' & B' & H); auto. cbn [positions map fhp_loop fst snd bets_ended]. rewrite E. fold (positions l). destruct (Z.eqb_spec c s) as [->|NE].
  - destruct H as [-> H]. rewrite app_nil_r. now apply IH.
  - destruct H as [H R]. destruct (Z.eqb_spec s 0) as [->|S0].
    + subst r. rewrite app_nil_r. now apply IH.
    + destruct R as (x & -> & X). destruct (IH te' (hp ++ [x]) c t t) as (rows & -> & W); auto. exists (x :: rows). rewrite <- app_assoc. split; auto.
Qed.
(** With positions of one unit the rows are the bets that end, one each: the days from entry to exit, rounded once, and a weight of one.  The bet at
    the last bar does not count. *)
Theorem c180_unit_rows t0 s l : side s -> (forall x, In x l -> side (snd x) /\ (Z.abs (fst x - t0) <= 2 ^ 63)%Z) ->
  exists rows, fhp_rows (positions ((t0, s) :: l)) = Ok rows /\ Forall2 (row_of t0) rows (bets_ended t0 s l).
Proof.
  intros Ss HL. destruct (@fz_spec 0) as [F0 V0]; [lia|]. destruct (@unit_loop t0 l (fz 0) [] s t0 t0) as (rows & E & W); auto.
  - rewrite V0, Rabs_R0. apply bpow_ge_0.
  - intros _. rewrite V0. destruct (@days_spec t0 t0) as (_ & -> & _); [rewrite Z.sub_diag; cbn; lia|]. rewrite Z.sub_diag. rewrite rnd64_0. unfold Rdiv. now rewrite Rmult_0_l, rnd64_0.
  - exists rows. split; auto. cbn [positions map fhp_rows fst snd]. f_equal. exact E.
Qed.
Print Assumptions c180_unit_rows.

(** the bets that end are among the bars, in order *)
Lemma bets_in l : forall since s lo, (lo <= since)%Z -> StronglySorted Z.lt (since :: map fst l) -> forall b, In b (bets_ended since s l) -> (lo <= fst b <= snd b)%Z /\ In (snd b) (map fst l) /\ In (fst b) (since :: map fst l).
Proof.
  induction l as [|[t c] l IH]; intros since s lo HL HS b; [intros []|]. cbn [bets_ended map fst]. cbn [map fst] in HS. inversion HS as [|? ? HS' HF]; subst. inversion HS' as [|? ? HS2 HF2]; subst. inversion HF as [|? ? H1 H2]; subst.
  assert (A : forall c', In b (bets_ended t c' l) -> (lo <= fst b <= snd b)%Z /\ In (snd b) (t :: map fst l) /\ In (fst b) (since :: t :: map fst l)) by (intros c' Hb; destruct (IH t c' lo) with (b := b) as (K1 & K2 & K3); auto; [lia|]; split; auto; split; now right).
  destruct (c =? s)%Z.
  - intro Hb. destruct (IH since s lo) with (b := b) as (K1 & K2 & K3); auto; [now constructor|]. split; auto. split; [now right|]. destruct K3 as [->|K3]; [now left|right; now right].
  - destruct (s =? 0)%Z; [apply A|]. intros [<-|Hb]; [|now apply (A c)]. cbn [fst snd]. split; [lia|]. split; now left.
Qed.
Lemma bets_length l : forall since s, (length (bets_ended since s l) <= length l)%nat.
Proof. induction l as [|[t c] l IH]; intros since s; cbn; auto. destruct (c =? s)%Z; [apply le_S, IH|]. destruct (s =? 0)%Z; [apply le_S, IH|]. cbn. apply le_n_S, IH. Qed.

(** None exactly if no bet ends; else the average of the rounded lengths to a relative error of five rounding units per bet *)
Definition lengths (t0 : Z) (bets : list (Z * Z)) : list R := map (fun b => rnd64 (fv (fdays t0 (snd b)) - fv (fdays t0 (fst b)))) bets.
Definition average (l : list R) : R := rsum l / INR (length l).
Lemma quotient_near x y a b t : 0 < a -> 0 < b -> 0 <= t <= / 8 -> a * (1 - t) <= x <= a * (1 + 2 * t) -> b * (1 - t) <= y <= b * (1 + 2 * t) -> 0 < y /\ a / b * (1 - 3 * t) <= x / y <= a / b * (1 + 7 / 2 * t).
Proof.
  intros Ha Hb Ht Hx Hy. assert (Y : 0 < y) by nra. split; auto. set (r := a / b). assert (Er : a = r * b) by (unfold r; field; lra). assert (R0 : 0 < r) by (unfold r; apply Rmult_lt_0_compat; auto; now apply Rinv_0_lt_compat). clearbody r. subst a. set (q := x / y). assert (Eq : x = q * y) by (unfold q; field; lra). clearbody q. subst x. split; apply Rmult_le_reg_r with y; auto.
  - apply Rle_trans with (2 := proj1 Hx). apply Rle_trans with (r * (1 - 3 * t) * (b * (1 + 2 * t))); [apply Rmult_le_compat_l; [apply Rmult_le_pos; lra|lra]|]. replace (r * (1 - 3 * t) * (b * (1 + 2 * t))) with (r * b * ((1 - 3 * t) * (1 + 2 * t))) by ring. apply Rmult_le_compat_l; [apply Rlt_le, Rmult_lt_0_compat; auto|]. nra.
  - apply Rle_trans with (1 := proj2 Hx). apply Rle_trans with (r * (1 + 7 / 2 * t) * (b * (1 - t))); [|apply Rmult_le_compat_l; [apply Rmult_le_pos; lra|lra]]. replace (r * (1 + 7 / 2 * t) * (b * (1 - t))) with (r * b * ((1 + 7 / 2 * t) * (1 - t))) by ring. apply Rmult_le_compat_l; [apply Rlt_le, Rmult_lt_0_compat; auto|]. nra.
Qed.
Theorem c180_unit_average sum t0 s l : is_sum sum -> side s -> (forall x, In x l -> side (snd x) /\ (Z.abs (fst x - t0) <= 2 ^ 63)%Z) -> StronglySorted Z.lt (t0 :: map fst l) -> (Z.of_nat (length l) <= 2 ^ 49)%Z ->
  let bets := bets_ended t0 s l in let m := average (lengths t0 bets) in
  (bets = [] -> fholding_period sum (positions ((t0, s) :: l)) = Ok None) /\
  (bets <> [] -> bpow radix2 (-400) <= rsum (lengths t0 bets) ->
   exists h, fholding_period sum (positions ((t0, s) :: l)) = Ok (Some h) /\ fin h /\ Rabs (fv h - m) <= 5 * (INR (length bets) * u64) * m).
Proof.
  intros SU Ss HL HS LN bets m. destruct (c180_unit_rows Ss HL) as (rows & E & W). fold bets in W. unfold fholding_period. rewrite E. cbn [bind].
  pose proof (bets_length l t0 s) as BL. fold bets in BL. destruct (@fz_spec 0) as [F0 V0]; [lia|]. split.
  - intro EB. rewrite EB in W. inversion W; subst. cbn [map]. destruct (@sum_bounds sum [] 0) as [F B]; auto; [intros x []|unfold total; cbn [map rsum]; rewrite Rmult_0_l; apply bpow_ge_0|]. unfold total in B. cbn in B.
    assert (L : flt (fz 0) (sum []) = false) by (apply Bool.not_true_iff_false; rewrite flt_spec, V0 by auto; lra). now rewrite L.
  - intros NB BT. set (ws := map snd rows). set (P := map (fun r => fmul (fst r) (snd r)) rows). set (t := INR (length bets) * u64).
    assert (LR : length rows = length bets) by (eapply Forall2_length; eauto). assert (LB : (Z.of_nat (length bets) <= 2 ^ 49)%Z) by lia. pose proof u64_pos as UP.
    assert (IB : forall b, In b bets -> (Z.abs (fst b - t0) <= 2 ^ 63)%Z /\ (Z.abs (snd b - t0) <= 2 ^ 63)%Z /\ (fst b <= snd b)%Z).
    { intros b Hb. destruct (@bets_in l t0 s t0 (Z.le_refl _) HS b Hb) as (K1 & K2 & K3). assert (KK : forall z, In z (map fst l) -> (Z.abs (z - t0) <= 2 ^ 63)%Z) by (intros z Hz; apply in_map_iff in Hz as (x & <- & Hx); now apply HL). split; [destruct K3 as [<-|K3]; auto; rewrite Z.sub_diag; cbn; lia|]. split; auto. lia. }
    assert (LN2 : forall b, In b bets -> 0 <= rnd64 (fv (fdays t0 (snd b)) - fv (fdays t0 (fst b))) <= bpow radix2 65).
    { intros b Hb. destruct (IB b Hb) as (K1 & K2 & K3). pose proof (days_mono K1 K2 K3) as M. destruct (days_spec K1) as (_ & _ & A1). destruct (days_spec K2) as (_ & _ & A2). apply Rabs_le_inv in A1, A2. split; [rewrite <- rnd64_0 at 1; apply rnd64_mono; lra|]. rewrite <- (@rnd64_id (bpow radix2 65)) by now apply format64_bpow. apply rnd64_mono. replace (bpow radix2 65) with (bpow radix2 64 + bpow radix2 64) by (cbn; lra). lra. }
    assert (AW : amounts ws /\ total ws = INR (length bets)).
    { unfold ws. clear - W. split; [intros x Hx; apply in_map_iff in Hx as (r & <- & Hr); induction W as [|r' b rows' bets' H W IH]; [destruct Hr|destruct Hr as [->|Hr]; [destruct H as (_ & _ & K1 & K2); split; auto; lra|now apply IH]]|].
      induction W as [|r b rows' bets' H W IH]; [reflexivity|]. unfold total in *. cbn [map rsum length]. rewrite IH, S_INR. destruct H as (_ & _ & _ & ->). ring. }
    assert (AP : amounts P /\ total P = rsum (lengths t0 bets)).
    { unfold P, lengths. clear - W LN2. induction W as [|r b rows' bets' H W IH]; [split; [intros x []|reflexivity]|]. destruct IH as [IH1 IH2]; [intros; apply LN2; now right|]. destruct H as (K1 & K2 & K3 & K4). destruct (LN2 b (or_introl eq_refl)) as [N1 N2].
      destruct (@fmul_spec (fst r) (snd r)) as [FM VM]; auto; [rewrite K4, Rmult_1_r, K2, Rabs_pos_eq by auto; apply Rle_trans with (1 := N2), big_bpow; lia|]. rewrite K4, Rmult_1_r, rnd64_fv, K2 in VM. split; [intros x [<-|Hx]; [split; auto; now rewrite VM|now apply IH1]|]. unfold total in *. cbn [map rsum]. now rewrite VM, IH2. }
    destruct AW as [AW TW]. destruct AP as [AP TP]. assert (N1 : 1 <= INR (length bets)) by (change 1 with (INR 1); apply le_INR; destruct bets; [congruence|cbn; lia]).
    assert (N2 : INR (length bets) <= bpow radix2 49) by (rewrite INR_IZR_INZ; change (bpow radix2 49) with (IZR (2 ^ 49)); now apply IZR_le).
    assert (TB : rsum (lengths t0 bets) <= INR (length bets) * bpow radix2 65).
    { unfold lengths. clear - LN2. induction bets as [|b bets IH]; cbn [map rsum length]; [cbn; lra|]. rewrite S_INR. specialize (IH (fun b' H => LN2 b' (or_intror H))). pose proof (LN2 b (or_introl eq_refl)). lra. }
    assert (TB2 : rsum (lengths t0 bets) <= bpow radix2 114) by (apply Rle_trans with (1 := TB); replace (bpow radix2 114) with (bpow radix2 49 * bpow radix2 65) by (rewrite <- bpow_plus; reflexivity); apply Rmult_le_compat_r; [apply bpow_ge_0|auto]).
    pose proof (bpow_gt_0 radix2 (-400)) as P4.
    destruct (@sum_total sum ws) as [FW BW]; auto; [unfold ws; rewrite map_length, LR; lia|rewrite TW; split; [apply Rle_trans with (2 := N1); change 1 with (bpow radix2 0); apply bpow_le; lia|apply Rle_trans with (1 := N2), bpow_le; lia]|].
    destruct (@sum_total sum P) as [FS BS]; auto; [unfold P; rewrite map_length, LR; lia|rewrite TP; split; auto; apply Rle_trans with (1 := TB2), bpow_le; lia|].
    unfold ws, P in BW, BS. rewrite map_length, LR in BW, BS. fold ws P in BW, BS. rewrite TW in BW. rewrite TP in BS. fold t in BW, BS.
    assert (T8 : t <= / 16) by (unfold t; rewrite u53; replace (/ 16) with (bpow radix2 49 * bpow radix2 (-53)) by (rewrite <- bpow_plus; reflexivity); apply Rmult_le_compat_r; [apply bpow_ge_0|auto]).
    assert (TU : u64 <= t) by (unfold t; rewrite <- (Rmult_1_l u64) at 1; apply Rmult_le_compat_r; lra).
    destruct (@quotient_near (fv (sum P)) (fv (sum ws)) (rsum (lengths t0 bets)) (INR (length bets)) t) as [YP QN]; auto; try lra. fold (average (lengths t0 bets)) in QN.
    assert (EM : rsum (lengths t0 bets) / INR (length bets) = m) by (unfold m, average, lengths; now rewrite map_length). rewrite EM in QN.
    assert (ML : bpow radix2 (-449) <= m <= bpow radix2 114).
    { rewrite <- EM. split.
      - apply Rmult_le_reg_r with (INR (length bets)); [lra|]. unfold Rdiv. rewrite Rmult_assoc, Rinv_l, Rmult_1_r by lra. apply Rle_trans with (2 := BT). replace (bpow radix2 (-400)) with (bpow radix2 (-449) * bpow radix2 49) by (rewrite <- bpow_plus; reflexivity). apply Rmult_le_compat_l; [apply bpow_ge_0|auto].
      - apply Rmult_le_reg_r with (INR (length bets)); [lra|]. unfold Rdiv. rewrite Rmult_assoc, Rinv_l, Rmult_1_r by lra. apply Rle_trans with (1 := TB2). rewrite <- (Rmult_1_r (bpow radix2 114)) at 1. apply Rmult_le_compat_l; [apply bpow_ge_0|auto]. }
    pose proof (bpow_gt_0 radix2 (-449)) as P5. set (q := fv (sum P) / fv (sum ws)) in *.
    assert (QP : m / 2 <= q <= 2 * m) by (split; [apply Rle_trans with (2 := proj1 QN)|apply Rle_trans with (1 := proj2 QN)]; nra).
    destruct (@fdiv_spec (sum P) (sum ws)) as [FD VD]; auto; [lra|fold q; rewrite Rabs_pos_eq by lra; apply Rle_trans with (bpow radix2 115); [replace (bpow radix2 115) with (2 * bpow radix2 114) by (cbn; lra); lra|apply big_bpow; lia]|]. fold q in VD.
    assert (L : flt (fz 0) (sum ws) = true) by (apply flt_spec; auto; rewrite V0; lra). rewrite L. exists (fdiv (sum P) (sum ws)). split; [reflexivity|]. split; auto.
    assert (EH : bpow radix2 (-449) = bpow radix2 1 * bpow radix2 (-450)) by (rewrite <- bpow_plus; reflexivity). change (bpow radix2 1) with 2 in EH.
    destruct (@rnd_error q) as (e & He & Ee); [rewrite Rabs_pos_eq by lra; apply Rle_trans with (bpow radix2 (-450)); [apply bpow_le; lia|lra]|].
    rewrite VD, Ee. apply Rabs_le_inv in He. clear - He QN QP TU T8 UP ML P5. assert (e2 : - t <= e <= t) by lra. assert (M0 : 0 < m) by lra. apply Rabs_le. split.
    + assert (q * (1 + e) >= m * (1 - 3 * t) * (1 - t)) by (apply Rle_ge; apply Rmult_le_compat; try lra; apply Rmult_le_pos; lra). nra.
    + assert (q * (1 + e) <= m * (1 + 7 / 2 * t) * (1 + t)) by (apply Rmult_le_compat; lra). nra.
Qed.
Print Assumptions c180_unit_average.

(** ** which reductions are seen *)
Definition sized (p : f64) : Prop := fin p /\ (fv p = 0 \/ bpow radix2 (-300) <= Rabs (fv p) <= bpow radix2 300).
(** the weights of the reductions, in order: a flip counts with the whole of the position before *)
Definition reduced (a b : R) : list R := if Rlt_dec ((b - a) * a) 0 then [if Rlt_dec (b * a) 0 then Rabs a else Rabs (rnd64 (b - a))] else [].
Fixpoint reductions (a : R) (l : list R) : list R := match l with [] => [] | b :: l' => reduced a b ++ reductions b l' end.

Lemma grid p : sized p -> exists M, fv p = IZR M * bpow radix2 (-352).
Proof.
  intros [F [E|B]]; [exists 0%Z; rewrite E; ring|]. pose proof (fv_format p) as G. set (c := cexp radix2 fexp64 (fv p)).
  assert (C : (-352 <= c)%Z). { unfold c, cexp, FLT_exp. assert (-300 < mag radix2 (fv p))%Z by (apply mag_gt_bpow; tauto). lia. }
  unfold generic_format in G. unfold F2R in G. cbn [Fnum Fexp] in G. fold c in G. exists (Ztrunc (scaled_mantissa radix2 fexp64 (fv p)) * 2 ^ (c + 352))%Z. rewrite mult_IZR. change 2%Z with (radix_val radix2) at 1. rewrite IZR_Zpower by lia. rewrite Rmult_assoc, <- bpow_plus. replace (c + 352 + -352)%Z with c by ring. exact G.
Qed.
Lemma gap a b : sized a -> sized b -> fv b - fv a = 0 \/ bpow radix2 (-352) <= Rabs (fv b - fv a).
Proof.
  intros A B. destruct (grid A) as [M EA]. destruct (grid B) as [N EB]. rewrite EA, EB. replace (IZR N * bpow radix2 (-352) - IZR M * bpow radix2 (-352)) with (IZR (N - M) * bpow radix2 (-352)) by (rewrite minus_IZR; ring). destruct (Z.eq_dec (N - M) 0) as [->|NE]; [left; ring|right].
  rewrite Rabs_mult, (Rabs_pos_eq (bpow _ _)) by apply bpow_ge_0. rewrite <- (Rmult_1_l (bpow radix2 (-352))) at 1. apply Rmult_le_compat_r; [apply bpow_ge_0|]. rewrite <- abs_IZR. apply IZR_le. lia.
Qed.
Lemma sized_le a : sized a -> Rabs (fv a) <= bpow radix2 300.
Proof. intros [_ [E|B]]; [rewrite E, Rabs_R0; apply bpow_ge_0|tauto]. Qed.
Lemma rnd_sign x : x = 0 \/ bpow radix2 (-1022) <= Rabs x -> rnd64 x < 0 <-> x < 0.
Proof.
  intro H. destruct H as [->|H]; [rewrite rnd64_0; lra|]. destruct (rnd_error H) as (e & He & ->). pose proof u64_small as US. apply Rabs_le_inv in He. split; intro K; nra.
Qed.
Lemma seen a b : sized a -> sized b -> let d := fsub b a in fin d /\ fv d = rnd64 (fv b - fv a) /\ Rabs (fv d) <= bpow radix2 302 /\
  fle (fz 0) (fmul d a) = (if Rlt_dec ((fv b - fv a) * fv a) 0 then false else true) /\ flt (fmul b a) (fz 0) = (if Rlt_dec (fv b * fv a) 0 then true else false).
Proof.
  intros A B d. pose proof (sized_le A) as LA. pose proof (sized_le B) as LB. pose proof (gap A B) as G. destruct A as [FA HA]. destruct B as [FB HB]. destruct (@fz_spec 0) as [F0 V0]; [lia|].
  assert (BD : Rabs (fv b - fv a) <= bpow radix2 301) by (apply Rle_trans with (1 := Rabs_triang _ _); rewrite Rabs_Ropp; replace (bpow radix2 301) with (bpow radix2 300 + bpow radix2 300) by (replace (bpow radix2 301) with (bpow radix2 1 * bpow radix2 300) by (rewrite <- bpow_plus; reflexivity); change (bpow radix2 1) with 2; ring); lra).
  destruct (@fsub_spec b a) as [FD VD]; auto; [apply Rle_trans with (1 := BD), big_bpow; lia|]. fold d in FD, VD. assert (BR : Rabs (fv d) <= bpow radix2 301) by (rewrite VD; apply rnd64_abs_le; auto; now apply format64_bpow).
  split; auto. split; auto. split; [apply Rle_trans with (1 := BR), bpow_le; lia|].
  destruct (@add_error (fv b) (- fv a)) as (e & He & Ee); [apply fv_format|apply generic_format_opp, fv_format|]. change (fv b + - fv a) with (fv b - fv a) in Ee. rewrite Ee in VD. pose proof u64_small as US. apply Rabs_le_inv in He.
  assert (MB : forall x k, Rabs x <= bpow radix2 k -> (k <= 400)%Z -> Rabs (x * fv a) <= big) by (intros x k Hx Hk; rewrite Rabs_mult; apply Rle_trans with (bpow radix2 400 * bpow radix2 300); [apply Rmult_le_compat; auto using Rabs_pos; apply Rle_trans with (1 := Hx), bpow_le; lia|rewrite <- bpow_plus; apply big_bpow; lia]).
  split.
  - destruct (@fmul_spec d a) as [FM VM]; auto; [apply MB with 301%Z; auto; lia|].
    assert (Z : fv d * fv a = 0 \/ bpow radix2 (-1022) <= Rabs (fv d * fv a)).
    { destruct HA as [EA|HA]; [left; rewrite EA; ring|]. destruct G as [G|G]; [left; rewrite VD, G; ring|right]. rewrite VD, !Rabs_mult. apply Rle_trans with (bpow radix2 (-353) * bpow radix2 (-300)); [rewrite <- bpow_plus; apply bpow_le; lia|]. apply Rmult_le_compat; try apply bpow_ge_0; [|tauto].
      replace (bpow radix2 (-353)) with (bpow radix2 (-352) * bpow radix2 (-1)) by (rewrite <- bpow_plus; reflexivity). change (bpow radix2 (-1)) with (/ 2). apply Rmult_le_compat; auto; [apply bpow_ge_0|lra|]. rewrite Rabs_pos_eq; lra. }
    pose proof (rnd_sign Z) as RS. rewrite <- VM in RS. assert (SG : fv d * fv a < 0 <-> (fv b - fv a) * fv a < 0) by (rewrite VD; replace ((fv b - fv a) * (1 + e) * fv a) with ((fv b - fv a) * fv a * (1 + e)) by ring; generalize ((fv b - fv a) * fv a); intro x; split; intro; nra).
    destruct (Rlt_dec _ 0) as [L|L]; [apply Bool.not_true_iff_false|]; rewrite fle_spec, V0 by auto; tauto || (pose proof (proj1 RS); pose proof (proj2 RS)); destruct (Rlt_dec (fv (fmul d a)) 0); try lra; tauto.
  - destruct (@fmul_spec b a) as [FM VM]; auto; [apply MB with 300%Z; auto; lia|].
    assert (Z : fv b * fv a = 0 \/ bpow radix2 (-1022) <= Rabs (fv b * fv a)).
    { destruct HA as [EA|HA]; [left; rewrite EA; ring|]. destruct HB as [EB|HB]; [left; rewrite EB; ring|right]. rewrite Rabs_mult. apply Rle_trans with (bpow radix2 (-300) * bpow radix2 (-300)); [rewrite <- bpow_plus; apply bpow_le; lia|]. apply Rmult_le_compat; try apply bpow_ge_0; tauto. }
    pose proof (rnd_sign Z) as RS. rewrite <- VM in RS. destruct (Rlt_dec _ 0) as [L|L]; [|apply Bool.not_true_iff_false]; rewrite flt_spec, V0 by auto; tauto.
Qed.
Lemma step_weights t0 te hp prev cur : sized (snd prev) -> sized (snd cur) ->
  exists te' r, fhp_step t0 (te, hp) prev cur = (te', hp ++ r) /\ map (fun x => fv (snd x)) r = reduced (fv (snd prev)) (fv (snd cur)) /\ (forall x, In x r -> fin (snd x) /\ bpow radix2 (-400) <= fv (snd x) <= bpow radix2 302).
Proof.
  intros A B. destruct (seen A B) as (FD & VD & BD & E1 & E2). pose proof (gap A B) as G. unfold fhp_step, reduced. rewrite E1, E2. destruct (Rlt_dec ((fv (snd cur) - fv (snd prev)) * fv (snd prev)) 0) as [L|L].
  - assert (A0 : bpow radix2 (-300) <= Rabs (fv (snd prev)) <= bpow radix2 300) by (destruct A as [_ [EA|HA]]; auto; rewrite EA, Rmult_0_r in L; lra). destruct (fabs_spec (proj1 A)) as [P1 P2]. destruct (fabs_spec FD) as [P3 P4].
    destruct (Rlt_dec (fv (snd cur) * fv (snd prev)) 0); (eexists; eexists; split; [reflexivity|]; cbn [map fst snd]; split; [congruence|]; intros x [<-|[]]; cbn [fst snd]; split; auto; rewrite ?P2, ?P4).
    + split; [apply Rle_trans with (2 := proj1 A0)|apply Rle_trans with (1 := proj2 A0)]; apply bpow_le; lia.
    + split; auto. rewrite VD. destruct G as [G|G]; [rewrite G, Rmult_0_l in L; lra|]. assert (GE : bpow radix2 (-352) <= Rabs (rnd64 (fv (snd cur) - fv (snd prev)))) by (apply abs_round_ge_generic; auto; [apply valid64|apply valid_rnd_N|now apply format64_bpow]). apply Rle_trans with (2 := GE), bpow_le. lia.
  - destruct (feq (snd cur) (fz 0)); eexists; exists []; rewrite app_nil_r; (split; [reflexivity|]; split; [reflexivity|intros x []]).
Qed.
Lemma loop_weights t0 l : forall te hp prev, sized (snd prev) -> (forall x, In x l -> sized (snd x)) -> exists r, snd (fhp_loop t0 (te, hp) prev l) = hp ++ r /\ map (fun x => fv (snd x)) r = reductions (fv (snd prev)) (map (fun x => fv (snd x)) l) /\ (length r <= length l)%nat /\
  (forall x, In x r -> fin (snd x) /\ bpow radix2 (-400) <= fv (snd x) <= bpow radix2 302).
Proof.
  induction l as [|cur l IH]; intros te hp prev A HL; [exists []; rewrite app_nil_r; split; [reflexivity|]; split; [reflexivity|]; split; [auto|]; intros y []|]. assert (B : sized (snd cur)) by (apply HL; now left). cbn [fhp_loop map reductions length]. destruct (@step_weights t0 te hp prev cur A B) as (te' & r & -> & R1 & R2).
  destruct (IH te' (hp ++ r) cur) as (r' & -> & R3 & R4 & R5); auto; [intros; apply HL; now right|]. exists (r ++ r'). rewrite app_assoc, map_app, R1, R3. split; auto. split; auto. split; [|intros x Hx; apply in_app_iff in Hx as [Hx|Hx]; auto].
  rewrite app_length. assert (length r <= 1)%nat by (rewrite <- (map_length (fun x => fv (snd x)) r), R1; unfold reduced; destruct (Rlt_dec _ 0); cbn; lia). lia.
Qed.
(** Positions that are zero or between 2^-300 and 2^300: every reduction and every flip is seen, and weighs what it is worth. *)
Theorem c180_weights first l : sized (snd first) -> (forall x, In x l -> sized (snd x)) ->
  exists rows, fhp_rows (first :: l) = Ok rows /\ map (fun r => fv (snd r)) rows = reductions (fv (snd first)) (map (fun x => fv (snd x)) l).
Proof. intros A HL. destruct (@loop_weights (fst first) l (fz 0) [] first A HL) as (r & E & R & _). exists r. split; auto. cbn [fhp_rows]. f_equal. exact E. Qed.
Print Assumptions c180_weights.
(** ... and there is no holding period exactly if there is none *)
Theorem c180_none sum first l : is_sum sum -> sized (snd first) -> (forall x, In x l -> sized (snd x)) -> (Z.of_nat (length l) <= 2 ^ 50)%Z ->
  fholding_period sum (first :: l) = Ok None <-> forall i a b, nth_error (map (fun x => fv (snd x)) (first :: l)) i = Some a -> nth_error (map (fun x => fv (snd x)) l) i = Some b -> 0 <= (b - a) * a.
Proof.
  intros SU A HL LN. destruct (@loop_weights (fst first) l (fz 0) [] first A HL) as (r & E & R & LR & B). unfold fholding_period. cbn [fhp_rows bind]. rewrite E. cbn [app]. destruct (@fz_spec 0) as [F0 V0]; [lia|].
  assert (K : reductions (fv (snd first)) (map (fun x => fv (snd x)) l) = [] <-> forall i a b, nth_error (map (fun x => fv (snd x)) (first :: l)) i = Some a -> nth_error (map (fun x => fv (snd x)) l) i = Some b -> 0 <= (b - a) * a).
  { clear. cbn [map]. generalize (fv (snd first)) as a. generalize (map (fun x : Z * f64 => fv (snd x)) l) as m. clear. induction m as [|b m IH]; intro a; [split; auto; intros _ [|i] x y _ H; discriminate H|]. cbn [reductions]. unfold reduced. destruct (Rlt_dec ((b - a) * a) 0) as [L|L].
    - split; [discriminate|]. intro H. specialize (H 0%nat a b eq_refl eq_refl). lra.
    - cbn [app]. rewrite IH. split; [|intros H i; exact (H (S i))]. intros H [|i] x y; [cbn; intros [= <-] [= <-]; lra|apply H]. }
  rewrite <- K, <- R. destruct r as [|x r].
  - cbn [map]. destruct (@sum_bounds sum [] 0) as [F BB]; auto; [intros x []|unfold total; cbn [map rsum]; rewrite Rmult_0_l; apply bpow_ge_0|]. unfold total in BB. cbn in BB.
    assert (L : flt (fz 0) (sum []) = false) by (apply Bool.not_true_iff_false; rewrite flt_spec, V0 by auto; lra). rewrite L. tauto.
  - split; [|discriminate]. intro H. exfalso. set (ws := map snd (x :: r)) in *. pose proof (bpow_gt_0 radix2 (-400)) as P4.
    assert (AW : amounts ws) by (intros w Hw; apply in_map_iff in Hw as (y & <- & Hy); destruct (B y Hy); split; auto; lra).
    assert (TB : total ws <= INR (length (x :: r)) * bpow radix2 302).
    { unfold ws, total. clear - B. revert B. generalize (x :: r) as rs. induction rs as [|y rs IH]; intro B; cbn [map rsum length]; [cbn; lra|]. rewrite S_INR. pose proof (B y (or_introl eq_refl)). specialize (IH (fun z Hz => B z (or_intror Hz))). lra. }
    assert (NB : INR (length (x :: r)) <= bpow radix2 50) by (rewrite INR_IZR_INZ; change (bpow radix2 50) with (IZR (2 ^ 50)); apply IZR_le; lia).
    assert (TL : bpow radix2 (-400) <= total ws) by (apply Rle_trans with (1 := proj1 (proj2 (B x (or_introl eq_refl)))); apply elem_le_total; auto; now left).
    destruct (@sum_total sum ws) as [FW BW]; auto; [unfold ws; rewrite map_length; lia|split; auto; apply Rle_trans with (1 := TB), Rle_trans with (bpow radix2 50 * bpow radix2 302); [apply Rmult_le_compat_r; [apply bpow_ge_0|auto]|rewrite <- bpow_plus; apply bpow_le; lia]|].
    assert (GL : (Z.of_nat (length ws) <= 2 ^ 50)%Z) by (unfold ws; rewrite map_length; lia). destruct (growth GL) as (T8 & _). assert (P : 0 < fv (sum ws)) by (apply Rlt_le_trans with (2 := proj1 BW); apply Rmult_lt_0_compat; lra).
    assert (L : flt (fz 0) (sum ws) = true) by (apply flt_spec; auto; rewrite V0; auto). rewrite L in H. discriminate H.
Qed.
Print Assumptions c180_none.

(** ** REFUTED: "the holding period does not depend on the size of the position" (C35).  Two hours, at one unit and at three: entry times are averages
    weighted by the sizes, fl(fl(t * 3) / 3) for a single entry at t *)
Definition hour : Z := 3600000000000%Z.
Theorem c180_scale_refuted : is_sum fsum_left /\ let trip p := [(0%Z, fz 0); (hour, p); ((3 * hour)%Z, fz 0)] in
  match fholding_period fsum_left (trip (fz 1)), fholding_period fsum_left (trip (fz 3)) with
  | Ok (Some a), Ok (Some b) => flt b a = true
  | _, _ => False
  end.
Proof. split; [apply c126_left_sum|]. vm_compute. reflexivity. Qed.
Print Assumptions c180_scale_refuted.
(** REFUTED: "a bet that ends has a holding period".  A position of 2^-600: its product with the change underflows, and the bet is not seen to end. *)
Theorem c180_tiny_refuted : let trip p := [(0%Z, fz 0); (hour, p); ((3 * hour)%Z, fz 0)] in
  fholding_period fsum_left (trip (ff 1 (-600))) = Ok None /\ match fholding_period fsum_left (trip (ff 1 (-500))) with Ok (Some a) => flt (fz 0) a = true | _ => False end.
Proof. split; vm_compute; reflexivity. Qed.
Print Assumptions c180_tiny_refuted.

(** Three bars long, a flip to short, flat: two bets of 2 days and of 1 day. *)
Example c180_ex : let day := 86400000000000%Z in let l := [(day, 1); (2 * day, -1); (3 * day, 0); (4 * day, 0)]%Z in
  bets_ended 0 1 l = [(0, 2 * day); (2 * day, 3 * day)]%Z /\ (forall x, In x l -> side (snd x) /\ (Z.abs (fst x - 0) <= 2 ^ 63)%Z) /\ StronglySorted Z.lt (0%Z :: map fst l) /\
  match fholding_period fsum_left (positions ((0, 1)%Z :: l)) with Ok (Some h) => feq h (ff 3 (-1)) | _ => false end = true.
Proof.
  intros day l. split; [reflexivity|]. split; [|split; [|vm_compute; reflexivity]].
  - intros x [<-|[<-|[<-|[<-|[]]]]]; (split; [unfold side; cbn; lia|cbn; lia]).
  - repeat constructor.
Qed.
(** One and a half units, reduced to a half: sized, and a reduction. *)
Example c180_sized_ex : sized (ff 3 (-1)) /\ sized (ff 1 (-1)) /\ sized (fz 0) /\ reductions (3 / 2) [1 / 2; 1 / 2] <> [].
Proof.
  assert (H : bpow radix2 (-300) <= bpow radix2 (-1)) by (apply bpow_le; lia). assert (H' : bpow radix2 1 <= bpow radix2 300) by (apply bpow_le; lia). change (bpow radix2 (-1)) with (/ 2) in H. change (bpow radix2 1) with 2 in H'.
  assert (A : fin (ff 3 (-1)) /\ fv (ff 3 (-1)) = 3 / 2) by (split; [reflexivity|cbn; unfold F2R; cbn; lra]). assert (B : fin (ff 1 (-1)) /\ fv (ff 1 (-1)) = / 2) by (split; [reflexivity|cbn; unfold F2R; cbn; lra]).
  split; [split; [apply A|right; rewrite (proj2 A), Rabs_pos_eq; lra]|]. split; [split; [apply B|right; rewrite (proj2 B), Rabs_pos_eq; lra]|]. split; [split; [reflexivity|left; reflexivity]|].
  cbn [reductions]. unfold reduced at 1. destruct (Rlt_dec _ 0) as [L|L]; [discriminate|lra].
Qed.
(** without positions, and only then, it raises *)
Theorem c180_no_rows sum ps err : fholding_period sum ps = Err err <-> ps = [] /\ err = IndexError.
Proof. destruct ps; cbn; split; [intros [= <-]; auto|intros [_ ->]; auto|discriminate|intros [C _]; discriminate]. Qed.
Print Assumptions c180_no_rows.
