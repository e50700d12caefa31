(** C181: rolled futures series in binary64. *)
From Coq Require Import ZArith List Bool Reals Lra Lia QArith Qcanon.
From Flocq Require Import Core BinarySingleNaN.
From Verif Require Import Py Num Float64 BasketModel FloatRollModel.
Import ListNotations.
Set Implicit Arguments.
Unset Strict Implicit.
Open Scope R_scope.

Lemma F2_impl (A B : Type) (P Q : A -> B -> Prop) l m : (forall x y, P x y -> Q x y) -> Forall2 P l m -> Forall2 Q l m.
Proof. intros H F. induction F; constructor; auto. Qed.
Lemma F2_rev (A B : Type) (P : A -> B -> Prop) l m : Forall2 P l m -> Forall2 P (rev l) (rev m).
Proof. intro F. induction F; cbn; [constructor|]. apply Forall2_app; auto. Qed.
(** ** prices in ticks of a power of two *)
(** x is q ticks of 2^e, and at most m in size *)
Definition ticks (e m : Z) (x : f64) (q : Qc) : Prop := exists z, fin x /\ fv x = IZR z * bpow radix2 e /\ q = qz z /\ (Z.abs z <= m)%Z.
Section Ticks.
Variable e : Z.
Hypothesis He : (-1074 <= e <= 900)%Z.
Lemma tick_format z : (Z.abs z <= 2 ^ 53)%Z -> format64 (IZR z * bpow radix2 e).
Proof.
  intro H. destruct (Z.eq_dec (Z.abs z) (2 ^ 53)) as [E|E].
  - assert (F : format64 (bpow radix2 (53 + e))) by (apply format64_bpow; lia). rewrite bpow_plus in F. change (bpow radix2 53) with (IZR (2 ^ 53)) in F. destruct (Z.abs_eq_or_opp z) as [A|A].
    + replace z with (2 ^ 53)%Z by lia. exact F.
    + replace z with (- 2 ^ 53)%Z by lia. rewrite opp_IZR, Ropp_mult_distr_l_reverse. now apply generic_format_opp.
  - apply generic_format_FLT. exists (Float radix2 z e); cbn [Fnum Fexp]; [reflexivity|change (radix2 ^ 53)%Z with (2 ^ 53)%Z; lia|lia].
Qed.
Lemma tick_big z : (Z.abs z <= 2 ^ 53)%Z -> Rabs (IZR z * bpow radix2 e) <= big.
Proof.
  intro H. rewrite Rabs_mult, (Rabs_pos_eq (bpow _ _)) by apply bpow_ge_0. apply Rle_trans with (bpow radix2 53 * bpow radix2 900); [|rewrite <- bpow_plus; apply bpow_le; lia].
  apply Rmult_le_compat; [apply Rabs_pos|apply bpow_ge_0| |apply bpow_le; lia]. rewrite <- abs_IZR. change (bpow radix2 53) with (IZR (2 ^ 53)). now apply IZR_le.
Qed.
Lemma ticks_mono m m' x q : (m <= m')%Z -> ticks e m x q -> ticks e m' x q.
Proof. intros H (z & A & B & C & D). exists z. repeat split; auto. lia. Qed.
Lemma ticks_add m n x y p q : (m + n <= 2 ^ 53)%Z -> ticks e m x p -> ticks e n y q -> ticks e (m + n) (fadd x y) (p + q)%Qc.
Proof.
  intros H (z & A & B & C & D) (z' & A' & B' & C' & D'). assert (E : fv x + fv y = IZR (z + z') * bpow radix2 e) by (rewrite B, B', plus_IZR; ring). destruct (@fadd_spec x y) as [F V]; auto; [rewrite E; apply tick_big; lia|].
  exists (z + z')%Z. split; auto. split; [rewrite V, E; apply rnd64_id, tick_format; lia|]. split; [subst; now rewrite qz_add|lia].
Qed.
Lemma ticks_sub m n x y p q : (m + n <= 2 ^ 53)%Z -> ticks e m x p -> ticks e n y q -> ticks e (m + n) (fsub x y) (p - q)%Qc.
Proof.
  intros H (z & A & B & C & D) (z' & A' & B' & C' & D'). assert (E : fv x - fv y = IZR (z - z') * bpow radix2 e) by (rewrite B, B', minus_IZR; ring). destruct (@fsub_spec x y) as [F V]; auto; [rewrite E; apply tick_big; lia|].
  exists (z - z')%Z. split; auto. split; [rewrite V, E; apply rnd64_id, tick_format; lia|]. split; [subst; now rewrite qz_sub|lia].
Qed.
Lemma zero_times x : fin x -> fin (fmul x (fz 0)) /\ fv (fmul x (fz 0)) = 0.
Proof. intro F. destruct (@fz_spec 0) as [F0 V0]; [lia|]. destruct (@fmul_spec x (fz 0)) as [FM VM]; auto; [rewrite V0, Rmult_0_r, Rabs_R0; apply bpow_ge_0|]. split; auto. now rewrite VM, V0, Rmult_0_r, rnd64_0. Qed.
Lemma ticks_zero x : fin x -> ticks e 0 (fmul x (fz 0)) 0%Qc.
Proof. intro F. destruct (zero_times F) as [A B]. exists 0%Z. repeat split; auto; [rewrite B; ring|lia]. Qed.

Variable m : Z.
Hypothesis Hm : (0 <= m)%Z.
Definition same_bar (x : frow * Z) (y : row * Z) : Prop := snd x = snd y /\ forall c, ticks e m (fst x c) (fst y c).
Lemma raw_same fb b : Forall2 same_bar fb b -> (2 * m <= 2 ^ 53)%Z -> forall seen fp p, ticks e m fp p -> Forall2 (ticks e (2 * m)) (fraw_gaps seen fp fb) (raw_gaps seen p b).
Proof.
  intros F H. induction F as [|[fr k] [r k'] fb b X F IH]; intros seen fp p P; [constructor|]. destruct X as [E X]. cbn [fst snd] in E, X. subst k'. cbn [fraw_gaps raw_gaps]. constructor; [|apply IH, X].
  destruct (existsb (Z.eqb k) seen); [apply ticks_mono with 0%Z; [lia|]; apply ticks_zero; now destruct (X CClose) as (z & Y & _)|]. replace (2 * m)%Z with (m + m)%Z by ring. apply ticks_sub; auto. lia.
Qed.
Lemma sums_same fl l : Forall2 (ticks e (2 * m)) fl l -> forall k facc acc, (0 <= k)%Z -> (k + 2 * m * Z.of_nat (length l) <= 2 ^ 53)%Z -> ticks e k facc acc -> Forall2 (ticks e (k + 2 * m * Z.of_nat (length l))) (fcumsum_from facc fl) (cumsum_from acc l).
Proof.
  intros F. induction F as [|x y fl l X F IH]; intros k facc acc K B A; [constructor|]. cbn [fcumsum_from cumsum_from length] in *. assert (S1 : ticks e (k + 2 * m) (fadd facc x) (acc + y)%Qc) by (apply ticks_add; auto; nia). constructor; [apply ticks_mono with (2 := S1); nia|].
  replace (k + 2 * m * Z.of_nat (S (length l)))%Z with (k + 2 * m + 2 * m * Z.of_nat (length l))%Z by nia. apply IH; auto; nia.
Qed.
Lemma raw_length seen p b : length (raw_gaps seen p b) = length b.
Proof. revert seen p. induction b as [|[r k] b IH]; intros; cbn; auto. Qed.
Lemma gaps_same fb b me : Forall2 same_bar fb b -> (4 * m * Z.of_nat (length b) <= 2 ^ 53)%Z ->
  match fcompute_roll_gaps fb me, compute_roll_gaps b me with Ok x, Ok y => Forall2 (ticks e (4 * m * Z.of_nat (length b))) x y | Err x, Err y => x = y | _, _ => False end.
Proof.
  intros F H. set (N := (2 * m * Z.of_nat (length b))%Z). assert (N0 : (0 <= N)%Z) by (unfold N; nia).
  assert (G : Forall2 (ticks e N) (froll_sums fb) (match b with [] => [] | (r, c) :: rest => cumsum (0 :: raw_gaps [c] (r CClose) rest) end)%Qc).
  { destruct F as [|[fr k] [r k'] fb b X F]; [constructor|]. destruct X as [E X]. cbn [fst snd] in E, X. subst k'. unfold froll_sums, cumsum. cbn [cumsum_from]. replace (0 + 0)%Qc with (0%Qc) by ring. cbn [length] in N, H.
    assert (Z0 : ticks e 0 (fmul (fr CClose) (fz 0)) 0%Qc) by (apply ticks_zero; now destruct (X CClose) as (z & Y & _)). constructor; [apply ticks_mono with (2 := Z0); lia|].
    assert (RL := raw_length [k] (r CClose) b). assert (SS := @sums_same _ _ (@raw_same fb b F ltac:(nia) [k] (fr CClose) (r CClose) (X CClose)) 0%Z (fmul (fr CClose) (fz 0)) 0%Qc (Z.le_refl 0)). rewrite RL in SS. specialize (SS ltac:(nia) Z0).
    eapply F2_impl; [|exact SS]. intros x y. apply ticks_mono. unfold N. nia. }
  unfold fcompute_roll_gaps, compute_roll_gaps. set (fg := froll_sums fb) in *. set (g := match b with [] => [] | _ => _ end) in *. clearbody fg g. destruct me; [|eapply F2_impl; [|exact G]; intros x y; apply ticks_mono; unfold N; nia].
  assert (R : Forall2 (ticks e N) (rev fg) (rev g)) by now apply F2_rev. destruct R as [|x y ? ? _ R]; [reflexivity|]. destruct R as [|x' y' ? ? R1 _]; [reflexivity|]. clear - G R1 H N0 He N.
  induction G as [|u v fg g U G IH]; cbn [map]; constructor; auto. apply ticks_mono with (N + N)%Z; [unfold N; nia|]. apply ticks_sub; auto. unfold N. nia.
Qed.
Lemma adjust_same cols : forall k fg g fr r, (0 <= k)%Z -> (0 <= m)%Z -> forall j, (0 <= j)%Z -> (j + k * Z.of_nat (length cols) <= 2 ^ 53)%Z -> ticks e k fg g -> (forall c, ticks e j (fr c) (r c)) -> forall c, ticks e (j + k * Z.of_nat (length cols)) (fadjust_row cols fg fr c) (adjust_row cols g r c).
Proof.
  induction cols as [|col cols IH]; intros k fg g fr r K _ j J B G X c; [cbn; apply ticks_mono with (2 := X c); lia|]. cbn [length] in *. unfold fadjust_row, adjust_row. cbn [fold_left].
  replace (j + k * Z.of_nat (S (length cols)))%Z with (j + k + k * Z.of_nat (length cols))%Z by nia. apply IH; auto; [lia|nia|]. intro c'. destruct (column_eqb c' col); [apply ticks_sub; auto; nia|apply ticks_mono with (2 := X c'); lia].
Qed.
(** Prices in ticks of a power of two (quarters, sixty-fourths): the adjusted prices are those of exact arithmetic, to the last bit. *)
Theorem c181_ticks fb b cols me : Forall2 same_bar fb b -> (m + 4 * m * Z.of_nat (length b) * (1 + Z.of_nat (length cols)) <= 2 ^ 53)%Z ->
  match fadjusted_bars fb cols me, adjusted_bars b cols me with
  | Ok x, Ok y => Forall2 (fun fr r => forall c, exists z, fin (fr c) /\ fv (fr c) = IZR z * bpow radix2 e /\ r c = qz z) x y
  | Err x, Err y => x = y | _, _ => False
  end.
Proof.
  intros F H. assert (L : (0 <= Z.of_nat (length b))%Z) by lia. pose proof (@gaps_same fb b me F ltac:(nia)) as G. unfold fadjusted_bars, adjusted_bars. destruct (fcompute_roll_gaps fb me) as [fg|], (compute_roll_gaps b me) as [g|]; cbn [bind]; try tauto.
  set (k := (4 * m * Z.of_nat (length b))%Z) in *. assert (K : (0 <= k)%Z) by (unfold k; nia). assert (HK : (m + k * Z.of_nat (length cols) <= 2 ^ 53)%Z) by (unfold k in *; nia). clearbody k. clear H L. revert fg g G. induction F as [|[fr c0] [r c1] fb b X F IH]; intros fg g G; [destruct G; constructor|].
  destruct G as [|x y fg g X' G]; [constructor|]. destruct X as [_ X]. cbn [map fst] in *. constructor; [|now apply IH]. intro c. destruct (@adjust_same cols k x y fr r K Hm m Hm HK X' X c) as (z & A & B & C & _). exists z. auto.
Qed.
End Ticks.
Print Assumptions c181_ticks.

(** ** any prices *)
Definition price (x : f64) : Prop := fin x /\ Rabs (fv x) <= bpow radix2 900.
Definition priced (bars : list (frow * Z)) : Prop := forall x c, In x bars -> price (fst x c).
Lemma big900 k : (0 <= k <= 2 ^ 53)%Z -> format64 (IZR k * bpow radix2 901) /\ IZR k * bpow radix2 901 <= big.
Proof.
  intro H. assert (E : Z.abs k = k) by lia. split.
  - replace (IZR k * bpow radix2 901) with (IZR (2 * k) * bpow radix2 900) by (rewrite mult_IZR; change (bpow radix2 901) with (bpow radix2 (1 + 900)); rewrite bpow_plus; change (bpow radix2 1) with 2; ring). replace (IZR (2 * k) * bpow radix2 900) with (IZR k * bpow radix2 901) by (rewrite mult_IZR; change (bpow radix2 901) with (bpow radix2 (1 + 900)); rewrite bpow_plus; change (bpow radix2 1) with 2; ring).
    destruct (Z.eq_dec k (2 ^ 53)) as [->|NE]; [change (IZR (2 ^ 53)) with (bpow radix2 53); rewrite <- bpow_plus; now apply format64_bpow|]. apply generic_format_FLT. exists (Float radix2 k 901); cbn [Fnum Fexp]; [reflexivity|change (radix2 ^ 53)%Z with (2 ^ 53)%Z; lia|lia].
  - apply Rle_trans with (bpow radix2 53 * bpow radix2 901); [apply Rmult_le_compat_r; [apply bpow_ge_0|]; change (bpow radix2 53) with (IZR (2 ^ 53)); apply IZR_le; lia|rewrite <- bpow_plus; apply bpow_le; lia].
Qed.
Definition within (k : Z) (x : f64) : Prop := fin x /\ Rabs (fv x) <= IZR k * bpow radix2 901.
Lemma within_add k j x y : (0 <= k)%Z -> (0 <= j)%Z -> (k + j <= 2 ^ 53)%Z -> within k x -> within j y -> within (k + j) (fadd x y).
Proof.
  intros K J H [Fx Bx] [Fy By]. destruct (@big900 (k + j)) as [F B]; [lia|]. assert (A : Rabs (fv x + fv y) <= IZR (k + j) * bpow radix2 901) by (apply Rle_trans with (1 := Rabs_triang _ _); rewrite plus_IZR; lra).
  destruct (@fadd_spec x y) as [FF VV]; auto; [lra|]. split; auto. rewrite VV. now apply rnd64_abs_le.
Qed.
Lemma within_mono k j x : (k <= j)%Z -> within k x -> within j x.
Proof. intros H [F B]. split; auto. apply Rle_trans with (1 := B). apply Rmult_le_compat_r; [apply bpow_ge_0|now apply IZR_le]. Qed.
Lemma zero_within x : fin x -> within 0 (fmul x (fz 0)). Proof. intro F. destruct (zero_times F) as [A B]. split; auto. rewrite B, Rabs_R0. lra. Qed.
Lemma sub_within x y : price x -> price y -> within 1 (fsub x y).
Proof.
  intros [Fx Bx] [Fy By]. assert (A : Rabs (fv x - fv y) <= bpow radix2 901) by (apply Rle_trans with (1 := Rabs_triang _ _); rewrite Rabs_Ropp; change (bpow radix2 901) with (bpow radix2 (1 + 900)); rewrite bpow_plus; change (bpow radix2 1) with 2; lra).
  destruct (@fsub_spec x y) as [FF VV]; auto; [apply Rle_trans with (1 := A), bpow_le; lia|]. split; auto. rewrite VV, Rmult_1_l. apply rnd64_abs_le; auto. now apply format64_bpow.
Qed.
Lemma raw_within l : forall seen p, price p -> priced l -> forall x, In x (fraw_gaps seen p l) -> within 1 x.
Proof.
  induction l as [|[b c] l IH]; intros seen p P HL x; [intros []|]. cbn [fraw_gaps]. assert (PB : forall c', price (b c')) by (intro c'; exact (HL (b, c) c' (or_introl eq_refl))). intros [<-|Hx].
  - destruct (existsb (Z.eqb c) seen); [apply within_mono with 0%Z; [lia|]; apply zero_within, PB|now apply sub_within].
  - revert Hx. apply IH; auto. intros y c' Hy. apply HL. now right.
Qed.
Lemma cumsum_within l : forall k acc, (0 <= k)%Z -> (k + Z.of_nat (length l) <= 2 ^ 53)%Z -> (forall x, In x l -> within 1 x) -> within k acc -> forall x, In x (fcumsum_from acc l) -> within (k + Z.of_nat (length l)) x.
Proof.
  induction l as [|y l IH]; intros k acc K B HL A x; [intros []|]. cbn [fcumsum_from length] in *. assert (W : within (k + 1) (fadd acc y)) by (apply within_add; auto; try lia; apply HL; now left). intros [<-|Hx]; [apply within_mono with (2 := W); lia|].
  replace (k + Z.of_nat (S (length l)))%Z with (k + 1 + Z.of_nat (length l))%Z by lia. revert Hx. apply IH; auto; try lia. intros; apply HL; now right.
Qed.
Lemma raw_len seen p b : length (fraw_gaps seen p b) = length b.
Proof. revert seen p. induction b as [|[r k] b IH]; intros; cbn; auto. Qed.
Lemma sums_within bars : priced bars -> (Z.of_nat (length bars) <= 2 ^ 53)%Z -> forall x, In x (froll_sums bars) -> within (Z.of_nat (length bars)) x.
Proof.
  intros P L x. destruct bars as [|[b c] l]; [intros []|]. assert (PB : forall c', price (b c')) by (intro c'; exact (P (b, c) c' (or_introl eq_refl))). assert (Z0 : within 0 (fmul (b CClose) (fz 0))) by apply zero_within, PB. cbn [froll_sums length] in *. intros [<-|Hx]; [apply within_mono with (2 := Z0); lia|].
  apply within_mono with (0 + Z.of_nat (length (fraw_gaps [c] (b CClose) l)))%Z; [rewrite raw_len; lia|]. revert Hx. apply cumsum_within; auto; [lia|rewrite raw_len; lia|]. apply raw_within; auto. intros y c' Hy. apply P. now right.
Qed.
Lemma adjust_zero cols : forall g b c, fin g -> fv g = 0 -> (forall c, price (b c)) -> price (fadjust_row cols g b c) /\ fv (fadjust_row cols g b c) = fv (b c).
Proof.
  induction cols as [|col cols IH]; intros g b c G V B; [split; auto; apply B|]. unfold fadjust_row. cbn [fold_left]. fold (fadjust_row cols g (fun c => if column_eqb c col then fsub (b c) g else b c)).
  assert (X : forall c', price (if column_eqb c' col then fsub (b c') g else b c') /\ fv (if column_eqb c' col then fsub (b c') g else b c') = fv (b c')).
  { intro c'. destruct (B c') as [F A]. destruct (column_eqb c' col); [|split; [split|]; auto]. destruct (@fsub_spec (b c') g) as [FS VS]; auto; [rewrite V, Rminus_0_r; apply Rle_trans with (1 := A), bpow_le; lia|]. rewrite V, Rminus_0_r, rnd64_fv in VS. split; [split|]; auto. now rewrite VS. }
  destruct (IH g (fun c => if column_eqb c col then fsub (b c) g else b c) c G V (fun c' => proj1 (X c'))) as [I1 I2]. split; auto. rewrite I2. apply X.
Qed.
(** Rolling forward the first bar is the raw one, to the last bit *)
Theorem c181_first b c l cols : priced ((b, c) :: l) -> exists a adj, fadjusted_bars ((b, c) :: l) cols false = Ok (a :: adj) /\ forall col, fv (a col) = fv (b col).
Proof.
  intro P. assert (PB : forall c', price (b c')) by (intro c'; exact (P (b, c) c' (or_introl eq_refl))). destruct (@zero_times (b CClose)) as [F V]; [apply PB|]. unfold fadjusted_bars, fcompute_roll_gaps. cbn [bind froll_sums map fst]. eexists. eexists. split; [reflexivity|]. intro col. now apply adjust_zero.
Qed.
Print Assumptions c181_first.
(** matching the end, so is the last bar, unless it is the first of its contract *)
Lemma last_step (A : Type) (a d : A) q : last (a :: q) d = last q a.
Proof. revert a. induction q as [|w q IH]; intro a; [reflexivity|]. change (last (a :: w :: q) d) with (last (w :: q) d). rewrite IH. destruct q as [|v q]; [reflexivity|]. change (last (w :: v :: q) a) with (last (v :: q) a). clear. revert v. induction q as [|u q IH]; intro v; [reflexivity|apply IH]. Qed.
Lemma cumsum_snoc l x : forall acc, fcumsum_from acc (l ++ [x]) = fcumsum_from acc l ++ [fadd (last (fcumsum_from acc l) acc) x].
Proof. induction l as [|y l IH]; intro acc; [reflexivity|]. cbn [app fcumsum_from]. rewrite IH, last_step. reflexivity. Qed.
Lemma raw_snoc l b c : forall seen p, existsb (Z.eqb c) (map snd l ++ seen) = true -> fraw_gaps seen p (l ++ [(b, c)]) = fraw_gaps seen p l ++ [fmul (b CClose) (fz 0)].
Proof.
  induction l as [|[b' c'] l IH]; intros seen p H; cbn [app map snd fraw_gaps] in *; [now rewrite H|]. f_equal. apply IH. rewrite existsb_app in *. cbn [existsb] in *. rewrite existsb_app in H. destruct (Z.eqb c c'), (existsb (Z.eqb c) (map snd l)), (existsb (Z.eqb c) seen); auto.
Qed.
Theorem c181_last init b c cols : priced (init ++ [(b, c)]) -> (Z.of_nat (length (init ++ [(b, c)])) <= 2 ^ 53)%Z -> In c (map snd init) ->
  exists a adj, fadjusted_bars (init ++ [(b, c)]) cols true = Ok (adj ++ [a]) /\ forall col, fv (a col) = fv (b col).
Proof.
  intros P L I. destruct init as [|[b0 c0] l]; [destruct I|]. set (bars := ((b0, c0) :: l) ++ [(b, c)]) in *. assert (PB : forall c', price (b c')) by (intro c'; exact (P (b, c) c' ltac:(apply in_app_iff; right; now left))).
  set (s := froll_sums ((b0, c0) :: l)). assert (E : froll_sums bars = s ++ [fadd (last s (fz 0)) (fmul (b CClose) (fz 0))]).
  { unfold bars, s. cbn [app froll_sums]. rewrite raw_snoc, cumsum_snoc. 2:{ apply existsb_exists. exists c. split; [|apply Z.eqb_refl]. apply in_app_iff. destruct I as [I|I]; [right; left; exact I|now left]. }
    cbn [app]. f_equal. f_equal. f_equal. f_equal. set (g := fmul (b0 CClose) (fz 0)). symmetry. apply last_step. }
  assert (SN : s <> []) by discriminate. destruct (exists_last SN) as (s' & g & Es). assert (LG : last s (fz 0) = g) by (rewrite Es; apply last_last). rewrite LG in E.
  assert (WG : fin g /\ Rabs (fv g) <= big). { destruct (@sums_within bars P L g) as [F B]; [rewrite E, Es; apply in_app_iff; left; apply in_app_iff; right; now left|]. split; auto. apply Rle_trans with (1 := B). apply (@big900 (Z.of_nat (length bars))). lia. }
  destruct (@zero_times (b CClose)) as [FZ VZ]; [apply PB|]. destruct (@fadd_spec g (fmul (b CClose) (fz 0))) as [FA VA]; [apply WG|auto|rewrite VZ, Rplus_0_r; apply WG|]. rewrite VZ, Rplus_0_r, rnd64_fv in VA. set (g' := fadd g (fmul (b CClose) (fz 0))) in *.
  destruct (@fsub_spec g' g) as [FS VS]; [auto|apply WG|rewrite VA; replace (fv g - fv g) with 0 by ring; rewrite Rabs_R0; apply bpow_ge_0|]. rewrite VA in VS. replace (fv g - fv g) with 0 in VS by ring. rewrite rnd64_0 in VS.
  assert (LS : length s = length (map fst ((b0, c0) :: l))). { unfold s. cbn [froll_sums length map]. f_equal. rewrite map_length. rewrite <- (raw_len [c0] (b0 CClose) l). generalize (fraw_gaps [c0] (b0 CClose) l) as q. generalize (fmul (b0 CClose) (fz 0)) as z. clear. intros z q. revert z. induction q; intro z; cbn; auto. }
  assert (ER : rev s = g :: rev s') by (rewrite Es, rev_app_distr; reflexivity). clearbody s g'. unfold fadjusted_bars, fcompute_roll_gaps. rewrite E, rev_app_distr, ER. cbn [rev app bind]. rewrite map_app. cbn [map]. unfold bars. rewrite map_app. set (v := map fst ((b0, c0) :: l)) in *. cbn [map fst].
  exists (fadjust_row cols (fsub g' g) b). exists (map2 (fadjust_row cols) (map (fun x => fsub x g) s) v). split; [|intro col; now apply adjust_zero].
  f_equal. clear - LS. revert s LS. induction v as [|y v IH]; intros [|x u] LL; try discriminate LL; [reflexivity|]. cbn [app map]. change (fadjust_row cols (fsub x g) y :: map2 (fadjust_row cols) (map (fun x : f64 => fsub x g) u ++ [fsub g' g]) (v ++ [b]) = fadjust_row cols (fsub x g) y :: (map2 (fadjust_row cols) (map (fun x : f64 => fsub x g) u) v ++ [fadjust_row cols (fsub g' g) b])). f_equal. apply IH. now injection LL.
Qed.
Print Assumptions c181_last.

(** ** REFUTED: "the rolled series has no gap at a roll".  A contract closes at 0.1, the next opens at 0.4: adjusted, it opens at 0.09999999999999998. *)
Definition tenths (k : Z) : f64 := fdiv (fz k) (fz 10).
Definition flat_row (o c : f64) : frow := fun col => match col with COpen => o | _ => c end.
Theorem c181_gap_refuted : let bars := [(flat_row (tenths 1) (tenths 1), 0%Z); (flat_row (tenths 4) (tenths 1), 1%Z); (flat_row (tenths 1) (tenths 1), 1%Z)] in
  priced bars /\ match fadjusted_bars bars [COpen; CClose] false with Ok [a; a'; _] => feq (a CClose) (tenths 1) && flt (a' COpen) (a CClose) | _ => false end = true.
Proof.
  split; [|vm_compute; reflexivity]. assert (T : forall k, (0 <= k <= 100)%Z -> price (tenths k)).
  { intros k H. destruct (@fz_spec k) as [F V]; [lia|]. destruct (@fz_spec 10) as [F10 V10]; [lia|]. assert (B : Rabs (fv (fz k) / fv (fz 10)) <= bpow radix2 10) by (rewrite V, V10, Rabs_pos_eq by (apply Rmult_le_pos; [apply IZR_le; lia|lra]); change (bpow radix2 10) with 1024; assert (IZR k <= 100) by (apply IZR_le; lia); lra).
    destruct (@fdiv_spec (fz k) (fz 10)) as [FD VD]; auto; [rewrite V10; lra|apply Rle_trans with (1 := B), bpow_le; lia|]. split; auto. unfold tenths. rewrite VD. apply rnd64_abs_le; [now apply format64_bpow|]. apply Rle_trans with (1 := B), bpow_le. lia. }
  intros x c [<-|[<-|[<-|[]]]]; cbn [fst]; unfold flat_row; destruct c; apply T; lia.
Qed.
Print Assumptions c181_gap_refuted.

(** Quarters: 10 1/4 closes, 12 1/2 opens, 13 closes; the roll gap of 9 ticks is taken out. *)
Example c181_ex : let quarter k := ff k (-2) in
  let fb := [(flat_row (quarter 40) (quarter 41), 0); (flat_row (quarter 50) (quarter 52), 1); (flat_row (quarter 52) (quarter 53), 1)]%Z in
  let b := [((fun c => match c with COpen => qz 40 | _ => qz 41 end), 0); ((fun c => match c with COpen => qz 50 | _ => qz 52 end), 1); ((fun c => match c with COpen => qz 52 | _ => qz 53 end), 1)]%Z in
  Forall2 (same_bar (-2) 53) fb b /\ (53 + 4 * 53 * Z.of_nat (length b) * (1 + Z.of_nat (length [CClose])) <= 2 ^ 53)%Z /\
  match fadjusted_bars fb [CClose] false with Ok [_; a; _] => feq (a CClose) (quarter 43%Z) | _ => false end = true.
Proof.
  intros quarter fb b. split; [|split; [cbn; lia|vm_compute; reflexivity]].
  assert (T : forall k, In k [40; 41; 50; 52; 53]%Z -> ticks (-2) 53 (quarter k) (qz k)) by (intros k H; exists k; repeat (destruct H as [<-|H]; [repeat split; try reflexivity; try lia; cbn; unfold F2R; cbn; lra|]); destruct H).
  repeat constructor; intro c; destruct c; cbn [fst snd flat_row]; apply T; cbn; tauto.
Qed.
