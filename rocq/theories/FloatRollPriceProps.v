(** C184: the column of non-negative rolled prices in binary64. *)
From Coq Require Import ZArith List Bool Reals Lra Lia QArith Qcanon.
From Flocq Require Import Core BinarySingleNaN.
From Verif Require Import Py Num Float64 FloatCusumProps FloatEwmaProps BasketModel BasketSpec BasketProofs BasketProps FloatHRPProofs FloatSeriesProofs FloatTwrProps FloatRollModel FloatRollProps FloatRollPriceModel.
Import ListNotations.
Set Implicit Arguments.
Unset Strict Implicit.
Open Scope R_scope.

(** ** floats that are not below zero: NaN, zeros, and everything without a sign *)
Definition unsigned (x : f64) : Prop := match x with B754_zero _ => True | B754_infinity s => s = false | B754_nan => True | B754_finite s _ _ _ => s = false end.
Lemma unsigned_nlt x : unsigned x -> flt x (fz 0) = false.
Proof. destruct x as [s|s| |s mm ee H]; cbn [unsigned]; intro U; try (subst s); try destruct s; reflexivity. Qed.
Lemma unsigned_pos x : fin x -> 0 <= fv x -> unsigned x.
Proof.
  destruct x as [s|s| |s mm ee H]; cbn [unsigned]; auto; intros F V; [discriminate|]. destruct s; auto. exfalso. unfold fv in V. cbn [B2R] in V. assert (F2R (Float radix2 (Zneg mm) ee) < 0) by (apply F2R_lt_0; cbn; lia). cbn [cond_Zopp] in V. change (Z.opp (Zpos mm)) with (Zneg mm) in V. lra.
Qed.
Lemma unsigned_fv x : fin x -> unsigned x -> 0 <= fv x.
Proof.
  destruct x as [s|s| |s mm ee H]; cbn [unsigned]; intros F U; unfold fv; cbn [B2R]; try lra. subst s. apply F2R_ge_0. cbn. lia.
Qed.
Lemma unsigned_mul x y : unsigned x -> unsigned y -> unsigned (fmul x y).
Proof.
  intros X Y. destruct (is_finite x) eqn:FX; [destruct (is_finite y) eqn:FY|].
  - pose proof (Bmult_correct 53 1024 _ _ mode_NE x y) as C. assert (V : 0 <= rnd64 (fv x * fv y)) by (rewrite <- rnd64_0; apply rnd64_mono; apply Rmult_le_pos; apply unsigned_fv; auto).
    destruct (Rlt_bool _ _) in C.
    + destruct C as (C1 & C2 & _). apply unsigned_pos; [unfold fin, fmul; rewrite C2, FX, FY; reflexivity|]. unfold fv, fmul. rewrite C1. exact V.
    + unfold fmul. destruct x as [sx|sx| |sx mx ex Hx]; try discriminate; destruct y as [sy|sy| |sy my ey Hy]; try discriminate; try exact I. cbn [unsigned] in X, Y. subst sx sy. cbn [Bsign xorb] in C. revert C. generalize (Bmult mode_NE (B754_finite false mx ex Hx) (B754_finite false my ey Hy)). intros [s|s| |s mm ee H] C; cbn [unsigned]; auto; cbn in C; congruence.
  - destruct y as [sy|sy| |sy my ey Hy]; try discriminate; destruct x as [sx|sx| |sx mx ex Hx]; try discriminate; cbn [unsigned] in *; try exact I; subst; reflexivity.
  - destruct x as [sx|sx| |sx mx ex Hx]; try discriminate; destruct y as [sy|sy| |sy my ey Hy]; cbn [unsigned] in *; try exact I; subst; reflexivity.
Qed.
Lemma cumprod_unsigned l : forall acc, unsigned acc -> (forall x, In x l -> unsigned x) -> forall y, In y (fcumprod_from acc l) -> unsigned y.
Proof. induction l as [|x l IH]; intros acc A L y; [intros []|]. cbn [fcumprod_from]. assert (U : unsigned (fmul acc x)) by (apply unsigned_mul; auto; apply L; now left). intros [<-|H]; auto. revert H. apply IH; auto. intros; apply L; now right. Qed.
Lemma cumprod_len l : forall acc, length (fcumprod_from acc l) = length l.
Proof. induction l; intros; cbn; auto. Qed.

(** ** one factor *)
Lemma factor_ok a a' p : fin a -> fin a' -> fin p -> Rabs (fv a' - fv a) <= big -> 0 < fv p -> Rabs (rnd64 (fv a' - fv a) / fv p) <= bpow radix2 60 -> - fv p <= fv a' - fv a -> fin (fadd (fz 1) (fdiv (fsub a' a) p)) /\ 0 <= fv (fadd (fz 1) (fdiv (fsub a' a) p)).
Proof.
  intros Fa Fa' Fp B P Q C. destruct (@fsub_spec a' a Fa' Fa B) as [Fs Vs]. destruct (@fdiv_spec (fsub a' a) p Fs) as [Fd Vd]; [lra|rewrite Vs; apply Rle_trans with (1 := Q); apply bpow_le; lia|]. rewrite Vs in Vd.
  assert (L1 : - fv p <= rnd64 (fv a' - fv a)). { rewrite <- (rnd64_fv p) at 1. rewrite <- rnd64_opp. now apply rnd64_mono. }
  assert (L2 : -1 <= fv (fdiv (fsub a' a) p)). { assert (R : rnd64 (-1) = -1) by (apply (@rnd64_int (-1)); lia). rewrite Vd, <- R. apply rnd64_mono. apply Rmult_le_reg_r with (fv p); auto. unfold Rdiv. rewrite Rmult_assoc, Rinv_l by lra. lra. }
  assert (L3 : Rabs (fv (fdiv (fsub a' a) p)) <= bpow radix2 60). { rewrite Vd. apply rnd64_abs_le; auto. apply format64_bpow. lia. }
  destruct (@fz_spec 1) as [F1 V1]; [lia|]. destruct (@fadd_spec (fz 1) (fdiv (fsub a' a) p) F1 Fd) as [G W].
  { rewrite V1. apply Rle_trans with (1 + bpow radix2 60). { apply Rle_trans with (1 := Rabs_triang _ _). rewrite Rabs_R1. lra. } apply Rle_trans with (bpow radix2 60 + bpow radix2 60). { assert (bpow radix2 0 <= bpow radix2 60) by (apply bpow_le; lia). change (bpow radix2 0) with 1 in H. lra. } replace (bpow radix2 60 + bpow radix2 60) with (bpow radix2 61) by (change 61%Z with (1 + 60)%Z; rewrite bpow_plus; change (bpow radix2 1) with 2; ring). apply bpow_le. lia. }
  split; auto. rewrite W, V1, <- rnd64_0. apply rnd64_mono. lra.
Qed.

Section Ticks.
Variable e : Z.
Hypothesis He : (-1074 <= e <= 900)%Z.
Variable m : Z.
Hypothesis Hm : (0 <= m)%Z.
Lemma adjusted_ticks fb b cols me : Forall2 (same_bar e m) fb b -> (m + 4 * m * Z.of_nat (length b) * (1 + Z.of_nat (length cols)) <= 2 ^ 53)%Z ->
  match fadjusted_bars fb cols me, adjusted_bars b cols me with
  | Ok x, Ok y => Forall2 (fun fr r => forall c, ticks e (2 ^ 53) (fr c) (r c)) x y
  | Err x, Err y => x = y | _, _ => False
  end.
Proof.
  intros F H. assert (L : (0 <= Z.of_nat (length b))%Z) by lia. pose proof (@gaps_same e He m Hm fb b me F ltac:(nia)) as G. unfold fadjusted_bars, adjusted_bars. destruct (fcompute_roll_gaps fb me) as [fg|], (compute_roll_gaps b me) as [g|]; cbn [bind]; try tauto.
  set (k := (4 * m * Z.of_nat (length b))%Z) in *. assert (K : (0 <= k)%Z) by (unfold k; nia). assert (HK : (m + k * Z.of_nat (length cols) <= 2 ^ 53)%Z) by (unfold k in *; nia). clearbody k. clear H L. revert fg g G. induction F as [|[fr c0] [r c1] fb b X F IH]; intros fg g G; [destruct G; constructor|].
  destruct G as [|x y fg g X' G]; [constructor|]. destruct X as [_ X]. cbn [map fst] in *. constructor; [|now apply IH]. intro c. pose proof (@adjust_same e He m Hm cols k x y fr r K Hm m Hm HK X' X c) as T. revert T. apply ticks_mono. lia.
Qed.
Lemma ticks_qr n x q : ticks e n x q -> fin x /\ fv x = qr q * bpow radix2 e /\ Rabs (qr q) <= IZR n.
Proof. intros (z & F & V & -> & B). split; auto. rewrite qr_z. split; auto. rewrite <- abs_IZR. now apply IZR_le. Qed.
Lemma ticks_one n x q : ticks e n x q -> (0 < q)%Qc -> bpow radix2 e <= fv x.
Proof. intros (z & F & V & -> & B) P. apply (proj1 (qz_lt 0 z)) in P. rewrite V. assert (1 <= IZR z) by (apply IZR_le; lia). pose proof (bpow_gt_0 radix2 e). nra. Qed.
Lemma returns_ok fa a : Forall2 (ticks e (2 ^ 53)) fa a -> forall fp p, Forall2 (ticks e (2 ^ 53)) fp p ->
  (forall i u u' w, nth_error a i = Some u -> nth_error a (S i) = Some u' -> nth_error p i = Some w -> (0 < w)%Qc /\ (- w <= u' - u)%Qc) -> forall x, In x (froll_returns fa fp) -> unsigned (fadd (fz 1) x).
Proof.
  induction 1 as [|fu u fa a U FA IH]; intros fp p FP C x Hx; [destruct Hx|]. destruct FA as [|fu' u' fa a U' FA]; [destruct FP; destruct Hx|]. destruct FP as [|fw w fp p W FP]; [destruct Hx|].
  change (In x (fdiv (fsub fu' fu) fw :: froll_returns (fu' :: fa) fp)) in Hx. destruct Hx as [<-|Hx].
  - destruct (C 0%nat u u' w) as [PW CW]; auto. destruct (ticks_qr U) as (F1 & V1 & B1). destruct (ticks_qr U') as (F2 & V2 & B2). destruct (ticks_qr W) as (F3 & V3 & B3). pose proof (ticks_one W PW) as O. pose proof (bpow_gt_0 radix2 e) as BE.
    apply qr_le in CW. rewrite qr_opp, qr_sub in CW. change (IZR (2 ^ 53)) with (bpow radix2 53) in *.
    assert (D : Rabs (fv fu' - fv fu) <= bpow radix2 (54 + e)).
    { rewrite V1, V2, <- Rmult_minus_distr_r, Rabs_mult, (Rabs_pos_eq (bpow radix2 e)), bpow_plus by lra. apply Rmult_le_compat_r; [lra|]. change 54%Z with (1 + 53)%Z. rewrite bpow_plus. change (bpow radix2 1) with 2. unfold Rminus. apply Rle_trans with (1 := Rabs_triang _ _). rewrite Rabs_Ropp. lra. }
    assert (FC : fin (fadd (fz 1) (fdiv (fsub fu' fu) fw)) /\ 0 <= fv (fadd (fz 1) (fdiv (fsub fu' fu) fw))).
    { apply factor_ok; auto.
      - apply Rle_trans with (1 := D). apply bpow_le. lia.
      - lra.
      - assert (R : Rabs (rnd64 (fv fu' - fv fu)) <= bpow radix2 (54 + e)) by (apply rnd64_abs_le; auto; apply format64_bpow; lia). unfold Rdiv. rewrite Rabs_mult, Rabs_inv, (Rabs_pos_eq (fv fw)) by lra.
        apply Rmult_le_reg_r with (fv fw); [lra|]. rewrite Rmult_assoc, Rinv_l, Rmult_1_r by lra. apply Rle_trans with (1 := R). rewrite bpow_plus. apply Rmult_le_compat; auto; try apply bpow_ge_0. apply bpow_le. lia.
      - rewrite V1, V2, V3. nra. }
    apply unsigned_pos; apply FC.
  - apply (IH (fp) p); auto. intros i v v' y A1 A2 A3. apply (C (S i) v v' y); auto.
Qed.
Lemma returns_len fa : forall fp, length fa = length fp -> length (froll_returns fa fp) = Nat.pred (length fa).
Proof. induction fa as [|u fa IH]; intros [|w fp] L; try discriminate; auto. destruct fa as [|u' fa]; [reflexivity|]. change (S (length (froll_returns (u' :: fa) fp)) = length (u' :: fa)). rewrite IH by (cbn in *; lia). reflexivity. Qed.
(** In float64 the rolled price starts at 1 and is never below zero, however long the series, if no bar of a new contract falls from its open by more than the previous close *)
Theorem c184_nonneg fb b cols me : Forall2 (same_bar e m) fb b -> (m + 4 * m * Z.of_nat (length b) * (1 + Z.of_nat (length cols)) <= 2 ^ 53)%Z -> (2 <= length b)%nat ->
  (forall (r : row) c, In (r, c) b -> (0 < r CClose)%Qc) -> no_return (map snd b) -> occurrences cols CClose = 1%nat ->
  (forall i (r : row) c (r' : row) c', nth_error b i = Some (r', c') -> nth_error b (S i) = Some (r, c) -> c <> c' -> (r COpen - r CClose <= r' CClose)%Qc) ->
  exists p prices, frolled_prices fb cols me = Ok (p :: prices) /\ fin p /\ fv p = 1 /\ S (length prices) = length fb /\ forall x, In x (p :: prices) -> flt x (fz 0) = false.
Proof.
  intros F HB L Hpos NR Hc Hroll. pose proof (adjusted_ticks (fb := fb) (b := b) (cols := cols) me F HB) as A. pose proof (Forall2_length F) as LF.
  assert (OK : exists adj, adjusted_bars b cols me = Ok adj /\ length adj = length b).
  { assert (G : exists g, compute_roll_gaps b me = Ok g).
    { unfold compute_roll_gaps. destruct me; [|eexists; reflexivity]. destruct b as [|[r0 c0] [|[r1 c1] b]]; cbn [length] in L; try lia. cbn [raw_gaps cumsum cumsum_from]. 
      match goal with |- exists g, match rev ?l with _ => _ end = _ => assert (LL : (2 <= length (rev l))%nat) by (rewrite rev_length; cbn; lia); destruct (rev l) as [|x [|y t]]; cbn [length] in LL; try lia end. eexists. reflexivity. }
    destruct G as (g & G). unfold adjusted_bars. rewrite G. cbn [bind]. eexists. split; [reflexivity|]. destruct (roll_gaps_shift G) as (k & Eg & _). rewrite map2_length; rewrite Eg, map_length, ?map_length, base_gaps_length; auto. }
  destruct OK as (adj & HA & LA). rewrite HA in A. unfold frolled_prices. destruct (fadjusted_bars fb cols me) as [fadj|]; [|contradiction]. cbn [bind].
  pose proof (Forall2_length A) as LA'. destruct fb as [|f0 fb'] eqn:EF; [cbn in LF; lia|]. rewrite <- EF in *. clear f0 fb' EF.
  cbn [map fcumprod]. destruct (@fz_spec 1) as [F1 V1]; [lia|]. destruct (@fz_spec 0) as [F0 V0]; [lia|]. destruct (@fadd_spec (fz 1) (fz 0) F1 F0) as [FP VP]; [rewrite V0, V1, Rplus_0_r; apply (@big_ge 1); lia|]. rewrite V0, V1, Rplus_0_r, rnd64_1 in VP.
  eexists _, _. split; [reflexivity|]. split; auto. split; auto. split.
  { rewrite cumprod_len, map_length, returns_len; rewrite ?map_length; unfold frow, row in *; [|congruence]. rewrite LA', LA, LF. destruct (length b); [lia|reflexivity]. }
  assert (U1 : unsigned (fadd (fz 1) (fz 0))) by (apply unsigned_pos; auto; rewrite VP; lra).
  intros x [<-|Hx]; apply unsigned_nlt; auto. revert Hx. apply cumprod_unsigned; auto. intros y Hy. apply in_map_iff in Hy. destruct Hy as (v & <- & Hv).
  revert v Hv. apply (@returns_ok _ (map (fun r : row => r CClose) adj)) with (p := map (fun r : row * Z => fst r CClose) b).
  - clear - A. induction A; cbn [map]; constructor; auto.
  - clear - F HB L Hm. assert (M : (m <= 2 ^ 53)%Z) by nia. clear HB L. induction F as [|x y fb b [_ X] F IH]; cbn [map]; constructor; auto. now apply ticks_mono with m.
  - intros i u u' p Hu Hu' Hp. rewrite nth_error_map in Hu, Hu', Hp.
    destruct (nth_error adj i) as [a'|] eqn:A'; [|discriminate]. destruct (nth_error adj (S i)) as [a|] eqn:A0; [|discriminate].
    destruct (nth_error b i) as [[b' c']|] eqn:B'; [|discriminate].
    destruct (nth_error b (S i)) as [[r c]|] eqn:B; [|apply nth_error_None in B; assert (S i < length adj)%nat by (apply nth_error_Some; congruence); lia].
    cbn [option_map fst] in Hu, Hu', Hp. inversion Hu; inversion Hu'; inversion Hp; subst u u' p.
    assert (P' : (0 < b' CClose)%Qc) by (eapply Hpos; eapply nth_error_In; eauto). assert (P : (0 < r CClose)%Qc) by (eapply Hpos; eapply nth_error_In; eauto).
    split; auto. rewrite (c17_adjusted_close_pnl NR Hc HA B' B A' A0). destruct (Z.eqb_spec c c') as [E|E]; [clear - P; qlra|]. specialize (Hroll _ _ _ _ _ B' B E). clear - Hroll. qlra.
Qed.

(** ** how close the prices are *)
Definition near (f : f64) (g : Qc) : Prop := fin f /\ / 2 <= qr g <= 2 /\ exists n, Rabs n <= 5 * u64 /\ fv f = qr g * (1 + n).
Lemma factor_near a a' p u u' w : ticks e (2 ^ 53) a u -> ticks e (2 ^ 53) a' u' -> ticks e (2 ^ 53) p w -> (0 < w)%Qc -> Rabs (qr u' - qr u) <= IZR (2 ^ 53) -> / 2 <= 1 + (qr u' - qr u) / qr w <= 2 ->
  near (fadd (fz 1) (fdiv (fsub a' a) p)) (1 + (u' - u) / w)%Qc.
Proof.
  intros U U' W PW D G. destruct (ticks_qr W) as (F3 & V3 & _). assert (W0 : 0 < qr w) by (apply qr_lt in PW; now rewrite qr_0 in PW). pose proof (bpow_gt_0 radix2 e) as BE. pose proof u64_pos as U0. pose proof u64_small as U1. pose proof eta_le_u as EU.
  assert (ET : eta64 <= / 1024 * u64). { unfold eta64. apply Rle_trans with (bpow radix2 (-10) * bpow radix2 (-53)); [rewrite <- bpow_plus; apply bpow_le; lia|]. right. f_equal. }
  destruct U as (z & Fa & Va & -> & _). destruct U' as (z' & Fa' & Va' & -> & _). rewrite !qr_z, <- minus_IZR in D. rewrite !qr_z, <- minus_IZR in G.
  assert (ZB : (Z.abs (z' - z) <= 2 ^ 53)%Z) by (apply le_IZR; rewrite abs_IZR; exact D). assert (DE : fv a' - fv a = IZR (z' - z) * bpow radix2 e) by (rewrite Va, Va', minus_IZR; ring).
  destruct (@fsub_spec a' a Fa' Fa) as [Fs Vs]; [rewrite DE; now apply tick_big|]. rewrite DE, rnd64_id in Vs by now apply tick_format.
  set (r := IZR (z' - z) / qr w) in *. assert (QE : fv (fsub a' a) / fv p = r) by (unfold r; rewrite Vs, V3; field; lra). assert (RB : Rabs r <= 1) by (apply Rabs_le; lra).
  destruct (@fdiv_spec (fsub a' a) p Fs) as [Fd Vd]; [rewrite V3; apply Rgt_not_eq, Rmult_lt_0_compat; lra|rewrite QE; apply Rle_trans with (1 := RB); apply (bpow_le radix2 0); lia|]. rewrite QE in Vd.
  destruct (rnd_error_any r) as (e3 & h & H3 & Hh & E3). rewrite E3 in Vd. destruct (@fz_spec 1) as [F1 V1]; [lia|]. apply Rabs_le_inv in Hh. assert (RE : Rabs (r * e3) <= 1 * u64) by (rewrite Rabs_mult; apply Rmult_le_compat; auto; apply Rabs_pos). apply Rabs_le_inv in RE.
  destruct (@fadd_spec (fz 1) (fdiv (fsub a' a) p) F1 Fd) as [F V]; [rewrite V1, Vd; apply Rle_trans with (bpow radix2 3); [change (bpow radix2 3) with 8; apply Rabs_le; lra|apply bpow_le; lia]|].
  destruct (@add_error (fv (fz 1)) (fv (fdiv (fsub a' a) p)) (fv_format _) (fv_format _)) as (e4 & H4 & E4). rewrite E4, V1, Vd in V.
  assert (QG : qr (1 + (qz z' - qz z) / w)%Qc = 1 + r). { unfold r. rewrite qr_add, qr_1, qr_div, qr_sub, !qr_z, <- minus_IZR; auto. intro C. rewrite C, qr_0 in W0. lra. }
  split; auto. rewrite QG. split; auto. set (g := 1 + r) in *. set (n' := (r * e3 + h) / g). assert (N' : Rabs n' <= 3 * u64).
  { unfold n', Rdiv. rewrite Rabs_mult, (Rabs_pos_eq (/ g)) by (apply Rlt_le, Rinv_0_lt_compat; lra). replace (3 * u64) with (3 / 2 * u64 * / / 2) by field. apply Rmult_le_compat; [apply Rabs_pos|apply Rlt_le, Rinv_0_lt_compat; lra|apply Rabs_le; lra|apply Rinv_le; lra]. }
  exists ((1 + n') * (1 + e4) - 1). split; [|rewrite V; unfold n'; replace (1 + (r * (1 + e3) + h)) with (g + (r * e3 + h)) by (unfold g; ring); field; lra].
  replace ((1 + n') * (1 + e4) - 1) with (n' + e4 + n' * e4) by ring. assert (NE : Rabs (n' * e4) <= 1 * u64) by (rewrite Rabs_mult; apply Rmult_le_compat; auto; try apply Rabs_pos; lra). apply Rabs_le_inv in NE, N', H4. apply Rabs_le. lra.
Qed.
Lemma returns_near fa a : Forall2 (ticks e (2 ^ 53)) fa a -> forall fp p rs, Forall2 (ticks e (2 ^ 53)) fp p -> roll_returns a p = Some rs ->
  (forall i u u' w, nth_error a i = Some u -> nth_error a (S i) = Some u' -> nth_error p i = Some w -> (0 < w)%Qc /\ Rabs (qr u' - qr u) <= IZR (2 ^ 53) /\ / 2 <= 1 + (qr u' - qr u) / qr w <= 2) ->
  Forall2 near (map (fadd (fz 1)) (froll_returns fa fp)) (map (fun x => (1 + x)%Qc) rs).
Proof.
  induction 1 as [|fu u fa a U FA IH]; intros fp p rs FP HR C; [injection HR as <-; destruct fp; constructor|]. destruct FA as [|fu' u' fa a U' FA]; [destruct FP; injection HR as <-; constructor|]. destruct FP as [|fw w fp p W FP]; [injection HR as <-; constructor|].
  change (froll_returns (fu :: fu' :: fa) (fw :: fp)) with (fdiv (fsub fu' fu) fw :: froll_returns (fu' :: fa) fp). change (roll_returns (u :: u' :: a) (w :: p)) with (if qeq w 0 then None else match roll_returns (u' :: a) p with None => None | Some l => Some ((u' - u) / w :: l)%Qc end) in HR.
  destruct (qeq w 0); [discriminate|]. destruct (roll_returns (u' :: a) p) as [l|] eqn:E; [|discriminate]. injection HR as <-. cbn [map]. constructor.
  - destruct (C 0%nat u u' w) as (C1 & C2 & C3); auto. now apply factor_near.
  - apply (IH fp p l); auto. intros i v v' y A1 A2 A3. apply (C (S i) v v' y); auto.
Qed.
Lemma cumprod_near fl gs : Forall2 near fl gs -> forall acc P k, fin acc -> (0 < P)%Qc -> qr P * (1 - 7 * u64) ^ k <= fv acc <= qr P * (1 + 7 * u64) ^ k -> INR (k + length gs) * (7 * u64) <= / 4 ->
  (forall q, In q (cumprod_from P gs) -> bpow radix2 (-900) <= qr q <= bpow radix2 900) ->
  Forall2 (fun x q => fin x /\ Rabs (fv x - qr q) <= 14 * INR (k + length gs) * u64 * qr q) (fcumprod_from acc fl) (cumprod_from P gs).
Proof.
  pose proof u64_pos as U0. pose proof u64_small as U1.
  induction 1 as [|f g fl gs (Ff & G & n & Hn & Vf) F IH]; intros acc P k Fa PP B K R; [constructor|]. cbn [fcumprod_from cumprod_from length] in *. specialize (R (P * g)%Qc (or_introl eq_refl)) as RG. assert (RT : forall q, In q (cumprod_from (P * g)%Qc gs) -> bpow radix2 (-900) <= qr q <= bpow radix2 900) by (intros q Hq; apply R; now right). rewrite qr_mul in RG.
  assert (KK : INR (S k) * (7 * u64) <= / 4) by (apply Rle_trans with (2 := K); apply Rmult_le_compat_r; [lra|]; apply le_INR; lia).
  pose proof (@bern (7 * u64) (S k) ltac:(lra)) as BL. pose proof (@bern_up (7 * u64) (S k) ltac:(lra) ltac:(lra) ltac:(lra)) as BU. cbn [pow] in BL, BU. apply Rabs_le_inv in Hn. assert (P0 : 0 < qr P) by (apply qr_lt in PP; now rewrite qr_0 in PP).
  set (lo := (1 - 7 * u64) ^ k) in *. set (hi := (1 + 7 * u64) ^ k) in *. assert (L0 : 0 < lo) by (apply pow_lt; lra). assert (H0 : 0 < hi) by (apply pow_lt; lra). set (x := fv acc * fv f) in *. set (Q := qr P * qr g) in *. pose proof (bpow_gt_0 radix2 (-900)) as B9.
  assert (X1 : Q * (lo * (1 - 5 * u64)) <= x). { unfold x, Q. rewrite Vf. replace (qr P * qr g * (lo * (1 - 5 * u64))) with (qr P * lo * (qr g * (1 - 5 * u64))) by ring. apply Rmult_le_compat; [apply Rmult_le_pos; lra|apply Rmult_le_pos; lra|lra|apply Rmult_le_compat_l; lra]. }
  assert (X2 : x <= Q * (hi * (1 + 5 * u64))). { unfold x, Q. rewrite Vf. replace (qr P * qr g * (hi * (1 + 5 * u64))) with (qr P * hi * (qr g * (1 + 5 * u64))) by ring. assert (0 <= qr P * lo) by (apply Rmult_le_pos; lra). apply Rmult_le_compat; [lra|apply Rmult_le_pos; lra|lra|apply Rmult_le_compat_l; lra]. }
  assert (S1 : / 2 <= lo * (1 - 5 * u64)). { apply Rle_trans with ((1 - 7 * u64) * lo); [lra|]. rewrite Rmult_comm. apply Rmult_le_compat_l; lra. }
  assert (S2 : hi * (1 + 5 * u64) <= 2). { apply Rle_trans with ((1 + 7 * u64) * hi); [|lra]. rewrite Rmult_comm. apply Rmult_le_compat_r; lra. }
  assert (XL : bpow radix2 (-901) <= x). { apply Rle_trans with (2 := X1). replace (bpow radix2 (-901)) with (bpow radix2 (-900) * / 2) by (change (/ 2) with (bpow radix2 (-1)); rewrite <- bpow_plus; reflexivity). apply Rmult_le_compat; lra. }
  assert (XH : x <= bpow radix2 901). { apply Rle_trans with (1 := X2). replace (bpow radix2 901) with (bpow radix2 900 * 2) by (change 2 with (bpow radix2 1); rewrite <- bpow_plus; reflexivity). apply Rmult_le_compat; try lra. apply Rmult_le_pos; lra. }
  assert (X0 : 0 < x) by (apply Rlt_le_trans with (2 := XL), bpow_gt_0). destruct (@fmul_spec acc f Fa Ff) as [Fm Vm]; [fold x; rewrite Rabs_pos_eq by lra; apply Rle_trans with (1 := XH); apply bpow_le; lia|]. fold x in Vm.
  destruct (@rnd_error x) as (e5 & H5 & E5); [rewrite Rabs_pos_eq by lra; apply Rle_trans with (2 := XL); apply bpow_le; lia|]. rewrite E5 in Vm. apply Rabs_le_inv in H5. assert (UU : 0 <= u64 * u64 <= / 1024 * u64) by (split; [apply Rmult_le_pos; lra|apply Rmult_le_compat_r; lra]). assert (Q0 : 0 < Q) by lra.
  assert (N1 : Q * (lo * (1 - 7 * u64)) <= fv (fmul acc f)). { rewrite Vm. apply Rle_trans with (Q * (lo * (1 - 5 * u64)) * (1 - u64)). - replace (Q * (lo * (1 - 5 * u64)) * (1 - u64)) with (Q * (lo * ((1 - 5 * u64) * (1 - u64)))) by ring. apply Rmult_le_compat_l; [lra|]. apply Rmult_le_compat_l; lra. - apply Rmult_le_compat; try lra. apply Rmult_le_pos; lra. }
  assert (N2 : fv (fmul acc f) <= Q * (hi * (1 + 7 * u64))). { rewrite Vm. apply Rle_trans with (Q * (hi * (1 + 5 * u64)) * (1 + u64)). - apply Rmult_le_compat; lra. - replace (Q * (hi * (1 + 5 * u64)) * (1 + u64)) with (Q * (hi * ((1 + 5 * u64) * (1 + u64)))) by ring. apply Rmult_le_compat_l; [lra|]. apply Rmult_le_compat_l; lra. }
  replace (k + S (length gs))%nat with (S k + length gs)%nat in * by lia. constructor.
  - split; auto. rewrite qr_mul. fold Q. assert (KN : INR (S k) <= INR (S k + length gs)) by (apply le_INR; lia). set (N := INR (S k + length gs)) in *.
    assert (KU : INR (S k) * u64 <= N * u64) by (apply Rmult_le_compat_r; lra). set (t := INR (S k) * u64) in *. replace (INR (S k) * (7 * u64)) with (7 * t) in * by (unfold t; ring).
    assert (T1 : Q * (1 - 7 * t) <= Q * (lo * (1 - 7 * u64))) by (apply Rmult_le_compat_l; lra). assert (T2 : Q * (hi * (1 + 7 * u64)) <= Q * (1 + 14 * t)) by (apply Rmult_le_compat_l; lra).
    assert (T3 : Q * t <= Q * (N * u64)) by (apply Rmult_le_compat_l; lra). assert (T4 : 0 <= Q * t) by (apply Rmult_le_pos; [lra|]; unfold t; apply Rmult_le_pos; [apply pos_INR|lra]). replace (14 * N * u64 * Q) with (14 * (Q * (N * u64))) by ring. apply Rabs_le. lra.
  - apply (IH (fmul acc f) (P * g)%Qc (S k)); auto.
    + apply qr_lt. rewrite qr_0, qr_mul. exact Q0.
    + rewrite qr_mul. fold Q. cbn [pow]. fold lo hi. lra.
Qed.
(** If no bar moves by more than half of the previous close, the rolled prices are those of exact arithmetic but for fourteen roundings a bar *)
Theorem c184_close fb b cols me qs : Forall2 (same_bar e m) fb b -> (m + 4 * m * Z.of_nat (length b) * (1 + Z.of_nat (length cols)) <= 2 ^ 53)%Z -> (Z.of_nat (length b) <= 2 ^ 45)%Z ->
  (forall (r : row) c, In (r, c) b -> (0 < r CClose)%Qc) -> no_return (map snd b) -> occurrences cols CClose = 1%nat ->
  (forall i (r : row) c (r' : row) c', nth_error b i = Some (r', c') -> nth_error b (S i) = Some (r, c) -> (qabs (r CClose - (if Z.eqb c c' then r' CClose else r COpen)) * (1 + 1) <= r' CClose)%Qc) ->
  rolled_prices b cols me = Ok (Some qs) -> (forall q, In q qs -> bpow radix2 (-900) <= qr q <= bpow radix2 900) ->
  exists ps, frolled_prices fb cols me = Ok ps /\ Forall2 (fun x q => fin x /\ Rabs (fv x - qr q) <= 14 * INR (length b) * u64 * qr q) ps qs.
Proof.
  intros F HB LB Hpos NR Hc Hmove HR RQ. pose proof (adjusted_ticks (fb := fb) (b := b) (cols := cols) me F HB) as A. pose proof (Forall2_length F) as LF. unfold rolled_prices in HR. unfold frolled_prices.
  destruct (adjusted_bars b cols me) as [adj|] eqn:HA; [|discriminate]. cbn [bind] in HR. destruct (fadjusted_bars fb cols me) as [fadj|]; [|contradiction]. cbn [bind].
  assert (LA : length adj = length b). { unfold adjusted_bars in HA. destruct (compute_roll_gaps b me) as [gaps|] eqn:E; [|discriminate]. cbn in HA. inversion HA. destruct (roll_gaps_shift E) as [k [Eg _]]. rewrite map2_length; rewrite Eg, map_length, ?map_length, base_gaps_length; auto. }
  destruct b as [|b0 b1] eqn:EB; [discriminate|]. rewrite <- EB in *. destruct fb as [|f0 fb'] eqn:EF; [rewrite EB in LF; discriminate|]. rewrite <- EF in *. clear f0 fb' EF. assert (BP : (1 <= length b)%nat) by (rewrite EB; cbn; lia). clear b0 b1 EB.
  destruct (roll_returns _ _) as [rs|] eqn:ER; [|discriminate]. injection HR as <-. eexists. split; [reflexivity|]. cbn [map fcumprod cumprod_from] in *.
  assert (MB : (m <= 2 ^ 53)%Z) by nia.
  assert (NF : Forall2 near (map (fadd (fz 1)) (froll_returns (map (fun b : frow => b CClose) fadj) (map (fun b : frow * Z => fst b CClose) fb))) (map (fun x => (1 + x)%Qc) rs)).
  { apply (@returns_near _ (map (fun r : row => r CClose) adj)) with (p := map (fun r : row * Z => fst r CClose) b); auto.
    - clear - A. induction A; cbn [map]; constructor; auto.
    - clear - F MB. induction F as [|x y fb b [_ X] F IH]; cbn [map]; constructor; auto. now apply ticks_mono with m.
    - intros i u u' p Hu Hu' Hp. rewrite nth_error_map in Hu, Hu', Hp.
      destruct (nth_error adj i) as [a'|] eqn:A'; [|discriminate]. destruct (nth_error adj (S i)) as [a|] eqn:A0; [|discriminate].
      destruct (nth_error b i) as [[b' c']|] eqn:B'; [|discriminate].
      destruct (nth_error b (S i)) as [[r c]|] eqn:B; [|apply nth_error_None in B; assert (S i < length adj)%nat by (apply nth_error_Some; congruence); lia].
      cbn [option_map fst] in Hu, Hu', Hp. inversion Hu; inversion Hu'; inversion Hp; subst u u' p.
      assert (P' : (0 < b' CClose)%Qc) by (eapply Hpos; eapply nth_error_In; eauto). split; auto.
      assert (TM : exists x, ticks e m x (b' CClose)). { clear - F B'. revert i B'. induction F as [|x y fb b [_ X] F IH]; intros [|i] B'; try discriminate; [injection B' as ->; exists (fst x CClose); exact (X CClose)|eapply IH; eauto]. } destruct TM as (x & TM). destruct (ticks_qr TM) as (_ & _ & TB).
      pose proof (c17_adjusted_close_pnl NR Hc HA B' B A' A0) as PN. pose proof (Hmove _ _ _ _ _ B' B) as MV. assert (D : (a CClose - a' CClose = r CClose - (if Z.eqb c c' then b' CClose else r COpen))%Qc) by (rewrite PN; destruct (Z.eqb c c'); reflexivity).
      rewrite <- D in MV. apply qr_le in MV. rewrite qr_mul, qr_abs, qr_sub, qr_add, qr_1 in MV. apply qr_lt in P'. rewrite qr_0 in P'. rewrite Rabs_pos_eq in TB by lra. assert (MZ : IZR m <= IZR (2 ^ 53)) by now apply IZR_le.
      set (d := qr (a CClose) - qr (a' CClose)) in *. pose proof (Rabs_pos d). split; [lra|]. assert (DQ : Rabs (d / qr (b' CClose)) <= / 2). { unfold Rdiv. rewrite Rabs_mult, Rabs_inv, (Rabs_pos_eq (qr (b' CClose))) by lra. apply Rmult_le_reg_r with (qr (b' CClose)); auto. rewrite Rmult_assoc, Rinv_l by lra. lra. }
      apply Rabs_le_inv in DQ. lra. }
  assert (LR : (length rs <= length b)%nat). { pose proof (Forall2_length NF) as LN. rewrite !map_length, returns_len in LN by (rewrite !map_length; pose proof (Forall2_length A); unfold frow, row in *; congruence). rewrite map_length in LN. pose proof (Forall2_length A). unfold frow, row in *. lia. }
  destruct (@fz_spec 1) as [F1 V1]; [lia|]. destruct (@fz_spec 0) as [F0 V0]; [lia|]. destruct (@fadd_spec (fz 1) (fz 0) F1 F0) as [FP VP]; [rewrite V0, V1, Rplus_0_r; apply (@big_ge 1); lia|]. rewrite V0, V1, Rplus_0_r, rnd64_1 in VP.
  assert (Q1 : qr (1 * (1 + 0))%Qc = 1) by (rewrite qr_mul, qr_add, qr_1, qr_0; ring). pose proof u64_pos as U0. assert (LU : INR (length b) * (7 * u64) <= / 4).
  { apply Rle_trans with (bpow radix2 45 * (bpow radix2 3 * bpow radix2 (-53))); [|rewrite <- !bpow_plus; change (/ 4) with (bpow radix2 (-2)); apply bpow_le; lia]. change u64 with (bpow radix2 (-53)) in *. apply Rmult_le_compat; [apply pos_INR|lra| |change (bpow radix2 3) with 8; lra]. rewrite INR_IZR_INZ. change (bpow radix2 45) with (IZR (2 ^ 45)). now apply IZR_le. }
  assert (CN : Forall2 (fun x q => fin x /\ Rabs (fv x - qr q) <= 14 * INR (0 + length (map (fun x => (1 + x)%Qc) rs)) * u64 * qr q) (fcumprod_from (fadd (fz 1) (fz 0)) (map (fadd (fz 1)) (froll_returns (map (fun b : frow => b CClose) fadj) (map (fun b : frow * Z => fst b CClose) fb)))) (cumprod_from (1 * (1 + 0))%Qc (map (fun x => (1 + x)%Qc) rs))).
  { apply cumprod_near; auto.
    - apply qr_lt. rewrite Q1, qr_0. lra.
    - rewrite Q1, VP. cbn [pow]. lra.
    - rewrite map_length. apply Rle_trans with (2 := LU). apply Rmult_le_compat_r; [lra|]. apply le_INR. cbn. lia.
    - intros q Hq. apply RQ. now right. }
  rewrite map_length in CN. cbn [plus] in CN. constructor.
  - split; auto. rewrite VP, Q1, Rminus_diag_eq, Rabs_R0 by auto. pose proof (pos_INR (length b)). apply Rmult_le_pos; [|lra]. apply Rmult_le_pos; [|lra]. lra.
  - assert (RP : forall q, In q (cumprod_from (1 * (1 + 0))%Qc (map (fun x => (1 + x)%Qc) rs)) -> 0 <= qr q) by (intros q Hq; pose proof (bpow_gt_0 radix2 (-900)); specialize (RQ q (or_intror Hq)); lra). clear - CN LR RP U0. apply le_INR in LR. induction CN as [|x q l l' [G1 G2] CN IH]; constructor; [|apply IH; intros; apply RP; now right].
    split; auto. apply Rle_trans with (1 := G2). apply Rmult_le_compat_r; [apply RP; now left|]. apply Rmult_le_compat_r; lra.
Qed.
End Ticks.
Print Assumptions c184_nonneg.
Print Assumptions c184_close.

(** the hypotheses are met by four bars in units of 2^-2 with one roll *)
Definition four : list (row * Z) := [(bar4 40 40 40 40, 1%Z); (bar4 41 44 40 42, 1%Z); (bar4 60 62 50 55, 2%Z); (bar4 55 60 54 58, 2%Z)]%Qc.
Definition quarters (o c : Z) (h l : Z) : frow := fun col => match col with COpen => ff o (-2) | CHigh => ff h (-2) | CLow => ff l (-2) | _ => ff c (-2) end.
Definition four_f : list (frow * Z) := [(quarters 40 40 40 40, 1%Z); (quarters 41 42 44 40, 1%Z); (quarters 60 55 62 50, 2%Z); (quarters 55 58 60 54, 2%Z)].
Example c184_example : Forall2 (same_bar (-2) 100) four_f four /\ (100 + 4 * 100 * Z.of_nat (length four) * (1 + Z.of_nat (length [CClose])) <= 2 ^ 53)%Z /\ no_return (map snd four) /\ occurrences [CClose] CClose = 1%nat /\
  (forall (r : row) c, In (r, c) four -> (0 < r CClose)%Qc) /\
  (forall i (r : row) c (r' : row) c', nth_error four i = Some (r', c') -> nth_error four (S i) = Some (r, c) -> (qabs (r CClose - (if Z.eqb c c' then r' CClose else r COpen)) * (1 + 1) <= r' CClose)%Qc /\ (c <> c' -> (r COpen - r CClose <= r' CClose)%Qc)) /\
  exists qs, rolled_prices four [CClose] true = Ok (Some qs) /\ map this qs = [1; 21 # 20; 37 # 40; 1073 # 1100]%Q.
Proof.
  assert (T : forall z q, (Z.abs z <= 100)%Z -> q = qz z -> ticks (-2) 100 (ff z (-2)) q).
  { intros z q Hz ->. exists z. assert (E : format64 (IZR z * bpow radix2 (-2))) by (apply (@tick_format (-2)); lia). destruct (@ff_spec z (-2)) as [F V]; [apply (@tick_big (-2)); lia|]. rewrite rnd64_id in V by auto. auto. }
  split; [|split; [vm_compute; discriminate|split; [|split; [reflexivity|split; [|split; [|eexists; split; [vm_compute; reflexivity|reflexivity]]]]]]].
  - do 4 (constructor; [split; [reflexivity|]; intros []; cbn [fst quarters bar4]; (apply T; [lia|reflexivity])|]). constructor.
  - intros i j k c H H1 H2. destruct i as [|[|[|[|i]]]], j as [|[|[|[|j]]]], k as [|[|[|[|k]]]]; cbn in *; try lia; try congruence; try (destruct k; discriminate); try (destruct i; discriminate).
  - intros r c [E|[E|[E|[E|[]]]]]; inversion E; reflexivity.
  - intros [|[|[|[|i]]]] r c r' c' H1 H2; cbn [nth_error four] in H1, H2; try (destruct i; discriminate); try discriminate; injection H1 as <- <-; injection H2 as <- <-; (split; [vm_compute; discriminate|intro NE; try (exfalso; apply NE; reflexivity); vm_compute; discriminate]).
Qed.
(** REFUTED without the condition on the rolls: a new contract that falls by five after a close of one *)
Theorem c184_negative_refuted : exists bars p, frolled_prices bars [CClose] false = Ok p /\ (forall b c, In (b, c) bars -> forall col, flt (fz 0) (b col) = true) /\ exists x, In x p /\ flt x (fz 0) = true.
Proof.
  exists [(flat_row (fz 1) (fz 1), 1%Z); (flat_row (fz 10) (fz 5), 2%Z)]. unfold frolled_prices, fadjusted_bars, fcompute_roll_gaps. cbn [bind]. eexists. split; [reflexivity|]. split.
  - intros b c [E|[E|[]]] col; inversion E; destruct col; vm_compute; reflexivity.
  - eexists. split; [right; left; reflexivity|]. vm_compute. reflexivity.
Qed.
Print Assumptions c184_negative_refuted.
(** REFUTED: that the price stays above zero where the exact one does; 22 contracts that fall from 2^50 ticks to one and are rolled without a loss *)
Definition falls (k : nat) : list (frow * Z) := flat_map (fun i => [(flat_row (fz (2 ^ 50)) (fz (2 ^ 50)), Z.of_nat i); (flat_row (fz 1) (fz 1), Z.of_nat i)]) (seq 0 k).
Definition falls_q (k : nat) : list (row * Z) := flat_map (fun i => [(bar4 (qz (2 ^ 50)) (qz (2 ^ 50)) (qz (2 ^ 50)) (qz (2 ^ 50)), Z.of_nat i); (bar4 1 1 1 1, Z.of_nat i)]%Qc) (seq 0 k).
Theorem c184_positive_refuted : (exists q, rolled_prices (falls_q 22) [CClose] false = Ok (Some q) /\ forallb (fun x => qlt 0 x) q = true) /\
  exists p, frolled_prices (falls 22) [CClose] false = Ok p /\ existsb (fun x => feq x (fz 0)) p = true.
Proof.
  split.
  - eexists. split; [vm_compute; reflexivity|]. vm_compute. reflexivity.
  - unfold frolled_prices, fadjusted_bars, fcompute_roll_gaps. cbn [bind]. eexists. split; [reflexivity|]. vm_compute. reflexivity.
Qed.
Print Assumptions c184_positive_refuted.
(** without bars there is no first return to set: an IndexError *)
Theorem c184_no_bars cols match_end : frolled_prices [] cols match_end = Err IndexError.
Proof. destruct match_end; reflexivity. Qed.
Print Assumptions c184_no_bars.
