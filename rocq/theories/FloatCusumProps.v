(** C137: the symmetric CUSUM filter in binary64. *)
From Coq Require Import ZArith QArith Qcanon Qreals Reals Lra Lia List Bool.
From Flocq Require Import Core Sterbenz BinarySingleNaN.
From Verif Require Import Py Num RNum Float64 FloatBarsModel FloatBarsProofs FloatHRPProofs FloatRetModel FloatRetProps FloatSeriesModel FloatSeriesProofs FiltersModel.
Import ListNotations.
Set Implicit Arguments.
Unset Strict Implicit.
Open Scope R_scope.

(** ** the real number of an exact rational *)
Definition qr (x : Qc) : R := Q2R (this x).
Lemma qr_add x y : qr (x + y)%Qc = qr x + qr y.
Proof. unfold qr. rewrite <- Q2R_plus. apply Qeq_eqR. apply (Qred_correct (this x + this y)). Qed.
Lemma qr_opp x : qr (- x)%Qc = - qr x.
Proof. unfold qr. rewrite <- Q2R_opp. apply Qeq_eqR. apply (Qred_correct (- this x)). Qed.
Lemma qr_sub x y : qr (x - y)%Qc = qr x - qr y.
Proof. unfold Qcminus. rewrite qr_add, qr_opp. ring. Qed.
Lemma qr_0 : qr 0%Qc = 0.
Proof. unfold qr. cbn. unfold Q2R. cbn. lra. Qed.
Lemma qr_lt x y : (x < y)%Qc <-> qr x < qr y.
Proof. unfold qr, Qclt. split; intro H; [now apply Qlt_Rlt|now apply Rlt_Qlt]. Qed.
Lemma flt_qlt a b x y : fin a -> fin b -> fv a = qr x -> fv b = qr y -> flt a b = qlt x y.
Proof.
  intros Fa Fb Ea Eb. destruct (qlt x y) eqn:E.
  - apply (flt_spec Fa Fb). rewrite Ea, Eb. apply qr_lt. now apply qlt_iff.
  - destruct (flt a b) eqn:F; auto. apply (flt_spec Fa Fb) in F. rewrite Ea, Eb in F. apply qr_lt, qlt_iff in F. congruence.
Qed.

(** ** exactness when every difference of two prices is representable *)
Section Exact.
Variable all : list f64.
Hypothesis DIFF : forall p q, In p all -> In q all -> rnd64 (fv p - fv q) = fv p - fv q /\ Rabs (fv p - fv q) <= big.
Hypothesis FIN : forall p, In p all -> fin p.
Variable h : f64.
Variable hq : Qc.
Hypothesis Fh : fin h.
Hypothesis Vh : fv h = qr hq.
Lemma loop_exact prices : forall series, Forall2 (fun p q => fv p = qr q) prices series -> incl prices all ->
  forall p q pos neg qpos qneg i, In p all -> fv p = qr q -> fin pos -> fin neg -> fv pos = qr qpos -> fv neg = qr qneg ->
  (exists s, In s all /\ fv pos = fv p - fv s) -> (exists s, In s all /\ fv neg = fv p - fv s) ->
  fcusum_from h pos neg p i prices = cusum_loop hq qpos qneg i (diffs (Some q) (map Some series)).
Proof.
  destruct (@fz_spec 0 ltac:(lia)) as [F0 V0]. destruct (fopp_spec Fh) as [Fo Vo]. rewrite Vh, <- qr_opp in Vo. assert (V0' : fv (fz 0) = qr 0%Qc) by (rewrite qr_0; exact V0).
  induction prices as [|p' prices IH]; intros series HF HI p q pos neg qpos qneg i Ip Ep Fp Fn Vp Vn (s & Is & Es) (r & Ir & Er); inversion HF as [|? q' ? series' Eq HF']; subst; [reflexivity|].
  assert (Ip' : In p' all) by (apply HI; now left). assert (HI' : incl prices all) by (intros x Hx; apply HI; now right).
  cbn [fcusum_from diffs map osub cusum_loop oadd option_map]. unfold fcusum_step.
  destruct (DIFF Ip' Ip) as [D1 D2]. destruct (@fsub_spec p' p (FIN Ip') (FIN Ip) D2) as [Fd Vd]. rewrite D1 in Vd. set (d := fsub p' p) in *. clearbody d.
  destruct (DIFF Ip' Is) as [D3 D4]. destruct (DIFF Ip' Ir) as [D5 D6].
  destruct (@fadd_spec pos d Fp Fd) as [Fu Vu]; [rewrite Es, Vd; now replace (fv p - fv s + (fv p' - fv p)) with (fv p' - fv s) by ring|].
  destruct (@fadd_spec neg d Fn Fd) as [Fw Vw]; [rewrite Er, Vd; now replace (fv p - fv r + (fv p' - fv p)) with (fv p' - fv r) by ring|].
  rewrite Es, Vd in Vu. rewrite Er, Vd in Vw. replace (fv p - fv s + (fv p' - fv p)) with (fv p' - fv s) in Vu by ring. replace (fv p - fv r + (fv p' - fv p)) with (fv p' - fv r) in Vw by ring. rewrite D3 in Vu. rewrite D5 in Vw.
  set (up := fadd pos d) in *. clearbody up. set (dn := fadd neg d) in *. clearbody dn. set (z := fz 0) in *. clearbody z.
  assert (Eu : fv up = qr (qpos + (q' - q))%Qc) by (rewrite qr_add, qr_sub; lra). assert (Ew : fv dn = qr (qneg + (q' - q))%Qc) by (rewrite qr_add, qr_sub; lra).
  cbn [py_max0 py_min0]. rewrite <- (flt_qlt F0 Fu V0' Eu), <- (flt_qlt Fw F0 Ew V0').
  assert (P1 : exists s0, In s0 all /\ fv (if flt z up then up else z) = fv p' - fv s0) by (destruct (flt z up); [exists s; auto|exists p'; split; auto; lra]).
  assert (P2 : exists s0, In s0 all /\ fv (if flt dn z then dn else z) = fv p' - fv s0) by (destruct (flt dn z); [exists r; auto|exists p'; split; auto; lra]).
  assert (P3 : fv (if flt z up then up else z) = qr (if flt z up then (qpos + (q' - q))%Qc else 0%Qc)) by (destruct (flt z up); auto).
  assert (P4 : fv (if flt dn z then dn else z) = qr (if flt dn z then (qneg + (q' - q))%Qc else 0%Qc)) by (destruct (flt dn z); auto).
  assert (P5 : fin (if flt z up then up else z)) by (destruct (flt z up); auto). assert (P6 : fin (if flt dn z then dn else z)) by (destruct (flt dn z); auto).
  set (a := if flt z up then up else z) in *. clearbody a. set (b := if flt dn z then dn else z) in *. clearbody b. set (qa := if flt z up then (qpos + (q' - q))%Qc else 0%Qc) in *. clearbody qa. set (qb := if flt dn z then (qneg + (q' - q))%Qc else 0%Qc) in *. clearbody qb.
  rewrite <- (flt_qlt P6 Fo P4 Vo), <- (flt_qlt Fh P5 Vh P3). assert (Z : exists s0, In s0 all /\ fv z = fv p' - fv s0) by (exists p'; split; auto; lra).
  destruct (flt b (fopp h)); [|destruct (flt h a)]; cbn [app]; [f_equal|f_equal|]; apply IH; auto.
Qed.
End Exact.

(** ** the error when the sums are rounded: an accumulator over real values *)
Definition variation (y : nat -> R) (r t : nat) : R := rsum (map (fun v => Rabs (y (S v) - y v)) (seq r (t - r))).
Definition cusum_error (y : nat -> R) (h : R) (r t : nat) : R := bpow radix2 (-53) * (3 * variation y r t + h * INR (t - r)).
Lemma cusum_error_S y h r t : (r <= t)%nat -> cusum_error y h r (S t) = cusum_error y h r t + u64 * (h + 3 * Rabs (y (S t) - y t)).
Proof.
  intro H. unfold cusum_error, variation, ulp64. replace (S t - r)%nat with (S (t - r)) by lia. rewrite seq_S, map_app, rsum_app, S_INR. replace (r + (t - r))%nat with t by lia. cbn [map]. match goal with |- context [rsum [?x]] => replace (rsum [x]) with x by (unfold rsum; cbn; ring) end. ring.
Qed.
Lemma cusum_error_nn y h r t : 0 <= h -> 0 <= cusum_error y h r t.
Proof.
  intro H. unfold cusum_error, variation. apply Rmult_le_pos; [apply bpow_ge_0|]. apply Rplus_le_le_0_compat; apply Rmult_le_pos; auto; try lra; [|apply pos_INR].
  apply rsum_nonneg. intros x Hx. apply in_map_iff in Hx. destruct Hx as (v & <- & _). apply Rabs_pos.
Qed.
Section Acc.
Variables (y a c : nat -> R) (up : nat -> bool) (h : R) (n : nat).
Hypothesis H0 : 0 <= h.
Hypothesis A0 : a 0%nat = 0.
Hypothesis C : forall t, (S t < n)%nat -> Rabs (c (S t) - (a t + (y (S t) - y t))) <= u64 * (h + 3 * Rabs (y (S t) - y t)).
Hypothesis U : forall t, (S t < n)%nat -> up (S t) = true <-> h < c (S t).
Hypothesis A : forall t, (S t < n)%nat -> a (S t) = if up (S t) then 0 else Rmax 0 (c (S t)).
Lemma acc_nn t : (t < n)%nat -> 0 <= a t <= h.
Proof.
  destruct t as [|t]; intro H; [rewrite A0; lra|]. rewrite A by auto. destruct (up (S t)) eqn:E; [lra|]. split; [apply Rmax_l|]. apply Rmax_lub; auto.
  destruct (Rle_lt_dec (c (S t)) h) as [L|L]; auto. apply U in L; auto. congruence.
Qed.
Lemma acc_lower r d : (r + d < n)%nat -> (forall v, (r < v <= r + d)%nat -> up v = false) -> a r + (y (r + d)%nat - y r) - cusum_error y h r (r + d) <= a (r + d)%nat.
Proof.
  induction d as [|d IH]; intros L HU. { rewrite Nat.add_0_r. pose proof (@cusum_error_nn y h r r H0). lra. }
  replace (r + S d)%nat with (S (r + d)) in * by lia. rewrite A, HU by lia. rewrite cusum_error_S by lia. pose proof (Rmax_r 0 (c (S (r + d)))) as M. pose proof (C L) as CC. apply Rabs_le_inv in CC.
  assert (I : a r + (y (r + d)%nat - y r) - cusum_error y h r (r + d) <= a (r + d)%nat) by (apply IH; [lia|intros; apply HU; lia]). lra.
Qed.
Lemma acc_upper t : (t < n)%nat -> exists r, (r <= t)%nat /\ (forall v, (r < v <= t)%nat -> up v = false) /\ a t <= y t - y r + cusum_error y h r t.
Proof.
  induction t as [|t IH]; intro L.
  - exists 0%nat. split; auto. split; [lia|]. rewrite A0. pose proof (@cusum_error_nn y h 0 0 H0). lra.
  - destruct (Rle_lt_dec (a (S t)) 0) as [Z|Z].
    + exists (S t). split; auto. split; [lia|]. pose proof (@cusum_error_nn y h (S t) (S t) H0). lra.
    + destruct IH as (r & R1 & R2 & R3); [lia|]. exists r. rewrite A in Z by auto. destruct (up (S t)) eqn:E; [lra|]. split; [lia|]. split.
      * intros v Hv. destruct (Nat.eq_dec v (S t)) as [->|]; auto. apply R2. lia.
      * rewrite A, E, cusum_error_S by auto. pose proof (C L) as CC. apply Rabs_le_inv in CC. unfold Rmax in *. destruct (Rle_dec 0 (c (S t))); lra.
Qed.
Lemma acc_fires r t : (r < t < n)%nat -> (forall v, (r < v < t)%nat -> up v = false) -> h + cusum_error y h r t < y t - y r -> up t = true.
Proof.
  intros L HU B. destruct (up t) eqn:E; auto. exfalso. assert (I := @acc_lower r (t - r)). replace (r + (t - r))%nat with t in I by lia.
  assert (HU' : forall v, (r < v <= t)%nat -> up v = false) by (intros v Hv; destruct (Nat.eq_dec v t) as [->|]; auto; apply HU; lia). specialize (I ltac:(lia) HU').
  pose proof (@acc_nn t ltac:(lia)). pose proof (@acc_nn r ltac:(lia)). lra.
Qed.
Lemma acc_genuine t : (t < n)%nat -> (1 <= t)%nat -> up t = true -> exists r, (r < t)%nat /\ (forall v, (r < v < t)%nat -> up v = false) /\ h - cusum_error y h r t < y t - y r.
Proof.
  intros L T1 E. destruct t as [|t]; [lia|]. destruct (@acc_upper t ltac:(lia)) as (r & R1 & R2 & R3). exists r. split; [lia|]. split; [intros; apply R2; lia|].
  apply U in E; auto. rewrite cusum_error_S by auto. pose proof (C L) as CC. apply Rabs_le_inv in CC. lra.
Qed.
End Acc.

(** ** the filter as a run over time *)
Record fstate := FState { f_pos : f64; f_neg : f64; f_up : bool; f_down : bool }.
Definition fstep (h : f64) (s : fstate) (d : f64) : fstate :=
  let pos := if flt (fz 0) (fadd (f_pos s) d) then fadd (f_pos s) d else fz 0 in
  let neg := if flt (fadd (f_neg s) d) (fz 0) then fadd (f_neg s) d else fz 0 in
  if flt neg (fopp h) then FState pos (fz 0) false true else if flt h pos then FState (fz 0) neg true false else FState pos neg false false.
Fixpoint frun (h : f64) (p : nat -> f64) (t : nat) : fstate :=
  match t with O => FState (fz 0) (fz 0) false false | S t' => fstep h (frun h p t') (fsub (p (S t')) (p t')) end.
Lemma frun_events h p l : forall i, (forall k x, nth_error l k = Some x -> x = p (S (i + k))) ->
  fcusum_from h (f_pos (frun h p i)) (f_neg (frun h p i)) (p i) (S i) l = filter (fun t => f_up (frun h p t) || f_down (frun h p t)) (seq (S i) (length l)).
Proof.
  induction l as [|x l IH]; intros i H; [reflexivity|]. assert (E : x = p (S i)) by (rewrite (H 0%nat x eq_refl); f_equal; lia). subst x.
  assert (H' : forall k x, nth_error l k = Some x -> x = p (S (S i + k))) by (intros k x Hk; rewrite (H (S k) x Hk); f_equal; lia).
  specialize (IH (S i) H'). cbn [fcusum_from length seq filter]. revert IH. cbn [frun]. unfold fstep, fcusum_step.
  set (d := fsub (p (S i)) (p i)). clearbody d. set (st := frun h p i). clearbody st. set (z := fz 0). clearbody z.
  destruct (flt (if flt (fadd (f_neg st) d) z then fadd (f_neg st) d else z) (fopp h)); [|destruct (flt h (if flt z (fadd (f_pos st) d) then fadd (f_pos st) d else z))]; cbn [f_up f_down f_pos f_neg orb]; intros <-; reflexivity.
Qed.
Section FloatRun.
Variables (h : f64) (p : nat -> f64) (n : nat).
Hypothesis Fh : fin h.
Hypothesis Bh : 0 <= fv h <= bpow radix2 1000.
Hypothesis Fp : forall t, (t < n)%nat -> fin (p t) /\ Rabs (fv (p t)) <= bpow radix2 1000.
Let y t := fv (p t).
Lemma step_sum a t : (S t < n)%nat -> fin a -> Rabs (fv a) <= fv h ->
  let s := fadd a (fsub (p (S t)) (p t)) in
  fin s /\ Rabs (fv s - (fv a + (y (S t) - y t))) <= u64 * (fv h + 3 * Rabs (y (S t) - y t)) /\ (fv h < fv s -> 0 < fv (fsub (p (S t)) (p t))) /\ (fv s < - fv h -> fv (fsub (p (S t)) (p t)) < 0).
Proof.
  intros L Fa Ba s. destruct (@Fp t ltac:(lia)) as [F1 B1]. destruct (@Fp (S t) L) as [F2 B2]. pose proof u64_pos as U. pose proof u64_small as US. fold (y t) in B1. fold (y (S t)) in B2.
  assert (B2001 : bpow radix2 1001 = 2 * bpow radix2 1000) by (change 2 with (bpow radix2 1); now rewrite <- bpow_plus).
  assert (BB : 4 * bpow radix2 1000 <= big) by (apply Rle_trans with (bpow radix2 1002); [right; change 4 with (bpow radix2 2); now rewrite <- bpow_plus|apply bpow_le; lia]).
  pose proof (bpow_gt_0 radix2 1000) as B0. assert (DB : Rabs (fv (p (S t)) - fv (p t)) <= bpow radix2 1001) by (rewrite B2001; apply Rabs_le; apply Rabs_le_inv in B1; apply Rabs_le_inv in B2; unfold y in *; lra).
  destruct (@fsub_spec (p (S t)) (p t) F2 F1) as [Fd Vd]; [apply Rle_trans with (1 := DB); lra|]. fold (y t) (y (S t)) in Vd, DB.
  assert (Bd : Rabs (fv (fsub (p (S t)) (p t))) <= bpow radix2 1001) by (rewrite Vd; apply rnd64_abs_le; auto; apply format64_bpow; lia).
  assert (ED : exists e, Rabs e <= u64 /\ rnd64 (y (S t) - y t) = (y (S t) - y t) * (1 + e)).
  { destruct (@add_error (y (S t)) (- y t)) as (e & E1 & E2); [apply fv_format|apply generic_format_opp, fv_format|]. exists e. split; auto. }
  destruct ED as (e & E1 & E2). rewrite E2 in Vd. unfold s. set (d := fsub (p (S t)) (p t)) in *. clearbody d. clear E2.
  destruct (@fadd_spec a d Fa Fd) as [Fs Vs]; [apply Rle_trans with (1 := Rabs_triang _ _); lra|].
  assert (MONO : forall x, rnd64 x > fv h -> fv h < x) by (intros x Hx; destruct (Rle_lt_dec x (fv h)) as [C|C]; auto; apply rnd64_mono in C; rewrite rnd64_fv in C; lra).
  assert (MONO' : forall x, rnd64 x < - fv h -> x < - fv h). { intros x Hx. destruct (Rle_lt_dec (- fv h) x) as [C|C]; auto. apply rnd64_mono in C. destruct (fopp_spec Fh) as [_ Vo]. rewrite <- Vo, rnd64_fv, Vo in C. lra. }
  apply Rabs_le_inv in Ba. split; auto. split; [|split; intro H; rewrite Vs in H].
  - destruct (@add_error (fv a) (fv d)) as (g & G1 & G2); try apply fv_format. rewrite Vs, G2. clear G2 Vs MONO MONO'. rewrite Vd. set (D := y (S t) - y t) in *.
    replace ((fv a + D * (1 + e)) * (1 + g) - (fv a + D)) with (g * (fv a + D * (1 + e)) + D * e) by ring. apply Rle_trans with (1 := Rabs_triang _ _). rewrite !Rabs_mult.
    assert (T : Rabs (fv a + D * (1 + e)) <= fv h + Rabs D * (1 + u64)). { apply Rle_trans with (1 := Rabs_triang _ _). rewrite Rabs_mult. apply Rplus_le_compat; [apply Rabs_le; lra|]. apply Rmult_le_compat_l; [apply Rabs_pos|]. apply Rle_trans with (1 := Rabs_triang _ _). rewrite Rabs_R1. lra. }
    pose proof (Rabs_pos D) as DP. pose proof (Rabs_pos g) as GP. pose proof (Rabs_pos e) as EP. pose proof (Rabs_pos (fv a + D * (1 + e))) as TP.
    assert (X1 : Rabs g * Rabs (fv a + D * (1 + e)) <= u64 * (fv h + Rabs D * (1 + u64))) by (apply Rmult_le_compat; auto).
    assert (X2 : Rabs D * Rabs e <= Rabs D * u64) by (apply Rmult_le_compat_l; auto). assert (X3 : u64 * (Rabs D * u64) <= u64 * (Rabs D * 1)) by (apply Rmult_le_compat_l; [lra|]; apply Rmult_le_compat_l; lra). lra.
  - apply MONO in H. lra.
  - apply MONO' in H. lra.
Qed.
Lemma frun_inv t : (t < n)%nat -> fin (f_pos (frun h p t)) /\ fin (f_neg (frun h p t)) /\ 0 <= fv (f_pos (frun h p t)) <= fv h /\ - fv h <= fv (f_neg (frun h p t)) <= 0 /\
  ((S t < n)%nat -> let up := fadd (f_pos (frun h p t)) (fsub (p (S t)) (p t)) in let dn := fadd (f_neg (frun h p t)) (fsub (p (S t)) (p t)) in
   fin up /\ fin dn /\ Rabs (fv up - (fv (f_pos (frun h p t)) + (y (S t) - y t))) <= u64 * (fv h + 3 * Rabs (y (S t) - y t)) /\
   Rabs (fv dn - (fv (f_neg (frun h p t)) + (y (S t) - y t))) <= u64 * (fv h + 3 * Rabs (y (S t) - y t)) /\
   (f_up (frun h p (S t)) = true <-> fv h < fv up) /\ (f_down (frun h p (S t)) = true <-> fv dn < - fv h) /\ (fv h < fv up -> fv dn < - fv h -> False) /\
   fv (f_pos (frun h p (S t))) = (if f_up (frun h p (S t)) then 0 else Rmax 0 (fv up)) /\
   fv (f_neg (frun h p (S t))) = (if f_down (frun h p (S t)) then 0 else Rmin 0 (fv dn)) /\ fin (f_pos (frun h p (S t))) /\ fin (f_neg (frun h p (S t)))).
Proof.
  destruct (@fz_spec 0 ltac:(lia)) as [F0 V0]. destruct (fopp_spec Fh) as [Fo Vo].
  assert (STEP : forall t, fin (f_pos (frun h p t)) -> fin (f_neg (frun h p t)) -> 0 <= fv (f_pos (frun h p t)) <= fv h -> - fv h <= fv (f_neg (frun h p t)) <= 0 -> (S t < n)%nat ->
    let up := fadd (f_pos (frun h p t)) (fsub (p (S t)) (p t)) in let dn := fadd (f_neg (frun h p t)) (fsub (p (S t)) (p t)) in
    fin up /\ fin dn /\ Rabs (fv up - (fv (f_pos (frun h p t)) + (y (S t) - y t))) <= u64 * (fv h + 3 * Rabs (y (S t) - y t)) /\
    Rabs (fv dn - (fv (f_neg (frun h p t)) + (y (S t) - y t))) <= u64 * (fv h + 3 * Rabs (y (S t) - y t)) /\
    (f_up (frun h p (S t)) = true <-> fv h < fv up) /\ (f_down (frun h p (S t)) = true <-> fv dn < - fv h) /\ (fv h < fv up -> fv dn < - fv h -> False) /\
    fv (f_pos (frun h p (S t))) = (if f_up (frun h p (S t)) then 0 else Rmax 0 (fv up)) /\
    fv (f_neg (frun h p (S t))) = (if f_down (frun h p (S t)) then 0 else Rmin 0 (fv dn)) /\ fin (f_pos (frun h p (S t))) /\ fin (f_neg (frun h p (S t)))).
  { clear t. intros t Fa Fb Ba Bb L. destruct (@step_sum _ t L Fa) as (U1 & U2 & U3 & _); [apply Rabs_le; lra|]. destruct (@step_sum _ t L Fb) as (D1 & D2 & _ & D3); [apply Rabs_le; lra|].
    cbn [frun]. unfold fstep. cbv zeta in *. set (up := fadd (f_pos (frun h p t)) (fsub (p (S t)) (p t))) in *. set (dn := fadd (f_neg (frun h p t)) (fsub (p (S t)) (p t))) in *.
    set (z := fz 0) in *. clearbody z. assert (NB : fv h < fv up -> fv dn < - fv h -> False) by (intros A B; specialize (U3 A); specialize (D3 B); lra).
    clearbody up dn.
    pose proof (flt_spec F0 U1) as C1. pose proof (flt_spec D1 F0) as C2.
    assert (P1 : fin (if flt z up then up else z) /\ fv (if flt z up then up else z) = Rmax 0 (fv up)).
    { rewrite V0 in C1. destruct (flt z up); (split; [auto|]).
      - destruct C1 as [C1 _]. specialize (C1 eq_refl). rewrite Rmax_right; lra.
      - destruct (Rle_lt_dec (fv up) 0) as [G|G]; [rewrite Rmax_left; lra|]. apply C1 in G. discriminate. }
    assert (P2 : fin (if flt dn z then dn else z) /\ fv (if flt dn z then dn else z) = Rmin 0 (fv dn)).
    { rewrite V0 in C2. destruct (flt dn z); (split; [auto|]).
      - destruct C2 as [C2 _]. specialize (C2 eq_refl). rewrite Rmin_right; lra.
      - destruct (Rle_lt_dec 0 (fv dn)) as [G|G]; [rewrite Rmin_left; lra|]. apply C2 in G. discriminate. }
    set (a := if flt z up then up else z) in *. clearbody a. set (b := if flt dn z then dn else z) in *. clearbody b. destruct P1 as [P1 Q1]. destruct P2 as [P2 Q2].
    pose proof (flt_spec P2 Fo) as C3. pose proof (flt_spec Fh P1) as C4. rewrite Q2, Vo in C3. rewrite Q1 in C4.
    assert (E3 : Rmin 0 (fv dn) < - fv h <-> fv dn < - fv h) by (unfold Rmin; destruct (Rle_dec 0 (fv dn)); lra).
    assert (E4 : fv h < Rmax 0 (fv up) <-> fv h < fv up) by (unfold Rmax; destruct (Rle_dec 0 (fv up)); lra).
    rewrite E3 in C3. rewrite E4 in C4. clear E3 E4.
    destruct (flt b (fopp h)) eqn:K3; [|destruct (flt h a) eqn:K4]; cbn [f_pos f_neg f_up f_down].
    - assert (G : fv dn < - fv h) by (now apply C3). repeat match goal with |- _ /\ _ => split end; auto; split; auto; try discriminate; intro G'; exfalso; auto.
    - assert (G : fv h < fv up) by (now apply C4). repeat match goal with |- _ /\ _ => split end; auto; split; auto; try discriminate; intro G'; exfalso; auto.
    - repeat match goal with |- _ /\ _ => split end; auto. }
  induction t as [|t IH]; intro L.
  - cbn [frun f_pos f_neg]. split; auto. split; auto. rewrite V0. split; [lra|]. split; [lra|]. intro L'. apply (STEP 0%nat); auto; cbn [frun f_pos f_neg]; auto; rewrite V0; lra.
  - destruct (IH ltac:(lia)) as (_ & _ & _ & _ & I). specialize (I L). cbv zeta in I. destruct I as (I1 & I2 & I3 & I4 & I5 & I6 & I7 & I8 & I9 & I10 & I11). split; auto. split; auto.
    assert (R1 : 0 <= fv (f_pos (frun h p (S t))) <= fv h). { rewrite I8. destruct (f_up (frun h p (S t))) eqn:E; [lra|]. split; [apply Rmax_l|]. apply Rmax_lub; [lra|]. destruct (Rle_lt_dec (fv (fadd (f_pos (frun h p t)) (fsub (p (S t)) (p t)))) (fv h)); auto. apply I5 in r. discriminate. }
    assert (R2 : - fv h <= fv (f_neg (frun h p (S t))) <= 0). { rewrite I9. destruct (f_down (frun h p (S t))) eqn:E; [lra|]. split; [|apply Rmin_l]. apply Rmin_glb; [lra|]. destruct (Rle_lt_dec (- fv h) (fv (fadd (f_neg (frun h p t)) (fsub (p (S t)) (p t))))); auto. apply I6 in r. discriminate. }
    split; auto. split; auto. intro L'. apply STEP; auto.
Qed.
End FloatRun.

(** ** C137 *)
(** if the difference of any two prices is itself a double, the events are those of exact arithmetic *)
Theorem c137_exact (prices : list f64) (series : list Qc) h hq :
  Forall2 (fun p q => fin p /\ fv p = Q2R (this q)) prices series -> fin h -> fv h = Q2R (this hq) ->
  (forall p q, In p prices -> In q prices -> Rabs (fv p - fv q) <= big /\ exists d : f64, fin d /\ fv d = fv p - fv q) ->
  fcusum prices h = cusum (map Some series) hq.
Proof.
  intros HF Fh Vh HD. destruct (@fz_spec 0 ltac:(lia)) as [F0 V0]. destruct HF as [|p q prices series [Fp Ep] HF]; [reflexivity|]. cbn [fcusum cusum map].
  apply (@loop_exact (p :: prices)).
  - intros a b Ha Hb. destruct (HD a b Ha Hb) as (B & d & _ & E). split; auto. rewrite <- E. apply rnd64_fv.
  - intros a [<-|Ha]; auto. clear - HF Ha. induction HF as [|x y l l' [Fx _] _ IH]; [destruct Ha|]. destruct Ha as [<-|Ha]; auto.
  - exact Fh.
  - exact Vh.
  - clear - HF. induction HF as [|x y l l' [_ Ex] _ IH]; constructor; auto.
  - intros x Hx. now right.
  - now left.
  - exact Ep.
  - exact F0.
  - exact F0.
  - now rewrite qr_0.
  - now rewrite qr_0.
  - exists p. split; [now left|]. rewrite V0. ring.
  - exists p. split; [now left|]. rewrite V0. ring.
Qed.
Print Assumptions c137_exact.
(** so it is for positive prices that stay within a factor of two of each other, and for whole numbers (cents) below 2^52 *)
Theorem c137_exact_within_double (prices : list f64) (series : list Qc) h hq :
  Forall2 (fun p q => fin p /\ fv p = Q2R (this q)) prices series -> fin h -> fv h = Q2R (this hq) ->
  (forall p q, In p prices -> In q prices -> 0 < fv p <= 2 * fv q) -> (forall p, In p prices -> fv p <= big) -> fcusum prices h = cusum (map Some series) hq.
Proof.
  intros HF Fh Vh HD HB. apply c137_exact; auto. intros p q Hp Hq. destruct (HD p q Hp Hq) as [P1 P2]. destruct (HD q p Hq Hp) as [P3 P4]. pose proof (HB p Hp) as B1. pose proof (HB q Hq) as B2.
  assert (B : Rabs (fv p - fv q) <= big) by (apply Rabs_le; lra). split; auto. exists (fsub p q).
  assert (FF : forall x, In x prices -> fin x). { clear - HF. intros x Hx. induction HF as [|a b l l' [Fa _] _ IH]; [destruct Hx|]. destruct Hx as [<-|Hx]; auto. }
  destruct (@fsub_spec p q (FF p Hp) (FF q Hq) B) as [F V]. split; auto. rewrite V. apply rnd64_id. apply sterbenz; [apply valid64|apply FLT_exp_monotone|apply fv_format|apply fv_format|lra].
Qed.
Print Assumptions c137_exact_within_double.
Theorem c137_exact_whole (ms : list Z) h hq : (forall m, In m ms -> (Z.abs m <= 2 ^ 52)%Z) -> fin h -> fv h = Q2R (this hq) -> fcusum (map fz ms) h = cusum (map Some (map qz ms)) hq.
Proof.
  intros HM Fh Vh. apply c137_exact; auto.
  - induction ms as [|m ms IH]; cbn [map]; constructor; [|apply IH; intros; apply HM; now right]. destruct (@fz_spec m) as [F V]; [specialize (HM m (or_introl eq_refl)); lia|]. split; auto. rewrite V. unfold qz. 
    transitivity (Q2R (inject_Z m)); [unfold Q2R; cbn; lra|]. apply Qeq_eqR. symmetry. apply Qred_correct.
  - intros p q Hp Hq. apply in_map_iff in Hp. apply in_map_iff in Hq. destruct Hp as (a & <- & Ha). destruct Hq as (b & <- & Hb). pose proof (HM a Ha). pose proof (HM b Hb).
    destruct (@fz_spec a) as [Fa Va]; [lia|]. destruct (@fz_spec b) as [Fb Vb]; [lia|]. destruct (@fz_spec (a - b)) as [Fc Vc]; [lia|]. rewrite Va, Vb, <- minus_IZR. split; [apply big_ge; lia|]. exists (fz (a - b)). split; auto.
Qed.
Print Assumptions c137_exact_whole.
(** in general the events split into rises and falls, never both: a rise since some earlier instant with no rise event between that exceeds
    the threshold by more than the error is an event, and each event has such a rise up to that error; the error is 2^-53 times three
    times the variation of the prices in between plus the threshold per step.  Falls are the rises of the negated prices. *)
Theorem c137_error (prices : list f64) h : fin h -> 0 <= fv h <= bpow radix2 1000 -> (forall p, In p prices -> fin p /\ Rabs (fv p) <= bpow radix2 1000) ->
  let y := fun t => nth t (map fv prices) 0 in let n := length prices in
  let err := fun r t => bpow radix2 (-53) * (3 * rsum (map (fun v => Rabs (y (S v) - y v)) (seq r (t - r))) + fv h * INR (t - r)) in
  exists up down, fcusum prices h = filter (fun t => up t || down t) (seq 1 (n - 1)) /\ (forall t, (1 <= t < n)%nat -> up t = true -> down t = true -> False) /\
  (forall r t, (r < t < n)%nat -> (forall v, (r < v < t)%nat -> up v = false) -> fv h + err r t < y t - y r -> up t = true) /\
  (forall t, (1 <= t < n)%nat -> up t = true -> exists r, (r < t)%nat /\ (forall v, (r < v < t)%nat -> up v = false) /\ fv h - err r t < y t - y r) /\
  (forall r t, (r < t < n)%nat -> (forall v, (r < v < t)%nat -> down v = false) -> fv h + err r t < y r - y t -> down t = true) /\
  (forall t, (1 <= t < n)%nat -> down t = true -> exists r, (r < t)%nat /\ (forall v, (r < v < t)%nat -> down v = false) /\ fv h - err r t < y r - y t).
Proof.
  intros Fh Bh HP y n err. destruct (@fz_spec 0 ltac:(lia)) as [F0 V0]. set (p := fun t => nth t prices (fz 0)).
  assert (EY : forall t, y t = fv (p t)) by (intro t; unfold y, p; rewrite <- V0; apply map_nth).
  assert (Fp : forall t, (t < n)%nat -> fin (p t) /\ Rabs (fv (p t)) <= bpow radix2 1000) by (intros t Ht; apply HP; now apply nth_In).
  pose proof (@frun_inv h p n Fh Bh Fp) as INV. set (st := frun h p) in *. exists (fun t => f_up (st t)), (fun t => f_down (st t)).
  split; [|split].
  - unfold n. destruct prices as [|x l]; [reflexivity|]. cbn [fcusum length Nat.sub]. rewrite Nat.sub_0_r. change x with (p 0%nat). 
    apply (@frun_events h p l 0%nat). intros k v Hk. unfold p. cbn [Nat.add nth]. symmetry. now apply nth_error_nth.
  - intros [|t] Ht; [lia|]. destruct (INV t ltac:(lia)) as (_ & _ & _ & _ & I). specialize (I ltac:(lia)). cbv zeta in I. destruct I as (_ & _ & _ & _ & I1 & I2 & I3 & _). intros A B. apply I3; [now apply I1|now apply I2].
  - set (c := fun t => match t with O => 0 | S t' => fv (fadd (f_pos (st t')) (fsub (p (S t')) (p t'))) end). set (c' := fun t => match t with O => 0 | S t' => - fv (fadd (f_neg (st t')) (fsub (p (S t')) (p t'))) end).
    assert (ERR : forall y' r t, (forall v, Rabs (y' (S v) - y' v) = Rabs (y (S v) - y v)) -> err r t = cusum_error y' (fv h) r t) by (intros y' r t H; unfold err, cusum_error, variation; do 4 f_equal; apply map_ext; intro v; now rewrite H).
    assert (A1 : forall t, (S t < n)%nat -> Rabs (c (S t) - (fv (f_pos (st t)) + (y (S t) - y t))) <= u64 * (fv h + 3 * Rabs (y (S t) - y t))) by (intros t Ht; destruct (INV t ltac:(lia)) as (_ & _ & _ & _ & I); specialize (I Ht); cbv zeta in I; rewrite !EY; apply I).
    assert (A2 : forall t, (S t < n)%nat -> f_up (st (S t)) = true <-> fv h < c (S t)) by (intros t Ht; destruct (INV t ltac:(lia)) as (_ & _ & _ & _ & I); specialize (I Ht); cbv zeta in I; apply I).
    assert (A3 : forall t, (S t < n)%nat -> fv (f_pos (st (S t))) = if f_up (st (S t)) then 0 else Rmax 0 (c (S t))) by (intros t Ht; destruct (INV t ltac:(lia)) as (_ & _ & _ & _ & I); specialize (I Ht); cbv zeta in I; apply I).
    assert (B1 : forall t, (S t < n)%nat -> Rabs (c' (S t) - (- fv (f_neg (st t)) + (- y (S t) - - y t))) <= u64 * (fv h + 3 * Rabs (- y (S t) - - y t))).
    { intros t Ht; destruct (INV t ltac:(lia)) as (_ & _ & _ & _ & I); specialize (I Ht); cbv zeta in I. replace (- y (S t) - - y t) with (- (y (S t) - y t)) by ring. rewrite Rabs_Ropp. rewrite !EY. cbn [c'].
      match goal with |- Rabs ?x <= _ => replace x with (- (fv (fadd (f_neg (st t)) (fsub (p (S t)) (p t))) - (fv (f_neg (st t)) + (fv (p (S t)) - fv (p t))))) by (unfold c'; ring) end. rewrite Rabs_Ropp. apply I. }
    assert (B2 : forall t, (S t < n)%nat -> f_down (st (S t)) = true <-> fv h < c' (S t)) by (intros t Ht; destruct (INV t ltac:(lia)) as (_ & _ & _ & _ & I); specialize (I Ht); cbv zeta in I; destruct I as (_ & _ & _ & _ & _ & I & _); fold st in I; rewrite I; unfold c'; split; intro; lra).
    assert (B3 : forall t, (S t < n)%nat -> - fv (f_neg (st (S t))) = if f_down (st (S t)) then 0 else Rmax 0 (c' (S t))).
    { intros t Ht; destruct (INV t ltac:(lia)) as (_ & _ & _ & _ & I); specialize (I Ht); cbv zeta in I; destruct I as (_ & _ & _ & _ & _ & _ & _ & _ & I & _). rewrite I. destruct (f_down (st (S t))); [ring|]. cbn [c']. unfold c', Rmin, Rmax.
      match goal with |- context [Rle_dec 0 (fv ?q)] => destruct (Rle_dec 0 (fv q)), (Rle_dec 0 (- fv q)) end; lra. }
    assert (Z1 : fv (f_pos (st 0%nat)) = 0) by exact V0. assert (Z2 : - fv (f_neg (st 0%nat)) = 0) by (change (f_neg (st 0%nat)) with (fz 0); rewrite V0; ring).
    assert (EO : forall v, Rabs (- y (S v) - - y v) = Rabs (y (S v) - y v)) by (intro v; replace (- y (S v) - - y v) with (- (y (S v) - y v)) by ring; apply Rabs_Ropp).
    destruct Bh as [H0 _]. split; [|split; [|split]].
    + intros r t L HU H. rewrite (ERR y) in H by auto. now apply (@acc_fires y (fun t => fv (f_pos (st t))) c (fun t => f_up (st t)) (fv h) n H0 Z1 A1 A2 A3 r t L HU).
    + intros t L HU. destruct (@acc_genuine y (fun t => fv (f_pos (st t))) c (fun t => f_up (st t)) (fv h) n H0 Z1 A1 A2 A3 t) as (r & R1 & R2 & R3); auto; try lia. exists r. rewrite (ERR y) by auto. auto.
    + intros r t L HU H. rewrite (ERR (fun v => - y v)) in H by auto. apply (@acc_fires (fun v => - y v) (fun t => - fv (f_neg (st t))) c' (fun t => f_down (st t)) (fv h) n H0 Z2 B1 B2 B3 r t L HU). lra.
    + intros t L HU. destruct (@acc_genuine (fun v => - y v) (fun t => - fv (f_neg (st t))) c' (fun t => f_down (st t)) (fv h) n H0 Z2 B1 B2 B3 t) as (r & R1 & R2 & R3); auto; try lia. exists r. rewrite (ERR (fun v => - y v)) by auto. split; auto. split; auto. lra.
Qed.
Print Assumptions c137_error.
(** but a rise that exceeds the threshold can go unnoticed: from 2^-52 - 2^-60 to 1 + 2^-52 is more than 1 *)
Theorem c137_exact_refuted : exists p0 p1 h q0 q1 hq, fin p0 /\ fin p1 /\ fin h /\ fv p0 = Q2R (this q0) /\ fv p1 = Q2R (this q1) /\ fv h = Q2R (this hq) /\ 0 < fv p0 /\
  fcusum [p0; p1] h = [] /\ cusum [Some q0; Some q1] hq = [1%nat].
Proof.
  exists (ff 255 (-60)), (ff (2 ^ 52 + 1) (-52)), (fz 1), (Q2Qc (255 # (2 ^ 60))), (Q2Qc ((2 ^ 52 + 1) # (2 ^ 52))), (Q2Qc 1).
  assert (E0 : fin (ff 255 (-60)) /\ fv (ff 255 (-60)) = 255 * bpow radix2 (-60)).
  { destruct (@ff_spec 255 (-60)) as [F V]; [|split; auto; rewrite V; apply rnd64_id, format64_float; lia]. rewrite Rabs_pos_eq by (apply Rmult_le_pos; [lra|apply bpow_ge_0]). apply Rle_trans with (bpow radix2 8 * bpow radix2 (-60)); [apply Rmult_le_compat_r; [apply bpow_ge_0|cbn; lra]|]. rewrite <- bpow_plus. apply bpow_le. lia. }
  assert (E1 : fin (ff (2 ^ 52 + 1) (-52)) /\ fv (ff (2 ^ 52 + 1) (-52)) = IZR (2 ^ 52 + 1) * bpow radix2 (-52)).
  { destruct (@ff_spec (2 ^ 52 + 1) (-52)) as [F V]; [|split; auto; rewrite V; apply rnd64_id, format64_float; lia]. rewrite Rabs_pos_eq by (apply Rmult_le_pos; [apply IZR_le; lia|apply bpow_ge_0]). apply Rle_trans with (bpow radix2 53 * bpow radix2 (-52)); [apply Rmult_le_compat_r; [apply bpow_ge_0|change (bpow radix2 53) with (IZR (2 ^ 53)); apply IZR_le; lia]|]. rewrite <- bpow_plus. apply bpow_le. lia. }
  destruct (@fz_spec 1 ltac:(lia)) as [F1 V1]. destruct E0 as [G0 E0]. destruct E1 as [G1 E1].
  assert (Q : forall q, Q2R (this (Q2Qc q)) = Q2R q) by (intro q; apply Qeq_eqR, Qred_correct).
  split; [exact G0|]. split; [exact G1|]. split; [exact F1|]. rewrite !Q, E0, E1, V1. unfold Q2R. cbn [Qnum Qden].
  split; [change (bpow radix2 (-60)) with (/ IZR (2 ^ 60)); reflexivity|]. split; [change (bpow radix2 (-52)) with (/ IZR (2 ^ 52)); reflexivity|]. split; [lra|].
  split; [apply Rmult_lt_0_compat; [lra|apply bpow_gt_0]|]. split; vm_compute; reflexivity.
Qed.
Print Assumptions c137_exact_refuted.
Example c137_nonvacuous : fcusum (map fz [100; 101; 103; 102; 100; 99; 104]%Z) (fz 2) = [2; 4; 6]%nat /\ (forall p q, In p [fz 3; fz 4; fz 5] -> In q [fz 3; fz 4; fz 5] -> 0 < fv p <= 2 * fv q).
Proof.
  split; [vm_compute; reflexivity|]. destruct (@fz_spec 3 ltac:(lia)) as [_ V3]. destruct (@fz_spec 4 ltac:(lia)) as [_ V4]. destruct (@fz_spec 5 ltac:(lia)) as [_ V5].
  intros p q [<-|[<-|[<-|[]]]] [<-|[<-|[<-|[]]]]; rewrite ?V3, ?V4, ?V5; lra.
Qed.
