(** C149, C150: scipy's root finders and what they give for implied volatilities and asset prices. *)
From Coq Require Import Ranalysis5.
From Verif Require Import Py RNum Normal OptionModel OptionProofs OptionProps RootModel.
Set Implicit Arguments.
Unset Strict Implicit.
Open Scope R_scope.

Definition between (a b c : R) : Prop := a < b < c \/ c < b < a.
Lemma opposite_iff a b : opposite a b = true <-> a * b < 0.
Proof. unfold opposite. destruct (Rlt_dec _ _); split; auto; discriminate. Qed.
Lemma Rmult_neg_cases a b : a * b < 0 -> (a < 0 /\ 0 < b) \/ (0 < a /\ b < 0).
Proof. intro H. destruct (Rtotal_order a 0) as [L|[L|L]]; destruct (Rtotal_order b 0) as [M|[M|M]]; subst; try nra; lra. Qed.
Lemma Rmult_pos_cases a b : 0 < a * b -> (0 < a /\ 0 < b) \/ (a < 0 /\ b < 0).
Proof. intro H. destruct (Rtotal_order a 0) as [L|[L|L]]; destruct (Rtotal_order b 0) as [M|[M|M]]; subst; try nra; lra. Qed.

Section Brent.
  Variables (f : R -> R) (lo hi xtol rtol : R).
  Hypothesis Hx : 0 < xtol.
  Hypothesis Hr : 0 <= rtol.
  Let inside x := lo <= x <= hi.
  (** before a round *)
  Definition inv_round (s : bstate) : Prop :=
    b_fpre s = f (b_xpre s) /\ b_fcur s = f (b_xcur s) /\ b_fpre s <> 0 /\ inside (b_xpre s) /\ inside (b_xcur s) /\
    (b_fcur s = 0 \/ b_fpre s * b_fcur s < 0 \/
     (0 < b_fpre s * b_fcur s /\ b_fblk s = f (b_xblk s) /\ b_fcur s * b_fblk s < 0 /\ inside (b_xblk s) /\ between (b_xpre s) (b_xcur s) (b_xblk s))).
  (** after the bracket was set *)
  Definition inv_bracket (s : bstate) : Prop :=
    b_fcur s = f (b_xcur s) /\ b_fblk s = f (b_xblk s) /\ inside (b_xcur s) /\ inside (b_xblk s) /\ b_fcur s * b_fblk s < 0 /\
    ((b_xpre s = b_xblk s /\ b_fpre s = b_fblk s) \/ (0 < b_fpre s * b_fcur s /\ between (b_xpre s) (b_xcur s) (b_xblk s))).
  (** the width of the bracket *)
  Definition width (s : bstate) : R := if Rlt_dec (b_fpre s * b_fcur s) 0 then Rabs (b_xcur s - b_xpre s) else Rabs (b_xblk s - b_xcur s).
  Lemma bracket_set s : inv_round s -> (b_fcur (better_end (rebracket s)) = 0 /\ inside (b_xcur (better_end (rebracket s))) /\ f (b_xcur (better_end (rebracket s))) = 0) \/
    (inv_bracket (better_end (rebracket s)) /\ Rabs (b_xblk (better_end (rebracket s)) - b_xcur (better_end (rebracket s))) = width s).
  Proof.
    destruct s as [xp fp xc fc xb fb sp sc]. unfold inv_round, rebracket, better_end, width. cbn [b_xpre b_fpre b_xcur b_fcur b_xblk b_fblk b_spre b_scur]. intros (E1 & E2 & N1 & I1 & I2 & [H|[H|H]]).
    - left. rewrite H in *. replace (opposite fp 0) with false by (unfold opposite; rewrite Rmult_0_r; destruct (Rlt_dec 0 0); auto; lra). cbn [b_xpre b_fpre b_xcur b_fcur b_xblk b_fblk].
      rewrite Rabs_R0. destruct (Rlt_dec (Rabs fb) 0) as [C|_]; [pose proof (Rabs_pos fb); lra|]. cbn. auto.
    - right. rewrite (proj2 (opposite_iff fp fc) H). cbn [b_xpre b_fpre b_xcur b_fcur b_xblk b_fblk b_spre b_scur]. destruct (Rlt_dec (fp * fc) 0) as [_|C]; [|lra].
      destruct (Rlt_dec (Rabs fp) (Rabs fc)); unfold inv_bracket; cbn [b_xpre b_fpre b_xcur b_fcur b_xblk b_fblk b_spre b_scur]; (split; [repeat split; auto; try apply I1; try apply I2; try lra|]); auto using Rabs_minus_sym.
    - right. destruct H as (P & E3 & H & I3 & B). replace (opposite fp fc) with false by (unfold opposite; destruct (Rlt_dec (fp * fc) 0); auto; lra).
      cbn [b_xpre b_fpre b_xcur b_fcur b_xblk b_fblk b_spre b_scur]. destruct (Rlt_dec (fp * fc) 0) as [C|_]; [lra|].
      destruct (Rlt_dec (Rabs fb) (Rabs fc)); unfold inv_bracket; cbn [b_xpre b_fpre b_xcur b_fcur b_xblk b_fblk b_spre b_scur]; (split; [repeat split; auto; try apply I3; try apply I2; try lra|]); auto using Rabs_minus_sym.
  Qed.
  Lemma trial_direction s : inv_bracket s -> Rabs (b_fcur s) < Rabs (b_fpre s) -> 0 < trial_step s * (b_xblk s - b_xcur s).
  Proof.
    destruct s as [xp fp xc fc xb fb sp sc]. unfold inv_bracket, trial_step, between. cbn [b_xpre b_fpre b_xcur b_fcur b_xblk b_fblk b_spre b_scur]. intros (E1 & E2 & I1 & I2 & H & K) HA.
    destruct (Req_EM_T xp xb) as [->|NE].
    - assert (fp = fb) by (destruct K as [[_ K]|[_ [K|K]]]; [auto|lra|lra]). subst fp. assert (xb <> xc) by (intro C; subst xc; rewrite <- E2, <- E1 in *; nra).
      replace (- fc * (xc - xb) / (fc - fb) * (xb - xc)) with ((fc * fc) / (fc * (fc - fb)) * ((xb - xc) * (xb - xc))) by (field; repeat split; intro C; nra).
      assert (0 < fc * fc) by nra. assert (0 < fc * (fc - fb)) by nra. apply Rmult_lt_0_compat; [now apply Rdiv_lt_0_compat|nra].
    - destruct K as [[C _]|[P B]]; [contradiction|].
      assert (U : 0 < fc * (fp - fc)). { apply Rmult_pos_cases in P as [[P1 P2]|[P1 P2]]; [rewrite !Rabs_pos_eq in HA by lra|rewrite !Rabs_left in HA by lra]; nra. }
      set (a := xc - xp) in *. set (c := xb - xc) in *. assert (AC : 0 < a * c) by (unfold a, c; destruct B; nra). assert (A0 : a <> 0) by (intro C; rewrite C in AC; lra). assert (C0 : c <> 0) by (intro C; rewrite C in AC; lra).
      set (u := fp - fc) in *. set (w := fc - fb) in *. assert (W : 0 < fc * w) by (unfold w; nra).
      replace (fp - fc) with u by (unfold u; ring). replace (fb - fc) with (- w) by (unfold w; ring). replace (xp - xc) with (- a) by (unfold a; ring). replace (fb - fp) with (- (w + u)) by (unfold u, w; ring).
      assert (F0 : fc <> 0) by (intro C; rewrite C in *; lra). assert (U0 : u <> 0) by (intro C; rewrite C in *; lra). assert (W0 : w <> 0) by (intro C; rewrite C in *; lra).
      assert (S0 : 0 < fc * (w + u)) by nra. assert (S1 : w + u <> 0) by (intro C; rewrite C in *; lra).
      assert (UW : 0 < u * w) by (apply Rmult_pos_cases in W; apply Rmult_pos_cases in U; destruct W as [[? ?]|[? ?]]; destruct U as [[? ?]|[? ?]]; try lra; nra).
      replace (- fc * (fb * (- w / c) - fp * (u / - a)) / (- w / c * (u / - a) * - (w + u)) * c) with ((fc * fc) / (fc * (w + u)) * ((- fb * w * (a * c) + fp * u * (c * c)) / (u * w))) by (field; repeat split; auto; lra).
      assert (0 < fc * fc) by nra. assert (0 < c * c) by nra. assert (0 < - fb * w) by (apply Rmult_neg_cases in H; apply Rmult_pos_cases in W; destruct H as [[? ?]|[? ?]]; destruct W as [[? ?]|[? ?]]; try lra; nra). assert (0 < fp * u) by (apply Rmult_pos_cases in P; apply Rmult_pos_cases in U; destruct P as [[? ?]|[? ?]]; destruct U as [[? ?]|[? ?]]; try lra; nra).
      assert (0 < - fb * w * (a * c)) by now apply Rmult_lt_0_compat. assert (0 < fp * u * (c * c)) by now apply Rmult_lt_0_compat.
      apply Rmult_lt_0_compat; apply Rdiv_lt_0_compat; auto; lra.
  Qed.
  Lemma step_inside s : inv_bracket s -> let delta := (xtol + rtol * Rabs (b_xcur s)) / 2 in let sbis := (b_xblk s - b_xcur s) / 2 in ~ Rabs sbis < delta ->
    let steps := next_steps delta sbis s in let d := if Rlt_dec delta (Rabs (snd steps)) then snd steps else if Rlt_dec 0 sbis then delta else - delta in
    0 < d * sbis /\ delta <= Rabs d <= 3 / 2 * Rabs sbis.
  Proof.
    intros I delta sbis Hs steps d. assert (Hd : 0 < delta) by (unfold delta; pose proof (Rabs_pos (b_xcur s)); nra).
    assert (B0 : sbis <> 0) by (intro C; rewrite C, Rabs_R0 in Hs; lra). assert (BB : 0 < sbis * sbis) by nra. assert (Ab : 0 < Rabs sbis) by now apply Rabs_pos_lt.
    assert (ST : 0 < snd steps * sbis /\ Rabs (snd steps) <= 3 / 2 * Rabs sbis).
    { unfold steps, next_steps. destruct (Rlt_dec delta (Rabs (b_spre s))); [|cbn [snd]; split; lra]. destruct (Rlt_dec (Rabs (b_fcur s)) (Rabs (b_fpre s))) as [HF|]; [|cbn [snd]; split; lra].
      destruct (Rlt_dec (2 * Rabs (trial_step s)) _) as [HM|]; [|cbn [snd]; split; lra]. cbn [snd]. pose proof (trial_direction I HF) as TD. pose proof (Rmin_r (Rabs (b_spre s)) (3 * Rabs sbis - delta)). split; [|lra].
      unfold sbis. lra. }
    unfold d. destruct ST as [S1 S2]. destruct (Rlt_dec delta (Rabs (snd steps))) as [L|L]; [split; auto; lra|].
    destruct (Rlt_dec 0 sbis) as [P|P]; [rewrite (Rabs_pos_eq delta) by lra|rewrite Rabs_Ropp, (Rabs_pos_eq delta) by lra]; (split; [|lra]).
    - now apply Rmult_lt_0_compat.
    - assert (sbis < 0) by lra. nra.
  Qed.
  (** a round ends the search within the tolerance of a sign change, or narrows the bracket *)
  Lemma brent_loop_spec n : forall s, inv_round s ->
    (brent_loop f xtol rtol n s = Err RuntimeError /\ INR n * (xtol / 4) <= width s) \/
    exists x x', brent_loop f xtol rtol n s = Ok x /\ inside x /\ inside x' /\ (f x = 0 /\ x' = x \/ f x * f x' < 0) /\ Rabs (x - x') <= xtol + rtol * Rabs x.
  Proof.
    induction n as [|n IH]; intros s I.
    - left. split; auto. cbn [INR]. rewrite Rmult_0_l. unfold width. destruct (Rlt_dec _ _); apply Rabs_pos.
    - cbn [brent_loop]. destruct (bracket_set I) as [(F0 & In0 & Z)|(B & W)].
      { right. exists (b_xcur (better_end (rebracket s))), (b_xcur (better_end (rebracket s))). destruct (Req_EM_T _ 0) as [_|C]; [|contradiction]. rewrite Rminus_eq_0, Rabs_R0. split; auto. split; auto. split; auto. split; auto.
        pose proof (Rabs_pos (b_xcur (better_end (rebracket s)))). nra. }
      set (t := better_end (rebracket s)) in *. set (delta := (xtol + rtol * Rabs (b_xcur t)) / 2). set (sbis := (b_xblk t - b_xcur t) / 2).
      pose proof B as (E1 & E2 & I1 & I2 & H & K).
      destruct (Req_EM_T (b_fcur t) 0) as [C|N0]; [rewrite C in H; lra|].
      destruct (Rlt_dec (Rabs sbis) delta) as [L|L].
      { right. exists (b_xcur t), (b_xblk t). split; auto. split; auto. split; auto. split; [right; now rewrite <- E1, <- E2|]. unfold sbis, delta in L. rewrite Rabs_minus_sym. unfold Rdiv in L. rewrite Rabs_mult, (Rabs_pos_eq (/ 2)) in L by lra. lra. }
      pose proof (@step_inside t B L) as SI. cbv zeta in SI. fold delta in SI. fold sbis in SI. set (steps := next_steps delta sbis t) in *.
      set (d := if Rlt_dec delta (Rabs (snd steps)) then snd steps else if Rlt_dec 0 sbis then delta else - delta) in *. destruct SI as (D1 & D2 & D3).
      assert (Hd : xtol / 2 <= delta) by (unfold delta; pose proof (Rabs_pos (b_xcur t)); nra).
      assert (BT : between (b_xcur t) (b_xcur t + d) (b_xblk t)).
      { unfold between. assert (b_xblk t = b_xcur t + 2 * sbis) as -> by (unfold sbis; field). apply Rmult_pos_cases in D1 as [[P1 P2]|[P1 P2]]; [rewrite !Rabs_pos_eq in D3 by lra; left|rewrite !Rabs_left in D3 by lra; right]; lra. }
      assert (IN : inside (b_xcur t + d)) by (unfold inside, between in *; lra).
      set (s' := {| b_xpre := b_xcur t; b_fpre := b_fcur t; b_xcur := b_xcur t + d; b_fcur := f (b_xcur t + d); b_xblk := b_xblk t; b_fblk := b_fblk t; b_spre := fst steps; b_scur := snd steps |}).
      assert (I' : inv_round s').
      { unfold inv_round, s'. cbn [b_xpre b_fpre b_xcur b_fcur b_xblk b_fblk]. repeat (split; auto). destruct (Rtotal_order (b_fcur t * f (b_xcur t + d)) 0) as [Q|[Q|Q]]; auto.
        - left. apply Rmult_integral in Q as [Q|Q]; auto. contradiction.
        - right; right. repeat (split; auto). apply Rmult_pos_cases in Q; apply Rmult_neg_cases in H; nra. }
      assert (W' : width s' + xtol / 4 <= width s).
      { rewrite <- W. assert (SB : Rabs (b_xblk t - b_xcur t) = 2 * Rabs sbis) by (unfold sbis, Rdiv; rewrite Rabs_mult, (Rabs_pos_eq (/ 2)) by lra; field). rewrite SB.
        unfold width, s'. cbn [b_xpre b_fpre b_xcur b_fcur b_xblk b_fblk]. destruct (Rlt_dec (b_fcur t * f (b_xcur t + d)) 0).
        - replace (b_xcur t + d - b_xcur t) with d by ring. lra.
        - assert (Rabs (b_xblk t - (b_xcur t + d)) = 2 * Rabs sbis - Rabs d); [|lra]. replace (b_xblk t - (b_xcur t + d)) with (2 * sbis - d) by (unfold sbis; field).
          apply Rmult_pos_cases in D1 as [[P1 P2]|[P1 P2]]; [rewrite (Rabs_pos_eq sbis), (Rabs_pos_eq d), Rabs_pos_eq in * by lra|rewrite (Rabs_left sbis), (Rabs_left d) in * by lra; rewrite Rabs_left by lra]; lra. }
      destruct (IH s' I') as [(E & Q)|Q]; [left; split; auto; rewrite S_INR; lra|right; exact Q].
  Qed.
End Brent.

(** No sign change raises.  Otherwise: a point of the interval within xtol + rtol |x| of a sign change, and of a root of a continuous function, or RuntimeError;
    never the latter with enough rounds *)
Theorem c149_brentq f lo hi xtol rtol maxiter : 0 < xtol -> 0 <= rtol -> lo < hi ->
  (0 < f lo * f hi -> brentq xtol rtol maxiter f lo hi = Err ValueError) /\
  (f lo * f hi <= 0 ->
   (brentq xtol rtol maxiter f lo hi = Err RuntimeError /\ INR maxiter * xtol <= 4 * (hi - lo)) \/
   exists x, brentq xtol rtol maxiter f lo hi = Ok x /\ lo <= x <= hi /\
     (exists x', lo <= x' <= hi /\ (f x = 0 /\ x' = x \/ f x * f x' < 0) /\ Rabs (x - x') <= xtol + rtol * Rabs x) /\
     ((forall y, lo <= y <= hi -> continuity_pt f y) -> exists z, lo <= z <= hi /\ f z = 0 /\ Rabs (x - z) <= xtol + rtol * Rabs x)).
Proof.
  intros Hx Hr Hlt. split.
  - intro H. unfold brentq. destruct (Req_EM_T (f lo) 0) as [C|_]; [rewrite C in H; lra|]. destruct (Req_EM_T (f hi) 0) as [C|_]; [rewrite C in H; lra|].
    replace (opposite (f lo) (f hi)) with false; auto. unfold opposite. destruct (Rlt_dec _ _); auto. lra.
  - intro H.
    assert (G : (brentq xtol rtol maxiter f lo hi = Err RuntimeError /\ INR maxiter * xtol <= 4 * (hi - lo)) \/
      exists x x', brentq xtol rtol maxiter f lo hi = Ok x /\ lo <= x <= hi /\ lo <= x' <= hi /\ (f x = 0 /\ x' = x \/ f x * f x' < 0) /\ Rabs (x - x') <= xtol + rtol * Rabs x).
    { assert (T0 : forall x, 0 <= xtol + rtol * Rabs x) by (intro x; pose proof (Rabs_pos x); nra).
      unfold brentq. destruct (Req_EM_T (f lo) 0) as [C|N1]. { right. exists lo, lo. rewrite Rminus_eq_0, Rabs_R0. repeat (split; auto); try lra. }
      destruct (Req_EM_T (f hi) 0) as [C|N2]. { right. exists hi, hi. rewrite Rminus_eq_0, Rabs_R0. repeat (split; auto); try lra. }
      assert (NG : f lo * f hi < 0). { destruct H as [H|H]; auto. apply Rmult_integral in H as [H|H]; contradiction. } rewrite (proj2 (opposite_iff _ _) NG).
      set (s := {| b_xpre := lo; b_fpre := f lo; b_xcur := hi; b_fcur := f hi; b_xblk := 0; b_fblk := 0; b_spre := 0; b_scur := 0 |}).
      assert (I : inv_round f lo hi s) by (unfold inv_round, s; cbn; repeat split; auto; lra).
      destruct (@brent_loop_spec f lo hi xtol rtol Hx Hr maxiter s I) as [(E & W)|(x & x' & Q)]; [left|right; exists x, x'; exact Q]. split; auto.
      unfold width, s in W. cbn in W. destruct (Rlt_dec _ _); [|lra]. rewrite Rabs_pos_eq in W by lra. lra. }
    destruct G as [G|(x & x' & E & I & I' & F & T)]; [now left|right]. exists x. split; auto. split; auto. split; [exists x'; auto|].
    intro C. destruct F as [[F ->]|F]; [exists x; auto|].
    assert (NE : x <> x') by (intro; subst x'; nra).
    destruct (Rtotal_order x x') as [L|[L|L]]; [|contradiction|]; (assert (IV : exists z, Rmin x x' <= z <= Rmax x x' /\ f z = 0)).
    + rewrite Rmin_left, Rmax_right by lra. apply Rmult_neg_cases in F as [[F1 F2]|[F1 F2]].
      * destruct (@IVT_interv f x x') as [z Hz]; auto; [intros; apply C; lra|eauto].
      * destruct (@IVT_interv (fun y => - f y) x x') as [z [Hz1 Hz2]]; auto; [intros; apply continuity_pt_opp, C; lra|lra|lra|exists z; split; auto; lra].
    + rewrite Rmin_left, Rmax_right in IV by lra. destruct IV as (z & Hz & Ez). exists z. split; [lra|]. split; auto. rewrite Rabs_minus_sym, Rabs_pos_eq by lra. rewrite Rabs_minus_sym, Rabs_pos_eq in T by lra. lra.
    + rewrite Rmin_right, Rmax_left by lra. apply Rmult_neg_cases in F as [[F1 F2]|[F1 F2]].
      * destruct (@IVT_interv (fun y => - f y) x' x) as [z [Hz1 Hz2]]; auto; [intros; apply continuity_pt_opp, C; lra|lra|lra|exists z; split; auto; lra].
      * destruct (@IVT_interv f x' x) as [z Hz]; auto; [intros; apply C; lra|eauto].
    + rewrite Rmin_right, Rmax_left in IV by lra. destruct IV as (z & Hz & Ez). exists z. split; [lra|]. split; auto. rewrite Rabs_pos_eq by lra. rewrite Rabs_pos_eq in T by lra. lra.
Qed.
Print Assumptions c149_brentq.
(** so scipy's function, with its default tolerances, is what C94 asks for *)
Theorem c149_contract : brentq_contract (fun x => 2 / 10 ^ 12 + 4 / 2 ^ 52 * Rabs x) scipy_brentq.
Proof.
  intros f lo hi Hlt. assert (Hx : 0 < 2 / 10 ^ 12) by lra. assert (Hr : 0 <= 4 / 2 ^ 52) by lra.
  destruct (@c149_brentq f lo hi _ _ 100 Hx Hr Hlt) as [H1 H2]. split; auto. intros H C. destruct (H2 H) as [(E & _)|(x & E & I & _ & Z)]; [now left|right]. destruct (Z C) as (z & Iz & Ez & T). exists x, z. auto.
Qed.
(** implied volatilities are right to twelve digits: brackets up to 1, as by default *)
Theorem c149_implied_volatility cdf ty s0 k r T divs q fut pricing sigma lo hi : is_normal_cdf cdf -> 0 < net_spot s0 r divs -> 0 < k -> 0 < T -> divs = None \/ q = 0 ->
  (forall v, bsm_option_price cdf ty s0 k r v T divs q fut = Ok (pricing v)) -> 0 < lo -> lo < hi <= 1 -> lo <= sigma <= hi ->
  implied_volatility scipy_brentq pricing (pricing sigma) lo hi = Err RuntimeError \/
  exists x, implied_volatility scipy_brentq pricing (pricing sigma) lo hi = Ok x /\ lo <= x <= hi /\ Rabs (x - sigma) <= 201 / 10 ^ 14.
Proof.
  intros N Hs Hk HT Hd Hp Hlo Hhi Hsg. destruct (@c94_recovers_volatility cdf ty s0 k r T divs q fut pricing _ scipy_brentq N Hs Hk HT Hd Hp c149_contract sigma lo hi Hlo ltac:(lra) Hsg) as [E|(x & E & I & B)]; [now left|right].
  exists x. split; auto. split; auto. cbv beta in B. rewrite (Rabs_pos_eq x) in B by lra. eapply Rle_trans; [exact B|]. assert (4 / 2 ^ 52 * x <= 4 / 2 ^ 52 * 1) by (apply Rmult_le_compat_l; lra). lra.
Qed.

(** ** the secant method *)
Lemma secant_eq p0 q0 p1 q1 : q1 <> q0 -> (secant p0 q0 p1 q1 - p1) * (q1 - q0) = - q1 * (p1 - p0).
Proof.
  intro N. unfold secant. destruct (Rlt_dec (Rabs q0) (Rabs q1)) as [L|L].
  - assert (q1 <> 0) by (intros ->; rewrite Rabs_R0 in L; pose proof (Rabs_pos q0); lra). field. split; auto. intro C. apply N. lra.
  - assert (q0 <> 0) by (intros ->; rewrite Rabs_R0 in L; apply N; pose proof (Rabs_pos q1); destruct (Req_EM_T q1 0); auto; exfalso; apply L; now apply Rabs_pos_lt). field. split; auto. intro C. apply N. lra.
Qed.
Section Secant.
  Variables (f : R -> option R) (tol : R).
  Hypothesis Ht : 0 < tol.
  (** what it returns is at most one tolerance away from a point where the function was computed and is small *)
  Section Lipschitz.
    Variable L : R.
    Hypothesis HL : forall a b qa qb, f a = Some qa -> f b = Some qb -> Rabs (qa - qb) <= L * Rabs (a - b).
    Lemma secant_loop_small n : forall p0 q0 p1 q1 x, f p0 = Some q0 -> f p1 = Some q1 -> p1 <> p0 -> secant_loop f tol n p0 q0 p1 q1 = Ok x ->
      exists p q, f p = Some q /\ Rabs (x - p) <= tol /\ Rabs q <= L * tol.
    Proof.
      induction n as [|n IH]; intros p0 q0 p1 q1 x F0 F1 NE H; cbn [secant_loop] in H; [discriminate|].
      destruct (Req_EM_T q1 q0) as [_|NQ]; [destruct (Req_EM_T p1 p0); [contradiction|discriminate]|]. set (p := secant p0 q0 p1 q1) in *.
      destruct (Rle_dec (Rabs (p - p1)) tol) as [C|C].
      - injection H as <-. exists p1, q1. split; auto. split; auto. pose proof (@secant_eq p0 q0 p1 q1 NQ) as SE. fold p in SE. apply (f_equal Rabs) in SE. rewrite !Rabs_mult, Rabs_Ropp in SE.
        pose proof (HL F1 F0) as LL. assert (P : 0 < Rabs (p1 - p0)) by (apply Rabs_pos_lt; lra). apply (Rmult_le_reg_r (Rabs (p1 - p0))); auto. rewrite <- SE.
        replace (L * tol * Rabs (p1 - p0)) with (tol * (L * Rabs (p1 - p0))) by ring. apply Rmult_le_compat; auto using Rabs_pos.
      - destruct (f p) as [q|] eqn:E; [|discriminate]. apply (IH p1 q1 p q x); auto. intro Q. apply C. rewrite Q, Rminus_eq_0, Rabs_R0. lra.
    Qed.
  End Lipschitz.
  Lemma second_point_neq x0 : second_point x0 <> x0.
  Proof. unfold second_point. destruct (Rle_dec 0 _) as [L|L]; lra. Qed.

  (** starting above the root of an increasing convex function *)
  Section Convex.
    Variables (g : R -> R) (z : R).
    Hypothesis Hf : forall s, z <= s -> f s = Some (g s).
    Hypothesis Hz : g z = 0.
    Hypothesis Hinc : forall a b, z <= a -> a < b -> g a < g b.
    Hypothesis Hconv : forall a b c, z <= a -> a < b -> b < c -> (g b - g a) * (c - b) <= (g c - g b) * (b - a).
    Variable L : R.
    Hypothesis HLip : forall a b, z <= a -> a < b -> g b - g a <= L * (b - a).
    Definition strictly : Prop := forall a b c, z <= a -> a < b -> b < c -> (g b - g a) * (c - b) < (g c - g b) * (b - a).
    Lemma g_nonneg a : z <= a -> 0 <= g a.
    Proof. intros [H| <-]; [|lra]. rewrite <- Hz. left. apply Hinc; lra. Qed.
    Lemma secant_between p0 p1 : z <= p1 -> p1 < p0 -> g p1 <> g p0 /\ z <= secant p0 (g p0) p1 (g p1) <= p1 /\ secant p0 (g p0) p1 (g p1) = secant p1 (g p1) p0 (g p0).
    Proof.
      intros H1 H2. pose proof (Hinc H1 H2) as G. assert (N : g p1 <> g p0) by lra. split; auto. pose proof (@secant_eq p0 (g p0) p1 (g p1) N) as SE. set (p := secant p0 (g p0) p1 (g p1)) in *.
      pose proof (@secant_eq p1 (g p1) p0 (g p0) ltac:(auto)) as SE'. set (p' := secant p1 (g p1) p0 (g p0)) in *. pose proof (g_nonneg H1) as P1. set (d := g p0 - g p1). assert (0 < d) by (unfold d; lra).
      assert (E : (p1 - p) * d = g p1 * (p0 - p1)) by (unfold d; lra). split; [split|].
      - destruct H1 as [H1| <-].
        + pose proof (Hconv (Rle_refl z) H1 H2) as C. rewrite Hz, Rminus_0_r in C. fold d in C. apply (Rmult_le_reg_r d); auto. lra.
        + rewrite Hz in E. assert (z = p) by nra. lra.
      - nra.
      - assert (E' : (p0 - p') * d = g p0 * (p0 - p1)) by (unfold d; lra). assert ((p - p') * d = 0) by (replace ((p - p') * d) with ((p0 - p') * d - (p1 - p) * d - (p0 - p1) * d) by ring; rewrite E, E'; unfold d; ring). assert (p - p' = 0); [|lra]. apply Rmult_integral in H0 as [|]; lra.
    Qed.
    Lemma secant_strict p0 p1 : strictly -> z < p1 -> p1 < p0 -> z < secant p0 (g p0) p1 (g p1).
    Proof.
      intros HS H1 H2. destruct (@secant_between p0 p1 ltac:(lra) H2) as (N & _ & _). pose proof (@secant_eq p0 (g p0) p1 (g p1) N) as SE. set (p := secant p0 (g p0) p1 (g p1)) in *.
      pose proof (@Hinc p1 p0 ltac:(lra) H2). pose proof (HS z p1 p0 (Rle_refl z) H1 H2) as C. rewrite Hz, Rminus_0_r in C. set (d := g p0 - g p1) in *. assert (0 < d) by (unfold d; lra).
      assert (E : (p1 - p) * d = g p1 * (p0 - p1)) by (unfold d; lra). apply (Rmult_lt_reg_r d); auto. lra.
    Qed.
    Lemma secant_value p0 p1 : z <= p1 -> z <= p0 -> p1 <> p0 -> secant p0 (g p0) p1 (g p1) <= p1 -> Rabs (secant p0 (g p0) p1 (g p1) - p1) <= tol -> g p1 <= L * tol.
    Proof.
      intros H1 H0 NE Hp HT. assert (N : g p1 <> g p0). { destruct (Rtotal_order p1 p0) as [Q|[Q|Q]]; [pose proof (Hinc H1 Q); lra|contradiction|pose proof (Hinc H0 Q); lra]. }
      pose proof (@secant_eq p0 (g p0) p1 (g p1) N) as SE. set (p := secant p0 (g p0) p1 (g p1)) in *. rewrite Rabs_minus_sym, Rabs_pos_eq in HT by lra.
      assert (SL : forall a b, z <= a -> a < b -> 0 < g b - g a <= L * (b - a)) by (intros a b Ha Hab; pose proof (Hinc Ha Hab); pose proof (@HLip a b Ha Hab); lra).
      assert (0 < L) by (destruct (Rtotal_order p1 p0) as [Q|[Q|Q]]; [pose proof (SL p1 p0 H1 Q); nra|contradiction|pose proof (SL p0 p1 H0 Q); nra]).
      assert (g p1 <= L * (p1 - p)); [|nra].
      destruct (Rtotal_order p1 p0) as [Q|[Q|Q]]; [pose proof (SL p1 p0 H1 Q) as B|contradiction|pose proof (SL p0 p1 H0 Q) as B].
      - apply (Rmult_le_reg_r (p0 - p1)); [lra|]. nra.
      - apply (Rmult_le_reg_r (p1 - p0)); [lra|]. nra.
    Qed.
    Lemma secant_loop_above n : forall p0 p1, z <= p1 -> p1 < p0 ->
      (secant_loop f tol n p0 (g p0) p1 (g p1) = Err RuntimeError /\ INR n * tol <= p1 - z) \/ exists x, secant_loop f tol n p0 (g p0) p1 (g p1) = Ok x /\ z <= x <= p1 /\ g x <= L * tol /\ (strictly -> z < p1 -> z < x).
    Proof.
      induction n as [|n IH]; intros p0 p1 H1 H2; cbn [secant_loop]; [left; split; auto; cbn; lra|].
      destruct (secant_between H1 H2) as (N & I & _). destruct (Req_EM_T _ _) as [C|_]; [contradiction|].
      assert (ST : strictly -> z < p1 -> z < secant p0 (g p0) p1 (g p1)) by (intros; apply secant_strict; auto).
      pose proof (@secant_value p0 p1 H1 ltac:(lra) ltac:(lra) (proj2 I)) as VB. set (p := secant p0 (g p0) p1 (g p1)) in *.
      destruct (Rle_dec (Rabs (p - p1)) tol) as [C|C].
      - right. exists p. repeat (split; [solve [auto; lra]|]). split; auto. apply VB in C. eapply Rle_trans; [|exact C]. destruct (proj2 I) as [Q|Q]; [left; apply Hinc; lra|rewrite Q; lra].
      - rewrite Rabs_minus_sym, Rabs_pos_eq in C by lra. rewrite (@Hf p ltac:(lra)).
        destruct (IH p1 p) as [(E & B)|(x & E & B & G & S)]; try lra; [left; split; auto; rewrite S_INR; lra|right; exists x; split; auto; split; [lra|split; auto]].
    Qed.
    Lemma newton_above maxiter x0 : z <= x0 -> 0 <= x0 -> (0 < maxiter)%nat ->
      (newton tol maxiter f x0 = Err RuntimeError /\ (INR maxiter - 1) * tol <= x0 - z) \/ exists x, newton tol maxiter f x0 = Ok x /\ z <= x <= x0 /\ g x <= L * tol /\ (strictly -> z < x0 -> z < x).
    Proof.
      intros H1 H0 Hn. unfold newton. destruct (Rle_dec tol 0) as [C|_]; [lra|]. destruct (Nat.ltb_spec maxiter 1); [lia|]. set (p1 := second_point x0).
      assert (P : x0 < p1) by (unfold p1, second_point; destruct (Rle_dec 0 _); lra). rewrite (@Hf x0 H1), (@Hf p1 ltac:(lra)). pose proof (Hinc H1 P) as G. pose proof (g_nonneg H1).
      rewrite !Rabs_pos_eq by lra. destruct (Rlt_dec (g p1) (g x0)) as [C|_]; [lra|]. destruct maxiter as [|n]; [lia|]. cbn [secant_loop].
      destruct (secant_between H1 P) as (N & I & E). assert (ST : strictly -> z < x0 -> z < secant p1 (g p1) x0 (g x0)) by (intros; apply secant_strict; auto).
      pose proof (@secant_value x0 p1 ltac:(lra) H1 ltac:(lra)) as VB. rewrite <- E in VB. rewrite <- E. destruct (Req_EM_T _ _) as [C|_]; [lra|]. set (p := secant p1 (g p1) x0 (g x0)) in *.
      destruct (Rle_dec (Rabs (p - p1)) tol) as [C|C].
      - right. exists p. repeat (split; [solve [auto; lra]|]). split; auto. apply VB in C; [|lra]. eapply Rle_trans; [|exact C]. left. apply Hinc; lra.
      - rewrite (@Hf p ltac:(lra)). destruct (@secant_loop_above n p1 p) as [(E1 & B)|(x & E1 & B & G' & S)]; try lra; [left; split; auto; rewrite S_INR; lra|right; exists x; split; auto; split; [lra|split; auto]].
    Qed.
  End Convex.
End Secant.
(** Starting from a point above the root of an increasing convex function with slopes up to [L], the search stays between root and start, and its value at the result is
    at most L tol; for a strictly convex function it never reaches the root.  With enough rounds it cannot fail. *)
Theorem c150_from_above f tol g z L maxiter x0 : 0 < tol -> (0 < maxiter)%nat -> z <= x0 -> 0 <= x0 -> (forall s, z <= s -> f s = Some (g s)) -> g z = 0 ->
  (forall a b, z <= a -> a < b -> 0 < g b - g a <= L * (b - a)) ->
  (forall a b c, z <= a -> a < b -> b < c -> (g b - g a) * (c - b) <= (g c - g b) * (b - a)) ->
  (newton tol maxiter f x0 = Err RuntimeError /\ (INR maxiter - 1) * tol <= x0 - z) \/
  exists x, newton tol maxiter f x0 = Ok x /\ z <= x <= x0 /\ 0 <= g x <= L * tol /\
    ((forall a b c, z <= a -> a < b -> b < c -> (g b - g a) * (c - b) < (g c - g b) * (b - a)) -> z < x0 -> z < x).
Proof.
  intros Ht Hn Hx H0 Hf Hz HS HC. assert (HI : forall a b, z <= a -> a < b -> g a < g b) by (intros a b Ha Hab; specialize (HS a b Ha Hab); lra).
  destruct (@newton_above f tol Ht g z Hf Hz HI HC L (fun a b Ha Hab => proj2 (HS a b Ha Hab)) maxiter x0 Hx H0 Hn) as [E|(x & E & I & G & S)]; [now left|right].
  exists x. split; auto. split; auto. split; [split; auto|exact S]. apply (@g_nonneg g z Hz HI). apply I.
Qed.
Theorem c150_small f tol maxiter x0 x L : (forall a b qa qb, f a = Some qa -> f b = Some qb -> Rabs (qa - qb) <= L * Rabs (a - b)) -> newton tol maxiter f x0 = Ok x ->
  (exists p q, f p = Some q /\ Rabs (x - p) <= tol /\ Rabs q <= L * tol) /\ forall q, f x = Some q -> Rabs q <= 2 * L * tol.
Proof.
  intros HL H.
  assert (G : 0 < tol /\ exists p q, f p = Some q /\ Rabs (x - p) <= tol /\ Rabs q <= L * tol).
  { unfold newton in H. destruct (Rle_dec tol 0) as [C|C]; [discriminate|]. destruct (maxiter <? 1)%nat; [discriminate|]. destruct (f x0) as [q0|] eqn:E0; [|discriminate]. destruct (f (second_point x0)) as [q1|] eqn:E1; [|discriminate]. split; [lra|].
    assert (NE := @second_point_neq x0).
    destruct (Rlt_dec (Rabs q1) (Rabs q0)).
    - exact (@secant_loop_small f tol ltac:(lra) L HL maxiter _ q1 x0 q0 x E1 E0 ltac:(auto) H).
    - exact (@secant_loop_small f tol ltac:(lra) L HL maxiter x0 q0 _ q1 x E0 E1 NE H). }
  destruct G as (Ht & p & q & Ep & Hd & Hq). split; [exists p, q; auto|]. intros q' E'. pose proof (HL _ _ _ _ E' Ep) as B. pose proof (Rabs_triang (q' - q) q) as T. replace (q' - q + q) with q' in T by ring.
  assert (L0 : 0 <= L). { destruct (Rlt_le_dec L 0) as [C|]; auto. exfalso. pose proof (Rabs_pos q). nra. }
  assert (L * Rabs (x - p) <= L * tol) by (apply Rmult_le_compat_l; auto). lra.
Qed.
Print Assumptions c149_contract.
Print Assumptions c149_implied_volatility.
Print Assumptions c150_from_above.
Print Assumptions c150_small.

(** ** functions with an increasing derivative *)
Lemma slope_between h h' a b : 0 < a -> a < b -> (forall s, 0 < s -> derivable_pt_lim h s (h' s)) -> exists c, a < c < b /\ h b - h a = h' c * (b - a).
Proof. intros Ha Hab Hd. destruct (MVT_cor2 h h' a b Hab) as (c & E & Hc); [intros c Hc; apply Hd; lra|]. exists c. split; auto. Qed.
Lemma convex_of_derivative h h' a b c : 0 < a -> a < b -> b < c -> (forall s, 0 < s -> derivable_pt_lim h s (h' s)) -> (forall s t, 0 < s -> s < t -> h' s < h' t) -> (h b - h a) * (c - b) < (h c - h b) * (b - a).
Proof.
  intros Ha Hab Hbc Hd Hm. destruct (slope_between Ha Hab Hd) as (u & Hu & ->). destruct (@slope_between h h' b c ltac:(lra) Hbc Hd) as (v & Hv & ->). pose proof (Hm u v ltac:(lra) ltac:(lra)).
  assert (0 < (b - a) * (c - b)) by (apply Rmult_lt_0_compat; lra). replace (h' u * (b - a) * (c - b)) with (h' u * ((b - a) * (c - b))) by ring. replace (h' v * (c - b) * (b - a)) with (h' v * ((b - a) * (c - b))) by ring. now apply Rmult_lt_compat_r.
Qed.
Lemma bsD_increasing A1 A2 B s : 0 < A1 -> A1 < A2 -> 0 < s -> bsD A1 B s < bsD A2 B s.
Proof. intros HA H Hs. unfold bsD. pose proof (ln_increasing A1 A2 HA H). apply Rplus_lt_compat_r, Rmult_lt_compat_r; [now apply Rinv_0_lt_compat|lra]. Qed.
Lemma bs_scaled_derivative cdf D B v s : is_normal_cdf cdf -> 0 < D -> 0 < B -> 0 < v -> 0 < s -> derivable_pt_lim (fun s => bs cdf (s * D) B v) s (D * cdf (bsD (s * D) B v)).
Proof.
  intros N HD HB Hv Hs. assert (HsD : 0 < s * D) by now apply Rmult_lt_0_compat.
  assert (M : derivable_pt_lim (fun s => s * D) s D). { pose proof (derivable_pt_lim_mult id (fun _ => D) s 1 0 (derivable_pt_lim_id s) (derivable_pt_lim_const D s)) as Q. unfold id, mult_fct in Q. replace (1 * D + s * 0) with D in Q by ring. exact Q. }
  pose proof (derivable_pt_lim_comp (fun s => s * D) (fun A => bs cdf A B v) s _ _ M (bs_spot_derivative N HsD HB Hv)) as C. unfold comp in C. now rewrite Rmult_comm in C.
Qed.
(** The asset price for an observed call price, searched from above: never below the price that explains the observation, strictly above it unless the search starts there,
    never above the start, and the call at it is worth at most a cent (the tolerance, discounted by the carry) more than observed *)
Theorem c150_asset_price cdf k r sigma T q fut pricing s0 x0 : is_normal_cdf cdf -> 0 < k -> 0 < sigma -> 0 < T ->
  (forall s, bsm_option_price cdf Call s k r sigma T None q fut = Ok (pricing s)) -> 0 < s0 <= x0 ->
  (implied_asset_price scipy_newton pricing (pricing s0) x0 = Err RuntimeError /\ 99 / 100 <= x0 - s0) \/
  exists x, implied_asset_price scipy_newton pricing (pricing s0) x0 = Ok x /\ s0 <= x <= x0 /\ (s0 < x0 -> s0 < x) /\ 0 <= pricing x - pricing s0 <= exp (- carry r q fut * T) / 100.
Proof.
  intros N Hk Hg HT Hp [Hs Hx]. pose proof (sqrt_lt_R0 T HT) as Hq. set (D := exp (- carry r q fut * T)). assert (HD : 0 < D) by apply exp_pos. set (B := k * exp (- r * T)). assert (HB : 0 < B) by (apply Rmult_lt_0_compat; auto; apply exp_pos).
  assert (Hv : 0 < sigma * sqrt T) by now apply Rmult_lt_0_compat. set (v := sigma * sqrt T) in *.
  assert (E : forall s, 0 < s -> pricing s = bs cdf (s * D) B v). { intros s Hs'. pose proof (Hp s) as Q. rewrite bsm_as_bs in Q by auto. injection Q as <-. reflexivity. }
  set (h := fun s => bs cdf (s * D) B v). set (h' := fun s => D * cdf (bsD (s * D) B v)).
  assert (Hd : forall s, 0 < s -> derivable_pt_lim h s (h' s)) by (intros s Hs'; now apply bs_scaled_derivative).
  assert (Hm : forall s t, 0 < s -> s < t -> h' s < h' t). { intros s t Ps Hst. apply Rmult_lt_compat_l; auto. apply (normal_increasing N). apply bsD_increasing; [now apply Rmult_lt_0_compat|now apply Rmult_lt_compat_r|exact Hv]. }
  assert (Hb : forall s, 0 < h' s < D) by (intro s; unfold h'; pose proof (nc_pos N (bsD (s * D) B v)); pose proof (normal_lt_1 N (bsD (s * D) B v)); split; nra).
  set (g := fun s => h s - h s0). unfold implied_asset_price, scipy_newton.
  assert (CV : forall a b c, s0 <= a -> a < b -> b < c -> (g b - g a) * (c - b) < (g c - g b) * (b - a)).
  { intros a b c Ha Hab Hbc. unfold g. replace (h b - h s0 - (h a - h s0)) with (h b - h a) by ring. replace (h c - h s0 - (h b - h s0)) with (h c - h b) by ring. apply (@convex_of_derivative h h'); auto. lra. }
  assert (SL : forall a b, s0 <= a -> a < b -> 0 < g b - g a <= D * (b - a)).
  { intros a b Ha Hab. unfold g. replace (h b - h s0 - (h a - h s0)) with (h b - h a) by ring. destruct (@slope_between h h' a b ltac:(lra) Hab Hd) as (c & Hc & ->). pose proof (Hb c). split; nra. }
  destruct (@c150_from_above (positive_part (fun s => pricing s - pricing s0)) (1 / 100) g s0 D 100 x0) as [(-> & C)|(x & Ex & I & V & S)]; auto; try lra; try lia.
  - intros s Hs'. unfold positive_part. destruct (Rlt_dec 0 s) as [P|C]; [|lra]. unfold g, h. now rewrite !E by lra.
  - unfold g. ring.
  - intros a b c Ha Hab Hbc. left. auto.
  - left. split; auto. replace (INR 100 - 1) with 99 in C by (rewrite INR_IZR_INZ; cbn; ring). lra.
  - right. exists x. split; auto. split; auto. split; [apply S; exact CV|]. rewrite !E by lra. unfold g, h in V. lra.
Qed.
(** "the root": never returned from a start above it *)
Theorem c150_exact_refuted cdf k r sigma T q fut pricing s0 x0 : is_normal_cdf cdf -> 0 < k -> 0 < sigma -> 0 < T -> (forall s, bsm_option_price cdf Call s k r sigma T None q fut = Ok (pricing s)) -> 0 < s0 < x0 ->
  implied_asset_price scipy_newton pricing (pricing s0) x0 <> Ok s0.
Proof. intros N Hk Hg HT Hp Hs C. destruct (@c150_asset_price cdf k r sigma T q fut pricing s0 x0 N Hk Hg HT Hp ltac:(lra)) as [(E & _)|(x & E & _ & S & _)]; rewrite C in E; [discriminate|]. injection E as <-. lra. Qed.
(** arguments that cannot be used, and the two points the search starts from *)
Theorem c150_start tol maxiter f x0 : (tol <= 0 \/ (maxiter < 1)%nat -> newton tol maxiter f x0 = Err ValueError) /\
  (0 < tol -> (1 <= maxiter)%nat -> forall x1, (0 <= x0 /\ x1 = 10001 / 10000 * x0 + 1 / 10000) \/ (x0 < 0 /\ x1 = 10001 / 10000 * x0 - 1 / 10000) ->
    (f x0 = None \/ f x1 = None -> newton tol maxiter f x0 = Err RuntimeError) /\
    (forall q, f x0 = Some q -> f x1 = Some q -> newton tol maxiter f x0 = Err RuntimeError)).
Proof.
  split.
  - intro H. unfold newton. destruct (Rle_dec tol 0); auto. destruct (Nat.ltb_spec maxiter 1); auto. destruct H; [contradiction|lia].
  - intros HT HM x1 H1. assert (E : second_point x0 = x1) by (unfold second_point; destruct (Rle_dec 0 _) as [C|C]; destruct H1 as [[? ->]|[? ->]]; lra).
    unfold newton. destruct (Rle_dec tol 0); [lra|]. destruct (Nat.ltb_spec maxiter 1); [lia|]. rewrite E. split.
    + intros [->| ->]; auto. destruct (f x0); auto.
    + intros q -> ->. destruct (Rlt_dec _ _); [lra|]. destruct maxiter as [|m]; [lia|]. cbn [secant_loop]. destruct (Req_EM_T q q); [|congruence]. destruct (Req_EM_T x1 x0) as [C|C]; auto. exfalso. destruct H1 as [[? ->]|[? ->]]; lra.
Qed.
Print Assumptions c150_start.
Print Assumptions c150_asset_price.
Print Assumptions c150_exact_refuted.
(** ** cases the theorems decide *)
Example brentq_finds : exists x, brentq (1 / 10) 0 100 (fun x => x * x - 1 / 2) 0 1 = Ok x /\ Rabs (x - sqrt (1 / 2)) <= 1 / 10.
Proof.
  destruct (@c149_brentq (fun x => x * x - 1 / 2) 0 1 (1 / 10) 0 100 ltac:(lra) ltac:(lra) ltac:(lra)) as [_ H]. destruct H as [(_ & C)|(x & E & _ & _ & Z)]; [lra| |].
  - exfalso. replace (INR 100) with 100 in C by (rewrite INR_IZR_INZ; reflexivity). lra.
  - exists x. split; auto. destruct Z as (z & Iz & Ez & B).
    + intros y _. apply derivable_continuous_pt. apply derivable_pt_minus; [apply derivable_pt_mult; apply derivable_pt_id|apply derivable_pt_const].
    + replace (sqrt (1 / 2)) with z; [lra|]. replace (1 / 2) with (z * z) by lra. rewrite sqrt_square; lra.
Qed.
Example brentq_raises : scipy_brentq (fun x => x * x + 1) 0 1 = Err ValueError.
Proof. apply (@c149_brentq (fun x => x * x + 1) 0 1 (2 / 10 ^ 12) (4 / 2 ^ 52) 100); lra. Qed.
(** a call at the money: found from half above, at most a cent too dear *)
Example asset_price_found : exists cdf x, is_normal_cdf cdf /\ let pricing := fun s => match bsm_option_price cdf Call s 1 0 (1 / 5) 1 None 0 false with Ok v => v | Err _ => 0 end in
  implied_asset_price scipy_newton pricing (pricing 1) (3 / 2) = Ok x /\ 1 < x <= 3 / 2 /\ 0 <= pricing x - pricing 1 <= 1 / 100.
Proof.
  destruct normal_cdf_exists as (cdf & N). set (pricing := fun s => match bsm_option_price cdf Call s 1 0 (1 / 5) 1 None 0 false with Ok v => v | Err _ => 0 end).
  destruct (@c150_asset_price cdf 1 0 (1 / 5) 1 0 false pricing 1 (3 / 2) N) as [(_ & C)|(x & E & I & S & V)]; try lra; [intro s; reflexivity|].
  exists cdf, x. split; auto. cbv zeta. fold pricing. split; auto. specialize (S ltac:(lra)). split; [lra|]. cbn [carry] in V. rewrite Ropp_0, Rmult_0_l, exp_0 in V. exact V.
Qed.
