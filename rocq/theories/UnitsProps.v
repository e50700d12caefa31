(** What units, flows and selections of earlier properties are, stated without the definitions of the models: C35 and C39 (days), C138 and C139 (the
    flow of a tick), C165 (which bets are averaged), C67 (no bars), C161 (opens in another order). *)
From Coq Require Import ZArith List Bool Reals Lra Lia QArith Qcanon.
From Flocq Require Import Core BinarySingleNaN.
From Verif Require Import Py Num Float64 BarsModel FloatBarsModel FloatRetModel BarrierModel FloatInfoModel FloatRunsModel FloatPosModel MetricsModel MetricsSpec PositionModel BasketModel BasketColsModel.
Import ListNotations.
Set Implicit Arguments.
Unset Strict Implicit.

(** a position held for d days of 24 hours, in nanoseconds, has an exposure of d days *)
Theorem c35_days t p d : (exposure ns_per_day [(t, p); ((t + d * (24 * 60 * 60 * 10 ^ 9))%Z, 0)] = qabs p * qz d)%Qc.
Proof.
  cbn [exposure fst snd]. replace (t + d * (24 * 60 * 60 * 10 ^ 9) - t)%Z with (d * (24 * 60 * 60 * 10 ^ 9))%Z by ring. unfold ns_per_day. change (24 * 60 * 60 * 10 ^ 9)%Z with 86400000000000%Z. rewrite qz_mul. field. discriminate.
Qed.
Print Assumptions c35_days.

(** ** flows *)
Open Scope R_scope.
Theorem c138_flows b0 ticks : let b := ftick_rule (map ft_price ticks) b0 in
  fsigned_flow TICK b0 ticks = Some b /\ fsigned_flow TIME b0 ticks = None /\
  (exists v, fsigned_flow VOLUME b0 ticks = Some v /\ forall i x s, nth_error b i = Some s -> nth_error ticks i = Some x -> fin s -> fin (ft_vol x) -> Rabs (fv s * fv (ft_vol x)) <= big ->
     exists f, nth_error v i = Some f /\ fv f = rnd64 (fv s * fv (ft_vol x))) /\
  (exists v, fsigned_flow DOLLARS b0 ticks = Some v /\ forall i x s, nth_error b i = Some s -> nth_error ticks i = Some x -> fin s -> fin (ft_vol x) -> fin (ft_price x) -> Rabs (fv (ft_price x) * fv (ft_vol x)) <= big -> Rabs (fv s * rnd64 (fv (ft_price x) * fv (ft_vol x))) <= big ->
     exists f, nth_error v i = Some f /\ fv f = rnd64 (fv s * rnd64 (fv (ft_price x) * fv (ft_vol x)))).
Proof.
  intro b. assert (C : forall (A B : Type) (l : list A) (m : list B) i x y, nth_error l i = Some x -> nth_error m i = Some y -> nth_error (combine l m) i = Some (x, y)) by (intros A B l; induction l as [|a l IH]; intros [|c m] [|i] x y; cbn; try discriminate; [now intros [= ->] [= ->]|apply IH]).
  split; [reflexivity|]. split; [reflexivity|]. split; (eexists; split; [reflexivity|]; intros i x s Hs Hx Fs Fv; intros).
  - eexists. split; [exact (map_nth_error _ _ _ (@C _ _ _ _ _ _ _ Hs Hx))|]. cbn [fst snd]. now apply fmul_spec.
  - destruct (@fmul_spec (ft_price x) (ft_vol x)) as [F V]; auto. eexists. split; [exact (map_nth_error _ _ _ (@C _ _ _ _ _ _ _ Hs Hx))|]. cbn [fst snd]. rewrite <- V in *. now apply fmul_spec.
Qed.
Print Assumptions c138_flows.
Theorem c139_rows b0 ticks : let b := ftick_rule (map ft_price ticks) b0 in
  fruns_rows TIME b0 ticks = None /\ forall unit rows, fruns_rows unit b0 ticks = Some rows -> forall i x s, nth_error b i = Some s -> nth_error ticks i = Some x -> fin (ft_vol x) -> fin (ft_price x) -> Rabs (fv (ft_price x) * fv (ft_vol x)) <= big ->
    exists f, nth_error rows i = Some (s, f) /\ fv f = match unit with VOLUME => fv (ft_vol x) | DOLLARS => rnd64 (fv (ft_price x) * fv (ft_vol x)) | _ => 1 end.
Proof.
  intro b. assert (C : forall (A B : Type) (l : list A) (m : list B) i x y, nth_error l i = Some x -> nth_error m i = Some y -> nth_error (combine l m) i = Some (x, y)) by (intros A B l; induction l as [|a l IH]; intros [|c m] [|i] x y; cbn; try discriminate; [now intros [= ->] [= ->]|apply IH]).
  split; [reflexivity|]. intros unit rows E i x s Hs Hx Fv Fp B. destruct unit; cbn in E; try discriminate; injection E as <-; eexists; (split; [apply C; [exact Hs|]; exact (map_nth_error _ _ _ Hx)|]); first [reflexivity | now apply fmul_spec | apply (@fz_spec 1); lia].
Qed.
Print Assumptions c139_rows.
Close Scope R_scope.

(** ** the bets averaged at t: those that start when some bet does that has started by t and not ended before t *)
Theorem c165_active t bets b : In b (filter (fun b => zmem (fb_start b) (map fb_start (filter (factive_at t) bets))) bets) <->
  In b bets /\ exists b', In b' bets /\ fb_start b' = fb_start b /\ (fb_start b' <= t)%Z /\ forall e, fb_end b' = Some e -> (t <= e)%Z.
Proof.
  rewrite filter_In. apply and_iff_compat_l. unfold zmem. rewrite existsb_exists. split.
  - intros (z & Hz & E). apply in_map_iff in Hz as (b' & Eb & Hb). apply filter_In in Hb as [Hb Ha]. exists b'. unfold factive_at in Ha. apply andb_prop in Ha as [H1 H2]. apply Z.eqb_eq in E. apply Z.leb_le in H1. split; auto. split; [congruence|]. split; auto. intros e Ee. rewrite Ee in H2. now apply Z.leb_le.
  - intros (b' & Hb & E & H1 & H2). exists (fb_start b'). split; [|now apply Z.eqb_eq]. apply in_map, filter_In. split; auto. unfold factive_at. apply andb_true_intro. split; [now apply Z.leb_le|]. destruct (fb_end b') as [e|]; auto. now apply Z.leb_le, H2.
Qed.
Print Assumptions c165_active.

(** no bars: the largest of no counts raises ValueError *)
Theorem c67_no_counts : max_budget [] = Err ValueError.
Proof. reflexivity. Qed.
Print Assumptions c67_no_counts.

(** REFUTED: "the first change after a rebalancing matches instruments by label".  With the opens of two instruments listed in the other order the
    changes of the prices come in ascending order of the labels, and each is given the dividend of the other instrument. *)
Theorem c161_opens_refuted prev w o1 o2 c1 c2 fx vol d1 d2 :
  net_val_change_labelled [2; 1]%Z [1; 2]%Z true prev (EtfBar w [o1; o2] [c2; c1] fx vol [d2; d1]) = Some [(c1 - o1 + d2)%Qc; (c2 - o2 + d1)%Qc].
Proof. reflexivity. Qed.
Print Assumptions c161_opens_refuted.

(** ** cases *)
Example c35_days_ex : exposure ns_per_day [(0%Z, qz (-2)); (259200000000000%Z, 0%Qc)] = qz 6.
Proof. vm_compute. reflexivity. Qed.
Example c138_flows_ex : let t p v := FTick (fz p) (fz v) in
  match fsigned_flow DOLLARS (fz 1) [t 10 3; t 9 2; t 9 4]%Z, fruns_rows DOLLARS (fz 1) [t 10 3; t 9 2; t 9 4]%Z with
  | Some [a; b; c], Some [_; _; (s, v)] => feq a (fz 30) && feq b (fz (-18)) && feq c (fz (-36)) && feq s (fz (-1)) && feq v (fz 36)
  | _, _ => false
  end = true.
Proof. vm_compute. reflexivity. Qed.
