(** C183: VPIN in float64. *)
From Coq Require Import ZArith QArith Qcanon Qreals Reals Lra Lia List Bool.
From Flocq Require Import Core BinarySingleNaN.
From Verif Require Import Py Num RNum Float64 FloatBarsModel FloatBarsProofs FloatBarsProps FloatRetModel FloatRetProps FloatCusumProps FloatEwmaProps.
From Verif Require Import SeriesModel SeriesSpec SeriesProofs BarsModel BarsSpec SysDefaultModel MicroModel MicroProps FloatInfoModel FloatInfoProofs FloatInfoProps FloatTickBarsProps FloatVpinModel.
Import ListNotations.
Set Implicit Arguments.
Unset Strict Implicit.
Open Scope R_scope.

(** [x] is the whole number [z] *)
Definition wh (x : f64) (z : Z) : Prop := fin x /\ fv x = IZR z.
Definition zsum (l : list Z) : Z := fold_right Z.add 0%Z l.
Definition zabs_sum (l : list Z) : Z := zsum (map Z.abs l).
(** what is assumed of a sum and of a rolling sum: exact on whole numbers, as long as no sum can leave the 53 bits *)
Definition whole_sum (gsum : list f64 -> f64) : Prop := forall l zs, Forall2 wh l zs -> (zabs_sum zs <= 2 ^ 53)%Z -> wh (gsum l) (zsum zs).
Definition whole_roll (roll : nat -> list f64 -> list (option f64)) : Prop := forall n l zs, (1 <= n)%nat -> Forall2 wh l zs -> (zabs_sum zs <= 2 ^ 53)%Z ->
  length (roll n l) = length l /\
  forall t, (t < length l)%nat ->
    ((S t < n)%nat -> nth_error (roll n l) t = Some None) /\
    ((n <= S t)%nat -> exists x, nth_error (roll n l) t = Some (Some x) /\ wh x (zsum (firstn n (skipn (S t - n) zs)))).

Lemma zsum_cons z l : zsum (z :: l) = (z + zsum l)%Z. Proof. reflexivity. Qed.
Lemma zsum_app a b : zsum (a ++ b) = (zsum a + zsum b)%Z.
Proof. induction a as [|x a IH]; [reflexivity|]. cbn [app]. rewrite !zsum_cons, IH. lia. Qed.
Lemma zabs_app a b : zabs_sum (a ++ b) = (zabs_sum a + zabs_sum b)%Z.
Proof. unfold zabs_sum. rewrite map_app. apply zsum_app. Qed.
Lemma zabs_cons z l : zabs_sum (z :: l) = (Z.abs z + zabs_sum l)%Z. Proof. reflexivity. Qed.
Lemma zsum_abs l : (Z.abs (zsum l) <= zabs_sum l)%Z.
Proof. induction l as [|z l IH]; [cbn; lia|]. rewrite zabs_cons, zsum_cons. lia. Qed.
Lemma zabs_window l a n : (zabs_sum (firstn n (skipn a l)) <= zabs_sum l)%Z.
Proof.
  assert (P : forall u, (0 <= zabs_sum u)%Z) by (intro u; pose proof (@zsum_abs u); lia). pose proof (firstn_skipn a l) as E1. pose proof (firstn_skipn n (skipn a l)) as E2. apply (f_equal zabs_sum) in E1, E2. rewrite zabs_app in E1, E2.
  pose proof (P (firstn a l)). pose proof (P (skipn n (skipn a l))). lia.
Qed.
Lemma wh_add x y a b : wh x a -> wh y b -> (Z.abs (a + b) <= 2 ^ 53)%Z -> wh (fadd x y) (a + b).
Proof. intros [F V] [F' V'] B. destruct (@fadd_spec x y F F') as [G W]; [rewrite V, V', <- plus_IZR; apply big_ge; lia|]. split; auto. now rewrite W, V, V', <- plus_IZR, rnd64_int. Qed.
Lemma wh_sub x y a b : wh x a -> wh y b -> (Z.abs (a - b) <= 2 ^ 53)%Z -> wh (fsub x y) (a - b).
Proof. intros [F V] [F' V'] B. destruct (@fsub_spec x y F F') as [G W]; [rewrite V, V', <- minus_IZR; apply big_ge; lia|]. split; auto. now rewrite W, V, V', <- minus_IZR, rnd64_int. Qed.
Lemma wh_mul x y a b : wh x a -> wh y b -> (Z.abs (a * b) <= 2 ^ 53)%Z -> wh (fmul x y) (a * b).
Proof. intros [F V] [F' V'] B. destruct (@fmul_spec x y F F') as [G W]; [rewrite V, V', <- mult_IZR; apply big_ge; lia|]. split; auto. now rewrite W, V, V', <- mult_IZR, rnd64_int. Qed.
Lemma wh_z z : (Z.abs z <= 2 ^ 53)%Z -> wh (fz z) z.
Proof. intro B. now apply fz_spec. Qed.
Lemma wh_opp x a : wh x a -> wh (Bopp x) (- a).
Proof. intros [F V]. destruct (fopp_spec F) as [G W]. split; auto. unfold fopp in W. rewrite W, V, opp_IZR. reflexivity. Qed.

(** ** pandas' sums meet the assumptions *)
Lemma kahan_step_whole s c v a z : wh s a -> wh c 0 -> wh v z -> (Z.abs z <= 2 ^ 53)%Z -> (Z.abs (a + z) <= 2 ^ 53)%Z -> wh (fst (kahan_step (s, c) v)) (a + z) /\ wh (snd (kahan_step (s, c) v)) 0.
Proof.
  intros S C V B1 B2. unfold kahan_step. cbn [fst snd]. assert (Y : wh (fsub v c) z) by (replace z with (z - 0)%Z by lia; apply wh_sub; auto; lia).
  pose proof (wh_add S Y B2) as T. split; auto. pose proof (@wh_sub _ _ _ _ T S) as D. replace (a + z - a)%Z with z in D by lia. specialize (D B1).
  pose proof (@wh_sub _ _ _ _ D Y) as E. replace (z - z)%Z with 0%Z in E by lia. apply E. lia.
Qed.
Theorem c183_group_sum : whole_sum kahan_sum.
Proof.
  assert (G : forall l zs, Forall2 wh l zs -> forall s c a, wh s a -> wh c 0 -> (Z.abs a + zabs_sum zs <= 2 ^ 53)%Z -> wh (fst (fold_left kahan_step l (s, c))) (a + zsum zs)).
  { induction 1 as [|x z l zs W F IH]; intros s c a S C B; cbn [fold_left].
    - cbn [fst zsum fold_right]. now rewrite Z.add_0_r.
    - rewrite zabs_cons in B. assert (0 <= zabs_sum zs)%Z by (pose proof (@zsum_abs zs); lia). destruct (@kahan_step_whole s c x a z S C W) as [S' C']; [lia|lia|].
      rewrite (surjective_pairing (kahan_step (s, c) x)). rewrite zsum_cons, Z.add_assoc. apply IH; auto. lia. }
  intros l zs F B. unfold kahan_sum. replace (zsum zs) with (0 + zsum zs)%Z by lia. apply G; auto; try (apply wh_z; lia).
Qed.
Lemma skipn_app_len {A} (a b : list A) : skipn (length a) (a ++ b) = b.
Proof. induction a; cbn; auto. Qed.
Lemma firstn_app_len {A} (a b : list A) : firstn (length a) (a ++ b) = a.
Proof. induction a; cbn; [reflexivity|]. now f_equal. Qed.
Theorem c183_rolling_sum : whole_roll kahan_roll.
Proof.
  intros n l zs Hn F B. unfold kahan_roll.
  assert (G : forall rest zrest, Forall2 wh rest zrest -> forall done w lw k s ca cr, zs = done ++ w ++ zrest -> Forall2 wh lw w -> k = length w -> (k <= n)%nat -> ((k < n)%nat -> done = []) -> wh s (zsum w) -> wh ca 0 -> wh cr 0 ->
     length (kahan_roll_from n k s ca cr (lw ++ rest) rest) = length rest /\
     forall i, (i < length rest)%nat -> let t := (length done + length w + i)%nat in
       ((S t < n)%nat -> nth_error (kahan_roll_from n k s ca cr (lw ++ rest) rest) i = Some None) /\
       ((n <= S t)%nat -> exists x, nth_error (kahan_roll_from n k s ca cr (lw ++ rest) rest) i = Some (Some x) /\ wh x (zsum (firstn n (skipn (S t - n) zs))))).
  { induction 1 as [|v z rest zrest W FR IH]; intros done w lw k s ca cr EZ FW EK KN KD HS CA CR.
    - split; [reflexivity|]. cbn. lia.
    - assert (BW : (zabs_sum done + (zabs_sum w + (Z.abs z + zabs_sum zrest)) <= 2 ^ 53)%Z) by (rewrite EZ, !zabs_app, zabs_cons in B; lia).
      assert (P : forall u, (0 <= zabs_sum u)%Z) by (intro u; pose proof (@zsum_abs u); lia). pose proof (P done) as P1. pose proof (P w) as P2. pose proof (P zrest) as P3.
      assert (Q : exists s1 cr1 k1 d1 w1 lw1, kahan_remove n k s cr (lw ++ v :: rest) = (s1, cr1, k1, lw1 ++ v :: rest)
        /\ done ++ w = d1 ++ w1 /\ Forall2 wh lw1 w1 /\ k1 = length w1 /\ (S k1 <= n)%nat /\ ((S k1 < n)%nat -> d1 = []) /\ wh s1 (zsum w1) /\ wh cr1 0).
      { unfold kahan_remove. destruct (k <? n)%nat eqn:E.
        - apply Nat.ltb_lt in E. exists s, cr, k, done, w, lw. repeat (split; auto). 
        - apply Nat.ltb_ge in E. destruct FW as [|o zo lw w Wo FW]; [cbn in EK; lia|]. cbn [app]. rewrite zabs_cons in BW. pose proof (P w) as P4.
          destruct (@kahan_step_whole s cr (Bopp o) (zsum (zo :: w)) (- zo)) as [S9 C9]; auto; [now apply wh_opp|lia|rewrite zsum_cons; pose proof (@zsum_abs w); lia|].
          cbn [length] in EK. exists (fst (kahan_step (s, cr) (Bopp o))), (snd (kahan_step (s, cr) (Bopp o))), (Nat.pred k), (done ++ [zo]), w, lw. split; [reflexivity|]. split; [now rewrite <- app_assoc|]. split; auto. split; [lia|]. split; [lia|]. split; [lia|]. split; auto.
          rewrite zsum_cons in S9. replace (zo + zsum w + - zo)%Z with (zsum w) in S9 by lia. exact S9. }
      destruct Q as (s1 & cr1 & k1 & d1 & w1 & lw1 & EQ & ED & FW1 & K1 & N1 & D1 & S1 & C1).
      cbn [kahan_roll_from]. rewrite EQ.
      assert (BW1 : (zabs_sum d1 + zabs_sum w1 = zabs_sum done + zabs_sum w)%Z) by (rewrite <- !zabs_app; now rewrite ED). pose proof (P d1) as P5. pose proof (@zsum_abs w1) as P6.
      destruct (@kahan_step_whole s1 ca v (zsum w1) z) as [S2 C2]; auto; [lia|lia|]. set (st := kahan_step (s1, ca) v) in *. clearbody st.
      assert (LD : (length done + length w = length d1 + k1)%nat) by (rewrite K1, <- !app_length; now rewrite ED).
      assert (EZ' : zs = d1 ++ (w1 ++ [z]) ++ zrest) by (rewrite EZ, app_assoc, ED, <- !app_assoc; reflexivity).
      destruct (IH d1 (w1 ++ [z]) (lw1 ++ [v]) (S k1) (fst st) (snd st) cr1) as [L H]; auto.
      + apply Forall2_app; auto.
      + rewrite app_length. cbn. lia.
      + rewrite zsum_app. cbn [zsum fold_right]. now rewrite Z.add_0_r.
      + replace ((lw1 ++ [v]) ++ rest) with (lw1 ++ v :: rest) in L, H by now rewrite <- app_assoc.
        split; [cbn [length]; now rewrite L|]. intros [|i] Hi; cbn zeta; cbn [nth_error].
        * rewrite Nat.add_0_r, LD. split; intro T.
          { destruct (S k1 <? n)%nat eqn:E; auto. apply Nat.ltb_ge in E. lia. }
          assert (E : (S k1 <? n)%nat = false). { apply Nat.ltb_ge. destruct (Nat.lt_ge_cases (S k1) n) as [H1|H1]; auto. rewrite (D1 H1) in T. cbn in T. lia. }
          rewrite E. apply Nat.ltb_ge in E. exists (fst st). split; auto. assert (EN : n = S k1) by lia. replace (S (length d1 + k1) - n)%nat with (length d1) by lia.
          rewrite EZ', skipn_app_len. replace n with (length (w1 ++ [z])) by (rewrite app_length; cbn; lia). rewrite firstn_app_len, zsum_app. cbn [zsum fold_right]. now rewrite Z.add_0_r.
        * cbn [length] in Hi. specialize (H i ltac:(lia)). cbn zeta in H. rewrite app_length in H. cbn [length] in H. replace (length done + length w + S i)%nat with (length d1 + (length w1 + 1) + i)%nat by lia. exact H. }
  assert (Z0 : wh (fz 0) 0) by (apply wh_z; lia). destruct (G l zs F [] [] [] 0%nat (fz 0) (fz 0) (fz 0)) as [L H]; auto; try lia.
Qed.

(** ** the net volumes *)
Lemma tick_net_whole v b vz q : wh v vz -> (Z.abs vz <= 2 ^ 53)%Z -> whole_value 1 b q -> exists z, wh (ftick_net v b) z /\ tick_net (qz vz) q = qz z /\ (Z.abs z <= Z.abs vz)%Z.
Proof.
  intros V B (d & Fb & Vb & -> & D). destruct (@wh_z 0) as [F0 V0]; [lia|]. destruct (@wh_z 1) as [F1 V1]; [lia|]. destruct (@wh_z (-1)) as [Fm Vm]; [lia|].
  assert (E : forall c, fin (fz c) -> fv (fz c) = IZR c -> feq b (fz c) = Z.eqb d c).
  { intros c Fc Vc. pose proof (feq_spec Fb Fc) as H. rewrite Vb, Vc in H. destruct (Z.eqb_spec d c) as [->|N]; [now apply H|]. destruct (feq b (fz c)); auto. exfalso. apply N. apply eq_IZR. now apply H. }
  assert (K : forall c : bool, wh (fmul v (fbool c)) (vz * if c then 1 else 0)). { intro c. apply wh_mul; auto; [destruct c; apply wh_z; lia|destruct c; lia]. }
  unfold ftick_net, tick_net. rewrite (E 1%Z F1 V1), (E (-1)%Z Fm Vm). exists (vz * (if Z.eqb d 1 then 1 else 0) - vz * (if Z.eqb d (-1) then 1 else 0))%Z.
  assert (C : d = (-1)%Z \/ d = 0%Z \/ d = 1%Z) by lia. split; [apply wh_sub; auto; destruct C as [->|[->| ->]]; cbn [Z.eqb Pos.eqb]; lia|]. split; [|destruct C as [->|[->| ->]]; cbn [Z.eqb Pos.eqb]; lia].
  rewrite qz_sub, !qz_mul. destruct C as [->|[->| ->]]; cbn [Z.eqb Pos.eqb].
  - change (qeq (qz (-1)) 1) with false. change (qeq (qz (-1)) (-1)%Qc) with true. cbv iota. change (qz 0) with 0%Qc. change (qz 1) with 1%Qc. ring.
  - change (qeq (qz 0) 1) with false. change (qeq (qz 0) (-1)%Qc) with false. cbv iota. change (qz 0) with 0%Qc. ring.
  - change (qeq (qz 1) 1) with true. change (qeq (qz 1) (-1)%Qc) with false. cbv iota. change (qz 0) with 0%Qc. change (qz 1) with 1%Qc. ring.
Qed.
Lemma nets_whole fvs vzs : Forall2 wh fvs vzs -> (zabs_sum vzs <= 2 ^ 53)%Z -> forall bs qs, Forall2 (whole_value 1) bs qs ->
  exists zs, Forall2 wh (zip_with ftick_net fvs bs) zs /\ zip_with tick_net (map qz vzs) qs = map qz zs /\ (zabs_sum zs <= zabs_sum vzs)%Z.
Proof.
  assert (P : forall u, (0 <= zabs_sum u)%Z) by (intro u; pose proof (@zsum_abs u); lia).
  induction 1 as [|v z fvs vzs W F IH]; intros B bs qs H.
  - exists []. destruct H; cbn [zip_with map]; (split; [constructor|split; [reflexivity|lia]]).
  - rewrite zabs_cons in B. pose proof (P vzs). destruct H as [|b q bs qs Hb H]; cbn [zip_with map].
    + exists []. split; [constructor|]. split; [reflexivity|]. apply P.
    + destruct (IH ltac:(lia) bs qs H) as (zs & A1 & A2 & A3). destruct (@tick_net_whole v b z q) as (y & B1 & B2 & B3); auto; [lia|]. exists (y :: zs). split; [now constructor|]. split; [change (tick_net (qz z) q :: zip_with tick_net (map qz vzs) qs = qz y :: map qz zs); now rewrite A2, B2|]. rewrite !zabs_cons. lia.
Qed.
Section Groups.
Variables A B : Type.
Lemma groupby_rel (rel : A -> B -> Prop) ra rb : Forall2 (fun x y => fst x = fst y /\ rel (snd x) (snd y)) ra rb -> Forall2 (fun g h => fst g = fst h /\ Forall2 rel (snd g) (snd h)) (groupby ra) (groupby rb).
Proof.
  intro F. unfold groupby. assert (G : forall ga gb, Forall2 (fun g h => fst g = fst h /\ Forall2 rel (snd g) (snd h)) ga gb ->
    Forall2 (fun g h => fst g = fst h /\ Forall2 rel (snd g) (snd h)) (fold_left (fun g kr => group_insert (fst kr) (snd kr) g) ra ga) (fold_left (fun g kr => group_insert (fst kr) (snd kr) g) rb gb)).
  { induction F as [|[k a] [k' b] ra rb [E R] F IH]; intros ga gb H; cbn [fold_left]; auto. apply IH. cbn [fst snd] in *. subst k'. clear IH F.
    induction H as [|[j la] [j' lb] ga gb [E L] H IH]; cbn [group_insert].
    - constructor; [|constructor]. split; [reflexivity|]. cbn [snd]. now constructor.
    - cbn [fst snd] in *. subst j'. destruct (k <? j)%Z; [constructor; [split; [reflexivity|]; cbn [snd]; now constructor|constructor; auto]|]. destruct (k =? j)%Z; constructor; auto. split; auto. cbn [snd]. apply Forall2_app; auto. }
  apply G. constructor.
Qed.
End Groups.
Lemma groupby_map {A B} (f : A -> B) ra : groupby (map (fun x => (fst x, f (snd x))) ra) = map (fun g => (fst g, map f (snd g))) (groupby ra).
Proof.
  unfold groupby. assert (G : forall ga : list (Z * list A), fold_left (fun g kr => group_insert (fst kr) (snd kr) g) (map (fun x => (fst x, f (snd x))) ra) (map (fun g => (fst g, map f (snd g))) ga) = map (fun g => (fst g, map f (snd g))) (fold_left (fun g kr => group_insert (fst kr) (snd kr) g) ra ga)).
  { induction ra as [|[k a] ra IH]; intro ga; cbn [map fold_left fst snd]; auto. rewrite <- IH. f_equal. clear IH. induction ga as [|[j l] ga IH]; cbn [map group_insert fst snd]; auto.
    destruct (k <? j)%Z; auto. destruct (k =? j)%Z; cbn [map fst snd]; [now rewrite map_app|now rewrite IH]. }
  exact (G []).
Qed.
Lemma groupby_total ra : zsum (map (fun g => zabs_sum (snd g)) (groupby ra)) = zabs_sum (map snd ra).
Proof.
  unfold groupby. assert (I : forall k z ga, zsum (map (fun g : Z * list Z => zabs_sum (snd g)) (group_insert k z ga)) = (Z.abs z + zsum (map (fun g : Z * list Z => zabs_sum (snd g)) ga))%Z).
  { intros k z. induction ga as [|[j l] ga IH]; cbn [group_insert map snd]; [rewrite zsum_cons, zabs_cons; unfold zabs_sum; cbn; lia|]. destruct (k <? j)%Z; [cbn [map snd]; rewrite !zsum_cons, zabs_cons; change (zabs_sum []) with 0%Z; lia|]. destruct (k =? j)%Z; cbn [map snd]; rewrite !zsum_cons; [rewrite zabs_app, zabs_cons; change (zabs_sum []) with 0%Z; lia|rewrite IH; lia]. }
  assert (G : forall ga, zsum (map (fun g : Z * list Z => zabs_sum (snd g)) (fold_left (fun g kr => group_insert (fst kr) (snd kr) g) ra ga)) = (zsum (map (fun g : Z * list Z => zabs_sum (snd g)) ga) + zabs_sum (map snd ra))%Z).
  { induction ra as [|[k z] ra IH]; intro ga; cbn [fold_left map fst snd]; [cbn; lia|]. rewrite IH, I, zabs_cons. lia. }
  rewrite G. reflexivity.
Qed.
Lemma combine_rel {A B} (rel : A -> B -> Prop) la lb : Forall2 rel la lb -> forall ids : list Z, Forall2 (fun x y => fst x = fst y /\ rel (snd x) (snd y)) (combine ids la) (combine ids lb).
Proof. induction 1; intros [|i ids]; cbn [combine]; constructor; auto. Qed.
Lemma combine_map_snd {A B} (f : A -> B) (ids : list Z) la : combine ids (map f la) = map (fun x => (fst x, f (snd x))) (combine ids la).
Proof. revert la. induction ids as [|i ids IH]; intros [|a la]; cbn; auto. now rewrite IH. Qed.
Lemma zabs_combine (ids : list Z) zs : (zabs_sum (map snd (combine ids zs)) <= zabs_sum zs)%Z.
Proof.
  assert (P : forall u, (0 <= zabs_sum u)%Z) by (intro u; pose proof (@zsum_abs u); lia).
  revert zs. induction ids as [|i ids IH]; intros [|z zs]; cbn [combine map snd]; try (apply P). rewrite !zabs_cons. specialize (IH zs). lia.
Qed.
Lemma qsum_qz zs : qsum (map qz zs) = qz (zsum zs).
Proof. induction zs as [|z zs IH]; [reflexivity|]. rewrite zsum_cons, qz_add, <- IH. reflexivity. Qed.
Definition same_ticks (fticks : list ftick) (ticks : list tick) (vzs : list Z) : Prop :=
  Forall2 (fun f t => same_price (ft_price f) (t_price t)) fticks ticks /\ Forall2 wh (map ft_vol fticks) vzs /\ map t_vol ticks = map qz vzs.
(** the net volume of every bar is exact *)
Lemma net_same gsum ids fticks ticks vzs b0 z : whole_sum gsum -> same_ticks fticks ticks vzs -> (zabs_sum vzs <= 2 ^ 53)%Z -> whole_value 1 b0 (qz z) ->
  exists nz, map fst (fnet_volumes gsum ids fticks b0) = map fst (net_volumes ids ticks (qz z)) /\ Forall2 wh (map snd (fnet_volumes gsum ids fticks b0)) nz /\ map snd (net_volumes ids ticks (qz z)) = map qz nz /\ (zabs_sum nz <= 2 ^ 53)%Z.
Proof.
  intros GS (SP & SV & EV) B HB. assert (TR : Forall2 (whole_value 1) (ftick_rule (map ft_price fticks) b0) (tick_rule (map t_price ticks) (qz z))).
  { apply tick_rule_same; auto. clear - SP. induction SP; cbn [map]; constructor; auto. }
  destruct (nets_whole SV B TR) as (zs & W & E & BZ). unfold fnet_volumes, net_volumes. rewrite EV, E. clear E TR SP SV EV.
  pose proof (groupby_rel (combine_rel W ids)) as G. rewrite combine_map_snd, groupby_map. set (gf := groupby (combine ids (zip_with ftick_net (map ft_vol fticks) (ftick_rule (map ft_price fticks) b0)))) in *. clearbody gf.
  pose proof (groupby_total (combine ids zs)) as T. set (gz := groupby (combine ids zs)) in *. clearbody gz. assert (BT : (zsum (map (fun g => zabs_sum (snd g)) gz) <= 2 ^ 53)%Z) by (rewrite T; pose proof (@zabs_combine ids zs); lia). clear T W.
  assert (P : forall u, (0 <= zabs_sum u)%Z) by (intro u; pose proof (@zsum_abs u); lia).
  exists (map (fun g => zsum (snd g)) gz). rewrite !map_map. cbn [fst snd].
  assert (PZ : forall g : list (Z * list Z), (0 <= zsum (map (fun g => zabs_sum (snd g)) g))%Z). { induction g as [|x g IH]; [cbn; lia|]. cbn [map]. rewrite zsum_cons. pose proof (P (snd x)). lia. }
  induction G as [|[k lf] [k' lz] gf gz [E R] G IH]; cbn [map fst snd] in *.
  - split; [reflexivity|]. split; [constructor|]. split; [reflexivity|]. cbn. lia.
  - rewrite zsum_cons in BT. pose proof (PZ gz). pose proof (P lz). destruct IH as (I1 & I2 & I3 & I4); [lia|]. split; [now rewrite I1, E|]. split; [constructor; auto; apply GS; auto; lia|]. split; [now rewrite I3, qsum_qz|].
    rewrite zabs_cons. clear I4. assert (zabs_sum (map (fun g => zsum (snd g)) gz) <= zsum (map (fun g => zabs_sum (snd g)) gz))%Z.
    { clear. induction gz as [|x gz IH]; [cbn; lia|]. cbn [map]. rewrite zabs_cons, zsum_cons. pose proof (@zsum_abs (snd x)). lia. } pose proof (@zsum_abs lz). lia.
Qed.

(** ** VPIN *)
(** the float result is the exact one, rounded once; both are missing together *)
Definition rounded (f : option f64) (q : option Qc) : Prop := match f, q with None, None => True | Some x, Some q => fin x /\ fv x = rnd64 (qr q) | _, _ => False end.
Theorem c183_vpin gsum roll ids fticks ticks vzs V v n b0 z : whole_sum gsum -> whole_roll roll -> same_ticks fticks ticks vzs -> (zabs_sum vzs <= 2 ^ 53)%Z -> whole_value 1 b0 (qz z) ->
  wh V v -> (0 < v)%Z -> (1 <= n)%nat -> (Z.of_nat n * v <= 2 ^ 53)%Z ->
  Forall2 (fun f q => fst f = fst q /\ rounded (snd f) (snd q)) (fvpin gsum roll ids fticks V n b0) (vpin ids ticks (qz v) n (qz z)).
Proof.
  intros GS RS ST B HB HV Hv Hn HN. destruct (@net_same gsum ids fticks ticks vzs b0 z GS ST B HB) as (nz & E1 & W & E2 & BN). unfold fvpin, vpin. cbn zeta. rewrite E1, E2.
  destruct (RS n _ _ Hn W BN) as [LR HR]. set (ks := map fst (net_volumes ids ticks (qz z))). clearbody ks. set (ns := map snd (fnet_volumes gsum ids fticks b0)) in *. clearbody ns. clear E1 E2.
  pose proof (Forall2_length W) as LW. set (r := roll n ns) in *. clearbody r.
  apply combine_rel. unfold rolling_sum. rewrite map_length, map_map.
  assert (D : wh (fmul (fz (Z.of_nat n)) V) (Z.of_nat n * v)) by (apply wh_mul; auto; [apply wh_z; nia|nia]). destruct D as [Fd Vd]. assert (PD : 0 < IZR (Z.of_nat n * v)) by (apply IZR_lt; nia).
  assert (QD : (qn n * qz v)%Qc = qz (Z.of_nat n * v)) by (rewrite qz_mul; reflexivity).
  assert (ND : qz (Z.of_nat n * v) <> 0%Qc) by (intro C; apply (qz_inj _ 0) in C; nia).
  assert (N : forall t, (t < length ns)%nat -> exists f, nth_error r t = Some f /\ rounded (option_map (fun s => fdiv (fabs s) (fmul (fz (Z.of_nat n)) V)) f) (match (if (S t <? n)%nat then None else Some (qsum (firstn n (skipn (S t - n) (map qz nz))))) with None => None | Some s => np_div (qabs s) (qn n * qz v)%Qc end)).
  { intros t Ht. destruct (HR t Ht) as [A1 A2]. destruct (S t <? n)%nat eqn:E.
    - apply Nat.ltb_lt in E. exists None. split; auto. exact I.
    - apply Nat.ltb_ge in E. destruct (A2 E) as (x & Ex & Fx & Vx). exists (Some x). split; auto. cbn [option_map]. rewrite skipn_map, firstn_map, qsum_qz, QD. unfold np_div. destruct (qeq (qz (Z.of_nat n * v)) 0) eqn:E0; [apply qeq_iff in E0; contradiction|].
      set (s := zsum (firstn n (skipn (S t - n) nz))) in *. assert (BS : (Z.abs s <= 2 ^ 53)%Z).
      { unfold s. apply Z.le_trans with (1 := @zsum_abs _). apply Z.le_trans with (2 := BN). apply zabs_window. }
      clearbody s. cbn [rounded]. destruct (fabs_spec Fx) as [Fa Va]. assert (QQ : qr (qabs (qz s) / qz (Z.of_nat n * v))%Qc = Rabs (IZR s) / IZR (Z.of_nat n * v)) by (rewrite qr_div, qr_abs, !qr_z; auto).
      destruct (@fdiv_spec (fabs x) (fmul (fz (Z.of_nat n)) V) Fa) as [Fq Vq]; [rewrite Vd; lra| |split; auto; now rewrite Vq, Va, Vd, Vx, QQ].
      rewrite Va, Vd, Vx, <- abs_IZR. assert (1 <= IZR (Z.of_nat n * v)) by (apply IZR_le; nia). rewrite Rabs_pos_eq by (apply Rle_mult_inv_pos; auto; apply IZR_le; lia).
      apply Rle_trans with (IZR (Z.abs s)); [|rewrite <- (Rabs_pos_eq (IZR (Z.abs s))) by (apply IZR_le; lia); apply big_ge; lia]. apply Rmult_le_reg_r with (IZR (Z.of_nat n * v)); auto. unfold Rdiv. rewrite Rmult_assoc, Rinv_l, Rmult_1_r by lra. assert (0 <= IZR (Z.abs s)) by (apply IZR_le; lia). nra. }
  clear HR W. rewrite <- LW. set (g := fun t : nat => match (if (S t <? n)%nat then None else Some (qsum (firstn n (skipn (S t - n) (map qz nz))))) with None => None | Some s => np_div (qabs s) (qn n * qz v)%Qc end).
  assert (N' : forall t, (t < length ns)%nat -> exists f, nth_error r t = Some f /\ rounded (option_map (fun s => fdiv (fabs s) (fmul (fz (Z.of_nat n)) V)) f) (g t)) by exact N. clearbody g. clear N. rename N' into N. rewrite <- LR in *. clear - N.
  assert (G : forall r k, (forall t, (t < length r)%nat -> exists f, nth_error r t = Some f /\ rounded (option_map (fun s => fdiv (fabs s) (fmul (fz (Z.of_nat n)) V)) f) (g (k + t)%nat)) -> Forall2 rounded (map (option_map (fun s => fdiv (fabs s) (fmul (fz (Z.of_nat n)) V))) r) (map g (seq k (length r)))).
  { clear. induction r as [|x r IH]; intros k H; [constructor|]. cbn [map length seq]. constructor.
    - destruct (H 0%nat) as (f & [= <-] & R); [cbn; lia|]. now rewrite Nat.add_0_r in R.
    - apply IH. intros t Ht. destruct (H (S t)) as (f & E & R); [cbn; lia|]. exists f. split; auto. now rewrite Nat.add_succ_r in R. }
  apply G. intros t Ht. apply N. exact Ht.
Qed.
(** with no bar above [volume_per_bar] the float VPIN is a fraction: never negative, never above one *)
Theorem c183_fraction gsum roll ids fticks ticks vzs V v n b0 z k x : whole_sum gsum -> whole_roll roll -> same_ticks fticks ticks vzs -> (zabs_sum vzs <= 2 ^ 53)%Z -> whole_value 1 b0 (qz z) ->
  wh V v -> (0 < v)%Z -> (1 <= n)%nat -> (Z.of_nat n * v <= 2 ^ 53)%Z -> (forall w, In w vzs -> (0 <= w)%Z) -> (forall j, In j ids -> (bar_volume ids ticks j <= qz v)%Qc) ->
  In (k, Some x) (fvpin gsum roll ids fticks V n b0) -> fin x /\ 0 <= fv x <= 1.
Proof.
  intros GS RS ST B HB HV Hv Hn HN Pos Bar H. pose proof (@c183_vpin gsum roll ids fticks ticks vzs V v n b0 z GS RS ST B HB HV Hv Hn HN) as F.
  assert (E : exists q, In (k, Some q) (vpin ids ticks (qz v) n (qz z)) /\ fin x /\ fv x = rnd64 (qr q)).
  { clear - F H. induction F as [|f q lf lq [E R] F IH]; [destruct H|]. destruct H as [->|H].
    - cbn [fst snd] in E, R. destruct q as [k' [q|]]; cbn [fst snd] in E, R; [|destruct R]. subst k'. exists q. split; [now left|exact R].
    - destruct (IH H) as (q' & A & C). exists q'. split; [now right|exact C]. }
  destruct E as (q & Hq & Fx & Vx). destruct ST as (_ & _ & EV). destruct (@c82_under_guard ids ticks (qz v) n (qz z) k q Hn) as [Q0 Q1]; auto.
  - now apply (proj2 (qz_lt 0 v)).
  - intros t Ht. apply (in_map t_vol) in Ht. rewrite EV in Ht. apply in_map_iff in Ht. destruct Ht as (w & <- & Hw). apply (proj2 (qz_le 0 w)). auto.
  - split; auto. apply qr_le in Q0, Q1. rewrite qr_0 in Q0. rewrite qr_1 in Q1. rewrite Vx. split; [rewrite <- rnd64_0|rewrite <- rnd64_1]; now apply rnd64_mono.
Qed.
(** REFUTED beyond whole volumes: tenths of a lot in bars of one tick; the last two bars are a purchase and a sale of the same volume, and VPIN over these two bars is not zero *)
Definition tenths : list ftick := [FTick (fz 3) (fdiv (fz 3) (fz 10)); FTick (fz 2) (fdiv (fz 5) (fz 10)); FTick (fz 3) (fdiv (fz 1) (fz 10)); FTick (fz 2) (fdiv (fz 1) (fz 10))].
Theorem c183_balanced_refuted : exists ids fticks V b0 p s x, nth_error (fnet_volumes kahan_sum ids fticks b0) 2 = Some (2%Z, p) /\ nth_error (fnet_volumes kahan_sum ids fticks b0) 3 = Some (3%Z, s) /\ fin p /\ fin s /\ fv p + fv s = 0 /\ fv V = 1 /\
  nth_error (fvpin kahan_sum kahan_roll ids fticks V 2 b0) 3 = Some (3%Z, Some x) /\ fin x /\ 0 < fv x.
Proof.
  exists [0; 1; 2; 3]%Z, tenths, (fz 1), (fz (-1)).
  assert (H : match nth_error (fnet_volumes kahan_sum [0; 1; 2; 3]%Z tenths (fz (-1))) 2, nth_error (fnet_volumes kahan_sum [0; 1; 2; 3]%Z tenths (fz (-1))) 3, nth_error (fvpin kahan_sum kahan_roll [0; 1; 2; 3]%Z tenths (fz 1) 2 (fz (-1))) 3 with
    | Some (i, p), Some (j, s), Some (k, Some x) => Z.eqb i 2 && Z.eqb j 3 && Z.eqb k 3 && is_finite p && is_finite s && is_finite x && feq p (fopp s) && flt (fz 0) x | _, _, _ => false end = true) by (vm_compute; reflexivity).
  destruct (nth_error (fnet_volumes _ _ _ _) 2) as [[i p]|]; [|discriminate]. destruct (nth_error (fnet_volumes _ _ _ _) 3) as [[j s]|]; [|discriminate]. destruct (nth_error (fvpin _ _ _ _ _ _ _) 3) as [[k [x|]]|]; try discriminate.
  repeat (apply andb_prop in H; destruct H as [H ?]). apply Z.eqb_eq in H. subst i. match goal with E : (j =? 3)%Z = true |- _ => apply Z.eqb_eq in E; subst j end. match goal with E : (k =? 3)%Z = true |- _ => apply Z.eqb_eq in E; subst k end.
  exists p, s, x. split; auto. split; auto. split; auto. split; auto. destruct (@wh_z 0) as [F0 V0]; [lia|]. assert (Fs : fin s) by auto. assert (Fp : fin p) by auto. assert (Fx : fin x) by auto. destruct (fopp_spec Fs) as [Fo Vo].
  split; [|split; [apply (@wh_z 1); lia|split; auto; split; auto]].
  - match goal with E : feq _ _ = true |- _ => apply (feq_spec Fp Fo) in E; rewrite E, Vo; lra end.
  - match goal with E : flt _ _ = true |- _ => apply (flt_spec F0 Fx) in E; rewrite V0 in E; exact E end.
Qed.

(** the hypotheses are met by a series of six ticks in three bars, with a purchase and a sale in the second one *)
Definition six_f : list ftick := [FTick (fz 10) (fz 3); FTick (fz 11) (fz 4); FTick (fz 12) (fz 5); FTick (fz 11) (fz 2); FTick (fz 10) (fz 1); FTick (fz 10) (fz 6)].
Definition six : list tick := [Tick 0 10 3; Tick 1 11 4; Tick 2 12 5; Tick 3 11 2; Tick 4 10 1; Tick 5 10 6]%Qc.
Example c183_example : same_ticks six_f six [3; 4; 5; 2; 1; 6]%Z /\ (zabs_sum [3; 4; 5; 2; 1; 6] <= 2 ^ 53)%Z /\ whole_value 1 (fz 1) (qz 1) /\ wh (fz 7) 7 /\
  vpin [0; 0; 1; 1; 2; 2]%Z six (qz 7) 2 (qz 1) = [(0%Z, None); (1%Z, Some (10 / 14)%Qc); (2%Z, Some (4 / 14)%Qc)] /\ (forall j, In j [0; 0; 1; 1; 2; 2]%Z -> (bar_volume [0; 0; 1; 1; 2; 2]%Z six j <= qz 7)%Qc).
Proof.
  assert (SP : forall z q, (Z.abs z <= 100)%Z -> q = qz z -> same_price (fz z) q).
  { intros z q Hz ->. destruct (@wh_z z) as [F V]; [lia|]. split; auto. rewrite qr_z. split; auto. rewrite V, <- abs_IZR. apply Rle_trans with (IZR 128); [apply IZR_le; lia|]. change 128 with (bpow radix2 7). apply bpow_le. lia. }
  split; [split; [|split]|].
  - unfold six_f, six. do 6 (apply Forall2_cons; [cbn [ft_price t_price]; apply SP; [lia|reflexivity]|]). constructor.
  - cbn [six_f map ft_vol]. do 6 (apply Forall2_cons; [apply wh_z; lia|]). constructor.
  - reflexivity.
  - split; [vm_compute; discriminate|]. split; [exists 1%Z; destruct (@wh_z 1) as [F V]; [lia|]; repeat (split; auto); lia|]. split; [apply wh_z; lia|]. split; [vm_compute; reflexivity|].
    intros j [<-|[<-|[<-|[<-|[<-|[<-|[]]]]]]]; vm_compute; discriminate.
Qed.
(** and the float function, computed: 5/7 and 2/7 rounded *)
Example c183_computed : match fvpin kahan_sum kahan_roll [0; 0; 1; 1; 2; 2]%Z six_f (fz 7) 2 (fz 1) with
  | [(a, None); (b, Some x); (c, Some y)] => Z.eqb a 0 && Z.eqb b 1 && Z.eqb c 2 && feq x (fdiv (fz 5) (fz 7)) && feq y (fdiv (fz 2) (fz 7)) | _ => false end = true.
Proof. vm_compute. reflexivity. Qed.
Print Assumptions c183_group_sum.
Print Assumptions c183_rolling_sum.
Print Assumptions c183_vpin.
Print Assumptions c183_fraction.
Print Assumptions c183_balanced_refuted.
