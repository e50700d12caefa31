(** C84, C108-C110: feature importances and test wrappers.  All theorems use the axioms of the standard real numbers. *)
From Verif Require Import Py RNum ImportanceModel.
Set Implicit Arguments.
Unset Strict Implicit.
Open Scope R_scope.

(** ** C84 Mean decrease impurity *)
(** the trees that use feature j, and its mean importance in these *)
Definition users (trees : list (list R)) (j : nat) : list (list R) := filter (fun t => if Req_EM_T (nth j t 0) 0 then false else true) trees.
Definition mean_use (trees : list (list R)) (j : nat) : R := rmean (map (fun t => nth j t 0) (users trees j)).
Definition used (trees : list (list R)) (k : nat) : list nat := filter (fun j => negb (length (users trees j) =? 0)%nat) (seq 0 k).
Lemma mdi_column_users trees j : mdi_column trees j = map (fun t => nth j t 0) (users trees j).
Proof. unfold mdi_column, users. induction trees as [|t l IH]; cbn [map filter]; auto. unfold nonzero at 1. destruct (Req_EM_T (nth j t 0) 0); cbn [map]; now rewrite IH. Qed.
Definition well_formed (trees : list (list R)) (k : nat) : Prop := trees <> [] /\ (forall t, In t trees -> length t = k /\ forall x, In x t -> 0 <= x).
Lemma mean_use_pos trees k j : well_formed trees k -> (j < k)%nat -> users trees j <> [] -> 0 < mean_use trees j.
Proof.
  intros [_ W] Hj Hu. unfold mean_use. assert (Hne : map (fun t => nth j t 0) (users trees j) <> []) by (destruct (users trees j); [congruence|discriminate]). unfold rmean. apply INR_length_pos in Hne as HL.
  apply Rdiv_lt_0_compat; auto. apply rsum_pos; auto. intros x Hx. apply in_map_iff in Hx. destruct Hx as (t & <- & Ht). apply filter_In in Ht. destruct Ht as [Ht Hn]. destruct (W t Ht) as [L P]. destruct (Req_EM_T (nth j t 0) 0); [discriminate|].
  assert (0 <= nth j t 0) by (apply P, nth_In; lia). lra.
Qed.
Lemma opt_sum_used trees k : opt_sum (map pd_mean (map (mdi_column trees) (seq 0 k))) = rsum (map (mean_use trees) (used trees k)).
Proof.
  unfold opt_sum, used. rewrite !map_map. induction (seq 0 k) as [|j l IH]; cbn [map filter rsum]; auto. rewrite IH, mdi_column_users. destruct (users trees j) as [|u us] eqn:Eu; cbn [map length Nat.eqb negb pd_mean rsum]; [ring|]. unfold mean_use at 2. rewrite Eu. reflexivity.
Qed.
(** a feature used by some tree gets its mean importance in the trees using it as a share of the sum over used features; an unused one NaN *)
Theorem c84_value trees k : well_formed trees k -> exists rows, mdi trees k = Ok rows /\ length rows = k /\
  forall j, (j < k)%nat -> exists sd, nth_error rows j = Some (if (length (users trees j) =? 0)%nat then None else Some (mean_use trees j / rsum (map (mean_use trees) (used trees k))), sd).
Proof.
  intros W. unfold mdi. destruct W as [Hne W]. replace (forallb _ trees) with true by (symmetry; apply forallb_forall; intros t Ht; apply Nat.eqb_eq; now apply W). destruct trees as [|t0 ts] eqn:Et; [congruence|]. rewrite <- Et in *. cbn [negb orb].
  eexists. split; [reflexivity|]. split; [now rewrite !map_length, seq_length|]. intros j Hj. rewrite opt_sum_used. eexists. rewrite map_map, nth_error_map, (nth_error_nth' (seq 0 k) (n := j) 0%nat) by (rewrite seq_length; exact Hj). rewrite seq_nth by exact Hj. cbn [option_map plus]. f_equal. f_equal.
  rewrite mdi_column_users. destruct (users trees j) as [|u us] eqn:Eu; [reflexivity|]. cbn [length Nat.eqb]. unfold pd_mean. cbn [map]. change (nth j u 0 :: map (fun t => nth j t 0) us) with (map (fun t => nth j t 0) (u :: us)). rewrite <- Eu. fold (mean_use trees j).
  unfold divide_by. destruct (Req_EM_T _ 0) as [E0|E0]; auto. exfalso. assert (0 < rsum (map (mean_use trees) (used trees k))); [|lra].
  apply rsum_pos.
  - intros E. assert (Hin : In j (used trees k)) by (apply filter_In; split; [apply in_seq; lia|rewrite Eu; reflexivity]). apply (in_map (mean_use trees)) in Hin. rewrite E in Hin. destruct Hin.
  - intros x Hx. apply in_map_iff in Hx. destruct Hx as (i & <- & Hi). apply filter_In in Hi. destruct Hi as [Hi Hu]. apply in_seq in Hi. apply mean_use_pos with k; [split; auto; subst; discriminate|lia|]. intros E. rewrite E in Hu. discriminate.
Qed.
(** the shares are in (0, 1] and sum to one *)
Theorem c84_normalised trees k rows : well_formed trees k -> mdi trees k = Ok rows -> used trees k <> [] ->
  (forall m sd, In (Some m, sd) rows -> 0 < m <= 1) /\ opt_sum (map fst rows) = 1.
Proof.
  intros W E Hu. destruct (c84_value W) as (rows' & E' & L & A). rewrite E in E'. injection E' as <-. set (S := rsum (map (mean_use trees) (used trees k))) in *.
  assert (Hpos : forall i, In i (used trees k) -> 0 < mean_use trees i).
  { intros i Hi. apply filter_In in Hi. destruct Hi as [Hi Hn]. apply in_seq in Hi. apply mean_use_pos with k; auto; [lia|]. intros E0. rewrite E0 in Hn. discriminate. }
  assert (HS : 0 < S). { apply rsum_pos; [destruct (used trees k); [congruence|discriminate]|]. intros x Hx. apply in_map_iff in Hx. destruct Hx as (i & <- & Hi). auto. }
  split.
  - intros m sd Hin. apply In_nth_error in Hin. destruct Hin as [j Hj]. assert (Hlt : (j < k)%nat) by (rewrite <- L; apply nth_error_Some; congruence). destruct (A j Hlt) as [sd' Ej]. rewrite Hj in Ej. destruct (length (users trees j) =? 0)%nat eqn:Eu; [discriminate|]. injection Ej as -> _.
    assert (Hin : In j (used trees k)) by (apply filter_In; split; [apply in_seq; lia|now rewrite Eu]). assert (Hm : mean_use trees j <= S).
    { apply rsum_ge_elem; [intros y Hy; apply in_map_iff in Hy; destruct Hy as (i & <- & Hi); left; auto|]. now apply in_map. }
    split; [apply Rdiv_lt_0_compat; auto|]. apply Rmult_le_reg_r with S; auto. unfold Rdiv. rewrite Rmult_assoc, Rinv_l by lra. lra.
  - assert (Em : map fst rows = map (fun j => if (length (users trees j) =? 0)%nat then None else Some (mean_use trees j / S)) (seq 0 k)).
    { apply nth_error_ext. intros j. destruct (le_lt_dec k j) as [Hj|Hj]; [rewrite !(proj2 (nth_error_None _ _)); auto; rewrite ?map_length, ?seq_length; lia|]. destruct (A j Hj) as [sd Ej]. rewrite nth_error_map, Ej. rewrite nth_error_map, (nth_error_nth' (seq 0 k) (n := j) 0%nat) by (rewrite seq_length; exact Hj). now rewrite seq_nth. }
    rewrite Em. assert (G : forall l, opt_sum (map (fun j => if (length (users trees j) =? 0)%nat then None else Some (mean_use trees j / S)) l) = rsum (map (mean_use trees) (filter (fun j => negb (length (users trees j) =? 0)%nat) l)) / S).
    { unfold opt_sum. induction l as [|j l IH]; cbn [map filter rsum]; [field; lra|]. rewrite IH. destruct (length (users trees j) =? 0)%nat; cbn [negb map rsum]; field; lra. }
    rewrite G. fold (used trees k). fold S. field. lra.
Qed.
(** the second column: the sample standard deviation (n-1) of the importances over the trees using the feature, missing when fewer than two use it, divided by the square root
    of the number of all trees and by the sum of the means.  Variance stated by the sum of squares. *)
Definition var_use (trees : list (list R)) (j : nat) : R :=
  let xs := map (fun t => nth j t 0) (users trees j) in let n := INR (length xs) in (rsum (map (fun x => x * x) xs) - rsum xs * rsum xs / n) / (n - 1).
Lemma sq_dev_squares l : l <> [] -> sq_dev l = rsum (map (fun x => x * x) l) - rsum l * rsum l / INR (length l).
Proof.
  intros H. apply INR_length_pos in H. unfold sq_dev. set (m := rmean l). rewrite (@rsum_map_ext _ _ (fun x => (x * x + (- (2 * m)) * x) + m * m)) by (intros; ring). rewrite !rsum_map_add, rsum_map_const, rsum_map_scale, map_id. unfold m, rmean. field. lra.
Qed.
Theorem c84_std trees k rows j : well_formed trees k -> mdi trees k = Ok rows -> (j < k)%nat -> exists m, nth_error rows j =
  Some (m, if (length (users trees j) <? 2)%nat then None else Some (sqrt (var_use trees j) / sqrt (INR (length trees)) / rsum (map (mean_use trees) (used trees k)))).
Proof.
  intros W E Hj. assert (W0 := W). unfold mdi in E. destruct W as [Hne W]. replace (forallb _ trees) with true in E by (symmetry; apply forallb_forall; intros t Ht; apply Nat.eqb_eq; now apply W). destruct trees as [|t0 ts] eqn:Et; [congruence|]. rewrite <- Et in *. cbn [negb orb] in E. injection E as <-.
  rewrite opt_sum_used. eexists. rewrite map_map, nth_error_map, (nth_error_nth' (seq 0 k) (n := j) 0%nat) by (rewrite seq_length; exact Hj). rewrite seq_nth by exact Hj. cbn [option_map plus]. f_equal. f_equal.
  unfold pd_std. rewrite mdi_column_users, map_length. destruct (length (users trees j) <? 2)%nat eqn:E2; [reflexivity|]. apply Nat.ltb_ge in E2. cbn [option_map].
  assert (Hu : map (fun t => nth j t 0) (users trees j) <> []) by (destruct (users trees j); [cbn in E2; lia|discriminate]).
  rewrite sq_dev_squares by exact Hu. unfold divide_by. destruct (Req_EM_T _ 0) as [E0|E0]; [exfalso|unfold var_use; cbv zeta; rewrite map_length; reflexivity].
  assert (0 < rsum (map (mean_use trees) (used trees k))); [|lra]. apply rsum_pos.
  - intros En. assert (Hin : In j (used trees k)) by (apply filter_In; split; [apply in_seq; lia|destruct (users trees j); [cbn in E2; lia|reflexivity]]). apply (in_map (mean_use trees)) in Hin. rewrite En in Hin. destruct Hin.
  - intros x Hx. apply in_map_iff in Hx. destruct Hx as (i & <- & Hi). apply filter_In in Hi. destruct Hi as [Hi Hui]. apply in_seq in Hi. apply mean_use_pos with k; [exact W0|lia|]. intros En. rewrite En in Hui. discriminate.
Qed.
(** without trees there are no columns to name *)
Theorem c84_no_trees k : mdi [] k = if (k =? 0)%nat then Ok [] else Err ValueError.
Proof. unfold mdi. cbn. destruct k; reflexivity. Qed.
Theorem c84_wrong_names trees k t : In t trees -> length t <> k -> mdi trees k = Err ValueError.
Proof. intros Ht Hk. unfold mdi. replace (forallb (fun t => length t =? k)%nat trees) with false; [reflexivity|]. symmetry. apply not_true_iff_false. intros F. rewrite forallb_forall in F. apply F in Ht. apply Nat.eqb_eq in Ht. contradiction. Qed.
Theorem c84_unused_forest trees k rows : well_formed trees k -> mdi trees k = Ok rows -> (forall t x, In t trees -> In x t -> x = 0) -> forall j, (j < k)%nat -> exists sd, nth_error rows j = Some (None, sd).
Proof.
  intros W E Hz j Hj. destruct (c84_value W) as (rows' & E' & _ & A). rewrite E in E'. injection E' as <-. destruct (A j Hj) as [sd Ej]. exists sd. rewrite Ej. replace (users trees j) with (@nil (list R)); auto. symmetry. destruct (users trees j) as [|u us] eqn:Eu; auto. exfalso.
  assert (Hu : In u (users trees j)) by (rewrite Eu; now left). apply filter_In in Hu. destruct Hu as [Hu Hn]. destruct W as [_ W]. destruct (W u Hu) as [L _]. rewrite (Hz u (nth j u 0) Hu) in Hn by (apply nth_In; lia). destruct (Req_EM_T 0 0); [discriminate|congruence].
Qed.
Example c84_ex : well_formed [[1/2; 1/2; 0]; [1; 0; 0]] 3 /\ used [[1/2; 1/2; 0]; [1; 0; 0]] 3 <> [].
Proof.
  split; [split; [discriminate|]|].
  - intros t [<-|[<-|[]]]; (split; [reflexivity|]); intros x Hx; cbn in Hx; intuition lra.
  - intros E. assert (H : In 0%nat (used [[1/2; 1/2; 0]; [1; 0; 0]] 3)); [|rewrite E in H; destruct H]. apply filter_In. split; [apply in_seq; lia|]. unfold users. cbn [filter nth]. destruct (Req_EM_T (1 / 2) 0); [lra|]. reflexivity.
Qed.

(** ** C109 Mean decrease accuracy: aggregation *)
(** REFUTED: importances are not always finite.  With the accuracy score (best value 1), one fold where shuffling the feature gives a perfect score while the original
    score is not perfect makes the mean importance minus infinity, whatever the other folds (as long as their scores are at most 1) *)
Lemma fold_neg l : (forall e, In e l -> e = NegInf \/ exists r, e = Fin r) -> forall acc, (acc = NegInf \/ (exists r, acc = Fin r) /\ In NegInf l) -> fold_left ext_add l acc = NegInf.
Proof.
  induction l as [|e l IH]; intros HE acc HA; cbn [fold_left].
  - destruct HA as [HA|[_ []]]; auto.
  - apply IH; [intros; apply HE; now right|]. destruct (HE e (or_introl eq_refl)) as [->|[r ->]].
    + left. destruct HA as [->|[[r ->] _]]; reflexivity.
    + destruct HA as [->|[[a ->] [HA|HA]]]; [now left|discriminate|]. right. split; auto. now exists (a + r).
Qed.
Theorem c109_infinite_refuted folds s : (forall sp, In sp folds -> fst sp <= 1 /\ snd sp <= 1) -> In (s, 1) folds -> s < 1 -> mda_mean 1 folds = NegInf.
Proof.
  intros HB Hin Hs. unfold mda_mean, ext_mean. set (cells := filter _ _). assert (HN : In NegInf cells).
  { apply filter_In. split; auto. apply in_map_iff. exists (s, 1). split; auto. cbn [fst snd]. unfold mda_cell. destruct (Req_EM_T 1 1); [|congruence]. destruct (Req_EM_T s 1); [lra|]. destruct (Rlt_dec s 1); [reflexivity|contradiction]. }
  assert (HC : forall e, In e cells -> e = NegInf \/ exists r, e = Fin r).
  { intros e He. apply filter_In in He. destruct He as [He Hn]. apply in_map_iff in He. destruct He as ([a p] & <- & Hp). destruct (HB _ Hp) as [H1 H2]. cbn [fst snd] in *. unfold mda_cell in *. destruct (Req_EM_T p 1) as [->|]; [|right; eauto].
    destruct (Req_EM_T a 1); [discriminate|]. destruct (Rlt_dec a 1); [now left|lra]. }
  destruct cells as [|c cs] eqn:Ec; [destruct HN|]. rewrite <- Ec in *. rewrite fold_neg; auto. right. split; auto. now exists 0.
Qed.
Example c109_refuted_ex : mda_mean 1 [(9/10, 1); (1, 1/2)] = NegInf.
Proof. apply c109_infinite_refuted with (9/10); [|now left|lra]. intros sp [<-|[<-|[]]]; cbn; lra. Qed.
(** when no permuted score is perfect: the mean of (score - permuted)/(best - permuted), at most 1; zero if shuffling changes no score; of the sign of the damage *)
Lemma fold_fin l : forall acc, fold_left ext_add (map Fin l) (Fin acc) = Fin (acc + rsum l).
Proof. induction l as [|x l IH]; intros acc; cbn [map fold_left rsum]; [f_equal; ring|]. cbn [ext_add]. rewrite IH. f_equal. ring. Qed.
Theorem c109_under_guard best folds : folds <> [] -> (forall sp, In sp folds -> fst sp <= best /\ snd sp < best) ->
  mda_mean best folds = Fin (rmean (map (fun sp => (fst sp - snd sp) / (best - snd sp)) folds)) /\ rmean (map (fun sp => (fst sp - snd sp) / (best - snd sp)) folds) <= 1.
Proof.
  intros Hne HB. set (g := fun sp : R * R => (fst sp - snd sp) / (best - snd sp)). assert (E : map (fun sp => mda_cell best (fst sp) (snd sp)) folds = map Fin (map g folds)).
  { rewrite map_map. apply map_ext_in. intros sp Hsp. destruct (HB sp Hsp). unfold mda_cell. destruct (Req_EM_T (snd sp) best); [lra|reflexivity]. }
  assert (EF : forall l, filter (fun e => negb (is_nan e)) (map Fin l) = map Fin l) by (induction l as [|x l IH]; cbn; [auto|now rewrite IH]). split.
  - unfold mda_mean, ext_mean. rewrite E, EF. destruct (map Fin (map g folds)) as [|c cs] eqn:Ec; [destruct folds; [congruence|discriminate]|]. rewrite <- Ec. rewrite fold_fin. f_equal. unfold rmean. rewrite !map_length. f_equal. ring.
  - assert (Hl : 0 < INR (length folds)) by now apply INR_length_pos. unfold rmean. rewrite map_length. apply Rmult_le_reg_r with (INR (length folds)); auto. unfold Rdiv. rewrite Rmult_assoc, Rinv_l by lra.
    replace (1 * INR (length folds)) with (rsum (map (fun _ => 1) folds)) by (rewrite rsum_map_const; ring). rewrite Rmult_1_r. apply rsum_map_le. intros sp Hsp. destruct (HB sp Hsp). unfold g. apply Rmult_le_reg_r with (best - snd sp); [lra|]. unfold Rdiv. rewrite Rmult_assoc, Rinv_l by lra. lra.
Qed.
Theorem c109_no_damage best folds : folds <> [] -> (forall sp, In sp folds -> fst sp = snd sp /\ snd sp < best) -> mda_mean best folds = Fin 0.
Proof.
  intros Hne HB. destruct (@c109_under_guard best folds Hne) as [-> _]; [intros sp Hsp; destruct (HB sp Hsp); lra|]. f_equal. rewrite (@rmean_map_ext _ _ (fun _ => 0)); [now apply rmean_map_const|]. intros sp Hsp. destruct (HB sp Hsp) as [-> ?]. unfold Rdiv. ring.
Qed.
Theorem c109_sign best s p : s <= best -> p < best -> exists r, mda_cell best s p = Fin r /\ (0 < r <-> p < s) /\ (r < 0 <-> s < p).
Proof.
  intros Hs Hp. unfold mda_cell. destruct (Req_EM_T p best); [lra|]. eexists. split; [reflexivity|]. assert (Hi : 0 < / (best - p)) by (apply Rinv_0_lt_compat; lra). unfold Rdiv. split; split; intros; nra.
Qed.
Example c109_ex : mda_mean 1 [(9/10, 1/2); (1, 1/2)] = Fin (rmean [(9/10 - 1/2) / (1 - 1/2); (1 - 1/2) / (1 - 1/2)]).
Proof. apply (@c109_under_guard 1 [(9/10, 1/2); (1, 1/2)]); [discriminate|]. intros sp [<-|[<-|[]]]; cbn; lra. Qed.

(** ** C110 Single feature importance *)
(** one row per feature, computed from this feature's scores only: no other feature matters *)
Section SFI.
  Variables (F : Type) (eqb : F -> F -> bool).
  Hypothesis eqb_spec : forall a b, eqb a b = true <-> a = b.
  Lemma eqb_no a b : a <> b -> eqb a b = false.
  Proof. intros H. apply not_true_iff_false. intros E. apply H. now apply eqb_spec. Qed.
  Lemma in_dec_em (f : F) l : In f l \/ ~ In f l.
  Proof. destruct (existsb (eqb f) l) eqn:E; [left|right]. - apply existsb_exists in E. destruct E as (x & Hx & E). apply eqb_spec in E. now subst. - intros Hin. assert (existsb (eqb f) l = true); [|congruence]. apply existsb_exists. exists f. split; auto. now apply eqb_spec. Qed.
  Lemma set_row_in f v rows g w : NoDup (map fst rows) -> (In (g, w) (set_row eqb f v rows) <-> (g = f /\ w = v) \/ (g <> f /\ In (g, w) rows)).
  Proof.
    induction rows as [|[h u] rows IH]; intros HD.
    - cbn. split; [intros [[= <- <-]|[]]; now left|intros [[-> ->]|[_ []]]; now left].
    - inversion HD as [|? ? Hn HD']; subst. cbn [set_row]. destruct (eqb f h) eqn:E.
      + apply eqb_spec in E. subst h. split.
        * intros [[= <- <-]|Hin]; [now left|]. right. split; [|now right]. intros ->. apply Hn. now apply (in_map fst) in Hin.
        * intros [[-> ->]|[Hne [[= <- <-]|Hin]]]; [now left|congruence|now right].
      + assert (f <> h) by (intros ->; rewrite (proj2 (eqb_spec h h)) in E by reflexivity; discriminate). split.
        * intros [[= <- <-]|Hin]; [right; split; [congruence|now left]|]. apply IH in Hin; auto. destruct Hin as [?|[? ?]]; [now left|right; split; [auto|now right]].
        * intros [[-> ->]|[Hne [[= <- <-]|Hin]]]; [right; apply IH; auto|now left|right; apply IH; auto].
  Qed.
  Lemma set_row_nodup f v rows : NoDup (map fst rows) -> NoDup (map fst (set_row eqb f v rows)).
  Proof.
    induction rows as [|[h u] rows IH]; intros HD; cbn [set_row map fst]; [repeat constructor; intros []|]. inversion HD as [|? ? Hn HD']; subst. destruct (eqb f h) eqn:E; cbn [map fst]; constructor; auto.
    intros Hin. apply in_map_iff in Hin. destruct Hin as ([g w] & Eg & Hin). cbn in Eg. subst g. apply set_row_in in Hin; auto. destruct Hin as [[-> _]|[_ Hin]]; [rewrite (proj2 (eqb_spec f f)) in E by reflexivity; discriminate|]. apply Hn. now apply (in_map fst) in Hin.
  Qed.
  Lemma sfi_fold cv_score l : forall rows0 rows, NoDup (map fst rows0) -> fold_left (fun acc f => do rows <- acc; do sc <- cv_score f; Ok (set_row eqb f (sfi_row sc) rows)) l (Ok rows0) = Ok rows ->
    NoDup (map fst rows) /\ forall f v, In (f, v) rows <-> (In f l /\ exists sc, cv_score f = Ok sc /\ v = sfi_row sc) \/ (~ In f l /\ In (f, v) rows0).
  Proof.
    induction l as [|g l IH]; intros rows0 rows HD H; cbn [fold_left] in H.
    - injection H as <-. split; auto. intros f v. cbn. tauto.
    - destruct (cv_score g) as [sc|e] eqn:Eg; cbn [bind] in H.
      + apply IH in H; [|now apply set_row_nodup]. destruct H as [H1 H2]. split; auto. intros f v. rewrite H2, set_row_in by exact HD. split.
        * intros [[Hin Hs]|[Hn [[-> ->]|[Hne Hin]]]]; [left; split; [now right|auto]|left; split; [now left|eauto]|right; split; [intros [->|?]; [congruence|contradiction]|auto]].
        * intros [[[->|Hin] (sc' & E & ->)]|[Hn Hin]].
          -- rewrite Eg in E. injection E as <-. destruct (in_dec_em f l) as [Hl|Hl].
             ++ left. split; eauto.
             ++ right. split; auto.
          -- left. eauto.
          -- right. split; [intros ?; apply Hn; now right|]. right. split; auto. intros ->. apply Hn. now left.
      + exfalso. clear -H. induction l as [|a l IHl]; cbn in H; [discriminate|auto].
  Qed.
  (** exactly one row for each requested feature, from its own scores *)
  Theorem c110_rows cv_score features rows : sfi eqb cv_score features = Ok rows ->
    NoDup (map fst rows) /\ forall f v, In (f, v) rows <-> In f features /\ exists sc, cv_score f = Ok sc /\ v = sfi_row sc.
  Proof. intros H. apply sfi_fold in H; [|constructor]. destruct H as [H1 H2]. split; auto. intros f v. rewrite H2. cbn. tauto. Qed.
  (** the call fails exactly if the cross-validation of one of the features fails *)
  Theorem c110_defined cv_score features : (exists rows, sfi eqb cv_score features = Ok rows) <-> forall f, In f features -> exists sc, cv_score f = Ok sc.
  Proof.
    unfold sfi. generalize (@nil (F * (R * R))) as rows0. induction features as [|g l IH]; intros rows0; cbn [fold_left].
    - split; [intros _ f []|eauto].
    - destruct (cv_score g) as [sc|e] eqn:Eg; cbn [bind].
      + rewrite IH. split; [intros H f [<-|Hf]; eauto|intros H f Hf; apply H; now right].
      + split; [|intros H; destruct (H g (or_introl eq_refl)); congruence]. intros [rows H]. exfalso. clear -H. induction l as [|a l IHl]; cbn in H; [discriminate|auto].
  Qed.
  (** no substitution effect: the row of a feature is the same in any two calls whose scores for this feature agree, whatever the other features *)
  Theorem c110_no_substitution cv1 cv2 fs1 fs2 rows1 rows2 f v w :
    sfi eqb cv1 fs1 = Ok rows1 -> sfi eqb cv2 fs2 = Ok rows2 -> cv1 f = cv2 f -> In (f, v) rows1 -> In (f, w) rows2 -> v = w.
  Proof.
    intros H1 H2 E I1 I2. apply c110_rows in H1, H2. apply (proj2 H1) in I1. apply (proj2 H2) in I2. destruct I1 as (_ & s1 & E1 & ->), I2 as (_ & s2 & E2 & ->). rewrite E, E2 in E1. injection E1 as <-. reflexivity.
  Qed.
End SFI.
(** the mean lies between any bounds on the scores; the standard error vanishes for equal scores *)
Theorem c110_mean_bounds a b sc : sc <> [] -> (forall x, In x sc -> a <= x <= b) -> a <= fst (sfi_row sc) <= b.
Proof.
  intros Hne H. cbn [sfi_row fst]. unfold rmean. assert (HL : 0 < INR (length sc)) by now apply INR_length_pos.
  assert (B : a * INR (length sc) <= rsum sc <= b * INR (length sc)).
  { assert (E : rsum sc = rsum (map (fun x => x) sc)) by now rewrite map_id. rewrite E. split.
    - replace (a * INR (length sc)) with (rsum (map (fun _ => a) sc)) by (rewrite rsum_map_const; ring). apply rsum_map_le. intros x Hx. now apply H.
    - replace (b * INR (length sc)) with (rsum (map (fun _ => b) sc)) by (rewrite rsum_map_const; ring). apply rsum_map_le. intros x Hx. now apply H. }
  split; apply Rmult_le_reg_r with (INR (length sc)); auto; unfold Rdiv; rewrite Rmult_assoc, Rinv_l by lra; lra.
Qed.
(** the second entry: population standard deviation (n) over the square root of the number of scores, i.e. the root of (mean square - squared mean)/n *)
Theorem c110_std sc : sc <> [] -> snd (sfi_row sc) = sqrt ((rmean (map (fun x => x * x) sc) - rmean sc * rmean sc) / INR (length sc)).
Proof.
  intros H. unfold sfi_row. cbn [snd]. assert (HL := INR_length_pos H). assert (N : 0 <= sq_dev sc) by (apply rsum_nonneg; intros y Hy; apply in_map_iff in Hy; destruct Hy as (x & <- & _); apply Rle_0_sqr).
  rewrite <- sqrt_div_alt by exact HL. f_equal. f_equal. rewrite sq_dev_squares by exact H. unfold rmean. rewrite map_length. field. lra.
Qed.
Theorem c110_equal_scores v n : sfi_row (repeat v (S n)) = (v, 0).
Proof.
  unfold sfi_row. assert (E : rmean (repeat v (S n)) = v).
  { unfold rmean. replace (rsum (repeat v (S n))) with (INR (S n) * v); [rewrite repeat_length; field; apply not_0_INR; lia|]. generalize (S n) as m. induction m as [|m IH]; [cbn; ring|]. cbn [repeat rsum]. rewrite <- IH, S_INR. ring. }
  f_equal; auto. unfold sq_dev. rewrite E. replace (rsum _) with 0; [unfold Rdiv; rewrite Rmult_0_l, sqrt_0; ring|]. generalize (S n) as m. induction m as [|m IH]; cbn [repeat map rsum]; [reflexivity|]. rewrite <- IH. ring.
Qed.
Example c110_ex : sfi Nat.eqb (fun f => match f with 0%nat => Ok [1; 1] | 1%nat => Ok [1/2; 1/2] | _ => Err KeyError end) [1%nat; 0%nat; 1%nat] = Ok [(1%nat, (1/2, 0)); (0%nat, (1, 0))].
Proof. unfold sfi. cbn [fold_left bind set_row Nat.eqb]. rewrite (c110_equal_scores 1 1 : sfi_row [1; 1] = _), (c110_equal_scores (1/2) 1 : sfi_row [1/2; 1/2] = _). reflexivity. Qed.

Print Assumptions c84_value.
Print Assumptions c84_normalised.
Print Assumptions c84_std.
Print Assumptions c110_std.
Print Assumptions c84_unused_forest.
Print Assumptions c109_infinite_refuted.
Print Assumptions c109_under_guard.
Print Assumptions c110_rows.
Print Assumptions c110_no_substitution.
Print Assumptions c110_mean_bounds.
