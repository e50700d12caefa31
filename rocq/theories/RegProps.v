(** C145, C146: the regressions behind SADF with numpy's inverse written out. *)
From Verif Require Import Py RNum StructModel StructProps RegModel RegProofs.
Set Implicit Arguments.
Unset Strict Implicit.
Open Scope R_scope.

(** np.linalg.inv inverts every matrix that can be inverted and raises for the others *)
Theorem c145_inverse n A :
  (exists N, inv n A = Ok N /\ forall i l, (i < n)%nat -> (l < n)%nat -> sum_n n (fun j => A i j * N j l) = (if (i =? l)%nat then 1 else 0) /\ sum_n n (fun j => N i j * A j l) = (if (i =? l)%nat then 1 else 0)) \/
  (inv n A = Err ValueError /\ forall N, ~ forall i l, (i < n)%nat -> (l < n)%nat -> sum_n n (fun j => N i j * A j l) = (if (i =? l)%nat then 1 else 0)).
Proof.
  destruct (inv_spec n A) as [(N & E & R & P)|(E & NR)].
  - left. exists N. split; auto. intros i l Hi Hl. split; [now apply P|now apply inv_left].
  - right. split; auto. intros N HN. apply NR. intros v Hv j Hj.
    transitivity (sum_n n (fun i => (if (j =? i)%nat then 1 else 0) * v i)); [symmetry; now apply sum_n_delta|].
    rewrite (@sum_n_ext n _ (fun l => sum_n n (fun i => N j i * (A i l * v l)))).
    + rewrite sum_n_swap. apply sum_n_0. intros i Hi. rewrite sum_n_scale, Hv by auto. ring.
    + intros l Hl. rewrite <- (HN j l Hj Hl), Rmult_comm, <- sum_n_scale. apply sum_n_ext. intros; ring.
Qed.
Print Assumptions c145_inverse.

Definition design (x : list (list R)) (t j : nat) : R := nth j (nth t x []) 0.
Definition col (y : list R) (t : nat) : R := nth t y 0.
(** raises exactly for linearly dependent regressors, always when there are fewer rows than columns *)
Theorem c145_raises k y x e : adf_tstat k y x = Err e <-> e = ValueError /\ dependent (length y) k (design x).
Proof.
  unfold adf_tstat. change (fun t j => nth j (nth t x []) 0) with (design x). destruct (fit_cases (length y) k (design x) (fun t => nth t y 0)) as [(-> & D)|(ND & b & V & -> & _)]; cbn [bind].
  - split; [intros [= <-]; auto|intros [-> _]; auto].
  - split; [discriminate|intros [_ D]; tauto].
Qed.
Theorem c145_short_raises k y x : (length y < k)%nat -> adf_tstat k y x = Err ValueError.
Proof. intro H. apply c145_raises. split; auto. now apply wide_dependent. Qed.
(** otherwise the coefficients minimise the squared errors, and the result is the coefficient of the level over its standard error: [z] is the first column
    of the inverse of X'X *)
Theorem c145_statistic k y x b z : let T := length y in (0 < k < T)%nat -> ~ dependent T k (design x) ->
  (forall c, sse T k (design x) (col y) b <= sse T k (design x) (col y) c) ->
  (forall i, (i < k)%nat -> sum_n T (fun t => design x t i * sum_n k (fun j => design x t j * z j)) = if (i =? 0)%nat then 1 else 0) ->
  adf_tstat k y x = Ok (if Req_EM_T (sse T k (design x) (col y) b) 0 then None else Some (b 0%nat / sqrt (sse T k (design x) (col y) b / (INR T - INR k) * z 0%nat))).
Proof.
  intros T Hk ND Hb Hz. unfold adf_tstat. change (fun t j => nth j (nth t x []) 0) with (design x). change (fun t => nth t y 0) with (col y). fold T.
  destruct (fit_cases T k (design x) (col y)) as [(_ & D)|(_ & b' & V & E & HN & HV)]; [tauto|]. rewrite E. cbn [bind fst snd]. destruct (HV ltac:(lia)) as (z' & Hz' & V0).
  assert (B : forall j, (j < k)%nat -> b j = b' j) by (apply (@least_unique T k (design x) (col y)); auto). assert (Z : z 0%nat = z' 0%nat) by (apply (@unit_unique T k (design x)); auto; lia).
  rewrite (proj2 (Nat.eqb_neq T k)) by lia. rewrite V0. rewrite <- (B 0%nat) by lia. rewrite <- (@sse_ext T k (design x) (col y) b b' B), <- Z.
  assert (ZP : 0 < z 0%nat) by (apply (@unit_pos T k (design x)); auto; lia). pose proof (@sse_nonneg T k (design x) (col y) b) as SN. assert (TK : 0 < INR T - INR k) by (assert (INR k < INR T) by (apply lt_INR; lia); lra).
  destruct (Req_EM_T _ 0) as [S0|S0].
  - rewrite S0. unfold Rdiv. rewrite !Rmult_0_l. destruct (Rlt_dec 0 0); [lra|reflexivity].
  - assert (0 < sse T k (design x) (col y) b / (INR T - INR k) * z 0%nat) by (apply Rmult_lt_0_compat; auto; apply Rdiv_lt_0_compat; lra). destruct (Rlt_dec 0 _); [reflexivity|tauto].
Qed.
Theorem c145_least_squares_exists k y x : let T := length y in (0 < k)%nat -> ~ dependent T k (design x) -> exists b z,
  (forall c, sse T k (design x) (col y) b <= sse T k (design x) (col y) c) /\
  (forall c, (forall d, sse T k (design x) (col y) c <= sse T k (design x) (col y) d) -> forall j, (j < k)%nat -> c j = b j) /\
  (forall i, (i < k)%nat -> sum_n T (fun t => design x t i * sum_n k (fun j => design x t j * z j)) = if (i =? 0)%nat then 1 else 0) /\ 0 < z 0%nat.
Proof.
  intros T Hk ND. destruct (fit_cases T k (design x) (col y)) as [(_ & D)|(_ & b & V & E & HN & HV)]; [tauto|]. destruct (HV Hk) as (z & Hz & _). exists b, z.
  split; [now apply normal_least|]. split; [intros c Hc; apply (@least_unique T k (design x) (col y)); auto|]. split; [exact Hz|]. now apply (@unit_pos T k (design x)).
Qed.
(** as many rows as columns: the residual variance is 0/0 *)
Theorem c145_square k y x : length y = k -> ~ dependent k k (design x) -> adf_tstat k y x = Ok None.
Proof.
  intros E ND. unfold adf_tstat. change (fun t j => nth j (nth t x []) 0) with (design x). rewrite E. destruct (fit_cases k k (design x) (fun t => nth t y 0)) as [(_ & D)|(_ & b & V & -> & _)]; [tauto|]. cbn [bind]. now rewrite Nat.eqb_refl.
Qed.
Print Assumptions c145_raises.
Print Assumptions c145_statistic.
Print Assumptions c145_least_squares_exists.

(** ** the statistic of a whole series *)
Lemma mapM_err_iff A B (f : A -> res B) l e0 : (forall a e, f a = Err e -> e = e0) -> ((exists e, mapM f l = Err e) <-> exists a, In a l /\ exists e, f a = Err e).
Proof.
  intro H. induction l as [|a l IH]; cbn; [split; [intros [e C]; discriminate|intros (a & [] & _)]|]. destruct (f a) eqn:E; cbn.
  - destruct (mapM f l) eqn:M; cbn.
    + split; [intros [e C]; discriminate|]. intros (a' & [<-|Hin] & e & C); [congruence|]. destruct (proj2 IH) as [e' C']; [eauto|discriminate].
    + split; [|eauto]. intros _. destruct (proj1 IH) as (a' & Hin & He); [eauto|]. exists a'. auto.
  - split; [|eauto]. intros _. exists a. eauto.
Qed.
(** [window s]: rows s, s+1, ... *)
Definition regressors (x : list (list R)) (s t j : nat) : R := nth j (nth (s + t) x []) 0.
Lemma nth_skipn' A (l : list A) s t d : nth t (skipn s l) d = nth (s + t) l d.
Proof. revert l. induction s as [|s IH]; intros [|a l]; cbn; auto. destruct t; auto. Qed.
Lemma dependent_ext T k X X' : (forall t j, (t < T)%nat -> (j < k)%nat -> X t j = X' t j) -> dependent T k X -> dependent T k X'.
Proof. intros H (v & Hv & Hd). exists v. split; auto. intros t Ht. rewrite <- (Hd t Ht). apply sum_n_ext. intros j Hj. now rewrite H. Qed.
Theorem c146_raises series min_len c n : (n + 1 < length series)%nat -> let k := (n + 1 + trend_count c)%nat in
  exists y x, get_yx series c (LagInt n) = Ok (y, x) /\
  ((exists s, (s + min_len <= length y + n)%nat /\ dependent (length y - s) k (regressors x s)) -> sadf series min_len c n = Err ValueError) /\
  ((forall s, (s + min_len <= length y + n)%nat -> ~ dependent (length y - s) k (regressors x s)) -> exists r, sadf series min_len c n = Ok r).
Proof.
  intros HN k. destruct (@c77_integer_lags series c n HN) as (y & x & E & L1 & L2 & _). exists y, x. split; auto.
  assert (DE : forall s, dependent (length y - s) k (regressors x s) <-> dependent (length (skipn s y)) k (design (skipn s x))).
  { intro s. rewrite skipn_length. split; apply dependent_ext; intros t j _ _; unfold regressors, design; now rewrite nth_skipn'. }
  unfold sadf, sadf_stat. rewrite E. cbn [bind fst snd]. fold k.
  set (f := fun s => adf_tstat k (skipn s y) (skipn s x)). assert (FE : forall a e, f a = Err e -> e = ValueError) by (intros a e H; now apply c145_raises in H).
  pose proof (@mapM_err_iff _ _ f (seq 0 (length y + n + 1 - min_len)) ValueError FE) as ME.
  split.
  - intros (s & Hs & D). apply DE in D. destruct (proj2 ME) as [e He]; [exists s; split; [apply in_seq; lia|]; exists ValueError; apply c145_raises; auto|].
    rewrite He. cbn. f_equal. clear -He FE. revert He. generalize (seq 0 (length y + n + 1 - min_len)). intro l. induction l as [|a l IH]; cbn; [discriminate|]. destruct (f a) eqn:Ea; cbn; [|intros [= <-]; eapply FE; eauto]. destruct (mapM f l); cbn; [discriminate|intros [= <-]; auto].
  - intro H. destruct (mapM f _) as [stats|e] eqn:M; cbn [bind]; [eauto|]. exfalso. destruct (proj1 ME) as (s & Hs & e' & He); [eauto|]. apply in_seq in Hs. apply c145_raises in He as [_ D]. apply DE in D. apply (H s); auto. lia.
Qed.
Print Assumptions c146_raises.
(** a smallest sample that does not cover the regressors always raises: the smallest window has [min_len - n] rows *)
Theorem c146_short_sample_raises series min_len c n : (n + 1 < length series)%nat -> (min_len < length series)%nat -> (min_len < 2 * n + 1 + trend_count c)%nat -> sadf series min_len c n = Err ValueError.
Proof.
  intros HN HM HK. destruct (@c146_raises series min_len c n HN) as (y & x & E & H & _). apply H. destruct (@c77_integer_lags series c n HN) as (y' & x' & E' & L1 & _). rewrite E in E'. injection E' as <- <-.
  exists (length y + n - min_len)%nat. split; [lia|]. apply wide_dependent. lia.
Qed.
Lemma rows_formula series c n y x : (n + 1 < length series)%nat -> get_yx series c (LagInt n) = Ok (y, x) -> length y = (length series - 1 - n)%nat /\ forall t, (t < length y)%nat ->
  nth t y 0 = nth (n + 1 + t) series 0 - nth (n + t) series 0 /\
  nth t x [] = nth (n + t) series 0 :: map (fun lag => nth (n + 1 + t - lag) series 0 - nth (n + t - lag) series 0) (seq 1 n) ++ trend_columns c t.
Proof.
  intros HN E. destruct (@c77_integer_lags series c n HN) as (y' & x' & E' & L1 & L2 & P). rewrite E in E'. injection E' as <- <-. split; auto. intros t Ht. destruct (P t Ht) as [P1 P2]. replace (n + 1 + t - 1)%nat with (n + t)%nat in * by lia.
  split; [now rewrite (nth_error_nth _ _ _ P1)|]. rewrite (nth_error_nth _ _ _ P2). do 2 f_equal. apply map_ext_in. intros lag Hl. apply in_seq in Hl. do 2 f_equal. lia.
Qed.
(** entries of the design: the level, the lagged changes, the trend *)
Lemma design_entries series c n y x : (n + 1 < length series)%nat -> get_yx series c (LagInt n) = Ok (y, x) -> forall t, (t < length y)%nat ->
  design x t 0 = nth (n + t) series 0 /\ (forall i, (i < n)%nat -> design x t (S i) = nth (n + t - i) series 0 - nth (n + t - S i) series 0) /\
  forall i, (i < trend_count c)%nat -> design x t (S n + i) = INR t ^ i.
Proof.
  intros HN E t Ht. destruct (rows_formula HN E) as [_ P]. destruct (P t Ht) as [_ R]. unfold design. rewrite R. split; [reflexivity|]. split.
  - intros i Hi. cbn [nth]. rewrite app_nth1 by (rewrite map_length, seq_length; lia). rewrite (nth_indep _ 0 ((fun lag => nth (n + 1 + t - lag) series 0 - nth (n + t - lag) series 0) 0%nat)) by (rewrite map_length, seq_length; lia).
    rewrite (map_nth (fun lag => nth (n + 1 + t - lag) series 0 - nth (n + t - lag) series 0)), seq_nth by lia. replace (n + 1 + t - (1 + i))%nat with (n + t - i)%nat by lia. replace (n + t - (1 + i))%nat with (n + t - S i)%nat by lia. reflexivity.
  - intros i Hi. cbn [plus nth]. rewrite app_nth2 by (rewrite map_length, seq_length; lia). rewrite map_length, seq_length. replace (n + i - n)%nat with i by lia.
    destruct c; cbn in Hi; try lia; (destruct i as [|[|[|i]]]; try lia; cbn; ring).
Qed.
Print Assumptions c146_short_sample_raises.

(** ** units *)
Section Units.
  Variables (k : nat) (y y' : list R) (x x' : list (list R)).
  Hypothesis Hlen : length y' = length y.
  Hypothesis Hk : (0 < k)%nat.
  Let T := length y.
  (** two designs whose coefficient vectors correspond *)
  Variables (a : R) (f g : (nat -> R) -> nat -> R).
  Hypothesis Ha : a <> 0.
  Hypothesis Hy : forall t, (t < T)%nat -> col y' t = a * col y t.
  Hypothesis Hf : forall v t, (t < T)%nat -> sum_n k (fun j => design x' t j * f v j) = sum_n k (fun j => design x t j * v j).
  Hypothesis Hg : forall v t, (t < T)%nat -> sum_n k (fun j => design x t j * g v j) = sum_n k (fun j => design x' t j * v j).
  Hypothesis Hf0 : forall v, (exists j, (j < k)%nat /\ v j <> 0) -> exists j, (j < k)%nat /\ f v j <> 0.
  Hypothesis Hg0 : forall v, (exists j, (j < k)%nat /\ v j <> 0) -> exists j, (j < k)%nat /\ g v j <> 0.
  (** the columns of the second design are combinations of those of the first, the first column keeping weight [a] *)
  Variable comb : nat -> nat -> R.
  Hypothesis Hcomb : forall t i, (t < T)%nat -> (i < k)%nat -> design x' t i = sum_n k (fun l => comb i l * design x t l).
  Hypothesis Hcomb0 : forall i, (i < k)%nat -> comb i 0%nat = if (i =? 0)%nat then a else 0.
  Hypothesis Hlin : forall v c, f (fun j => c * v j) 0%nat = c * (v 0%nat / a).
  Lemma units_dependent : dependent T k (design x) <-> dependent T k (design x').
  Proof.
    split; intros (v & Hv & H).
    - exists (f v). split; auto. intros t Ht. now rewrite Hf, H.
    - exists (g v). split; auto. intros t Ht. now rewrite Hg, H.
  Qed.
  Lemma units_same : adf_tstat k y' x' = adf_tstat k y x.
  Proof.
    assert (LT : length y' = T) by exact Hlen. destruct (fit_cases T k (design x) (col y)) as [(_ & D)|(ND & b & V & E & HN & HV)].
    - transitivity (@Err (option R) ValueError); [|symmetry]; apply c145_raises; rewrite ?LT; split; auto. now apply units_dependent.
    - assert (ND' : ~ dependent T k (design x')) by (now rewrite <- units_dependent). destruct (HV Hk) as (z & Hz & _).
      destruct (lt_eq_lt_dec T k) as [[L|L]|L].
      + exfalso. apply ND. now apply wide_dependent.
      + rewrite (@c145_square k y x), (@c145_square k y' x'); congruence.
      + assert (FB : forall t, (t < T)%nat -> sum_n k (fun j => design x' t j * f (fun j => a * b j) j) = a * sum_n k (fun j => design x t j * b j)).
        { intros t Ht. rewrite Hf by auto. rewrite <- sum_n_scale. apply sum_n_ext. intros; ring. }
        assert (FZ : forall t, (t < T)%nat -> sum_n k (fun j => design x' t j * f (fun j => / a * z j) j) = / a * sum_n k (fun j => design x t j * z j)).
        { intros t Ht. rewrite Hf by auto. rewrite <- sum_n_scale. apply sum_n_ext. intros; ring. }
        assert (RB : forall t, (t < T)%nat -> residual k (design x') (col y') (f (fun j => a * b j)) t = a * residual k (design x) (col y) b t) by (intros t Ht; unfold residual; rewrite FB, Hy by auto; ring).
        assert (CB : forall (h h' : nat -> R) c i, (i < k)%nat -> (forall t, (t < T)%nat -> h' t = c * h t) -> sum_n T (fun t => design x' t i * h' t) = c * sum_n k (fun l => comb i l * sum_n T (fun t => design x t l * h t))).
        { intros h h' c i Hi Hh. rewrite <- sum_n_scale. rewrite (@sum_n_ext k _ (fun l => sum_n T (fun t => c * h t * (comb i l * design x t l)))) by (intros l _; rewrite <- !sum_n_scale; apply sum_n_ext; intros; ring).
          rewrite sum_n_swap. apply sum_n_ext. intros t Ht. rewrite sum_n_scale, <- Hcomb, Hh by auto. ring. }
        assert (NB : normal_eq T k (design x') (col y') (f (fun j => a * b j))).
        { intros i Hi. rewrite (CB (residual k (design x) (col y) b) _ a i Hi RB). rewrite sum_n_0; [ring|]. intros l Hl. rewrite (HN l Hl). ring. }
        assert (NZ : unit_eq T k (design x') (f (fun j => / a * z j))).
        { intros i Hi. rewrite (CB (fun t => sum_n k (fun j => design x t j * z j)) _ (/ a) i Hi FZ).
          rewrite (@sum_n_ext k _ (fun l => (if (0 =? l)%nat then 1 else 0) * comb i l)) by (intros l Hl; rewrite (Hz l Hl), Nat.eqb_sym; ring). rewrite sum_n_delta, Hcomb0 by auto. destruct (i =? 0)%nat; field; exact Ha. }
        rewrite (@c145_statistic k y x b z ltac:(fold T; lia) ND (@normal_least T k (design x) (col y) b HN) Hz).
        rewrite <- LT in ND', NB, NZ, L. rewrite (@c145_statistic k y' x' (f (fun j => a * b j)) (f (fun j => / a * z j)) ltac:(lia) ND' (@normal_least _ k (design x') (col y') _ NB) NZ). rewrite LT in *. fold T.
        assert (SE : sse T k (design x') (col y') (f (fun j => a * b j)) = a * a * sse T k (design x) (col y) b).
        { unfold sse. rewrite <- sum_n_scale. apply sum_n_ext. intros t Ht. rewrite RB by auto. ring. }
        rewrite SE, !Hlin. set (s := sse T k (design x) (col y) b). f_equal. destruct (Req_EM_T s 0) as [S0|S0].
        * rewrite S0, Rmult_0_r. destruct (Req_EM_T 0 0); tauto.
        * destruct (Req_EM_T (a * a * s) 0) as [S1|_]; [exfalso; apply Rmult_integral in S1 as [S1|S1]; auto; apply Rmult_integral in S1; tauto|].
          do 2 f_equal; [field; exact Ha|]. f_equal. assert (INR k < INR T) by (apply lt_INR; lia). field. split; lra.
  Qed.
End Units.

Lemma sum_n_pick n q (h : nat -> R) c : (q < n)%nat -> sum_n n (fun j => if (j =? q)%nat then c * h j else 0) = c * h q.
Proof. intro Hq. rewrite (@sum_n_ext n _ (fun j => (if (q =? j)%nat then 1 else 0) * (c * h j))) by (intros j _; rewrite Nat.eqb_sym; destruct (q =? j)%nat; ring). now apply sum_n_delta. Qed.
(** column j multiplied by d j, and the response by d 0 *)
Lemma adf_scaled k y y' x x' d : length y' = length y -> (0 < k)%nat -> (forall j, d j <> 0) -> (forall t, (t < length y)%nat -> col y' t = d 0%nat * col y t) ->
  (forall t j, (t < length y)%nat -> (j < k)%nat -> design x' t j = d j * design x t j) -> adf_tstat k y' x' = adf_tstat k y x.
Proof.
  intros Hl Hk Hd Hy Hx. apply (@units_same k y y' x x' Hl Hk (d 0%nat) (fun v j => v j / d j) (fun v j => v j * d j)) with (comb := fun i l => if (l =? i)%nat then d i * 1 else 0); auto.
  - intros v t Ht. apply sum_n_ext. intros j Hj. rewrite Hx by auto. field; auto.
  - intros v t Ht. apply sum_n_ext. intros j Hj. rewrite Hx by auto. ring.
  - intros v (j & Hj & N). exists j. split; [exact Hj|]. intro C. apply N. rewrite <- (Rmult_1_r (v j)), <- (Rinv_l (d j)) by auto. unfold Rdiv in C. rewrite <- Rmult_assoc, C. ring.
  - intros v (j & Hj & N). exists j. split; [exact Hj|]. intro C. apply Rmult_integral in C as [C|C]; [auto|now apply (Hd j)].
  - intros t i Ht Hi. rewrite Hx by auto. rewrite (@sum_n_ext k _ (fun l => if (l =? i)%nat then d i * design x t l else 0)) by (intros l _; destruct (l =? i)%nat; ring). now rewrite sum_n_pick.
  - intros i Hi. rewrite Nat.eqb_sym. destruct (Nat.eqb_spec i 0); [subst; ring|reflexivity].
  - intros v c. field; auto.
Qed.
(** c times column q added to the first column *)
Lemma adf_shifted k y x x' q c : (0 < q < k)%nat ->
  (forall t j, (t < length y)%nat -> (j < k)%nat -> design x' t j = design x t j + if (j =? 0)%nat then c * design x t q else 0) -> adf_tstat k y x' = adf_tstat k y x.
Proof.
  intros Hq Hx. assert (Hk : (0 < k)%nat) by lia.
  apply (@units_same k y y x x' eq_refl Hk 1 (fun v j => v j - if (j =? q)%nat then c * v 0%nat else 0) (fun v j => v j + if (j =? q)%nat then c * v 0%nat else 0)) with (comb := fun i l => (if (l =? i)%nat then 1 else 0) + if (i =? 0)%nat then if (l =? q)%nat then c else 0 else 0).
  - lra.
  - intros; ring.
  - intros v t Ht. rewrite (@sum_n_ext k _ (fun j => design x t j * v j + (if (j =? 0)%nat then (c * design x t q) * v j else 0) - (if (j =? q)%nat then (c * v 0%nat) * design x' t j else 0))).
    + rewrite sum_n_sub, sum_n_add, (@sum_n_pick k 0 v), (@sum_n_pick k q (design x' t)) by lia. rewrite Hx by lia. rewrite (proj2 (Nat.eqb_neq q 0)) by lia. ring.
    + intros j Hj. rewrite Hx by auto. destruct (Nat.eqb_spec j 0), (Nat.eqb_spec j q); ring.
  - intros v t Ht. rewrite (@sum_n_ext k _ (fun j => design x t j * v j + (if (j =? q)%nat then (c * v 0%nat) * design x t j else 0))) by (intros j _; destruct (j =? q)%nat; ring).
    rewrite sum_n_add, (@sum_n_pick k q (design x t)) by lia. rewrite (@sum_n_ext k (fun j => design x' t j * v j) (fun j => design x t j * v j + if (j =? 0)%nat then (c * design x t q) * v j else 0)) by (intros j Hj; rewrite Hx by auto; destruct (j =? 0)%nat; ring).
    rewrite sum_n_add, (@sum_n_pick k 0 v) by lia. ring.
  - intros v (j & Hj & N). destruct (Req_EM_T (v 0%nat) 0) as [Z|Z]; [exists j; split; auto; rewrite Z; destruct (j =? q)%nat; lra|]. exists 0%nat. split; [lia|]. rewrite (proj2 (Nat.eqb_neq 0 q)) by lia. lra.
  - intros v (j & Hj & N). destruct (Req_EM_T (v 0%nat) 0) as [Z|Z]; [exists j; split; auto; rewrite Z; destruct (j =? q)%nat; lra|]. exists 0%nat. split; [lia|]. rewrite (proj2 (Nat.eqb_neq 0 q)) by lia. lra.
  - intros t i Ht Hi. rewrite Hx by auto. rewrite (@sum_n_ext k _ (fun l => (if (l =? i)%nat then 1 * design x t l else 0) + (if (l =? q)%nat then (if (i =? 0)%nat then c else 0) * design x t l else 0))).
    + rewrite sum_n_add, !sum_n_pick by lia. destruct (i =? 0)%nat; ring.
    + intros l _. destruct (l =? i)%nat, (i =? 0)%nat, (l =? q)%nat; ring.
  - intros i Hi. rewrite Nat.eqb_sym. rewrite (proj2 (Nat.eqb_neq 0 q)) by lia. destruct (i =? 0)%nat; ring.
  - intros v e. rewrite (proj2 (Nat.eqb_neq 0 q)) by lia. field.
Qed.

Lemma sadf_same series series' min_len c n y x y' x' : get_yx series c (LagInt n) = Ok (y, x) -> get_yx series' c (LagInt n) = Ok (y', x') -> length y' = length y ->
  (forall s, adf_tstat (n + 1 + trend_count c) (skipn s y') (skipn s x') = adf_tstat (n + 1 + trend_count c) (skipn s y) (skipn s x)) -> sadf series' min_len c n = sadf series min_len c n.
Proof.
  intros E E' L H. unfold sadf, sadf_stat. rewrite E, E'. cbn [bind fst snd]. rewrite L. f_equal. generalize (seq 0 (length y + n + 1 - min_len)). intro l. induction l as [|s l IH]; cbn; auto. now rewrite H, IH.
Qed.
(** neither the unit nor the sign of the prices matters *)
Theorem c146_scale series min_len c n a : (n + 1 < length series)%nat -> a <> 0 -> sadf (map (Rmult a) series) min_len c n = sadf series min_len c n.
Proof.
  intros HN Ha. assert (HN' : (n + 1 < length (map (Rmult a) series))%nat) by now rewrite map_length.
  destruct (@c77_integer_lags series c n HN) as (y & x & E & L1 & L2 & _). destruct (@c77_integer_lags (map (Rmult a) series) c n HN') as (y' & x' & E' & L1' & L2' & _).
  assert (LY : length y' = length y) by (rewrite L1, L1'; now rewrite map_length). apply (sadf_same min_len E E' LY).
  assert (NM : forall i, nth i (map (Rmult a) series) 0 = a * nth i series 0) by (intro i; rewrite <- (Rmult_0_r a) at 1; apply map_nth).
  intro s. apply (@adf_scaled _ _ _ _ _ (fun j => if (j <=? n)%nat then a else 1)).
  - now rewrite !skipn_length, LY.
  - lia.
  - intro j. destruct (j <=? n)%nat; lra.
  - intros t Ht. rewrite skipn_length in Ht. unfold col. rewrite !nth_skipn'. cbn [Nat.leb]. destruct (rows_formula HN E) as [_ P]. destruct (rows_formula HN' E') as [_ P'].
    destruct (P (s + t)%nat ltac:(lia)) as [-> _]. destruct (P' (s + t)%nat ltac:(lia)) as [-> _]. rewrite !NM. ring.
  - intros t j Ht Hj. rewrite skipn_length in Ht. unfold design. rewrite !nth_skipn'. fold (design x' (s + t) j) (design x (s + t) j).
    destruct (@design_entries _ c n y x HN E (s + t)%nat ltac:(lia)) as (D0 & D1 & D2). destruct (@design_entries _ c n y' x' HN' E' (s + t)%nat ltac:(lia)) as (D0' & D1' & D2').
    destruct j as [|j]; [cbn [Nat.leb]; now rewrite D0, D0', NM|]. destruct (Nat.leb_spec (S j) n) as [L|L].
    + rewrite D1, D1', !NM by lia. ring.
    + replace (S j) with (S n + (j - n))%nat by lia. rewrite D2, D2' by lia. ring.
Qed.
(** with a constant among the regressors the level does not matter either *)
Theorem c146_shift series min_len c n a : (n + 1 < length series)%nat -> c <> NC -> sadf (map (Rplus a) series) min_len c n = sadf series min_len c n.
Proof.
  intros HN Hc. assert (HN' : (n + 1 < length (map (Rplus a) series))%nat) by now rewrite map_length.
  destruct (@c77_integer_lags series c n HN) as (y & x & E & L1 & L2 & _). destruct (@c77_integer_lags (map (Rplus a) series) c n HN') as (y' & x' & E' & L1' & L2' & _).
  assert (LY : length y' = length y) by (rewrite L1, L1'; now rewrite map_length). apply (sadf_same min_len E E' LY).
  assert (NM : forall i, (i < length series)%nat -> nth i (map (Rplus a) series) 0 = a + nth i series 0) by (intros i Hi; rewrite (nth_indep _ 0 (a + 0)) by (now rewrite map_length); apply map_nth).
  assert (YY : y' = y).
  { apply nth_ext with (d := 0) (d' := 0); auto. intros t Ht. destruct (rows_formula HN E) as [_ P]. destruct (rows_formula HN' E') as [_ P']. destruct (P t ltac:(lia)) as [-> _]. destruct (P' t Ht) as [-> _]. rewrite !NM by lia. ring. }
  subst y'. intro s. assert (Q : (0 < n + 1 < n + 1 + trend_count c)%nat) by (destruct c; cbn; [congruence| | |]; lia). apply (@adf_shifted _ _ _ _ (n + 1)%nat a Q).
  intros t j Ht Hj. rewrite skipn_length in Ht. unfold design. rewrite !nth_skipn'. fold (design x' (s + t) j) (design x (s + t) j) (design x (s + t) (n + 1)).
  destruct (@design_entries _ c n y x HN E (s + t)%nat ltac:(lia)) as (D0 & D1 & D2). destruct (@design_entries _ c n y x' HN' E' (s + t)%nat ltac:(lia)) as (D0' & D1' & D2').
  destruct j as [|j].
  - cbn [Nat.eqb]. replace (n + 1)%nat with (S n + 0)%nat by lia. rewrite D0, D0', (D2 0%nat), NM by lia. cbn [pow]. ring.
  - cbn [Nat.eqb]. destruct (le_lt_dec n j) as [L|L].
    + replace (S j) with (S n + (j - n))%nat by lia. rewrite D2, D2' by lia. ring.
    + rewrite D1, D1', !NM by lia. ring.
Qed.
(** constant prices raise as soon as there is a trend or a lag *)
Theorem c146_constant_raises p m min_len c n : (n + 1 < m)%nat -> (min_len < m)%nat -> (c <> NC \/ (0 < n)%nat) -> sadf (repeat p m) min_len c n = Err ValueError.
Proof.
  intros HN HM HC. assert (LR : length (repeat p m) = m) by apply repeat_length. destruct (@c146_raises (repeat p m) min_len c n ltac:(lia)) as (y & x & E & H & _). apply H.
  assert (HR : (n + 1 < length (repeat p m))%nat) by lia. destruct (rows_formula HR E) as [Ly _]. rewrite LR in Ly.
  assert (NR : forall i, (i < m)%nat -> nth i (repeat p m) 0 = p) by (intros i Hi; rewrite (nth_indep _ 0 p) by lia; apply nth_repeat).
  exists 0%nat. split; [lia|]. set (k := (n + 1 + trend_count c)%nat).
  assert (HN' : (n + 1 < length (repeat p m))%nat) by lia. pose proof (@design_entries (repeat p m) c n y x HN' E) as DE.
  destruct (Nat.eq_dec n 0) as [Z|Z].
  - assert (Q : (0 < trend_count c)%nat) by (destruct HC as [HC|HC]; [destruct c; cbn; [congruence| | |]; lia|lia]).
    exists (fun j => if (j =? 0)%nat then 1 else if (j =? n + 1)%nat then - p else 0). split; [exists 0%nat; split; [unfold k; lia|cbn; lra]|]. intros t Ht.
    rewrite (@sum_n_ext k _ (fun j => (if (j =? 0)%nat then 1 * regressors x 0 t j else 0) + (if (j =? n + 1)%nat then (- p) * regressors x 0 t j else 0))).
    + rewrite sum_n_add, !sum_n_pick by (unfold k; lia). unfold regressors. cbn [plus]. fold (design x t 0) (design x t (n + 1)). destruct (DE t ltac:(lia)) as (D0 & D1 & D2). replace (n + 1)%nat with (S n + 0)%nat by lia. rewrite D0, (D2 0%nat), NR by lia. cbn [pow]. ring.
    + intros j _. destruct (Nat.eqb_spec j 0), (Nat.eqb_spec j (n + 1)); try lia; ring.
  - exists (fun j => if (j =? 1)%nat then 1 else 0). split; [exists 1%nat; split; [unfold k; lia|cbn; lra]|]. intros t Ht.
    rewrite (@sum_n_ext k _ (fun j => (if (j =? 1)%nat then 1 * regressors x 0 t j else 0))) by (intros j _; destruct (j =? 1)%nat; ring). rewrite sum_n_pick by (unfold k; lia). unfold regressors. cbn [plus]. fold (design x t 1). destruct (DE t ltac:(lia)) as (D0 & D1 & D2). rewrite (D1 0%nat), !NR by lia. ring.
Qed.
Print Assumptions c146_scale.
Print Assumptions c146_shift.
Print Assumptions c146_constant_raises.
(** without a constant the level matters; the two runs also show the hypotheses of the theorems met *)
Lemma sadf_two_rows p0 p1 p2 : p0 <> 0 \/ p1 <> 0 -> let q := p0 * p0 + p1 * p1 in let b := (p0 * (p1 - p0) + p1 * (p2 - p1)) / q in
  let s := (p1 - p0 - p0 * b) * (p1 - p0 - p0 * b) + (p2 - p1 - p1 * b) * (p2 - p1 - p1 * b) in
  s <> 0 -> sadf [p0; p1; p2] 2 NC 0 = Ok (Some (b / sqrt (s / (2 - 1) * / q))).
Proof.
  intros Hp q b s Hs. assert (Q : 0 < q) by (unfold q; destruct Hp as [H|H]; [pose proof (Rsqr_pos_lt _ H); pose proof (Rle_0_sqr p1)|pose proof (Rsqr_pos_lt _ H); pose proof (Rle_0_sqr p0)]; unfold Rsqr in *; lra).
  assert (U : sadf [p0; p1; p2] 2 NC 0 = do st <- adf_tstat 1 [p1 - p0; p2 - p1] [[p0]; [p1]]; Ok (step_max None st)).
  { transitivity (do stats <- mapM (fun s0 => adf_tstat 1 (skipn s0 [p1 - p0; p2 - p1]) (skipn s0 [[p0]; [p1]])) [0%nat]; Ok (fold_left step_max stats None)); [reflexivity|].
    cbn [mapM]. change (skipn 0 [p1 - p0; p2 - p1]) with [p1 - p0; p2 - p1]. change (skipn 0 [[p0]; [p1]]) with [[p0]; [p1]]. destruct (adf_tstat 1 _ _); reflexivity. }
  rewrite U.
  assert (E : forall c, sse 2 1 (design [[p0]; [p1]]) (col [p1 - p0; p2 - p1]) c = (p1 - p0 - p0 * c 0%nat) * (p1 - p0 - p0 * c 0%nat) + (p2 - p1 - p1 * c 0%nat) * (p2 - p1 - p1 * c 0%nat)).
  { intro c. unfold sse, residual, sum_n, design, col. cbn. ring. }
  rewrite (@c145_statistic 1 [p1 - p0; p2 - p1] [[p0]; [p1]] (fun _ => b) (fun _ => / q)).
  - cbn [length]. rewrite E. fold s. destruct (Req_EM_T s 0); [tauto|]. reflexivity.
  - cbn; lia.
  - intros (v & (j & Hj & N) & H). assert (j = 0%nat) by lia. subst j. pose proof (H 0%nat ltac:(cbn; lia)) as H0. pose proof (H 1%nat ltac:(cbn; lia)) as H1. unfold sum_n, design in H0, H1. cbn in H0, H1. rewrite Rplus_0_r in H0, H1.
    apply Rmult_integral in H0, H1. tauto.
  - intro c. cbn [length]. rewrite !E. set (d := c 0%nat - b). replace (c 0%nat) with (b + d) by (unfold d; ring). assert (B : q * b = p0 * (p1 - p0) + p1 * (p2 - p1)) by (unfold b; field; lra).
    assert (0 <= d * d * q) by (apply Rmult_le_pos; [apply Rle_0_sqr|lra]).
    assert (I : (p1 - p0 - p0 * (b + d)) * (p1 - p0 - p0 * (b + d)) + (p2 - p1 - p1 * (b + d)) * (p2 - p1 - p1 * (b + d)) = (p1 - p0 - p0 * b) * (p1 - p0 - p0 * b) + (p2 - p1 - p1 * b) * (p2 - p1 - p1 * b) + d * d * q - 2 * d * (p0 * (p1 - p0) + p1 * (p2 - p1) - q * b)) by (unfold q; ring).
    rewrite I, B. lra.
  - intros i Hi. assert (i = 0%nat) by (cbn in Hi; lia). subst i. unfold sum_n, design. cbn. unfold q. field. fold q. lra.
Qed.
Theorem c146_level_refuted : sadf [1; 2; 2] 2 NC 0 = Ok (Some (1 / 2)) /\ sadf (map (Rplus (-1)) [1; 2; 2]) 2 NC 0 = Ok (Some 0).
Proof.
  split.
  - rewrite sadf_two_rows by lra. do 2 f_equal.
    replace (((2 - 1 - 1 * ((1 * (2 - 1) + 2 * (2 - 2)) / (1 * 1 + 2 * 2))) * (2 - 1 - 1 * ((1 * (2 - 1) + 2 * (2 - 2)) / (1 * 1 + 2 * 2))) + (2 - 2 - 2 * ((1 * (2 - 1) + 2 * (2 - 2)) / (1 * 1 + 2 * 2))) * (2 - 2 - 2 * ((1 * (2 - 1) + 2 * (2 - 2)) / (1 * 1 + 2 * 2)))) / (2 - 1) * / (1 * 1 + 2 * 2)) with (Rsqr (2 / 5)) by (unfold Rsqr; field).
    rewrite sqrt_Rsqr by lra. field.
  - cbn [map]. replace (-1 + 1) with 0 by ring. replace (-1 + 2) with 1 by ring. rewrite sadf_two_rows by lra. do 2 f_equal. unfold Rdiv. rewrite !Rmult_0_l, !Rminus_eq_0, ?Rmult_0_r, ?Rplus_0_l, ?Rmult_0_l. reflexivity.
Qed.
Print Assumptions c146_level_refuted.

Example adf_two_rows : ~ dependent 2 1 (design [[1]; [2]]) /\ adf_tstat 1 [1; 0] [[1]; [2]] = Ok (Some (1 / 2)).
Proof.
  assert (ND : ~ dependent 2 1 (design [[1]; [2]])).
  { intros (v & (j & Hj & Hv) & H). assert (j = 0%nat) by lia. subst j. apply Hv. specialize (H 0%nat ltac:(lia)). unfold sum_n, design in H. cbn in H. lra. }
  split; auto. assert (S1 : forall f, sum_n 1 f = f 0%nat) by (intro f; unfold sum_n; cbn; ring).
  assert (SE : forall c, sse 2 1 (design [[1]; [2]]) (col [1; 0]) c = 4 / 5 + 5 * ((c 0%nat - 1 / 5) * (c 0%nat - 1 / 5))) by (intro c; unfold sse, residual, sum_n, design, col; cbn; field).
  rewrite (@c145_statistic 1 [1; 0] [[1]; [2]] (fun _ => 1 / 5) (fun _ => 1 / 5)); cbn [length]; auto; try lia.
  - rewrite SE. destruct (Req_EM_T _ 0) as [C|_]; [lra|]. do 2 f_equal. replace ((4 / 5 + 5 * ((1 / 5 - 1 / 5) * (1 / 5 - 1 / 5))) / (INR 2 - INR 1) * (1 / 5)) with (Rsqr (2 / 5)) by (unfold Rsqr; cbn; field). rewrite sqrt_Rsqr by lra. field.
  - intro c. rewrite !SE. pose proof (Rle_0_sqr (c 0%nat - 1 / 5)). unfold Rsqr in *. lra.
  - intros i Hi. assert (i = 0%nat) by lia. subst i. unfold sum_n, design. cbn. field.
Qed.
Example adf_dependent : adf_tstat 2 [1; 0; 0] [[1; 2]; [2; 4]; [3; 6]] = Err ValueError.
Proof.
  apply c145_raises. split; auto. exists (fun j => if (j =? 0)%nat then 2 else -1). split; [exists 0%nat; split; [lia|cbn; lra]|]. intros t Ht. cbn in Ht. destruct t as [|[|[|t]]]; try lia; unfold sum_n, design; cbn; ring.
Qed.
Example inverse_with_pivot : exists N, inv 2 (fun i j => nth j (nth i [[0; 1]; [2; 1]] []) 0) = Ok N /\ N 0%nat 0%nat = -1 / 2 /\ N 0%nat 1%nat = 1 / 2 /\ N 1%nat 0%nat = 1 /\ N 1%nat 1%nat = 0.
Proof.
  destruct (c145_inverse 2 (fun i j => nth j (nth i [[0; 1]; [2; 1]] []) 0)) as [(N & E & H)|(_ & H)].
  - exists N. split; auto. pose proof (proj1 (H 0%nat 0%nat ltac:(lia) ltac:(lia))). pose proof (proj1 (H 0%nat 1%nat ltac:(lia) ltac:(lia))). pose proof (proj1 (H 1%nat 0%nat ltac:(lia) ltac:(lia))). pose proof (proj1 (H 1%nat 1%nat ltac:(lia) ltac:(lia))).
    unfold sum_n in *. cbn in *. repeat split; lra.
  - exfalso. apply (H (fun i j => nth j (nth i [[-1 / 2; 1 / 2]; [1; 0]] []) 0)). intros [|[|i]] [|[|l]] Hi Hl; try lia; unfold sum_n; cbn; field.
Qed.
