(** C129: hierarchical risk parity weights in binary64. *)
From Coq Require Import ZArith Reals Lra Lia List Permutation.
From Flocq Require Import Core BinarySingleNaN.
From Verif Require Import RNum Float64 HRPModel HRPProofs FloatBarsProofs FloatHRPModel FloatHRPProofs.
Import ListNotations.
Set Implicit Arguments.
Unset Strict Implicit.
Open Scope R_scope.

(** The two shares of a split add up to exactly one, whatever the roundings of the sum, the quotient and the differences. *)
Theorem c129_split v1 v2 : fin v1 -> fin v2 -> 0 <= fv v1 -> 0 <= fv v2 -> 0 < fv v1 + fv v2 <= big ->
  let a := falpha v1 v2 in let b := fsub (fz 1) a in fin a /\ fin b /\ 0 <= fv a <= 1 /\ 0 <= fv b <= 1 /\ fv a + fv b = 1.
Proof. intros. apply split_shares. unfold usable. auto. Qed.
Print Assumptions c129_split.

(** (1+u)^d is at most 1 + 2du *)
Lemma pow_hi_linear d : INR d * u64 <= / 2 -> (1 + u64) ^ d <= 1 + 2 * INR d * u64.
Proof.
  intro UD. pose proof u64_pos as U. induction d as [|d IH]; [cbn [pow INR]; lra|]. rewrite S_INR in *. cbn [pow]. assert (D : 0 <= INR d) by apply pos_INR.
  assert (UD' : INR d * u64 <= / 2) by lra. specialize (IH UD').
  apply Rle_trans with ((1 + u64) * (1 + 2 * INR d * u64)); [apply Rmult_le_compat_l; lra|].
  assert (2 * INR d * u64 * u64 <= 1 * u64) by (apply Rmult_le_compat_r; lra). lra.
Qed.
(** Recursive bisection ends; the weights are between 0 and 1 and add up to 1 within (2d+2)/2^53 for n <= 2^d items. *)
Theorem c129_weights var idx fuel d : idx <> [] -> NoDup idx -> (length idx <= fuel)%nat -> (length idx <= 2 ^ d)%nat -> (d <= 1000)%nat ->
  (forall c1 c2, c1 <> [] -> c2 <> [] -> incl c1 idx -> incl c2 idx -> fin (var c1) /\ fin (var c2) /\ 0 <= fv (var c1) /\ 0 <= fv (var c2) /\ 0 < fv (var c1) + fv (var c2) <= big) ->
  exists ws, frecursive_bisection fuel var idx = Some ws /\ map fst ws = idx /\ (forall i w, In (i, w) ws -> fin w /\ 0 <= fv w <= 1) /\
    Rabs (rsum (map (fun e => fv (snd e)) ws) - 1) <= (2 * INR d + 2) * u64.
Proof.
  intros Hne Hn Hf Hd Hd' HV. destruct (@frecursive_bisection_ok var idx fuel Hne Hn Hf) as (g & E & G). exists (map (fun i => (i, g i)) idx). split; auto.
  destruct (@fz_spec 1) as [F1 V1]; [lia|]. destruct (@fshare_total var idx HV d idx g (fz 1) Hd Hne Hn) as [B [S1 S2]]; auto; [intros x; auto|rewrite V1; lra|]. rewrite V1 in B, S1, S2.
  split; [rewrite map_map; apply map_id|]. split; [intros i w Hi; apply in_map_iff in Hi; destruct Hi as (j & Ej & Hj); injection Ej as <- <-; apply (B j Hj)|].
  rewrite map_map. cbn [snd]. set (T := rsum (map (fun i => fv (g i)) idx)) in *. pose proof u64_pos as U. pose proof (bpow_gt_0 radix2 (-1075)) as E0. fold eta64 in E0.
  pose proof (bernoulli d) as LO. pose proof (pow_hi_pos d) as HP. assert (D0 : 0 <= INR d) by apply pos_INR.
  assert (DU : INR d * u64 <= / 2). { assert (INR d <= 1024) by (rewrite INR_IZR_INZ; apply IZR_le; lia).
    apply Rle_trans with (1024 * u64); [apply Rmult_le_compat_r; lra|]. unfold ulp64. change 1024 with (bpow radix2 10). rewrite <- bpow_plus. change (/ 2) with (bpow radix2 (-1)). apply bpow_le. lia. }
  assert (HI := pow_hi_linear DU).
  assert (NE : 2 * (INR (length idx) - 1) * eta64 <= u64 / 4).
  { assert (LN : INR (length idx) <= bpow radix2 1000).
    { apply Rle_trans with (INR (2 ^ d)); [now apply le_INR|]. rewrite INR_IZR_INZ, Nat2Z.inj_pow. change (Z.of_nat 2) with 2%Z. rewrite (IZR_Zpower radix2) by lia. apply bpow_le. lia. }
    assert (N1 : 1 <= INR (length idx)) by (apply (le_INR 1); destruct idx; [congruence|cbn; lia]).
    apply Rle_trans with (2 * bpow radix2 1000 * eta64); [apply Rmult_le_compat_r; lra|]. unfold eta64, ulp64. change 2 with (bpow radix2 1) at 1. replace (bpow radix2 (-53) / 4) with (bpow radix2 (-55)).
    - rewrite <- !bpow_plus. apply bpow_le. lia.
    - change (-53)%Z with (-55 + 2)%Z. rewrite bpow_plus. change (bpow radix2 2) with 4. field. }
  assert (N1 : 0 <= 2 * (INR (length idx) - 1) * eta64). { apply Rmult_le_pos; [|lra]. assert (1 <= INR (length idx)) by (apply (le_INR 1); destruct idx; [congruence|cbn; lia]). lra. }
  set (ne := 2 * (INR (length idx) - 1) * eta64) in *.
  assert (ne * (1 + u64) ^ d <= u64 / 4 * 2) by (apply Rmult_le_compat; lra).
  apply Rabs_le. lra.
Qed.
Print Assumptions c129_weights.
(** three items with cluster variances in the ratios 1 : 2 : 3 *)
Definition ex_var (c : list nat) : f64 := match c with [0%nat] => fz 1 | [1%nat] => fz 2 | _ => fz 3 end.
Example c129_ex : (forall c1 c2, fin (ex_var c1) /\ fin (ex_var c2) /\ 0 <= fv (ex_var c1) /\ 0 <= fv (ex_var c2) /\ 0 < fv (ex_var c1) + fv (ex_var c2) <= big) /\
  option_map (map (fun e => (fst e, flt (fz 0) (snd e), flt (snd e) (fz 1)))) (frecursive_bisection 3 ex_var [0; 1; 2]%nat) = Some [(0, true, true); (1, true, true); (2, true, true)]%nat.
Proof.
  split; [|vm_compute; reflexivity]. assert (H : forall c, fin (ex_var c) /\ 1 <= fv (ex_var c) <= 3).
  { destruct (@fz_spec 1) as [F1 V1]; [lia|]. destruct (@fz_spec 2) as [F2 V2]; [lia|]. destruct (@fz_spec 3) as [F3 V3]; [lia|].
    intro c. unfold ex_var. destruct c as [|[|[|]] [|]]; rewrite ?V1, ?V2, ?V3; (split; [assumption|lra]). }
  assert (B : 8 <= big) by (change 8 with (bpow radix2 3); apply bpow_le; lia). intros c1 c2. destruct (H c1) as [A1 A2]. destruct (H c2) as [B1 B2]. repeat split; auto; lra.
Qed.
