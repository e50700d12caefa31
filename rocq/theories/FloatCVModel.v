(** The embargo of cross_validation.py and the sample sizes of simulation.py [gen_mixed_gaussians] in binary64: both are [int(n * fraction)]. *)
From Coq Require Import ZArith List Bool.
From Flocq Require Import BinarySingleNaN.
From Verif Require Import Py Float64 CVModel.
Import ListNotations.
Set Implicit Arguments.
Unset Strict Implicit.

(** cross_validation.py:40 and 104, simulation.py:48 [int(n * fraction)]: the product is rounded, then truncated.  0 <= fraction <= 1. *)
Definition fcount (n : nat) (fraction : f64) : nat := Z.to_nat (Btrunc (fmul (fz (Z.of_nat n)) fraction)).

(** cross_validation.py:40-46 [_get_embargo_times]; as [CVModel.embargo_times] *)
Definition fembargo_times (bars : list Z) (pct : f64) : list (Z * Z) :=
  let n := length bars in
  let step := fcount n pct in
  if (step =? 0)%nat then combine bars bars
  else combine (firstn (n - step) bars) (skipn step bars) ++ map (fun b => (b, last bars 0%Z)) (skipn (n - step) bars).

(** cross_validation.py:49-71 [apply_purging_and_embargo] *)
Definition fapply_purging_and_embargo (events tests : list event) (bars : option (list Z)) (pct : f64) : res (list nat) :=
  match bars with
  | None => Ok (purged_train_indices events tests)
  | Some bt =>
      do adj <- mapM (fun t => do e <- lookup (fembargo_times bt pct) (snd t); Ok (fst t, e)) tests;
      Ok (purged_train_indices events adj)
  end.

(** cross_validation.py:91-118 [PurgedKFold.split]; as [CVModel.kfold_split] *)
Definition fkfold_split (n_splits : nat) (pct : f64) (events : list event) : res (list (list nat * list nat)) :=
  let n := length events in
  let embargo := fcount n pct in
  if (n_splits =? 0)%nat then Err ValueError
  else
    do bounds <- mapM (fun p => match p with [] => Err IndexError | i :: _ => Ok (i, last p 0 + 1)%nat end) (array_split n n_splits);
    mapM (fun ij => do tr <- kfold_train events embargo (fst ij) (snd ij); Ok (tr, slice (seq 0 n) (fst ij) (snd ij))) bounds.

(** simulation.py:45-52 [gen_mixed_gaussians]; as [UtilsModel.gen_mixed_gaussians] *)
Section FMixed.
  Variables St V : Type.
  Variable seed_state : Z -> St.
  Variable normal : St -> V -> V -> nat -> list V * St.
  Variable shuffle : St -> list V -> list V * St.
  Definition fgen_mixed_gaussians (st : St) (mu1 mu2 sigma1 sigma2 : V) (prob1 : f64) (n_samples : nat) (np_rand_seed : option Z) : list V :=
    let st := match np_rand_seed with Some s => if (s =? 0)%Z then st else seed_state s | None => st end in
    let (ret1, st) := normal st mu1 sigma1 (fcount n_samples prob1) in
    let (ret2, st) := normal st mu2 sigma2 (n_samples - length ret1) in
    fst (shuffle st (ret1 ++ ret2)).
End FMixed.
