(** Model of utils/time_series.py (barriers, daily pairs), utils/data.py and utils/simulation.py. *)
From Verif Require Import Py RNum BarrierModel.
Set Implicit Arguments.
Unset Strict Implicit.
Open Scope Qc_scope.

(** time_series.py:50-60 [get_vertical_barriers]; [holding] is the holding period in time units *)
Definition vertical_barriers (times events : list Z) (holding : Z) : list (Z * Z) :=
  let idx := filter (fun i => (i <? length times)%nat) (map (fun e => searchsorted_left times (e + holding)) events) in
  combine (firstn (length idx) events) (map (fun i => nth i times 0%Z) idx).

(** time_series.py:34-46 [get_daily_volatility] up to the exponentially weighted std (EwmModel.v): the (bar, previous bar) pairs
    and the returns.  [close.loc] is by label on a duplicate-free index, so prices are looked up by position. [day]: one day. *)
Definition prev_day_indices (day : Z) (times : list Z) (intraday : bool) : list nat :=
  let idx := filter (fun i => (0 <? i)%nat) (map (fun t => searchsorted_left times (t - day)) times) in
  if intraday then map (fun i => (i - 1)%nat) idx else idx.
Definition day_pairs (day : Z) (times : list Z) (intraday : bool) : list (nat * nat) :=
  let idx := prev_day_indices day times intraday in
  combine (seq (length times - length idx) (length idx)) idx.
Definition daily_returns (day : Z) (times : list Z) (close : list Qc) (intraday : bool) : list Qc :=
  map (fun p => nth (fst p) close 0 / nth (snd p) close 0 - 1) (day_pairs day times intraday).

(** data.py:4-7 [fill_index] for a numeric [fill_val] and duplicate-free indexes: NaN becomes 0.  Adding two Series keeps identical indexes as they are
    and sorts the union of different ones. *)
Definition fill_index (indices : list Z) (series : list (Z * option Qc)) (fill_val : Qc) : list (Z * Qc) :=
  map (fun t => (t, if zmem t indices then match lookup t series with Some (Some v) => fill_val + v | _ => 0 end else 0))
      (if list_eq_dec Z.eq_dec indices (map fst series) then indices else zset (indices ++ map fst series)).

(** ** simulation.py.  Random numbers are an argument: [z k] is the k-th normal draw. *)
Open Scope R_scope.
(** simulation.py:5-22 [gen_geometric_brownian]; [sqdt] is sqrt(interval) *)
Fixpoint gbm (z : nat -> R) (drift vol dt : R) (k : nat) (s : R) (n : nat) : list R :=
  match n with O => [] | S m => let s' := s + s * (drift * dt + vol * sqrt dt * z k) in s' :: gbm z drift vol dt (S k) s' m end.
Definition gen_geometric_brownian z s0 drift vol n dt : list R := gbm z drift vol dt 0 s0 n.
(** simulation.py:25-42 [gen_discrete_ou_process]; phi = 2**(-1/half_life) *)
Fixpoint ou (z : nat -> R) (forecast phi sigma : R) (k : nat) (p : R) (n : nat) : list R :=
  match n with O => [] | S m => let p' := (1 - phi) * forecast + phi * p + sigma * z k in p' :: ou z forecast phi sigma (S k) p' m end.
(** [norm.rvs(random_state=...)]: None draws from the global stream, an int starts a fresh generator at every call *)
Definition rvs (stream : nat -> R) (first_draw : Z -> R) (random_state : option Z) : nat -> R :=
  match random_state with None => stream | Some seed => fun _ => first_draw seed end.
Definition gen_discrete_ou_process stream first_draw forecast half_life sigma seed n (random_state : option Z) : list R :=
  ou (rvs stream first_draw random_state) forecast (Rpower 2 (-1 / half_life)) sigma 0 seed n.
Close Scope R_scope.
(** simulation.py:45-52 [gen_mixed_gaussians]: [normal state mu sigma size] and [shuffle state l] thread the global generator state;
    [np_rand_seed] 0 (or None) does not seed *)
Section Mixed.
  Variables St V : Type.
  Variable seed_state : Z -> St.
  Variable normal : St -> V -> V -> nat -> list V * St.
  Variable shuffle : St -> list V -> list V * St.
  Definition gen_mixed_gaussians (st : St) (mu1 mu2 sigma1 sigma2 : V) (prob1 : Qc) (n_samples : nat) (np_rand_seed : option Z) : list V :=
    let st := match np_rand_seed with Some s => if (s =? 0)%Z then st else seed_state s | None => st end in
    let (ret1, st) := normal st mu1 sigma1 (Z.to_nat (qtrunc (qn n_samples * prob1))) in
    let (ret2, st) := normal st mu2 sigma2 (n_samples - length ret1) in
    fst (shuffle st (ret1 ++ ret2)).
End Mixed.
