(** The simulated paths of utils/simulation.py as Python generators over numpy's global random state.
    Arguments: [St] is the state of the generator, [reset seed] is [np.random.seed(seed)] and [draw] is [norm.rvs()]. *)
From Verif Require Import Py RNum.
Set Implicit Arguments.
Unset Strict Implicit.
Open Scope R_scope.

Section Generators.
  Variable St : Type.
  Variable reset : Z -> St.
  Variable draw : St -> R * St.
  (** simulation.py:5-22 [gen_geometric_brownian] called with an int as random_state; calling it runs nothing of its body *)
  Record path := { p_started : bool; p_value : R; p_left : nat; p_drift : R; p_vol : R; p_dt : R; p_seed : Z }.
  Definition new_path (s0 drift vol : R) (n : nat) (dt : R) (seed : Z) : path :=
    {| p_started := false; p_value := s0; p_left := n; p_drift := drift; p_vol := vol; p_dt := dt; p_seed := seed |}.
  (** [next]: the first call seeds the global state (line 17), also for no steps; [None] is StopIteration *)
  Definition next (g : path) (st : St) : option (R * path) * St :=
    let st := if p_started g then st else reset (p_seed g) in
    match p_left g with
    | O => (None, st)
    | S m => let (z, st) := draw st in
             let s := p_value g + p_value g * (p_drift g * p_dt g + p_vol g * sqrt (p_dt g) * z) in
             (Some (s, {| p_started := true; p_value := s; p_left := m; p_drift := p_drift g; p_vol := p_vol g; p_dt := p_dt g; p_seed := p_seed g |}), st)
    end.
  (** [list(g)], with fuel: a path of n steps stops at the call n + 1 *)
  Fixpoint collect (fuel : nat) (g : path) (st : St) : list R :=
    match fuel with O => [] | S f => match next g st with (Some (s, g'), st') => s :: collect f g' st' | (None, _) => [] end end.
  (** [list(zip(g, h))] *)
  Fixpoint collect_zip (fuel : nat) (g h : path) (st : St) : list (R * R) :=
    match fuel with
    | O => []
    | S f => match next g st with
             | (Some (s, g'), st1) => match next h st1 with (Some (u, h'), st2) => (s, u) :: collect_zip f g' h' st2 | (None, _) => [] end
             | (None, _) => []
             end
    end.
End Generators.
