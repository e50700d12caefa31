(** Model of assets_allocation/HRP.py:65-90 in binary64. *)
From Coq Require Import ZArith List.
From Verif Require Import Float64 HRPModel.
Import ListNotations.
Set Implicit Arguments.
Unset Strict Implicit.

(** HRP.py:87: [alpha = 1 - var_1/(var_1 + var_2)] *)
Definition falpha (v1 v2 : f64) : f64 := fsub (fz 1) (fdiv v1 (fadd v1 v2)).
(** [weights[part] *= a] *)
Definition fscale (part : list nat) (a : f64) (ws : list (nat * f64)) : list (nat * f64) :=
  map (fun e => (fst e, if existsb (Nat.eqb (fst e)) part then fmul (snd e) a else snd e)) ws.
(** HRP.py:82-89; [var] is [_get_cluster_var(cov, _)], whose [np.dot] adds in an order of its own *)
Fixpoint fsplit_pairs (var : list nat -> f64) (parts : list (list nat)) (ws : list (nat * f64)) : list (nat * f64) :=
  match parts with
  | p1 :: p2 :: rest =>
      let alpha := falpha (var p1) (var p2) in
      fsplit_pairs var rest (fscale p2 (fsub (fz 1) alpha) (fscale p1 alpha ws))
  | _ => ws
  end.
(** HRP.py:75 *)
Fixpoint fbisect_loop (fuel : nat) (var : list nat -> f64) (parts : list (list nat)) (ws : list (nat * f64)) : option (list (nat * f64)) :=
  match parts with
  | [] => Some ws
  | _ => match fuel with O => None | S f => let parts' := bisect parts in fbisect_loop f var parts' (fsplit_pairs var parts' ws) end
  end.
(** HRP.py:65-90 [_recursive_bisection] *)
Definition frecursive_bisection (fuel : nat) (var : list nat -> f64) (sort_indices : list nat) : option (list (nat * f64)) :=
  fbisect_loop fuel var [sort_indices] (map (fun i => (i, fz 1)) sort_indices).
