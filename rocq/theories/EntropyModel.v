(** Model of features/entropy.py.  A string is a list of characters, a character a [nat] (its code). *)
From Verif Require Import Py RNum.
Set Implicit Arguments.
Unset Strict Implicit.
Open Scope nat_scope.

Notation str := (list nat).
Definition str_dec : forall a b : str, {a = b} + {a <> b} := list_eq_dec Nat.eq_dec.
Definition str_eqb (a b : str) : bool := if str_dec a b then true else false.

(** entropy.py:10-13 [_stringify] of a list of tokens, each given as its [str()] *)
Definition stringify (tokens : list str) : str := concat tokens.

(** ** Plug-in estimator *)

(** the dict [lib]: word -> positions, in insertion order *)
Fixpoint lib_add (w : str) (pos : nat) (lib : list (str * list nat)) : list (str * list nat) :=
  match lib with
  | [] => [(w, [pos])]
  | (w', ps) :: lib' => if str_eqb w w' then (w', ps ++ [pos]) :: lib' else (w', ps) :: lib_add w pos lib'
  end.
(** entropy.py:16-30 [_word_pmf]; [range(w, len(msg) + 1)] *)
Definition word_lib (msg : str) (w : nat) : list (str * list nat) :=
  fold_left (fun lib i => lib_add (slice msg (i - w) i) (i - w) lib) (seq w (S (length msg) - w)) [].
Definition word_pmf (msg : str) (w : nat) : list (str * R) :=
  let n_words := (INR (length msg) - INR w + 1)%R in
  map (fun e => (fst e, (INR (length (snd e)) / n_words)%R)) (word_lib msg w).
Definition log2 (x : R) : R := (ln x / ln 2)%R.
(** entropy.py:33-43 [plugin_entropy]; for w > 0 *)
Definition plugin_entropy (msg : str) (w : nat) : R :=
  let pmf := word_pmf msg w in (- rsum (map (fun e => snd e * log2 (snd e)) pmf) / INR w)%R.

(** ** entropy.py:46-64 [lempelziv_lib] *)

(** the for loop over j: extend the phrase [cur] until it is new; returns the library and what follows position j *)
Fixpoint lz_inner (lib : list str) (cur rest : str) : list str * str :=
  match rest with
  | [] => (lib, [])
  | c :: rest' => let sub := cur ++ [c] in
                  if existsb (str_eqb sub) lib then lz_inner lib sub rest' else (lib ++ [sub], rest')
  end.
(** the while loop; each round consumes at least one character, so [length rest] rounds are enough *)
Fixpoint lz_outer (fuel : nat) (lib : list str) (rest : str) : list str :=
  match fuel, rest with
  | O, _ | _, [] => lib
  | S fuel', _ => let (lib', rest') := lz_inner lib [] rest in lz_outer fuel' lib' rest'
  end.
Definition lempelziv_lib (msg : str) : res (list str) :=
  match msg with [] => Err IndexError | c :: rest => Ok (lz_outer (length rest) [[c]] rest) end.

(** ** entropy.py:67-80 [_longest_match] for n <= i *)
Definition match_at (msg : str) (i n length : nat) : bool :=
  existsb (fun j => str_eqb (slice msg i (i + length + 1)) (slice msg j (j + length + 1))) (seq (i - n) n).
Definition longest_match (msg : str) (i n : nat) : nat * str :=
  let m := fold_left (fun m length => if match_at msg i n length then slice msg i (i + length + 1) else m) (seq 0 n) [] in
  (S (length m), m).

(** entropy.py:83-110 [konto_entropy]; [ZeroDivisionError] when there are no points *)
Definition konto_points (msg : str) (window : option nat) : list (nat * nat) :=
  match window with
  | None => map (fun i => (i, i)) (seq 1 (length msg / 2))
  | Some w0 => let w := Nat.min w0 (length msg / 2) in map (fun i => (i, w)) (seq w (length msg - w + 1 - w))
  end.
Definition konto_entropy (msg : str) (window : option nat) : res R :=
  let points := konto_points msg window in
  let s := rsum (map (fun p => log2 (INR (snd p) + 1) / INR (fst (longest_match msg (fst p) (snd p))))%R points) in
  match points with [] => Err ZeroDivisionError | _ => Ok (s / INR (length points))%R end.

(** ** Encoders.  The result is the list of alphabet indices. *)
Open Scope Qc_scope.

(** entropy.py:115-124 [binary_encode] *)
Definition binary_encode (series : list Qc) (threshold : Qc) : list nat := map (fun x => if qlt threshold x then 1%nat else 0%nat) series.

(** [np.quantile] with linear interpolation of the sorted data at [prob]*(n-1) *)
Fixpoint qinsert_asc (x : Qc) (l : list Qc) : list Qc :=
  match l with [] => [x] | y :: l' => if qle x y then x :: l else y :: qinsert_asc x l' end.
Definition qsort_asc (l : list Qc) : list Qc := fold_right qinsert_asc [] l.
Definition np_quantile (sorted : list Qc) (prob : Qc) : Qc :=
  let v := prob * qn (length sorted - 1) in
  let lo := Z.to_nat (qfloor v) in
  let frac := v - qz (qfloor v) in
  nth lo sorted 0 + frac * (nth (S lo) sorted (nth lo sorted 0) - nth lo sorted 0).
(** [np.linspace(0, 1, n)] *)
Definition linspace01 (n : nat) : list Qc := map (fun k => if (n <=? 1)%nat then 0 else qn k / qn (n - 1)) (seq 0 n).
(** entropy.py:127-151 [QuantileEncoder]: the fitted quantiles; np.quantile of no data raises IndexError *)
Definition quantile_fit (n_quantiles : nat) (series : list Qc) : res (list Qc) :=
  match series with [] => Err IndexError | _ => Ok (map (np_quantile (qsort_asc series)) (linspace01 n_quantiles)) end.
(** [Series.searchsorted], side left, of a sorted list *)
Fixpoint qsearch_left (l : list Qc) (v : Qc) : nat := match l with [] => 0%nat | x :: l' => if qlt x v then S (qsearch_left l' v) else 0%nat end.
(** the alphabet has one letter per quantile and then '?'; an index past it would raise IndexError *)
Definition quantile_transform (quantiles : list Qc) (series : list Qc) : res (list nat) :=
  mapM (fun x => get (seq 0 (length quantiles + 1)) (qsearch_left quantiles x)) series.

(** entropy.py:154-166 [sigma_encode], for sigma > 0: digits, letters and '?' are 63 characters; negative indices do not
    occur as [lo] is the minimum.  The minimum of an empty Series is NaN. *)
Definition alphabet_size : nat := 63.
Definition sigma_encode (series : list Qc) (sigma : Qc) : res (list nat) :=
  match series with
  | [] => Ok []
  | x0 :: xs => let lo := lmin x0 xs in
      mapM (fun x => get (seq 0 alphabet_size) (Nat.min (Z.to_nat (qfloor ((x - lo) / sigma))) (alphabet_size - 1))) series
  end.
