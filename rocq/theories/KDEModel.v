(** Model of the kernel density part of the library: utils/stats.py [KDERv], the end of evaluation/backtest.py [compute_pbo] and
    tools/option.py [implied_underlying_distribution].
    Arguments: [phi] is the standard normal density, [quad f lo x] scipy's integral of [f] from [lo] ([None] is minus infinity) to [x],
    [spline xs ys] scipy's CubicSpline (the curve and its second derivative), [smooth] gaussian_filter1d, [choose] np.random.choice.
    Real numbers stand for floats. *)
From Verif Require Import Py RNum Normal CombModel OptionModel.
Set Implicit Arguments.
Unset Strict Implicit.
Open Scope R_scope.

(** scipy [gaussian_kde(xs)] on one-dimensional data: Scott's factor [n^(-1/5)] times the sample standard deviation (divisor n - 1).
    A single observation raises ValueError, a zero variance LinAlgError, which is a ValueError. *)
Definition kde_bandwidth (xs : list R) : res R :=
  let n := length xs in
  if (n <=? 1)%nat then Err ValueError else
  let var := rsum (map (fun x => (x - rmean xs) * (x - rmean xs)) xs) / (INR n - 1) in
  if Req_EM_T var 0 then Err ValueError else Ok (sqrt var * Rpower (INR n) (- / 5)).
(** [gaussian_kde.pdf] *)
Definition kde_pdf (phi : R -> R) (xs : list R) (h x : R) : R := rsum (map (fun c => phi ((x - c) / h) / h) xs) / INR (length xs).

(** stats.py:40-47 [KDERv]: a [rv_continuous] whose [_pdf] is the kde's; [kde_a] is the lower end of the support ([None]: minus infinity).
    scipy returns density 0 below the support, cdf 0 at and below its lower end, and integrates [_pdf] from the lower end otherwise.
    Simplified: the upper end of the support is always infinity, as in both uses. *)
Record KDERv := { kde_f : R -> R; kde_a : option R }.
Definition rv_pdf (rv : KDERv) (x : R) : R :=
  match kde_a rv with Some a => if Rlt_dec x a then 0 else kde_f rv x | None => kde_f rv x end.
Definition rv_cdf (quad : (R -> R) -> option R -> R -> R) (rv : KDERv) (x : R) : R :=
  match kde_a rv with Some a => if Rle_dec x a then 0 else quad (kde_f rv) (Some a) x | None => quad (kde_f rv) None x end.

(** backtest.py:12-56 [compute_pbo]: the probability, the rank logits, the in-sample and the out-of-sample performances.
    [n_strats] is [test_perm.shape[0]], the number of columns. *)
Definition compute_pbo (quad : (R -> R) -> option R -> R -> R) (phi : R -> R) row (eval_fn : list row -> list Qc) (argsort : list Qc -> list nat)
    (perm : list row) (n_strats n_parts : nat) : res (R * list R * list Qc * list Qc) :=
  do rs <- compute_pbo_ranks eval_fn argsort perm n_parts;
  let logits := map (fun r => rank_logit (fst (fst r)) n_strats) rs in
  do h <- kde_bandwidth logits;
  Ok (rv_cdf quad {| kde_f := kde_pdf phi logits h; kde_a := None |} 0, logits, map (fun r => snd (fst r)) rs, map snd rs).

(** ** Implied distribution of the underlying *)
(** option.py:154-184 without dividends, which never raises *)
Definition bsm_value (cdf : R -> R) ty (s0 k r sigma t : R) : R :=
  match bsm_option_price cdf ty s0 k r sigma t None 0 false with Ok v => v | Err _ => 0 end.
(** option.py:59-72: the points through which the price curve is drawn *)
Definition price_points (cdf : R -> R) (brentq : (R -> R) -> R -> R -> res R) (spline : list R -> list R -> res ((R -> R) * (R -> R)))
    (options : list (R * R)) (ks : list R) (t r : R) (volatility_space : bool) (s0 : option R) ty : res (list (R * R)) :=
  if volatility_space then
    do s <- match s0 with Some s => Ok s | None => Err TypeError end;
    do iv <- mapM (fun o => implied_volatility brentq (fun sigma => bsm_value cdf ty s (fst o) r sigma t) (snd o) (1 / 100) 1) options;
    do curve <- spline (map fst options) iv;
    Ok (map (fun k => (k, bsm_value cdf ty s k r (fst curve k) t)) ks)
  else Ok options.
(** option.py:36-80 [implied_underlying_discrete_pdf]; quotes are (strike, price) *)
Definition implied_discrete_pdf cdf brentq spline (smooth : R -> list R -> res (list R)) (options : list (R * R)) (t r : R) (n_interpolate : option nat)
    (smooth_width : option R) (volatility_space : bool) (s0 : option R) ty : res (list (R * R)) :=
  match options with
  | [] => Ok []
  | _ =>
    let n := match n_interpolate with Some m => m | None => (length options * 3)%nat end in
    let ks := linspace (rlmin (map fst options)) (rlmax (map fst options)) n in
    do pts <- price_points cdf brentq spline options ks t r volatility_space s0 ty;
    do curve <- spline (map fst pts) (map snd pts);
    let pdf := filter (fun e => if Rle_dec 0 (snd e) then true else false) (map (fun k => (k, exp (r * t) * snd curve k)) ks) in
    match smooth_width with None => Ok pdf | Some w => do f <- smooth w (map snd pdf); Ok (combine (map fst pdf) f) end
  end.
(** option.py:83-142 [implied_underlying_distribution]: the random variable, the density and the rate.
    A missing quote table is [None].  The bare Exception of line 131 is RuntimeError here.  A NaN rate makes every later comparison false and
    ends in a ValueError; so does sampling without probability mass. *)
Definition implied_underlying_distribution (phi cdf : R -> R) brentq spline smooth (choose : list (R * R) -> nat -> list R)
    (calls puts : option (list (R * R))) (t : R) (r s0 : option R) (d : R) (n_interpolate : option nat) (smooth_width : option R)
    (volatility_space : bool) (kde_samples : nat) : res (KDERv * (R -> R) * R) :=
  do r <- match r with
          | Some r => Ok r
          | None => match s0, puts, calls with
                    | None, _, _ => Err ValueError
                    | Some _, None, _ => Err ValueError
                    | Some _, Some _, None => Err TypeError
                    | Some s, Some ps, Some cs =>
                        let quoted := map (fun o : R * R => (fst o, Some (snd o))) in
                        match fst (implied_risk_free_rate (quoted cs) (quoted ps) s t d) with Some r => Ok r | None => Err ValueError end
                    end
          end;
  let side := fun ty quotes => match quotes with
                | None => Ok None
                | Some q => do l <- implied_discrete_pdf cdf brentq spline smooth q t r n_interpolate smooth_width volatility_space s0 ty; Ok (Some l)
                end in
  do pc <- side Call calls;
  do pp <- side Put puts;
  match sampling_probs pc pp with
  | None => Err RuntimeError
  | Some probs =>
      if Req_EM_T (rsum (map snd match pc with Some a => a | None => [] end) + rsum (map snd match pp with Some b => b | None => [] end)) 0 then Err ValueError else
      let samples := choose probs kde_samples in
      do h <- kde_bandwidth samples;
      Ok ({| kde_f := kde_pdf phi samples h; kde_a := Some 0 |}, kde_pdf phi samples h, r)
  end.
