(** The labelling functions put together the way their arguments are documented: events sampled by the CUSUM filter on the close
    prices (features/filters.py:6-26), vertical barriers (utils/time_series.py:50-60), triple-barrier outcomes
    (labeling/triple_barrier.py:63-109).  The library itself has no function that does this. *)
From Verif Require Import Py RNum BarrierModel FiltersModel UtilsModel.
Set Implicit Arguments.
Unset Strict Implicit.
Open Scope Qc_scope.

(** [filter_symmetric_cusum(bars.close, threshold)]: the times of the events *)
Definition cusum_times (bars : list (Z * ohlc)) (threshold : Qc) : list Z :=
  map (fun i => nth i (map fst bars) 0%Z) (cusum (map (fun b => Some (b_close (snd b))) bars) threshold).
(** [get_vertical_barriers] of them, as a column of expiries *)
Definition pipeline_expiries (bars : list (Z * ohlc)) (threshold : Qc) (holding : Z) : list (Z * option Z) :=
  map (fun e => (fst e, Some (snd e))) (vertical_barriers (map fst bars) (cusum_times bars threshold) holding).
(** [get_event_returns] of them *)
Definition label_pipeline (bars : list (Z * ohlc)) (threshold : Qc) (holding : Z) (targets : list (Z * option Qc)) (pt_mult sl_mult min_target : Qc)
    (sides : option (list (Z * Z))) : res (list outcome) :=
  get_event_returns bars (cusum_times bars threshold) targets pt_mult sl_mult (Some (pipeline_expiries bars threshold holding)) min_target sides.
(** the (start, end) frame handed to the weighting and cross-validation functions *)
Definition event_spans (outs : list outcome) : list (Z * Z) := map (fun oc => (ev_start (oc_event oc), oc_end oc)) outs.
