(** data_structures/bars.py, volume and VWAP of bars and of bars made of bars, in binary64.  The other columns are copied without arithmetic (BarsModel). *)
From Coq Require Import ZArith List Bool.
From Flocq Require Import BinarySingleNaN.
From Verif Require Import Py Float64 FloatBarsModel.
Import ListNotations.
Set Implicit Arguments.
Unset Strict Implicit.

Record fbar := FBar { fb_vwap : f64; fb_vol : f64 }.
(** bars.py:20-41 [_compute_bar_stats]; [sum] is np.sum *)
Definition fbar_stats (sum : list f64 -> f64) (ticks : list ftick) : fbar := FBar (fvwap sum ticks) (sum (map ft_vol ticks)).
(** bars.py:445-453 [_resample_vwap] *)
Definition fresample_vwap (sum : list f64 -> f64) (bars : list fbar) : f64 :=
  fdiv (sum (map (fun b => fmul (fb_vwap b) (fb_vol b)) bars)) (sum (map fb_vol bars)).
(** bars.py:456-478 [_resample_bar_stats] *)
Definition fresample_bar_stats (sum : list f64 -> f64) (bars : list fbar) : fbar := FBar (fresample_vwap sum bars) (sum (map fb_vol bars)).
