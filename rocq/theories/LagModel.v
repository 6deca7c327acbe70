(** Model of the lag-based time series features of python/polars_ds/exprs/ts_features.py, in exact real arithmetic.
    Columns as in WStatsModel, results with infinities and NaN as in MetricModel. *)
From Coq Require Import Reals List ZArith.
From Verif Require Import WStatsSpec WStatsModel MetricSpec MetricModel.
Import ListNotations.
Open Scope R_scope.

(** [x.shift(-n)]: values move up, the last n rows become null ([x.shift(n)] is MetricModel.shift_by). *)
Definition shift_up (n : nat) (x : rcol) : rcol := skipn n x ++ repeat None (Nat.min n (length x)).

(** ts_features.py 68-73 query_abs_energy. *)
Definition query_abs_energy (x : rcol) : R := dot x x.
(** ts_features.py 76-80 query_mean_abs_change: [diff(null_behavior="drop")] drops the first row. *)
Definition query_mean_abs_change (x : rcol) : option R := rmean (values (lift1 Rabs (tl (diff_n 1 x)))).
(** ts_features.py 336-353 query_c3_stats: [len()] is u32 and so is the difference. *)
Definition query_c3_stats (x : rcol) (lag : nat) : xnum :=
  xdiv (csum (lift2 Rmult (lift2 Rmult x (shift_by lag x)) (shift_by (2 * lag) x)))
       (u32R (Z.of_nat (length x) - Z.of_nat (2 * lag))).
(** ts_features.py 356-379 query_cid_ce; the standard deviation (ddof 1) of fewer than two values is null, and so is
    everything divided by it; the sum of no value is 0. *)
Definition query_cid_ce (x : rcol) (normalize : bool) : xnum :=
  let ce y := let z := lift2 Rminus y (shift_up 1 y) in Fin (sqrt (dot z z)) in
  if normalize then
    if (length (values x) <? 2)%nat then Fin 0
    else let sd := sqrt (var_of (values x)) in
         if Req_EM_T sd 0 then (* 0 / 0 in every known row *)
           match values (lift2 Rminus x (shift_up 1 x)) with [] => Fin 0 | _ => NaN end
         else ce (lift1 (fun v => (v - cmean x) / sd) x)
  else ce x.
(** ts_features.py 382-390 query_time_reversal_asymmetry_stats. *)
Definition query_tra (x : rcol) (n_lags : nat) : option R :=
  let one_lag := shift_up n_lags x in
  let two_lag := shift_up (2 * n_lags) x in
  rmean (values (lift2 Rmult (lift2 Rmult one_lag (lift2 Rplus two_lag x)) (lift2 Rminus two_lag x))).
(** ts_features.py 393-416 query_auto_corr; [var(ddof)] of at most ddof values is null (None). *)
Definition query_auto_corr (x : rcol) (lag ddof : nat) (normalize : bool) : option xnum :=
  if normalize then
    let x_m := lift1 (fun v => v - cmean x) x in
    if (length (values x) <=? ddof)%nat then None
    else
      let var := Rsum (map (fun v => (v - cmean x) ^ 2) (values x)) / INR (length (values x) - ddof) in
      Some (if (length x <? lag)%nat then NaN
            else xdiv (dot x_m (shift_up lag x_m)) (INR (length x - lag) * var))
  else option_map Fin (rmean (values (lift2 Rmult x (shift_up lag x)))).
