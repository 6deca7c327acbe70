(** C95: haversine distance. *)
From Coq Require Import Reals List.
From Verif Require Import HavSpec HavModel HavProofs.
Import ListNotations.
Open Scope R_scope.

(** Row by row the great circle distance, null where a coordinate is null: two columns of points ... *)
Theorem C95_columns : forall x_lat x_long y_lat y_long : col,
  length x_long = length x_lat -> length y_lat = length x_lat -> length y_long = length x_lat ->
  (length x_lat = 1%nat -> ~ In None y_lat /\ ~ In None y_long) ->
  exists out, naive_haversine x_lat x_long y_lat y_long = Ok out /\ length out = length x_lat /\
    forall i, (i < length x_lat)%nat -> row_ok (nth i x_lat None) (nth i x_long None) (nth i y_lat None) (nth i y_long None) (nth i out Null).
Proof. exact cols_thm. Qed.
Print Assumptions C95_columns.
(** ... or a column of points and one fixed point. *)
Theorem C95_fixed_point : forall (x_lat x_long : col) lat long, length x_long = length x_lat ->
  exists out, naive_haversine x_lat x_long [Some lat] [Some long] = Ok out /\ length out = length x_lat /\
    forall i, (i < length x_lat)%nat -> row_ok (nth i x_lat None) (nth i x_long None) (Some lat) (Some long) (nth i out Null).
Proof. exact scalar_thm. Qed.
Print Assumptions C95_fixed_point.

(** It is a metric on the sphere: symmetric, between 0 and half the circumference, 0 exactly for the same place, and it
    satisfies the triangle inequality. *)
Theorem C95_metric : forall la lo la' lo' la'' lo'', exists d e f,
  haversine_elementwise la lo la' lo' = Some d /\ haversine_elementwise la' lo' la'' lo'' = Some e /\
  haversine_elementwise la lo la'' lo'' = Some f /\ haversine_elementwise la' lo' la lo = Some d /\
  0 <= d <= PI * 6371 /\ (d = 0 <-> point la lo = point la' lo') /\ f <= d + e.
Proof. exact metric_thm. Qed.
Print Assumptions C95_metric.
(** Turning the globe does not change it; along a meridian it is the difference of latitude in radians times the radius. *)
Theorem C95_places : forall la lo la' lo' t,
  haversine_elementwise la (lo + t) la' (lo' + t) = haversine_elementwise la lo la' lo' /\
  (Rabs (la' - la) <= 180 -> haversine_elementwise la lo la' lo = Some (6371 * (Rabs (la' - la) * PI / 180))).
Proof. exact place_thm. Qed.
Print Assumptions C95_places.
Example C95_case : arc (point 0 0) (point 0 90) (radius * (PI / 2)) /\ point 0 0 <> point 0 90.
Proof. exact quarter. Qed.

(** A null in the second point panics when there is only one row (or a scalar) of it. *)
Theorem C95_null_scalar_refuted : forall x_lat x_long y,
  naive_haversine x_lat x_long [None] [y] = Panic /\ naive_haversine x_lat x_long [y] [None] = Panic.
Proof. exact null_scalar. Qed.
Print Assumptions C95_null_scalar_refuted.
(** Only the second point may be a scalar. *)
Theorem C95_first_scalar : forall a b y_lat y_long, length y_lat <> 1%nat -> naive_haversine [a] [b] y_lat y_long = Err.
Proof. exact x_scalar. Qed.
Print Assumptions C95_first_scalar.
