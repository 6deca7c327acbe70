(** Specification of the haversine (great circle) distance. *)
From Coq Require Import Reals List.
Import ListNotations.
Open Scope R_scope.

Definition radius : R := 6371.
Definition rad (deg : R) : R := deg * PI / 180.
Definition vec := (R * R * R)%type.
(** The point of the unit sphere with the given latitude and longitude (in degrees). *)
Definition point (lat long : R) : vec := (cos (rad lat) * cos (rad long), cos (rad lat) * sin (rad long), sin (rad lat)).
Definition dot3 (u v : vec) : R := let '(a, b, c) := u in let '(x, y, z) := v in a * x + b * y + c * z.
(** [d] is the length of the shorter arc between two points of a sphere of radius 6371: the angle times the radius. *)
Definition arc (u v : vec) (d : R) : Prop := 0 <= d <= PI * radius /\ cos (d / radius) = dot3 u v.
(** A row of the result: null, NaN or a number. *)
Inductive cell := Null | NaNv | Num (r : R).
(** A row: null when an input is null, else the distance of the two points. *)
Definition row_ok (a b c d : option R) (v : cell) : Prop :=
  match a, b, c, d with Some a, Some b, Some c, Some d => exists r, v = Num r /\ arc (point a b) (point c d) r | _, _, _, _ => v = Null end.
