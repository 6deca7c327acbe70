(** Model of haversine: python/polars_ds/exprs/num.py 235-265, src/num_ext/haversine.rs, src/utils/mod.rs 244-260, in exact
    real arithmetic. *)
From Coq Require Import Reals List.
From Verif Require Import HavSpec.
Import ListNotations.
Open Scope R_scope.

(** f64::sqrt: NaN ([None]) for negative arguments. *)
Definition fsqrt (x : R) : option R := if Rlt_dec x 0 then None else Some (sqrt x).
(** f64::atan2(y, x). *)
Definition atan2 (y x : R) : R :=
  if Rlt_dec 0 x then atan (y / x)
  else if Rlt_dec x 0 then (if Rlt_dec y 0 then atan (y / x) - PI else atan (y / x) + PI)
  else if Rlt_dec 0 y then PI / 2 else if Rlt_dec y 0 then - (PI / 2) else 0.
Definition to_radians (d : R) : R := d * (PI / 180).
(** utils/mod.rs 244-258 haversine_elementwise; [None]: NaN. *)
Definition haversine_elementwise (start_lat start_long end_lat end_long : R) : option R :=
  let d_lat := to_radians (end_lat - start_lat) in
  let d_lon := to_radians (end_long - start_long) in
  let lat1 := to_radians start_lat in
  let lat2 := to_radians end_lat in
  let a := sin (d_lat / 2) * sin (d_lat / 2) + sin (d_lon / 2) * sin (d_lon / 2) * cos lat1 * cos lat2 in
  match fsqrt a, fsqrt (1 - a) with
  | Some s, Some c => Some (6371 * (2 * atan2 s c))
  | _, _ => None
  end.
Definition col := list (option R).
Inductive res := Ok (l : list cell) | Err | Panic.
Definition cell_of (a b c d : option R) : cell :=
  match a, b, c, d with
  | Some a, Some b, Some c, Some d => match haversine_elementwise a b c d with Some r => Num r | None => NaNv end
  | _, _, _, _ => Null
  end.
(** haversine.rs 6-51 naive_haversine: the second point may be a scalar, whose null panics ([get(0).unwrap()]). *)
Definition naive_haversine (x_lat x_long y_lat y_long : col) : res :=
  match y_lat, y_long with
  | [a], [b] =>
    match a, b with
    | Some _, Some _ => Ok (map (fun p => cell_of (fst p) (snd p) a b) (combine x_lat x_long))
    | _, _ => Panic
    end
  | _, _ =>
    if andb (Nat.eqb (length x_lat) (length x_long)) (andb (Nat.eqb (length x_long) (length y_lat)) (Nat.eqb (length y_lat) (length y_long))) then
      Ok (map (fun p => cell_of (fst (fst p)) (snd (fst p)) (fst (snd p)) (snd (snd p))) (combine (combine x_lat x_long) (combine y_lat y_long)))
    else Err
  end.
