(** Specification of statistics over lagged values of a column with nulls. *)
From Coq Require Import Reals List.
From Verif Require Import WStatsSpec.
Import ListNotations.
Open Scope R_scope.

(** The value in row [i], if there is one. *)
Definition get (x : list (option R)) (i : nat) : option R := match nth_error x i with Some (Some a) => Some a | _ => None end.
Definition known (x : list (option R)) : list R := flat_map (fun o => match o with Some a => [a] | None => [] end) x.
(** The pairs (x_i, x_{i+n}) with both values known, in order, and the triples (x_i, x_{i+n}, x_{i+2n}). *)
Definition pairs_at (n : nat) (x : list (option R)) : list (R * R) :=
  flat_map (fun i => match get x i, get x (i + n) with Some a, Some b => [(a, b)] | _, _ => [] end) (seq 0 (length x)).
Definition triples_at (n : nat) (x : list (option R)) : list (R * R * R) :=
  flat_map (fun i => match get x i, get x (i + n), get x (i + 2 * n) with Some a, Some b, Some c => [(a, b, c)] | _, _, _ => [] end) (seq 0 (length x)).
(** Sum of squared deviations from the mean. *)
Definition ssd (l : list R) : R := Rsum (map (fun a => (a - mean_of l) ^ 2) l).
