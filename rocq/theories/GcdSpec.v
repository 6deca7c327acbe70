(** Specification of row-wise gcd and lcm. *)
From Coq Require Import ZArith List.
Import ListNotations.
Open Scope Z_scope.

(** A nullable integer column. *)
Definition zcol := list (option Z).
Definition i32_min : Z := - 2 ^ 31.
Definition i32_max : Z := 2 ^ 31 - 1.
Definition fits32 (z : Z) : Prop := i32_min <= z <= i32_max.
Definition col32 (x : zcol) : Prop := forall z, In (Some z) x -> fits32 z.
(** [g] is the greatest common divisor of [a] and [b]: a non-negative common divisor that every common divisor divides. *)
Definition is_gcd (a b g : Z) : Prop := 0 <= g /\ (g | a) /\ (g | b) /\ forall d, (d | a) -> (d | b) -> (d | g).
(** [m] is their least common multiple. *)
Definition is_lcm (a b m : Z) : Prop := 0 <= m /\ (a | m) /\ (b | m) /\ forall n, (a | n) -> (b | n) -> (m | n).
(** Row [i] of the result: null when an input is null, else related to the inputs by [P]. *)
Definition rowwise (P : Z -> Z -> Z -> Prop) (x y out : zcol) : Prop :=
  length out = length x /\ forall i, (i < length x)%nat ->
  match nth i x None, nth i y None with
  | Some a, Some b => exists v, nth i out None = Some v /\ P a b v
  | _, _ => nth i out None = None
  end.
