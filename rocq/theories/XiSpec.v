From Coq Require Import Reals List Permutation Sorted.
Open Scope R_scope.
(** Sorting the rows by x, ties in any order. *)
Definition order_ok (order : list (R * R) -> list (R * R)) : Prop :=
  forall l, Permutation (order l) l /\ StronglySorted (fun p q => fst p <= fst q) (order l).
