(** Specification of winsorizing. *)
From Coq Require Import Reals List.
Import ListNotations.
Open Scope R_scope.

(** The point of [lo, hi] next to v. *)
Definition nearest_in (lo hi v w : R) : Prop := lo <= w <= hi /\ forall u, lo <= u <= hi -> Rabs (v - w) <= Rabs (v - u).
Definition raised (x y : list (option R)) : nat :=
  length (filter (fun p => match p with (Some a, Some b) => if Rlt_dec a b then true else false | _ => false end) (combine x y)).
Definition lowered (x y : list (option R)) : nat := raised y x.
