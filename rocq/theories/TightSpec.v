(** The product rule for numbers that may be infinite or NaN, stated through signs. *)
From Coq Require Import Reals.
From Verif Require Import MetricSpec.
Open Scope R_scope.

(** The sign of an extended real, and the product rule stated through signs. *)
Definition positive (u : xnum) : Prop := match u with Fin a => 0 < a | PInf => True | _ => False end.
Definition negative (u : xnum) : Prop := match u with Fin a => a < 0 | NInf => True | _ => False end.
Definition infinite (u : xnum) : Prop := u = PInf \/ u = NInf.
Definition product_of (u v w : xnum) : Prop :=
  (forall a b, u = Fin a -> v = Fin b -> w = Fin (a * b)) /\
  (infinite u \/ infinite v ->
    ((positive u /\ positive v) \/ (negative u /\ negative v) -> w = PInf) /\
    ((positive u /\ negative v) \/ (negative u /\ positive v) -> w = NInf) /\
    (u = Fin 0 \/ v = Fin 0 -> w = NaN)) /\
  (u = NaN \/ v = NaN -> w = NaN).
