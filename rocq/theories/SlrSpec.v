(** Specification of fitting a line to points with one feature. *)
From mathcomp Require Import all_ssreflect all_algebra.
From Verif Require Import SlrModel.
Set Implicit Arguments.
Unset Strict Implicit.
Import GRing.Theory Num.Theory.
Local Open Scope ring_scope.

Section Spec.
Variable R : realFieldType.

(** A point: weight, feature, target. *)
Definition point := (R * R * R)%type.
Definition Pt (w x y : R) : point := (w, x, y).
Definition wt (q : point) : R := q.1.1.
Definition px (q : point) : R := q.1.2.
Definition py (q : point) : R := q.2.

(** The weighted squared error of a line. *)
Definition line_err (d : seq point) (b a : R) : R := \sum_(q <- d) wt q * (py q - (b * px q + a)) ^+ 2.
(** The one best line, and the one best line through the origin. *)
Definition best_line (d : seq point) (beta alpha : R) : Prop :=
  forall b a, ~ (b = beta /\ a = alpha) -> line_err d beta alpha < line_err d b a.
Definition best_slope (d : seq point) (beta : R) : Prop := forall b, b <> beta -> line_err d beta 0 < line_err d b 0.

(** Two points of positive weight at different places; one of positive weight away from zero. *)
Definition spread (d : seq point) : Prop :=
  exists2 q : R * R * R, q \in d & exists2 q' : R * R * R, q' \in d & [/\ 0 < wt q, 0 < wt q' & px q != px q'].
Definition away (d : seq point) : Prop := exists2 q : R * R * R, q \in d & 0 < wt q /\ px q != 0.
(** A cell of a column. *)
Definition cell (o : option R) : val R := if o is Some x then Val x else Null.
(** Rows of a frame: weight, feature and target, any of which may be null. *)
Record row := Row { rw : option R; rx : option R; ry : option R }.
Definition xs (l : seq row) : seq (val R) := map (fun r => cell (rx r)) l.
Definition ys (l : seq row) : seq (val R) := map (fun r => cell (ry r)) l.
Definition ws (l : seq row) : seq (val R) := map (fun r => cell (rw r)) l.
(** The rows in which everything used is known, with and without weights. *)
Definition points (weighted : bool) (l : seq row) : seq point :=
  pmap (fun r => match (if weighted then rw r else Some 1), rx r, ry r with
                 | Some w, Some x, Some y => Some (Pt w x y) | _, _, _ => None end) l.
(** Weights are not negative. The columns used are null in the same rows; the target is known wherever the others are. *)
Definition weight_ok (weighted : bool) (r : row) : bool := weighted ==> oapp (fun w => 0 <= w) true (rw r).
Definition together (weighted : bool) (r : row) : bool :=
  (isSome (rx r) == isSome (ry r)) && (weighted ==> (isSome (rw r) == isSome (rx r))).
Definition target_known (weighted : bool) (r : row) : bool :=
  (weighted ==> isSome (rw r)) && isSome (rx r) ==> isSome (ry r).
End Spec.
Arguments Pt {R} w x y.
Arguments wt {R} q.
Arguments px {R} q.
Arguments py {R} q.
Arguments Row {R}.
Arguments best_line {R} d beta alpha.
Arguments best_slope {R} d beta.
Arguments line_err {R} d b a.
Arguments spread {R} d.
Arguments away {R} d.
Arguments together {R} weighted r.
Arguments target_known {R} weighted r.
Arguments weight_ok {R} weighted r.
