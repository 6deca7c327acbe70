(** Specification of monotonicity checks, normalising transforms and horizontal norms. *)
From Coq Require Import Reals List.
From Verif Require Import WStatsSpec MetricSpec.
Import ListNotations.
Open Scope R_scope.

(** [l] is increasing / decreasing, strictly or not. *)
Definition before (strict : bool) (a b : R) : Prop := if strict then a < b else a <= b.
Definition increasing (strict : bool) (l : list R) : Prop := forall i j, (i < j < length l)%nat -> before strict (nth i l 0) (nth j l 0).
Definition decreasing (strict : bool) (l : list R) : Prop := forall i j, (i < j < length l)%nat -> before strict (nth j l 0) (nth i l 0).
(** Squared distance of the series [l] (row [i] at time [i]) to the line a + b i. *)
Definition line_loss (a b : R) (l : list R) : R := total (fun i => (nth i l 0 - (a + b * INR i)) ^ 2) (seq 0 (length l)).
(** Sum of the row numbers weighted by the values. *)
Definition trend (l : list R) : R := total (fun i => INR i * nth i l 0) (seq 0 (length l)).
(** Probabilities: none negative, sum 1. *)
Definition probabilities (l : list R) : Prop := (forall p, In p l -> 0 < p) /\ Rsum l = 1.
