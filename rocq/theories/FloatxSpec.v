(** Specification vocabulary for the scalar functions. *)
From Coq Require Import Reals List ZArith.
From Verif Require Import MetricSpec.
Import ListNotations.
Open Scope R_scope.

(** The logistic function and its inverse. *)
Definition logistic (x : R) : R := / (1 + exp (- x)).
Definition log_odds (p : R) : R := ln (p / (1 - p)).
(** [t] is [x] rounded towards zero. *)
Definition is_trunc (x t : R) : Prop := (exists z, t = IZR z) /\ Rabs t <= Rabs x /\ Rabs (x - t) < 1 /\ 0 <= x * t.
(** A column function that works value by value and keeps nulls. *)
Definition valuewise {A B} (f : A -> B) (g : list (option A) -> list (option B)) : Prop :=
  forall x, length (g x) = length x /\ forall i, nth_error (g x) i = option_map (option_map f) (nth_error x i).
