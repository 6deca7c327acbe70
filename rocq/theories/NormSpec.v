(** What the normal tail is, stated without reference to the code: the area under the normal density
    to the right of x. *)
From Coq Require Import Reals List.
From Coquelicot Require Import Coquelicot.
Local Open Scope R_scope.

Definition density (mean sd t : R) : R :=
  exp (- (t - mean) ^ 2 / (2 * sd ^ 2)) / (sd * sqrt (2 * PI)).

(** [p] is the probability that a normal variable of that mean and standard deviation exceeds x *)
Definition upper_tail (mean sd x p : R) : Prop :=
  is_RInt_gen (density mean sd) (at_point x) (Rbar_locally p_infty) p.

(** the places, in units of sd * sqrt 2 above the mean, where the library changes its approximation *)
Definition cuts : list R :=
  (1e-10 :: 0.5 :: 0.75 :: 1.25 :: 2.25 :: 3.5 :: 5.25 :: 8 :: 11.5 :: 17 :: 24 :: 38 :: 60 :: 85 :: nil)%list.

Definition clamp01 (p : R) : R := Rmax 0 (Rmin p 1).
