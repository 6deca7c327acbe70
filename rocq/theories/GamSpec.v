(** The gamma function, the chi-squared law and the digamma function, stated without reference to the code. *)
From Coq Require Import Reals.
From Coquelicot Require Import Coquelicot.
Local Open Scope R_scope.

Definition gamma_weight (a t : R) : R := Rpower t (a - 1) * exp (- t).

(** [G] is Gamma(a): the area under t^(a-1) e^(-t) over the positive numbers *)
Definition is_Gamma (a G : R) : Prop :=
  is_RInt_gen (gamma_weight a) (at_right 0) (Rbar_locally p_infty) G.

(** [U] is the upper incomplete gamma function *)
Definition is_upper_gamma (a x U : R) : Prop :=
  is_RInt_gen (gamma_weight a) (at_point x) (Rbar_locally p_infty) U.

(** the density of the chi-squared law with [k] degrees of freedom; [G] stands for Gamma(k/2) *)
Definition chi2_density (k G t : R) : R :=
  Rpower t (k / 2 - 1) * exp (- t / 2) / (Rpower 2 (k / 2) * G).

(** [p] is the probability that a chi-squared variable with [k] degrees of freedom exceeds [x] *)
Definition chi2_tail (k x p : R) : Prop :=
  exists G, is_Gamma (k / 2) G /\
    is_RInt_gen (chi2_density k G) (at_point x) (Rbar_locally p_infty) p.
