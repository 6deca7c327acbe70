(* What Student's t and the F distribution are: their densities on the line, and the share of the area
   beyond a point.  Written without reference to the code, to the beta function or to the gamma function. *)
From Coq Require Import Reals.
From Coquelicot Require Import Coquelicot.
From Verif Require Import TtestSpec.
Local Open Scope R_scope.

(** [s^(b-1) (1+s)^-(a+b)], the kernel common to both *)
Definition beta_kernel (a b s : R) : R := Rpower s (b - 1) * Rpower (1 + s) (- (a + b)).
(** the area under it: the beta function *)
Definition is_Beta (a b v : R) : Prop :=
  is_RInt_gen (beta_kernel a b) (at_right 0) (Rbar_locally p_infty) v.

(** F with [d1] and [d2] degrees of freedom: the density is proportional to [t^(d1/2-1) (1+d1 t/d2)^-((d1+d2)/2)] *)
Definition f_density (d1 d2 t : R) : R := Rpower t (d1 / 2 - 1) * Rpower (1 + d1 * t / d2) (- ((d1 + d2) / 2)).
(** [p] is the share of the area beyond [x] *)
Definition f_upper_tail (d1 d2 x p : R) : Prop :=
  exists total beyond, is_RInt_gen (f_density d1 d2) (at_right 0) (Rbar_locally p_infty) total /\
    is_RInt_gen (f_density d1 d2) (at_point x) (Rbar_locally p_infty) beyond /\ 0 < total /\ p = beyond / total.

(** Student's t with [nu] degrees of freedom: the density is proportional to [(1+t^2/nu)^-((nu+1)/2)]; it is even,
    so its whole area is twice the area over the positive numbers *)
Definition t_density (nu t : R) : R := Rpower (1 + t * t / nu) (- ((nu + 1) / 2)).
Definition t_upper_tail (nu x p : R) : Prop :=
  exists half beyond, is_RInt_gen (t_density nu) (at_right 0) (Rbar_locally p_infty) half /\
    is_RInt_gen (t_density nu) (at_point x) (Rbar_locally p_infty) beyond /\ 0 < half /\ p = beyond / (2 * half).

(** the p-value each alternative asks for, given the statistic [t]: the share of the area below it, above it, or at
    least as far from 0 as it *)
Definition t_p_value (df t : R) (alt : alternative) (p : R) : Prop :=
  match alt with
  | Less => exists q, t_upper_tail df t q /\ p = 1 - q
  | Greater => t_upper_tail df t p
  | TwoSided => exists q, t_upper_tail df (Rabs t) q /\ p = 2 * q
  end.
