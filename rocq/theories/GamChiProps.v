(** C121.  The p-values of [chi2] and [normal_test] are tails of the chi-squared law.
    The loops of the code have no iteration cap; "the code returns q" is stated as: for some bound N the model
    with any fuel from N on returns q. *)
From Coq Require Import Reals Lra Lia.
From Coquelicot Require Import Coquelicot.
From Verif Require Import NormModel GamSpec GamModel GamChi.
Local Open Scope R_scope.

(** C121.  The chi-squared tail beyond a positive statistic is a well defined probability. *)
Theorem C121_tail_defined : forall k x, 0 < k -> 0 < x ->
  exists p, 0 <= p <= 1 /\ chi2_tail k x p /\ forall p', chi2_tail k x p' -> p' = p.
Proof. exact tail_defined. Qed.
Print Assumptions C121_tail_defined.

(** C121.  With two degrees of freedom it is exp(-x/2). *)
Theorem C121_two_degrees : forall x, 0 < x -> chi2_tail 2 x (exp (- x / 2)).
Proof. exact two_dof. Qed.
Print Assumptions C121_two_degrees.

(** C121.  [chi2]: for a statistic up to the degrees of freedom (or up to 2) the loop ends, and the p-value is
    right to about fifteen digits after the point. *)
Theorem C121_chi2_body : forall d x p, (1 <= d)%nat -> 2.4e-15 <= x -> (x < 2 \/ x <= INR d) ->
  chi2_tail (INR d) x p ->
  exists q, (exists N, forall fuel, (N <= fuel)%nat -> chi2_pvalue fuel (Fin x) d = Some (Val (Fin q))) /\
    Rabs (q - p) <= 1e-15 * (1 + sqrt (x / 2) + 1e-14 * (x / 2)).
Proof. exact chi2_body. Qed.
Print Assumptions C121_chi2_body.

(** C121.  [chi2]: beyond that the loop ends too, and the p-value is right to eleven significant digits, as far as
    1e-299. *)
Theorem C121_chi2_upper : forall d x p, (1 <= d)%nat -> 2 <= x -> INR d < x -> chi2_tail (INR d) x p ->
  exists q, (exists N, forall fuel, (N <= fuel)%nat -> chi2_pvalue fuel (Fin x) d = Some (Val (Fin q))) /\
    Rabs (q - p) <= 1.4e-12 * p + 1e-299.
Proof. exact chi2_upper. Qed.
Print Assumptions C121_chi2_upper.

(** C121.  [chi2]: for the smallest positive statistics only seven digits are left ... *)
Theorem C121_chi2_small : forall d x p, (1 <= d)%nat -> 0 < x < 2.4e-15 -> chi2_tail (INR d) x p ->
  exists q, (exists N, forall fuel, (N <= fuel)%nat -> chi2_pvalue fuel (Fin x) d = Some (Val (Fin q))) /\
    Rabs (q - p) <= 1.1e-7.
Proof. exact chi2_small. Qed.
Print Assumptions C121_chi2_small.

(** C121.  ... and not more: a statistic that makes the code return exactly 1 although the tail is smaller than 1
    by 3e-8, with one degree of freedom. *)
Theorem C121_small_digits_refuted : exists x p, 0 < x /\ chi2_tail 1 x p /\
  (forall fuel, chi2_pvalue fuel (Fin x) 1 = Some (Val (Fin 1))) /\ p < 1 - 3e-8.
Proof. exact tiny_off. Qed.
Print Assumptions C121_small_digits_refuted.

(** C121.  [normal_test]: the p-value of the statistic k2 is exp(-k2/2). *)
Theorem C121_normal_test_body : forall x, 2.4e-15 <= x <= 2 ->
  exists q, (exists N, forall fuel, (N <= fuel)%nat -> k2_pvalue fuel (Fin x) = Some (Val (Fin q))) /\
    Rabs (q - exp (- x / 2)) <= 2.1e-15.
Proof. exact k2_body. Qed.
Print Assumptions C121_normal_test_body.

Theorem C121_normal_test_upper : forall x, 2 < x ->
  exists q, (exists N, forall fuel, (N <= fuel)%nat -> k2_pvalue fuel (Fin x) = Some (Val (Fin q))) /\
    Rabs (q - exp (- x / 2)) <= 1.4e-12 * exp (- x / 2) + 1e-299.
Proof. exact k2_upper. Qed.
Print Assumptions C121_normal_test_upper.

(** C121.  Edge cases: NaN stays NaN, a statistic of zero has p-value 1, an infinite one 0, and a positive
    statistic with no degrees of freedom is an error. *)
Theorem C121_edges :
  (forall fuel d, chi2_pvalue fuel NaN d = Some (Val NaN)) /\
  (forall fuel d x, x <= 0 -> chi2_pvalue fuel (Fin x) d = Some (Val (Fin 1))) /\
  (forall fuel d, chi2_pvalue fuel PInf d = Some (Val (Fin 0))) /\
  (forall fuel x, 0 < x -> chi2_pvalue fuel (Fin x) 0 = Some Fails) /\
  (forall fuel, k2_pvalue fuel NaN = Some (Val NaN)) /\
  (forall fuel x, x <= 0 -> k2_pvalue fuel (Fin x) = Some (Val (Fin 1))).
Proof. exact edges. Qed.
Print Assumptions C121_edges.

(** The hypotheses are met, with the tail known in closed form. *)
Example C121_case_body : (1 <= 2)%nat /\ 2.4e-15 <= 1.5 /\ 1.5 <= INR 2 /\ chi2_tail (INR 2) 1.5 (exp (- (1.5) / 2)).
Proof. split; [lia|]. split; [lra|]. split; [cbn; lra|]. apply (two_dof 1.5). lra. Qed.
Example C121_case_upper : (1 <= 2)%nat /\ 2 <= 10 /\ INR 2 < 10 /\ chi2_tail (INR 2) 10 (exp (- (10) / 2)).
Proof. split; [lia|]. split; [lra|]. split; [cbn; lra|]. apply (two_dof 10). lra. Qed.
Example C121_case_small : (1 <= 2)%nat /\ 0 < 1e-15 < 2.4e-15 /\ chi2_tail (INR 2) 1e-15 (exp (- (1e-15) / 2)).
Proof. split; [lia|]. split; [lra|]. apply (two_dof 1e-15). lra. Qed.
