(** C123.  The p-values of the t tests and of [f_test]: tails of Student's t and of the F distribution. *)
From Coq Require Import Reals Lra Lia.
From Coquelicot Require Import Coquelicot.
From Verif Require Import GamSpec TtestSpec TtestModel BetaSpec BetaModel BetaProofs.
Local Open Scope R_scope.

(** C123.  The upper tail of Student's t is one well-defined number strictly between 0 and 1. *)
Theorem C123_t_tail_defined : forall nu x, 0 < nu ->
  exists p, t_upper_tail nu x p /\ 0 < p < 1 /\ forall q, t_upper_tail nu x q -> q = p.
Proof. exact t_defined. Qed.
Print Assumptions C123_t_tail_defined.

(** C123.  So is that of F. *)
Theorem C123_f_tail_defined : forall d1 d2 x, 0 < d1 -> 0 < d2 -> 0 < x ->
  exists p, f_upper_tail d1 d2 x p /\ 0 < p < 1 /\ forall q, f_upper_tail d1 d2 x q -> q = p.
Proof. exact f_defined. Qed.
Print Assumptions C123_f_tail_defined.

(** C123.  Euler's identity between the two integrals, on which the factor in front of the fraction rests. *)
Theorem C123_euler : forall a b B Ga Gb Gab, 0 < a -> 0 < b ->
  is_Beta a b B -> is_Gamma a Ga -> is_Gamma b Gb -> is_Gamma (a + b) Gab -> B = Ga * Gb / Gab.
Proof. exact euler_thm. Qed.
Print Assumptions C123_euler.
Example C123_euler_case : 0 < 2 /\ 0 < 3.
Proof. lra. Qed.

(** C123.  The survival function of Student's t is defined exactly for positive degrees of freedom. *)
Theorem C123_student_domain : forall t df, (exists y, student_t_sf beta_reg t df = Ok y) <-> 0 < df.
Proof. exact sf_domain. Qed.
Print Assumptions C123_student_domain.

(** C123.  At 0 it is one half, exactly. *)
Theorem C123_student_zero : forall df, 0 < df -> student_t_sf beta_reg 0 df = Ok (1 / 2).
Proof. exact sf_zero. Qed.
Print Assumptions C123_student_zero.

(** C123.  The two sides add up to 1, exactly, in the code and in the distribution. *)
Theorem C123_student_reflect : forall t df y, 0 < df -> 0 < t ->
  student_t_sf beta_reg t df = Ok y -> student_t_sf beta_reg (- t) df = Ok (1 - y).
Proof. exact sf_neg. Qed.
Print Assumptions C123_student_reflect.
Theorem C123_t_tail_reflect : forall nu x p q, 0 < nu -> t_upper_tail nu x p -> t_upper_tail nu (- x) q -> p + q = 1.
Proof. exact t_reflect. Qed.
Print Assumptions C123_t_tail_reflect.

(** C123.  For every statistic and from 1 to 10^12 degrees of freedom the code's survival function is the upper tail
    to within [4e-16 (df + 6)]: its 140 rounds always suffice. *)
Theorem C123_student : forall df t p, 1 <= df <= 10 ^ 12 -> t_upper_tail df t p ->
  exists y, student_t_sf beta_reg t df = Ok y /\ Rabs (y - p) <= 4e-16 * (df + 6).
Proof. exact student_close. Qed.
Print Assumptions C123_student.
Example C123_student_case : exists p, 1 <= 29 <= 10 ^ 12 /\ t_upper_tail 29 (- 2) p.
Proof. destruct (t_defined 29 (- 2)) as (p & H & _); [lra|]. exists p. cbn [pow]. split; [lra|exact H]. Qed.

(** C123.  Beyond the square root of 3, far into the tail, the same number of digits are right. *)
Theorem C123_student_tail : forall df t p, 1 <= df <= 10 ^ 40 -> 0 < t -> 3 <= t * t -> t_upper_tail df t p ->
  exists y, student_t_sf beta_reg t df = Ok y /\ 0 < y /\ Rabs (y - p) <= 4e-16 * (df + 6) * y.
Proof. exact student_far. Qed.
Print Assumptions C123_student_tail.
Example C123_student_tail_case : exists p, 1 <= 29 /\ 0 < 40 /\ 3 <= 40 * 40 /\ t_upper_tail 29 40 p.
Proof. destruct (t_defined 29 40) as (p & H & _); [lra|]. exists p. repeat split; try lra. exact H. Qed.

(** C123.  Hence the p-value of each alternative. *)
Theorem C123_p_value : forall df t alt p, 1 <= df <= 10 ^ 12 -> t_p_value df t alt p ->
  exists y, p_value beta_reg t df alt = Ok y /\ Rabs (y - p) <= 8e-16 * (df + 6).
Proof. exact p_close. Qed.
Print Assumptions C123_p_value.
Example C123_p_value_case : exists p, t_p_value 9 (- 3) TwoSided p.
Proof. destruct (t_defined 9 (Rabs (- 3))) as (p & H & _); [lra|]. exists (2 * p), p. auto. Qed.

(** C123.  The two-sided p-value of t is that of F with 1 and df degrees of freedom at the square, exactly. *)
Theorem C123_square : forall t df, 0 < df -> p_value beta_reg t df TwoSided = fisher_snedecor_sf (t * t) 1 df.
Proof. exact square_law. Qed.
Print Assumptions C123_square.

(** C123.  F: errors and the value at 0. *)
Theorem C123_f_error : forall x d1 d2, x < 0 \/ d1 <= 0 \/ d2 <= 0 -> fisher_snedecor_sf x d1 d2 = Err.
Proof. exact f_err. Qed.
Print Assumptions C123_f_error.
Theorem C123_f_zero : forall d1 d2, 0 < d1 -> 0 < d2 -> fisher_snedecor_sf 0 d1 d2 = Ok 1.
Proof. exact f_zero. Qed.
Print Assumptions C123_f_zero.

(** C123.  F with even degrees of freedom up to 280: the code's value is the upper tail to within 1.8e-13. *)
Theorem C123_f_even : forall j k x p, (1 <= j <= 140)%nat -> (1 <= k <= 140)%nat -> 0 < x ->
  f_upper_tail (2 * INR j) (2 * INR k) x p ->
  exists y, fisher_snedecor_sf x (2 * INR j) (2 * INR k) = Ok y /\ Rabs (y - p) <= 1.8e-13.
Proof. exact f_even. Qed.
Print Assumptions C123_f_even.
Example C123_f_even_case : exists p, (1 <= 2 <= 140)%nat /\ (1 <= 30 <= 140)%nat /\ f_upper_tail (2 * INR 2) (2 * INR 30) 3 p.
Proof.
  destruct (f_defined (2 * INR 2) (2 * INR 30) 3) as (p & H & _); [cbn; lra|cbn; lra|lra|].
  exists p. split; [lia|]. split; [lia|]. exact H.
Qed.

(** C123.  F in general: the value is right to a few parts in 10^15 times (d1 + d2 + 4) / (d + 2), of the tail
    beyond the middle and of its complement before it, whenever the loop was not left by running out of rounds.
    Partial: that the rounds suffice is proved below for even degrees of freedom up to 280 and when one of the two is
    1; it is not claimed in general (tried numerically, they do not when both are of the order of 10^5 or more). *)
Theorem C123_f_partial : forall d1 d2 x p, 1 <= d1 -> 1 <= d2 -> d1 + d2 <= 10 ^ 100 -> 0 < x -> ~ exhausted x d1 d2 ->
  f_upper_tail d1 d2 x p ->
  exists y, fisher_snedecor_sf x d1 d2 = Ok y /\
    (d2 * (d1 + 2) < x * d1 * (d2 + 2) ->
       0 < y /\ Rabs (y - p) <= 1.2e-15 * ((d1 + d2 + 4) / (d1 + 2)) * y + 4e-16 * y) /\
    (x * d1 * (d2 + 2) <= d2 * (d1 + 2) ->
       y < 1 /\ Rabs (y - p) <= 1.2e-15 * ((d1 + d2 + 4) / (d2 + 2)) * (1 - y) + 4e-16 * (1 - y)).
Proof. exact f_close. Qed.
Print Assumptions C123_f_partial.
Example C123_f_partial_case : ~ exhausted 3 (2 * INR 2) (2 * INR 30).
Proof. apply f_even_settled; [lia|lia|lra]. Qed.

(** C123.  The rounds suffice for even degrees of freedom up to 280, and when either is 1. *)
Theorem C123_f_rounds_even : forall j k x, (1 <= j <= 140)%nat -> (1 <= k <= 140)%nat -> 0 < x ->
  ~ exhausted x (2 * INR j) (2 * INR k).
Proof. exact f_even_settled. Qed.
Print Assumptions C123_f_rounds_even.
Theorem C123_f_rounds_one : forall d x, 1 <= d <= 10 ^ 40 -> 0 < x -> ~ exhausted x 1 d /\ ~ exhausted x d 1.
Proof. exact f_one_settled. Qed.
Print Assumptions C123_f_rounds_one.
