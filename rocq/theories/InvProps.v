(** C124: the quantile of Student's t (the confidence limits of the regression reports) and the inverse of the incomplete
    beta function it calls.  [fuel] and [n] bound the rounds of the code's loops; the code itself has no bound. *)
From Coq Require Import Reals.
From Coquelicot Require Import Coquelicot.
From Verif Require Import MetricSpec TtestModel BetaSpec BetaModel InvModel InvSpec InvProofs InvTail.
Local Open Scope R_scope.

(** The quantile function refuses what is not a probability, answers every probability without a panic, is infinite at
    the two ends, 0 at one half, and odd about one half - exactly. *)
Theorem C124_domain : forall fuel n x df, (x < 0 \/ 1 < x -> student_t_ppf beta_reg fuel n x df = Panicked) /\
  (0 < df -> 0 <= x <= 1 -> student_t_ppf beta_reg fuel n x df <> Panicked).
Proof. exact (fun f n x df => conj (ppf_refused beta_reg f n x df) (ppf_total beta_reg f n x df)). Qed.
Print Assumptions C124_domain.
Theorem C124_ends : forall fuel n df, student_t_ppf beta_reg fuel n 0 df = Done NInf /\ student_t_ppf beta_reg fuel n 1 df = Done PInf.
Proof. exact (ppf_ends beta_reg). Qed.
Print Assumptions C124_ends.
Theorem C124_median : forall fuel n df, 0 < df -> student_t_ppf beta_reg fuel n (1 / 2) df = Done (Fin 0).
Proof. exact (ppf_median beta_reg). Qed.
Print Assumptions C124_median.
Theorem C124_odd : forall fuel n x df, x <> 1 / 2 -> student_t_ppf beta_reg fuel n (1 - x) df =
  match student_t_ppf beta_reg fuel n x df with
  | Done (Fin t) => Done (Fin (- t)) | Done PInf => Done NInf | Done NInf => Done PInf | r => r
  end.
Proof. exact (ppf_odd beta_reg). Qed.
Print Assumptions C124_odd.

(** The share of the true distribution beyond a computed quantile differs from 1 - x by half the residual the solver
    leaves, plus the error of the survival function (C123). *)
Theorem C124_residual : forall fuel n df x t p d, 1 <= df <= 10 ^ 12 -> 1 / 2 <= x < 1 ->
  student_t_ppf beta_reg fuel n x df = Done (Fin t) -> t_upper_tail df t p ->
  (forall y, inv_beta_reg beta_reg fuel n (df / 2) (1 / 2) (2 * (1 - x)) = Done y -> Rabs (beta_reg (df / 2) (1 / 2) y - 2 * (1 - x)) <= d) ->
  0 <= t /\ Rabs (p - (1 - x)) <= d / 2 + 4e-16 * (df + 6).
Proof. exact quantile_residual. Qed.
Print Assumptions C124_residual.
(** From the upper quartile on (0.975 in the reports): the answer is exact up to that error, or the search was stopped
    by its tolerance, at most 4e-7 (in the variable df/(df+t^2)) from the point where the last residual was taken, in the
    direction of Newton's step.  Missing: that the residual is small in the second case. *)
Theorem C124_quantile_partial : forall fuel n df x t p, 1 <= df <= 10 ^ 12 -> 3 / 4 <= x < 1 ->
  student_t_ppf beta_reg fuel n x df = Done (Fin t) -> t_upper_tail df t p ->
  Rabs (p - (1 - x)) <= 4e-16 * (df + 6) \/
  exists p0 g, 0 < p0 < 1 /\ 0 < g <= 1 /\ Rabs (df / (df + t * t) - p0) <= 4e-7 /\
    df / (df + t * t) = p0 - g * ((beta_reg (df / 2) (1 / 2) p0 - 2 * (1 - x)) * slope_inv (df / 2) (1 / 2) (ln_beta (df / 2) (1 / 2)) p0).
Proof. exact quantile_ends. Qed.
Print Assumptions C124_quantile_partial.
(** It is Newton's step: the factor is the reciprocal of the slope of the true share, with the logarithm of the beta
    function correct to 3e-16. *)
Theorem C124_newton_slope : forall a b p B (F : R -> R), 0 < a -> 0 < b -> 0 < p < 1 -> is_Beta a b B ->
  (forall u, 0 < u < 1 -> beta_share a b u (F u)) -> is_derive F p (/ slope_inv a b (ln B) p).
Proof. exact newton_slope. Qed.
Print Assumptions C124_newton_slope.
Example C124_share_case : exists F : R -> R, forall u, 0 < u < 1 -> beta_share 2 3 u (F u).
Proof. exact share_case. Qed.
Theorem C124_ln_beta : forall a b B, 1 / 2 <= a -> 1 / 2 <= b -> is_Beta a b B -> Rabs (ln_beta a b - ln B) <= 3e-16.
Proof. exact ln_beta_close. Qed.
Print Assumptions C124_ln_beta.

(** The inverse is a number of [0, 1], exact at 0 and 1, and mirrored when the parameters are exchanged - for any
    incomplete beta function [I]. *)
Theorem C124_inverse_range : forall I fuel n a b x, 0 < a -> 0 < b -> 0 <= x <= 1 ->
  match inv_beta_reg I fuel n a b x with Done y => 0 <= y <= 1 | Running => True | Panicked => False end.
Proof. exact inv_range. Qed.
Print Assumptions C124_inverse_range.
Theorem C124_inverse_edges : forall I fuel n a b, inv_beta_reg I fuel n a b 0 = Done 0 /\ inv_beta_reg I fuel n a b 1 = Done 1.
Proof. exact inv_edges. Qed.
Print Assumptions C124_inverse_edges.
Theorem C124_inverse_mirror : forall I fuel n a b x, x < 1 / 2 ->
  inv_beta_reg I fuel n a b (1 - x) = match inv_beta_reg I fuel n b a x with Done y => Done (1 - y) | r => r end.
Proof. exact inv_flip. Qed.
Print Assumptions C124_inverse_mirror.
(** The two inner loops, which cut a step to a third until it is acceptable, always end: with enough rounds every round of
    the outer loop either returns or goes on from another point of (0, 1). *)
Theorem C124_rounds_end : forall I a b x lnb tol p qprev sq prev, 0 < a -> 0 < b -> 0 < p < 1 -> 0 < prev ->
  exists N, forall n, (N <= n)%nat ->
  (exists y, newton I 1 n a b x lnb tol p qprev sq prev = Done y) \/
  exists p' q' sq' prev', 0 < p' < 1 /\ 0 < prev' /\
    forall f, newton I (S f) n a b x lnb tol p qprev sq prev = newton I f n a b x lnb tol p' q' sq' prev'.
Proof. exact round_ends. Qed.
Print Assumptions C124_rounds_end.
(** The first guess is inside. *)
Theorem C124_start : forall a b x lnb, 0 < clamp (guess a b x lnb) < 1.
Proof. exact (fun a b x lnb => clamp_in (guess a b x lnb)). Qed.
Print Assumptions C124_start.

(** Without degrees of freedom the quantile function panics, also at the 0.975 of the reports: [lin_reg_report] and its
    weighted form accept as many rows as coefficients (or one fewer, with a bias) and then panic. *)
Theorem C124_no_freedom_refuted : forall fuel n x df, df <= 0 -> 0 < x < 1 -> x <> 1 / 2 ->
  student_t_ppf beta_reg (S fuel) n x df = Panicked.
Proof. exact ppf_no_dof. Qed.
Print Assumptions C124_no_freedom_refuted.
(** The confidence limits of a report enclose the estimate. *)
Theorem C124_report : forall fuel n df t b se, 0 < df -> 0 <= se -> student_t_ppf beta_reg fuel n (975 / 1000) df = Done (Fin t) ->
  b - t * se <= b <= b + t * se.
Proof. exact report_bounds. Qed.
Print Assumptions C124_report.
Example C124_run_case : inv_beta_reg (fun _ _ _ => 1 / 4) 1 1 2 3 (1 / 4) = Done (clamp (guess 2 3 (1 / 4) (ln_beta 2 3))).
Proof. exact run_case. Qed.
