(** Property theorems C118 and C119: the normal tail behind the library's p-values. *)
From Coq Require Import List Reals.
From Verif Require Import NormModel NormSpec NormProofs.
Local Open Scope R_scope.

(** C118.  The tail the definitions speak of exists, is unique and lies strictly between 0 and 1. *)
Theorem C118_tail_defined : forall mean sd x, 0 < sd ->
  exists p, upper_tail mean sd x p /\ 0 < p < 1 /\ (forall p', upper_tail mean sd x p' -> p' = p).
Proof. exact exists_ok. Qed.
Print Assumptions C118_tail_defined.

(** C118.  What the code returns is the area under the normal density right of x, to within 1.3e-10. *)
Theorem C118_absolute_error : forall mean sd x p, 0 < sd -> upper_tail mean sd x p ->
  exists q, sf_unchecked x mean sd = Fin q /\ Rabs (q - p) <= 1.3e-10.
Proof. exact abs_ok. Qed.
Print Assumptions C118_absolute_error.

(** C118.  Small tails too: up to 155 standard deviations the error is at most 2.5e-9 of the tail itself. *)
Theorem C118_relative_error : forall mean sd x p, 0 < sd -> x - mean < 155 * sd -> upper_tail mean sd x p ->
  exists q, sf_unchecked x mean sd = Fin q /\ Rabs (q - p) <= 2.5e-9 * p.
Proof. exact rel_ok. Qed.
Print Assumptions C118_relative_error.
Example C118_case : upper_tail 0 1 0 (1 / 2) /\ sf_unchecked 0 0 1 = Fin (1 / 2).
Proof. exact half_case. Qed.

(** C118.  It is a probability, on the right side of one half. *)
Theorem C118_range : forall mean sd x, 0 < sd ->
  exists q, sf_unchecked x mean sd = Fin q /\ 0 <= q <= 1 /\
            (mean <= x -> q <= 1 / 2) /\ (x <= mean -> 1 / 2 <= q).
Proof. exact range_ok. Qed.
Print Assumptions C118_range.

(** C118.  The two tails at equal distance from the mean add up to one. *)
Theorem C118_symmetry : forall mean sd d, 0 < sd ->
  exists a b, sf_unchecked (mean + d) mean sd = Fin a /\ sf_unchecked (mean - d) mean sd = Fin b /\ a + b = 1.
Proof. exact sym_ok. Qed.
Print Assumptions C118_symmetry.

(** C118.  A zero standard deviation: all or nothing, and NaN at the mean. *)
Theorem C118_zero_sd : forall mean x,
  (mean < x -> sf_unchecked x mean 0 = Fin 0) /\ (x < mean -> sf_unchecked x mean 0 = Fin 1) /\
  sf_unchecked mean mean 0 = NaN.
Proof. exact zero_sd_ok. Qed.
Print Assumptions C118_zero_sd.

(** C118.  The p-value of [xi_corr] on 30 rows or more: both tails of the normal law with variance 2/(5n). *)
Theorem C118_xi_p_value : forall n c p, (30 <= n)%nat -> upper_tail 0 (sqrt (0.4 / INR n)) (Rabs c) p ->
  exists q, xi_p n c = Fin q /\ 0 <= q <= 1 /\ Rabs (q - 2 * p) <= 2.6e-10.
Proof. exact xi_ok. Qed.
Print Assumptions C118_xi_p_value.
Theorem C118_xi_few_rows : forall n c, (n < 30)%nat -> xi_p n c = NaN.
Proof. exact xi_small. Qed.
Print Assumptions C118_xi_few_rows.

(** C118.  The p-value of [mann_whitney_u]: one or both tails beyond the mean plus one half, clamped to [0,1]. *)
Theorem C118_mwu_p_value : forall factor u mean sd p, 0 < sd -> factor = 1 \/ factor = 2 ->
  upper_tail (mean + 0.5) sd u p ->
  exists q, mwu_p factor u mean sd = Fin q /\ 0 <= q <= 1 /\ Rabs (q - clamp01 (factor * p)) <= 2.6e-10.
Proof. exact mwu_ok. Qed.
Print Assumptions C118_mwu_p_value.
Theorem C118_mwu_no_spread : forall factor u mean, mwu_p factor u mean 0 = Fin 0.
Proof. exact mwu_zero. Qed.
Print Assumptions C118_mwu_no_spread.

(** C119.  A larger statistic should never get the larger p-value; it can, by more than 2e-11. *)
Theorem C119_monotone_refuted : exists x y p q,
  x < y /\ sf_unchecked x 0 1 = Fin p /\ sf_unchecked y 0 1 = Fin q /\ p + 2e-11 < q.
Proof. exact not_monotone. Qed.
Print Assumptions C119_monotone_refuted.

(** C119.  It never gets one larger by more than 2.6e-10. *)
Theorem C119_almost_monotone : forall mean sd x y p q, 0 < sd -> x <= y ->
  sf_unchecked x mean sd = Fin p -> sf_unchecked y mean sd = Fin q -> q <= p + 2.6e-10.
Proof. exact almost_monotone. Qed.
Print Assumptions C119_almost_monotone.

(** C119.  Above the mean the p-value strictly falls wherever the approximation does not change. *)
Theorem C119_strict_between_cuts : forall mean sd x y p q, 0 < sd -> mean <= x < y ->
  y < mean + 110 * (sd * sqrt 2) ->
  (forall c, In c cuts -> ~ (x < mean + c * (sd * sqrt 2) <= y)) ->
  sf_unchecked x mean sd = Fin p -> sf_unchecked y mean sd = Fin q -> q < p.
Proof. exact decr_ok. Qed.
Print Assumptions C119_strict_between_cuts.
Example C119_case : 0 <= 1 < 1.01 /\ 1.01 < 0 + 110 * (1 * sqrt 2) /\
  (forall c, In c cuts -> ~ (1 < 0 + c * (1 * sqrt 2) <= 1.01)).
Proof. exact decr_case. Qed.
