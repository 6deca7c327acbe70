(** C98: t tests. *)
From Coq Require Import Reals List String Permutation.
From Verif Require Import WStatsSpec MetricSpec TtestSpec TtestModel TtestProofs.
Import ListNotations.
Open Scope R_scope.

(** Welch's test on the finite values of both columns, with degrees of freedom between the smaller sample's and the pooled one. *)
Theorem C98_welch : forall I, beta_ok I -> forall x y alt, let a := finite_values x in let b := finite_values y in
  (2 <= List.length a)%nat -> (2 <= List.length b)%nat -> ~ (constant a /\ constant b) ->
  ttest_ind I x y alt false = Ok (Fin (welch_stat a b), Fin (p_of (t_tail I (welch_df a b)) (welch_stat a b) (alternative_from alt))) /\
  symmetric_sf (t_tail I (welch_df a b)) /\ Rmin (cnt a - 1) (cnt b - 1) <= welch_df a b <= cnt a + cnt b - 2.
Proof. exact welch_thm. Qed.
Print Assumptions C98_welch.
(** Student's test on samples of equal size. *)
Theorem C98_student : forall I, beta_ok I -> forall x y alt, all_finite x -> all_finite y -> let a := finite_values x in let b := finite_values y in
  List.length a = List.length b -> (2 <= List.length a)%nat -> ~ (constant a /\ constant b) ->
  ttest_ind I x y alt true = Ok (Fin (student_t a b), Fin (p_of (t_tail I (cnt a + cnt b - 2)) (student_t a b) (alternative_from alt))) /\
  symmetric_sf (t_tail I (cnt a + cnt b - 2)).
Proof. exact student_thm. Qed.
Print Assumptions C98_student.
Theorem C98_one_sample : forall I, beta_ok I -> forall x mu alt, let a := finite_values x in (2 <= List.length a)%nat -> ~ constant a ->
  ttest_1samp I x mu alt = Ok (Fin (one_sample_t a mu), Fin (p_of (t_tail I (cnt a - 1)) (one_sample_t a mu) (alternative_from alt))) /\
  symmetric_sf (t_tail I (cnt a - 1)).
Proof. exact one_thm. Qed.
Print Assumptions C98_one_sample.
(** The test from the other sample's statistics is the test with that sample. *)
Theorem C98_from_stats : forall I x b alt, (2 <= List.length b)%nat ->
  (forall y, finite_values y = b -> ttest_ind_from_stats I x (mean_of b) (var_of b) (List.length b) alt false = ttest_ind I x y alt false) /\
  (forall y, all_finite y -> finite_values y = b -> ttest_ind_from_stats I x (mean_of b) (var_of b) (List.length b) alt true = ttest_ind I x y alt true).
Proof. exact from_stats. Qed.
Print Assumptions C98_from_stats.
(** The p values: one sided ones add up to 1, the two sided one is twice the smaller, all lie in [0,1]; 1 at t = 0 and
    smaller for more extreme statistics; exchanging the samples keeps the two sided one and exchanges the others. *)
Theorem C98_p_values : forall sf t, symmetric_sf sf ->
  p_of sf t Less + p_of sf t Greater = 1 /\ p_of sf t TwoSided = 2 * Rmin (p_of sf t Less) (p_of sf t Greater) /\
  (forall alt, 0 <= p_of sf t alt <= 1) /\ p_of sf 0 TwoSided = 1 /\
  (forall u, Rabs t < Rabs u -> p_of sf u TwoSided < p_of sf t TwoSided) /\
  p_of sf (- t) TwoSided = p_of sf t TwoSided /\ p_of sf (- t) Less = p_of sf t Greater.
Proof. exact p_laws. Qed.
Print Assumptions C98_p_values.
(** Level and scale of the data and the order of the rows do not matter; exchanging the samples negates t. *)
Theorem C98_invariance : forall a b s t, (2 <= List.length a)%nat -> (2 <= List.length b)%nat -> 0 < s ->
  welch_stat (map (fun v => s * v + t) a) (map (fun v => s * v + t) b) = welch_stat a b /\
  welch_df (map (fun v => s * v + t) a) (map (fun v => s * v + t) b) = welch_df a b /\
  welch_stat b a = - welch_stat a b /\ welch_df b a = welch_df a b.
Proof. exact welch_affine. Qed.
Print Assumptions C98_invariance.
Theorem C98_row_order : forall a a' b b', Permutation a a' -> Permutation b b' ->
  welch_stat a b = welch_stat a' b' /\ welch_df a b = welch_df a' b' /\ student_t a b = student_t a' b' /\
  (forall mu, one_sample_t a mu = one_sample_t a' mu).
Proof. exact perm_thm. Qed.
Print Assumptions C98_row_order.
Example C98_case : let x := [Some (Fin 1); None; Some (Fin 3); Some NaN] in let y := [Some (Fin 0); Some (Fin 0)] in
  (2 <= List.length (finite_values x))%nat /\ (2 <= List.length (finite_values y))%nat /\ ~ (constant (finite_values x) /\ constant (finite_values y)).
Proof. exact tt_case. Qed.
Example C98_beta : exists I, beta_ok I.
Proof. exact beta_case. Qed.

(** Two constant samples: an error with Welch's test and the one sample test, NaN with Student's. *)
Theorem C98_constant : forall I x y alt, let a := finite_values x in let b := finite_values y in
  (2 <= List.length a)%nat -> (2 <= List.length b)%nat -> constant a -> constant b ->
  ttest_ind I x y alt false = Err /\ (all_finite x -> all_finite y -> ttest_ind I x y alt true = Ok (NaN, NaN)) /\ (forall mu, ttest_1samp I x mu alt = Err).
Proof. exact const_thm. Qed.
Print Assumptions C98_constant.
(** Fewer than two finite values panic. *)
Theorem C98_short_refuted : forall I x y alt, (List.length (finite_values x) < 2)%nat ->
  ttest_ind I x y alt false = Panic /\ ttest_ind I y x alt false = Panic /\ (forall mu, ttest_1samp I x mu alt = Panic).
Proof. exact short_thm. Qed.
Print Assumptions C98_short_refuted.
Theorem C98_not_finite : forall I x y alt, ~ all_finite x \/ ~ all_finite y -> ttest_ind I x y alt true = Err.
Proof. exact notfin_thm. Qed.
Print Assumptions C98_not_finite.
(** Student's test uses the first column's count for both, so with nulls it is not Student's t. *)
Theorem C98_unequal_refuted : forall I, beta_ok I -> exists x y t p, all_finite x /\ all_finite y /\ List.length x = List.length y /\
  ttest_ind I x y "greater" true = Ok (Fin t, p) /\ t <> student_t (finite_values x) (finite_values y).
Proof. exact unequal_ex. Qed.
Print Assumptions C98_unequal_refuted.
(** Any other word for the alternative means two sided. *)
Theorem C98_alternative : alternative_from "two-sided" = TwoSided /\ alternative_from "less" = Less /\ alternative_from "greater" = Greater /\
  alternative_from "LESS" = Less /\ (forall s, lowercase s <> "less"%string -> lowercase s <> "greater"%string -> alternative_from s = TwoSided).
Proof. exact alt_thm. Qed.
Print Assumptions C98_alternative.
