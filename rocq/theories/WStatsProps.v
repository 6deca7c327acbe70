(** C36, C60-C64: means, variances and correlations (exact real arithmetic, columns without nulls unless said). *)
From Coq Require Import Reals List Permutation Sorted.
From Verif Require Import WStatsSpec WStatsModel WStatsProofs WStatsPropsLemmas XiModel XiSpec XiProofs.
Import ListNotations.
Open Scope R_scope.

(** C36.  [weighted_cosine_sim] is symmetric, lies in [-1, 1] and is 1 on equal columns. *)
Theorem C36_weighted_cosine : forall x y w, length x = length w -> length y = length w -> Forall (fun a => 0 < a) w ->
  Exists (fun a => a <> 0) x -> Exists (fun a => a <> 0) y ->
  let s := weighted_cosine_sim (map Some x) (map Some y) (map Some w) in
  -1 <= s <= 1 /\ s = weighted_cosine_sim (map Some y) (map Some x) (map Some w) /\ weighted_cosine_sim (map Some x) (map Some x) (map Some w) = 1.
Proof. exact wcosine. Qed.
Print Assumptions C36_weighted_cosine.
Example C36_case : Forall (fun a => 0 < a) [1; 2] /\ Exists (fun a => a <> 0) [0; 3].
Proof. split; [repeat constructor; apply Rlt_0_1 || apply Rlt_0_2|right; left; apply not_eq_sym, Rlt_not_eq, (IZR_lt 0 3); reflexivity]. Qed.
(** [cosine_sim] and [weighted_corr] break the same laws. *)
Theorem C36_cosine_self_refuted : exists x, Exists (fun a => a <> 0) x /\ cosine_sim (map Some x) (map Some x) = 5.
Proof. exact cosine_refuted. Qed.
Print Assumptions C36_cosine_self_refuted.
Theorem C36_cosine_self_value : forall x, cosine_sim (map Some x) (map Some x) = sqrt (Rsum (map (fun a => a * a) x)).
Proof. exact cos_self. Qed.
Print Assumptions C36_cosine_self_value.
Theorem C36_weighted_corr_refuted : exists x y w, Forall (fun a => 0 < a) w /\ 1 < weighted_corr (map Some x) (map Some y) (map Some w) /\
  weighted_corr (map Some x) (map Some y) (map Some w) <> weighted_corr (map Some y) (map Some x) (map Some w).
Proof. exact wcorr_refuted. Qed.
Print Assumptions C36_weighted_corr_refuted.

(** C60.  The weighted mean lies between the extreme values, and with integer weights it and the frequency-weighted
    variance are the mean and sample variance of the data with every value repeated. *)
Theorem C60_mean_between : forall x w lo hi, length x = length w -> x <> [] -> Forall (fun a => 0 < a) w -> Forall (fun a => lo <= a <= hi) x ->
  lo <= weighted_mean (map Some x) (map Some w) false <= hi.
Proof. exact wmean_bounds. Qed.
Print Assumptions C60_mean_between.
Theorem C60_frequency_mean : forall x k, length x = length k ->
  weighted_mean (map Some x) (map Some (map INR k)) false = mean_of (replicate x k).
Proof. exact freq_mean. Qed.
Print Assumptions C60_frequency_mean.
Theorem C60_frequency_var : forall x k, length x = length k ->
  weighted_var (map Some x) (map Some (map INR k)) true = var_of (replicate x k).
Proof. exact freq_var. Qed.
Print Assumptions C60_frequency_var.
Example C60_case : replicate [7; 9] [2; 1]%nat = [7; 7; 9].
Proof. reflexivity. Qed.
(** A null value still contributes its weight to the denominator: the mean of the single value 2 is 1. *)
Theorem C60_null_refuted : exists x w, weighted_mean x w false = 1 /\ values x = [2] /\ w = [Some 1; Some 1].
Proof. exact wmean_null. Qed.
Print Assumptions C60_null_refuted.

(** C61.  Harmonic <= geometric <= arithmetic mean for positive data, also weighted. *)
Theorem C61_means_order : forall x, x <> [] -> Forall (fun a => 0 < a) x -> hmean (map Some x) <= gmean (map Some x) <= mean_of x.
Proof. exact means_order. Qed.
Print Assumptions C61_means_order.
Theorem C61_weighted_order : forall x w, length x = length w -> x <> [] -> Forall (fun a => 0 < a) w -> Forall (fun a => 0 < a) x ->
  weighted_gmean (map Some x) (map Some w) false <= weighted_mean (map Some x) (map Some w) false.
Proof. exact wgmean_le_wmean. Qed.
Print Assumptions C61_weighted_order.
(** [weighted_hmean] does not depend on the data at all. *)
Theorem C61_weighted_hmean_value : forall x w, Forall (fun a => a <> 0) x -> x <> [] ->
  weighted_hmean (map Some x) (map Some w) false = Rsum w / INR (length x).
Proof. exact whm_some. Qed.
Print Assumptions C61_weighted_hmean_value.
Theorem C61_weighted_hmean_refuted : exists x w, Forall (fun a => 0 < a) w /\
  weighted_hmean (map Some x) (map Some w) false <> Rsum w / Rsum (map (fun p => snd p / fst p) (combine x w)).
Proof. exact whm_witness. Qed.
Print Assumptions C61_weighted_hmean_refuted.

(** C62.  Weighted covariance is symmetric, its diagonal is the weighted variance, the variance is nonnegative, both
    obey Cauchy-Schwarz, and the variance is invariant under shifts and quadratic in the scale. *)
Theorem C62_weighted_cov : forall x y w, length x = length w -> length y = length w -> w <> [] -> Forall (fun a => 0 < a) w ->
  let X := map Some x in let Y := map Some y in let W := map Some w in
  weighted_cov X Y W = weighted_cov Y X W /\ weighted_cov X X W = weighted_var X W false /\ 0 <= weighted_var X W false /\
  weighted_cov X Y W ^ 2 <= weighted_var X W false * weighted_var Y W false /\
  (forall a b, weighted_var (map Some (map (fun v => a * v + b) x)) W false = a ^ 2 * weighted_var X W false).
Proof. exact wcov_laws. Qed.
Print Assumptions C62_weighted_cov.

(** C63.  Biweight midcorrelation: in [-1, 1], symmetric, 1 on equal columns (for any median function), and unchanged
    by a shift and positive rescaling of a column. *)
Theorem C63_bicor : forall median x y c, length x = length y ->
  (exists d, In (Some d) (biweight median c (map Some x)) /\ d <> 0) -> (exists d, In (Some d) (biweight median c (map Some y)) /\ d <> 0) ->
  let s := bicor median (map Some x) (map Some y) c in
  -1 <= s <= 1 /\ s = bicor median (map Some y) (map Some x) c /\ bicor median (map Some x) (map Some x) c = 1.
Proof. exact bicor_laws. Qed.
Print Assumptions C63_bicor.
Theorem C63_bicor_affine : forall x y c a b, length x = length y -> x <> [] -> 0 < a ->
  bicor (fun z => median_of (values z)) (map Some (map (fun v => a * v + b) x)) (map Some y) c =
  bicor (fun z => median_of (values z)) (map Some x) (map Some y) c.
Proof. exact bicor_shift. Qed.
Print Assumptions C63_bicor_affine.
Example C63_case : exists d, In (Some d) (biweight (fun z => median_of (values z)) 9 (map Some [0; 1; 3])) /\ d <> 0.
Proof. exact bicor_case. Qed.

(** C64.  Chatterjee's xi: at most 1; for distinct y at most 1 - 3/(n+1), reached when y increases with x. *)
Theorem C64_xi_le_1 : forall order rows, xi_corr order rows <= 1.
Proof. exact xi_le_1. Qed.
Print Assumptions C64_xi_le_1.
Theorem C64_xi_untied : forall order rows, order_ok order -> NoDup (map snd rows) -> (2 <= length rows)%nat ->
  xi_corr order rows <= 1 - 3 / (INR (length rows) + 1) /\
  (StronglySorted Rlt (map snd (order rows)) -> xi_corr order rows = 1 - 3 / (INR (length rows) + 1)).
Proof. exact xi_untied. Qed.
Print Assumptions C64_xi_untied.
Example C64_case : order_ok sort_rows /\ NoDup (map snd [(2, 5); (1, 3); (3, 9)]) /\ StronglySorted Rlt (map snd (sort_rows [(2, 5); (1, 3); (3, 9)])).
Proof. exact (conj sort_rows_ok xi_case). Qed.
