(** Theorems about the statistics expressions (C21-C23, C43-C45, C55). *)
From Coq Require Import Bool List Arith ZArith QArith Permutation Sorted Reals.
From Flocq Require Import IEEE754.BinarySingleNaN.
From Verif Require Import Num F64 KdDemo PairSums QSum KendallModel KendallSpec KendallProofs KsModel KsSpec KsProofs
  MwModel MwSpec MwProofs AnovaModel AnovaSpec AnovaProofs Chi2Proofs SampleModel SampleSpec SampleProofs StatsPropsLemmas.
Import ListNotations.
Open Scope Z_scope.

(** C21.  For every pair of columns and every sort, [kendall_tau] returns Kendall's tau-b of the complete rows:
    (concordant - discordant) / sqrt (pairs untied in x * pairs untied in y), NaN below two rows; it never panics. *)
Theorem C21_kendall_tau_b : forall sort x y, lex_sort_ok sort ->
  kendall_tau sort x y =
    Some (if (length (complete_rows x y) <=? 1)%nat then nnanv f64_ops else tau_b (complete_rows x y)).
Proof. exact kendall_tau_ok. Qed.
Print Assumptions C21_kendall_tau_b.
Example C21_case : lex_sort_ok demo_lex_sort /\ complete_rows kx ky = [(1,3); (2,1); (5,9); (7,9)] /\
  concordant_minus_discordant (complete_rows kx ky) = 3 /\ untied_x (complete_rows kx ky) = 6 /\
  untied_y (complete_rows kx ky) = 5.
Proof. exact (conj demo_lex_sort_ok kendall_case). Qed.
(** The numerator never exceeds either factor of the denominator, so |tau| <= 1 in exact arithmetic. *)
Theorem C21_numerator_bounded : forall rows, let c := concordant_minus_discordant rows in
  Z.abs c <= untied_x rows /\ Z.abs c <= untied_y rows.
Proof. exact concord_bound. Qed.
Print Assumptions C21_numerator_bounded.
(** Only the order of the values matters. *)
Theorem C21_order_invariant : forall sort x y (f g : Z -> Z), lex_sort_ok sort ->
  (forall a b, a < b -> f a < f b) -> (forall a b, a < b -> g a < g b) ->
  kendall_tau sort (map (option_map f) x) (map (option_map g) y) = kendall_tau sort x y.
Proof. exact kendall_mono. Qed.
Print Assumptions C21_order_invariant.

(** C22.  The KS statistic is the supremum over every float t of |F1(t) - F2(t)|, attained at a sample point, F the
    empirical distribution functions of the finite values; (0, NaN) when a sample has at most 30 of them. *)
Theorem C22_ks_supremum : forall sort ln var1 var2 alpha, float_sort_ok sort ->
  Z.of_nat (length var1) <= 2 ^ 53 -> Z.of_nat (length var2) <= 2 ^ 53 ->
  exists s p, py_ks_2samp sort ln var1 var2 alpha = Some (s, p) /\
    if ((length (finite_values var1) <=? 30) || (length (finite_values var2) <=? 30))%nat
    then s = nzero f64_ops /\ p = nnanv f64_ops
    else is_sup_gap (finite_values var1) (finite_values var2) s.
Proof. exact ks_ok. Qed.
Print Assumptions C22_ks_supremum.
Theorem C22_ks_binary_supremum : forall sort ln var1 var2 alpha, float_sort_ok sort ->
  Z.of_nat (length var2) <= 2 ^ 53 ->
  exists s p, py_ks_2samp_binary sort ln var1 var2 alpha = Some (s, p) /\
    let z1 := finite_values (rows_where var1 1 var2) in
    let z2 := finite_values (rows_where var1 0 var2) in
    if ((length z1 <=? 30) || (length z2 <=? 30))%nat
    then s = nzero f64_ops /\ p = nnanv f64_ops
    else is_sup_gap z1 z2 s.
Proof. exact ks_binary_ok. Qed.
Print Assumptions C22_ks_binary_supremum.
Example C22_case : float_sort_ok demo_fsort /\
  (length (finite_values (None :: ramp 35 0)) = 35 /\ length (finite_values (Some (nnanv f64_ops) :: ramp 40 5)) = 40)%nat.
Proof. exact (conj demo_fsort_ok ks_case). Qed.
(** The documentation promises a statistic from 30 values on; with exactly 30 the code still returns 0,
    although the distribution functions differ. *)
Theorem C22_thirty_values_refuted : forall sort ln, float_sort_ok sort ->
  exists p, py_ks_2samp sort ln (thirty 0) (thirty 1) half = Some (nzero f64_ops, p) /\
    length (finite_values (thirty 0)) = 30%nat /\ length (finite_values (thirty 1)) = 30%nat /\
    nlt f64_ops (nzero f64_ops) (gap (finite_values (thirty 0)) (finite_values (thirty 1)) (fi 0)) = true.
Proof. exact ks_thirty. Qed.
Print Assumptions C22_thirty_values_refuted.

(** C23.  [mann_whitney_u]: u1 counts the pairs x > y plus half the ties (u2 the reverse), and the p-value is the
    (clamped) normal tail at the right U with variance n1 n2 / 12 ((n+1) - ties / (n (n-1))) -- where, however, the
    tie term leaves out the group of the largest values. *)
Theorem C23_u_statistic_partial : forall sort sf x y alt, z_sort_ok sort ->
  let xs := finite_values x in
  let ys := finite_values y in
  let n := inject_Z (zlen (xs ++ ys)) in
  let u1 := (fst (mann_whitney_u sort sf x y alt)) in
  exists u2 mean var,
    (u1 == U xs ys)%Q /\ (u2 == U ys xs)%Q /\ (mean == inject_Z (zlen xs * zlen ys) / 2)%Q /\
    (var == mean / 6 * ((n + 1) - inject_Z (tie_term_below_max (xs ++ ys)) / (n * (n - 1))))%Q /\
    mann_whitney_u sort sf x y alt =
      (u1, if Qeq_dec var 0 then 0%Q
           else qclamp01 (match alt with
                          | TwoSided => 2 * sf (Qminmax.Qmax u1 u2) (mean + (1#2)) var
                          | Less => 1 * sf u2 (mean + (1#2)) var
                          | Greater => 1 * sf u1 (mean + (1#2)) var
                          end)%Q).
Proof. exact mw_ok. Qed.
Print Assumptions C23_u_statistic_partial.
Example C23_case : z_sort_ok demo_zsort /\
  wins (finite_values mw_x) (finite_values mw_y) = 3 /\ draws (finite_values mw_x) (finite_values mw_y) = 2 /\
  tie_term_below_max (finite_values mw_x ++ finite_values mw_y) = 24.
Proof. exact (conj demo_zsort_ok mw_case). Qed.
Theorem C23_p_in_unit_interval : forall sort sf x y alt, (0 <= snd (mann_whitney_u sort sf x y alt) <= 1)%Q.
Proof. exact mw_p_range. Qed.
Print Assumptions C23_p_in_unit_interval.
(** The tie term of two equal values is 2^3 - 2 = 6; the code computes 0. *)
Theorem C23_tie_term_refuted : let l := [fi 1; fi 1] in
  mann_whitney_tie_sum (demo_zsort (map (rank2 l) l)) = 0 /\ tie_term l = 6.
Proof. exact mw_tie_witness. Qed.
Print Assumptions C23_tie_term_refuted.

(** C43.  Without nulls, [f_test] is the ANOVA ratio of mean squares (exact arithmetic). *)
Theorem C43_f_test_anova : forall uniq rows, uniq_ok uniq -> (1 < n_groups rows)%Q -> ~ (ss_within rows == 0)%Q ->
  exists q, f_test uniq (map (fun r => Some (fst r)) rows) (map (fun r => Some (snd r)) rows) = Some (Some q) /\
            (q == anova_F rows)%Q.
Proof. exact f_test_ok. Qed.
Print Assumptions C43_f_test_anova.
Example C43_case : uniq_ok demo_uniq /\ (1 < n_groups anova_rows)%Q /\ ~ (ss_within anova_rows == 0)%Q /\
  (anova_F anova_rows == 26 # 10)%Q.
Proof. exact (conj demo_uniq_ok anova_case). Qed.
(** A null value, or a null group, changes the statistic instead of being left out. *)
Theorem C43_null_value_refuted : exists q, f_test demo_uniq anova_null_keys anova_null_vals = Some (Some q) /\
  ~ (q == anova_F (complete_rows anova_null_keys anova_null_vals))%Q.
Proof. exact anova_null. Qed.
Print Assumptions C43_null_value_refuted.
Theorem C43_null_group_refuted : exists q, f_test demo_uniq anova_nullg_keys anova_nullg_vals = Some (Some q) /\
  ~ (q == anova_F (complete_rows anova_nullg_keys anova_nullg_vals))%Q.
Proof. exact anova_nullg. Qed.
Print Assumptions C43_null_group_refuted.

(** C44.  Without nulls, [chi2] is Pearson's statistic over the full table, empty cells included, with
    (r-1)(c-1) degrees of freedom; it is symmetric; and the cells of the full output are the expected frequencies. *)
Theorem C44_chi2_pearson : forall rows uniq, uniq_ok uniq -> zlen rows < 2 ^ 32 ->
  exists q, fst (chi2 uniq (map (fun r => Some (fst r)) rows) (map (fun r => Some (snd r)) rows)) = Some q /\
            (q == pearson_chi2 rows)%Q.
Proof. exact chi2_ok. Qed.
Print Assumptions C44_chi2_pearson.
Theorem C44_degrees_of_freedom : forall uniq rows, uniq_ok uniq -> rows <> [] ->
  snd (chi2 uniq (map (fun r => Some (fst r)) rows) (map (fun r => Some (snd r)) rows)) =
  ((length (distinct (map fst rows)) - 1) * (length (distinct (map snd rows)) - 1))%nat.
Proof. exact chi2_dof. Qed.
Print Assumptions C44_degrees_of_freedom.
Theorem C44_symmetric : forall uniq rows, uniq_ok uniq -> zlen rows < 2 ^ 32 ->
  exists q q', fst (chi2 uniq (map (fun r => Some (fst r)) rows) (map (fun r => Some (snd r)) rows)) = Some q /\
    fst (chi2 uniq (map (fun r => Some (snd r)) rows) (map (fun r => Some (fst r)) rows)) = Some q' /\ (q == q')%Q.
Proof. exact chi2_sym. Qed.
Print Assumptions C44_symmetric.
Theorem C44_expected_frequencies : forall rows uniq, uniq_ok uniq -> zlen rows < 2 ^ 32 -> forall a b o e,
  In (Some a, Some b, o, e) (chi2_frame uniq (map (fun r => Some (fst r)) rows) (map (fun r => Some (snd r)) rows)) ->
  inject_Z o = freq rows a b /\ exists q, e = Some q /\ (q == expected rows a b)%Q.
Proof. exact chi2_expected_freqs. Qed.
Print Assumptions C44_expected_frequencies.
Example C44_case : uniq_ok demo_uniq /\ zlen chi_rows < 2 ^ 32 /\ (pearson_chi2 chi_rows == 4 # 3)%Q /\ freq chi_rows 3 1 = 0%Q.
Proof. exact (conj demo_uniq_ok chi_case). Qed.
(** A single null in either column makes the statistic NaN. *)
Theorem C44_null_gives_nan : forall uniq xs ys, uniq_ok uniq -> length xs = length ys -> In None xs \/ In None ys ->
  fst (chi2 uniq xs ys) = None.
Proof. exact chi2_null. Qed.
Print Assumptions C44_null_gives_nan.
Theorem C44_null_refuted : fst (chi2 demo_uniq [Some 1; Some 2; None; Some 1] [Some 5; Some 6; Some 5; Some 6]) = None.
Proof. exact chi2_null_case. Qed.
Print Assumptions C44_null_refuted.

(** C45.  Whatever the generator draws: integers in [min, max), the length asked for. *)
Theorem C45_random_int_range : forall gen n low high, uniform_i32 gen -> low <> high ->
  exists out, random_int gen low high n = Ok out /\ length out = n /\
    forall x, In x out -> Z.min low high <= x < Z.max low high.
Proof. exact rand_int_ok. Qed.
Print Assumptions C45_random_int_range.
Theorem C45_random_int_expr_range : forall gen n low high, uniform_i32 gen ->
  exists out, pl_rand_int gen n low high = Ok out /\ length out = n /\
    forall x, In x out -> if (low =? high) then x = low else Z.min low high <= x < Z.max low high.
Proof. exact rand_int_expr_ok. Qed.
Print Assumptions C45_random_int_expr_range.
(** [perturb] moves every finite value by at most epsilon, rounding included, and keeps nulls. *)
Theorem C45_perturb_within_epsilon : forall gen col epsilon, uniform_f64 gen ->
  nfinite f64_ops epsilon = true -> (tiny <= Rabs (B2R epsilon) <= big)%R ->
  exists out, perturb gen col epsilon false = Ok out /\ length out = length col /\
    forall j, match nth_error col j with
              | Some (Some x) => exists y, nth_error out j = Some (Some y) /\
                  (nfinite f64_ops x = true -> (Rabs (B2R x) <= big)%R ->
                   nfinite f64_ops y = true /\ (Rabs (B2R y - B2R x) <= Rabs (B2R epsilon))%R)
              | Some None => nth_error out j = Some None
              | None => True
              end.
Proof. exact perturb_ok. Qed.
Print Assumptions C45_perturb_within_epsilon.
(** [random_null] turns exactly the values whose uniform draw in [0, 1) is below [pct] into null. *)
Theorem C45_random_null_only_nulls : forall (A : Type) gen (col : list (option A)) pct out,
  random_null gen col pct = Ok out ->
  length out = length col /\
  forall j, match nth_error col j with
            | Some None => nth_error out j = Some None
            | Some (Some x) => nth_error out j = Some (if nlt f64_ops (gen (nzero f64_ops) (fi 1) j) pct then None else Some x)
            | None => True
            end.
Proof. exact (@random_null_ok). Qed.
Print Assumptions C45_random_null_only_nulls.
Theorem C45_random_null_total : forall (A : Type) gen (col : list (option A)) pct,
  nlt f64_ops (nzero f64_ops) pct = true -> nlt f64_ops pct (fi 1) = true -> exists out, random_null gen col pct = Ok out.
Proof. exact (@random_null_total). Qed.
Print Assumptions C45_random_null_total.
Theorem C45_random_str_sizes : forall gen chars mi ma n, uniform_incl gen -> (forall k i, length (chars k i) = k) ->
  exists out, random_str gen chars mi ma n = Ok out /\ length out = n /\
    forall s, In s out -> (Nat.min mi ma <= length s <= Nat.max mi ma)%nat.
Proof. exact random_str_ok. Qed.
Print Assumptions C45_random_str_sizes.
Example C45_case : uniform_i32 demo_i32 /\ uniform_f64 demo_f64 /\
  nfinite f64_ops (fi (-3)) = true /\ (tiny <= Rabs (B2R (fi (-3))) <= big)%R /\
  random_int demo_i32 9 5 6 = Ok [5; 6; 7; 8; 5; 6].
Proof. exact (conj demo_i32_ok (conj demo_f64_ok (conj (proj1 perturb_case) (conj (proj2 perturb_case) eq_refl)))). Qed.
(** With [positive=True] rounding can carry the value further than epsilon; epsilon = 0 panics. *)
Theorem C45_perturb_positive_refuted : exists gen y, uniform_f64 gen /\
  perturb gen [Some (fi 1)] eps_pos true = Ok [Some y] /\ nlt f64_ops eps_pos (nsub f64_ops y (fi 1)) = true.
Proof. exact perturb_positive_out. Qed.
Print Assumptions C45_perturb_positive_refuted.
Theorem C45_perturb_zero_refuted : forall gen col, perturb gen col (fi 0) false = Err UniformPanic.
Proof. exact perturb_zero. Qed.
Print Assumptions C45_perturb_zero_refuted.

(** C55.  [random_binomial] fails on every input: its second argument has the wrong data type. *)
Theorem C55_random_binomial_refuted : forall gen n p len, exists e, random_binomial gen n p len = Err e.
Proof. exact random_binomial_err. Qed.
Print Assumptions C55_random_binomial_refuted.
