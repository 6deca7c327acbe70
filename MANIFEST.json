{
 "claims": [
  {
   "property": "C01",
   "status": "partial",
   "theorems": [
    "C01_within_exact",
    "C01_sound_any_metric_partial"
   ],
   "note": "Proved in full for l1, inf and for l2/sql2 up to dimension 15. For l2/sql2 at dimension >= 16 the distance is SIMD code of an external crate with unspecified summation order: only soundness (no false positives, no panic) is proved there."
  },
  {
   "property": "C02",
   "status": "proved",
   "theorems": [
    "C02_within_count_exact"
   ],
   "note": "Scalar metrics (l1, inf, l2/sql2 below dimension 16)."
  },
  {
   "property": "C03",
   "status": "partial",
   "theorems": [
    "C03_knn_exact",
    "C01_sound_any_metric_partial"
   ],
   "note": "As C01: SIMD metrics only have soundness."
  },
  {
   "property": "C04",
   "status": "proved",
   "theorems": [
    "C04_knn_epsilon"
   ],
   "note": "Scalar metrics."
  },
  {
   "property": "C05",
   "status": "partial",
   "theorems": [
    "C05_bound_inclusive_refuted",
    "C05_bound_exclusive_partial"
   ],
   "note": "REFUTED: rows exactly at max_dist_bound can be dropped (strict comparison when pruning). The strict version is proved."
  },
  {
   "property": "C06",
   "status": "proved",
   "theorems": [
    "C06_tree_contents"
   ],
   "note": ""
  },
  {
   "property": "C07",
   "status": "proved",
   "theorems": [
    "C07_order_independent"
   ],
   "note": "kNN distances strictly below the bound; at the bound see C05."
  },
  {
   "property": "C08",
   "status": "partial",
   "theorems": [
    "C08_no_panic",
    "C08_nan_panics_refuted"
   ],
   "note": "Proved for NaN-free data with the balanced split and for all data otherwise. With NaN the balanced split panics (refutation)."
  },
  {
   "property": "C09",
   "status": "proved",
   "theorems": [
    "C09_kdtree_parallel",
    "C09_knn_expr_parallel",
    "C09_radius_expr_parallel",
    "C09_count_expr_parallel",
    "C09_kth_expr_parallel",
    "C09_avg_expr_parallel"
   ],
   "note": "KDTree methods and every nearest-neighbour expression; masks must have the height of the frame."
  },
  {
   "property": "C10",
   "status": "proved",
   "theorems": [
    "C10_split_offsets_partition"
   ],
   "note": ""
  },
  {
   "property": "C100",
   "status": "partial",
   "theorems": [
    "C100_fit_transform",
    "C100_casing",
    "C100_output_columns",
    "C100_ensure_in",
    "C100_ensure_in_cased_refuted",
    "C100_target_kept",
    "C100_target_dropped_refuted",
    "C100_target_cased_refuted",
    "C100_target_cast_refuted",
    "C100_separate",
    "C100_rename",
    "C100_rename_refuted",
    "C100_json",
    "C100_json_old",
    "C100_batches",
    "C100_rowwise"
   ],
   "note": "Proved for all frames and expressions, except where REFUTED: with lower-cased names the input check refuses the training frame and the target is not protected; one_hot_encode drops the target, cast_bools changes it; exchanging two column names by rename loses both columns. SQL is an arbitrary function; polars' expression serialization is assumed to be invertible in C100_json."
  },
  {
   "property": "C101",
   "status": "partial",
   "theorems": [
    "C101_impute",
    "C101_impute_mean_kept",
    "C101_impute_null_refuted",
    "C101_center",
    "C101_standard",
    "C101_min_max",
    "C101_abs_max",
    "C101_robust",
    "C101_winsorize",
    "C101_levels_refused",
    "C101_constant_refuted",
    "C101_conditional",
    "C101_in_pipelines",
    "C101_conditional_rowwise",
    "C101_special_values"
   ],
   "note": "Proved over exact reals for columns of numbers and nulls; REFUTED: an all-null training column makes impute fail, a constant one scales to NaN and infinities. Mode imputing is not modelled."
  },
  {
   "property": "C102",
   "status": "partial",
   "theorems": [
    "C102_one_hot",
    "C102_one_per_row",
    "C102_names",
    "C102_clash_refuted",
    "C102_overwrite_refuted",
    "C102_constant_refuted",
    "C102_rank_hot",
    "C102_rank_refused",
    "C102_rowwise"
   ],
   "note": "Proved when the new names are distinct (for instance when no encoded column has the separator in its name); REFUTED: names can clash, an existing column can be overwritten, and text columns with a single category are not encoded."
  },
  {
   "property": "C103",
   "status": "partial",
   "theorems": [
    "C103_products",
    "C103_each_once",
    "C103_refused",
    "C103_clash_refuted",
    "C103_special_products"
   ],
   "note": "Proved over exact reals for column names without an asterisk; REFUTED otherwise: names can clash."
  },
  {
   "property": "C104",
   "status": "partial",
   "theorems": [
    "C104_target_encode",
    "C104_woe_encode",
    "C104_default",
    "C104_no_text_refused",
    "C104_in_pipelines",
    "C104_linear_impute",
    "C104_linear_null_refuted"
   ],
   "note": "Proved over exact reals; REFUTED for linear_impute with a null feature, which counts as zero. In linear_impute the coefficients are whatever lin_reg returned."
  },
  {
   "property": "C105",
   "status": "partial",
   "theorems": [
    "C105_published_partial",
    "C105_flat",
    "C105_published_refuted",
    "C105_undefined",
    "C105_small",
    "C105_order",
    "C105_scale",
    "C105_skew"
   ],
   "note": "Proved over exact reals, with the incomplete gamma function of shape 1 assumed to be exp(-t), wherever the normalising denominator of the kurtosis is positive; REFUTED for very flat samples (fifty zeros and fifty ones): the sign of the cube root is lost, so the statistic is too small and the p value too large. No finite value at all panics instead of being refused."
  },
  {
   "property": "C106",
   "status": "partial",
   "theorems": [
    "C106_values",
    "C106_centering_partial",
    "C106_centering_refuted",
    "C106_ratio",
    "C106_variance_ratio",
    "C106_explained",
    "C106_explained_partial",
    "C106_explained_refuted",
    "C106_pca",
    "C106_few_rows_refuted",
    "C106_components",
    "C106_components_other"
   ],
   "note": "Proved over any ordered field for every decomposition meeting the defining equations of the SVD. REFUTED: with nulls the rows analysed are not centred (means are taken before rows are dropped); explained variance divides by the number of singular values minus one instead of rows minus one, so it exceeds the total variance whenever there are more rows than features; pca and principal_components panic with fewer rows than features."
  },
  {
   "property": "C107",
   "status": "partial",
   "theorems": [
    "C107_standard_errors",
    "C107_sensitivity",
    "C107_tests",
    "C107_r2_partial",
    "C107_r2_refuted",
    "C107_adj_refuted",
    "C107_r2_skip_refuted",
    "C107_weighted",
    "C107_weighted_tests",
    "C107_weighted_scale",
    "C107_weighted_ones",
    "C107_weighted_skip_refuted",
    "C107_no_freedom_refuted"
   ],
   "note": "Proved: coefficients, all five kinds of standard error, t, p, interval, weights. REFUTED: r2 is divided by the sample variance times n, so it exceeds R2 by (1-R2)/n whenever the fit is not perfect; adj_r2 is too small with a bias; with skip, rows that are not used enter r2; weights with skipped rows panic; a report with no more used rows than coefficients panics."
  },
  {
   "property": "C108",
   "status": "partial",
   "theorems": [
    "C108_truncated_partial",
    "C108_rank",
    "C108_full",
    "C108_all_cut",
    "C108_cutoff_refuted",
    "C108_values_refuted",
    "C108_floor_refuted"
   ],
   "note": "Proved: singular values and rank without a penalty, the coefficients are the best in the span of the directions kept. REFUTED: what is kept is decided by the square of the singular value, so the cut-off depends on the scale (all coefficients become zero when every singular value is below rcond); with l2_reg > 0 the values returned are not those of the features; the floor counts matrix elements instead of max(rows, columns). All-zero features give NaN."
  },
  {
   "property": "C109",
   "status": "partial",
   "theorems": [
    "C109_line_partial",
    "C109_origin_partial",
    "C109_pred",
    "C109_residuals",
    "C109_same_as_lin_reg",
    "C109_null_target_refuted",
    "C109_null_means_refuted",
    "C109_null_weights_refuted"
   ],
   "note": "Proved for nulls that affect whole rows (with a bias) and known targets (without). REFUTED with nulls otherwise: a null target leaves its feature in the denominator, the means are taken over different rows and weights of unused rows count."
  },
  {
   "property": "C11",
   "status": "proved",
   "theorems": [
    "C11_row_major_layout",
    "C11_unequal_rejected"
   ],
   "note": "Columns already f64 (the cast is Polars')."
  },
  {
   "property": "C110",
   "status": "partial",
   "theorems": [
    "C110_values",
    "C110_small_bias_refuted",
    "C110_bias_refuted",
    "C110_fresh_partial",
    "C110_fresh_refuted",
    "C110_predict",
    "C110_predict_df",
    "C110_predict_null_refuted",
    "C110_names_refuted",
    "C110_fit",
    "C110_fit_df",
    "C110_same_as_expression",
    "C110_few_rows",
    "C110_raise",
    "C110_history",
    "C110_failed_fit_df_refuted",
    "C110_failed_fit_df_names",
    "C110_own_names_refuted",
    "C110_restore_partial",
    "C110_restore_refuted",
    "C110_restore_panic_refuted",
    "C110_nan_bias_refuted",
    "C110_elastic_net_one_row"
   ],
   "note": "REFUTED in parts: LR.bias() and OnlineLR.bias() return None; a bias up to the machine epsilon is dropped; a fresh object with has_bias panics in is_fit(); fit_df that raises has replaced the feature names; fit_df on the object's own name list empties it; an OnlineLR with a bias cannot be restored. Proved: round trip of values, predictions, fits against least squares and the expression, all histories, restoring without a bias."
  },
  {
   "property": "C111",
   "status": "partial",
   "theorems": [
    "C111_knn_entropy",
    "C111_estimate_unique",
    "C111_digamma_step",
    "C111_few_rows",
    "C111_invalid",
    "C111_parallel",
    "C111_row_order",
    "C111_copies",
    "C111_null_rows",
    "C111_null_rows_refuted"
   ],
   "note": "REFUTED: rows with a null are left out of the sum but still counted in n, so the value is not the estimate of the remaining rows (C111_null_rows_refuted, characterised for l2 by C111_null_rows). Everything else proved; distances bit exact, logarithms and constants over the reals, gamma an oracle at the half integers."
  },
  {
   "property": "C112",
   "status": "proved",
   "theorems": [
    "C112_copula_value",
    "C112_copula_order",
    "C112_cond_order",
    "C112_cond_symmetric",
    "C112_cond_value",
    "C112_few_rows",
    "C112_transfer_rows",
    "C112_transfer_future",
    "C112_transfer_invalid"
   ],
   "note": "Ranks and distances bit exact, logarithms and the sums over the reals, as in C111 (a row with a null is counted in the length, see C111). polars rank/slice modelled; u32 wrap of len - lag modelled."
  },
  {
   "property": "C113",
   "status": "partial",
   "theorems": [
    "C113_types",
    "C113_high_null",
    "C113_high_null_refuted",
    "C113_k_distinct_partial",
    "C113_k_distinct_any",
    "C113_const_binary",
    "C113_binary_refuted",
    "C113_discrete_partial",
    "C113_discrete_refuted",
    "C113_col_validation_partial",
    "C113_col_validation_refuted",
    "C113_row_validation",
    "C113_reasons_partial",
    "C113_reasons_refuted",
    "C113_row_names",
    "C113_prob_partial",
    "C113_prob_refuted",
    "C113_prob_found",
    "C113_cache_partial",
    "C113_cache_refuted"
   ],
   "note": "REFUTED in parts: infer_discrete never reports boolean or categorical columns and reports columns with more than max_val_cnt values; null counts as a distinct value, so {1, null} is binary; infer_prob looks at the first row of a list column only and raises without float columns; a rule that is null is listed among all reasons; two column rules on one column raise; infer_high_null includes the threshold itself; lists changed by the caller change later answers (lru_cache). Proved: exact description of each report for all frames, rows and first reason of row_validation, type groups, histories without changes."
  },
  {
   "property": "C114",
   "status": "partial",
   "theorems": [
    "C114_dependency",
    "C114_plot",
    "C114_direct",
    "C114_none_refuted"
   ],
   "note": "REFUTED for frames without any integer, string, categorical or boolean column: raises instead of warning and returning an empty frame. Everything else proved in exact arithmetic for any group and sort order."
  },
  {
   "property": "C115",
   "status": "partial",
   "theorems": [
    "C115_null_corr",
    "C115_phi",
    "C115_histogram",
    "C115_bins_partial",
    "C115_one_bin_refuted",
    "C115_empty_bins_refuted",
    "C115_last_edge_refuted",
    "C115_no_bins_refuted",
    "C115_outliers",
    "C115_special"
   ],
   "note": "null_corr, outlier_cnt and special_values_report proved in full. REFUTED for the histogram: empty bins leave no entry, an infinite value or a constant column collapses it into one entry, the start of the last bin is shifted by 1e-5, n_bins = 0 raises."
  },
  {
   "property": "C116",
   "status": "partial",
   "theorems": [
    "C116_metrics",
    "C116_hamming",
    "C116_order",
    "C116_osa",
    "C116_osa_metric_refuted",
    "C116_similarities",
    "C116_lcs",
    "C116_filter_levenshtein",
    "C116_negative_bound_refuted",
    "C116_filter_hamming_partial",
    "C116_pad_refuted",
    "C116_vocab",
    "C116_vocab_rows",
    "C116_vocab_refuted",
    "C116_lcs_missing_refuted"
   ],
   "note": "REFUTED in parts: OSA is no metric; filter_by_levenshtein takes a negative bound without its sign; filter_by_hamming ignores pad; similar_to_vocab raises for jw and reports false instead of null for avg; str_lcs_seq's default asks for a plugin function that does not exist. The rest proved relative to what rapidfuzz computes (contract rapidfuzz_ok, shown satisfiable)."
  },
  {
   "property": "C117",
   "status": "partial",
   "theorems": [
    "C117_within_partial",
    "C117_within_l2_refuted",
    "C117_null_refuted",
    "C117_length",
    "C117_length_refuted",
    "C117_is_knn",
    "C117_is_knn_count",
    "C117_is_knn_refuted",
    "C117_radius_freq",
    "C117_mutual",
    "C117_knn_freq",
    "C117_counts_itself_refuted"
   ],
   "note": "REFUTED in parts: within_dist_from with l2 compares the squared distance with the radius; nulls count as no difference; a point given as a generator is not checked; is_knn_from gives nulls for k = 0 and more than k rows on ties; the frequency counts include the row itself. The rest proved: point distances in exact arithmetic, frequency counts in binary64 on top of C49 and C50."
  },
  {
   "property": "C118",
   "status": "proved",
   "theorems": [
    "C118_tail_defined",
    "C118_absolute_error",
    "C118_relative_error",
    "C118_range",
    "C118_symmetry",
    "C118_zero_sd",
    "C118_xi_p_value",
    "C118_xi_few_rows",
    "C118_mwu_p_value",
    "C118_mwu_no_spread"
   ],
   "note": "Exact real arithmetic: exp and sqrt are the real functions, literals are the decimals written; double rounding (and the underflow of exp beyond 27 standard units) is not modelled. The normal tail is defined as an improper integral of the density; its existence and uniqueness are proved, including the Gaussian integral."
  },
  {
   "property": "C119",
   "status": "partial",
   "theorems": [
    "C119_monotone_refuted",
    "C119_almost_monotone",
    "C119_strict_between_cuts"
   ],
   "note": "REFUTED: at the switch from the first to the second approximation (0.7071 standard deviations) the p-value jumps up by more than 2e-11, because the additive constants are truncated single-precision literals. Proved instead: never up by more than 2.6e-10, and strictly down between switch points."
  },
  {
   "property": "C12",
   "status": "proved",
   "theorems": [
    "C12_knn_shape",
    "C04_knn_epsilon"
   ],
   "note": ""
  },
  {
   "property": "C120",
   "status": "proved",
   "theorems": [
    "C120_gamma_defined",
    "C120_gamma_unique",
    "C120_ln_gamma"
   ],
   "note": "Exact real arithmetic (ln is the real logarithm, literals are the decimals written): the approximation error of the Lanczos sum, not double rounding. Shapes below one half (no caller passes one) are not covered."
  },
  {
   "property": "C121",
   "status": "partial",
   "theorems": [
    "C121_tail_defined",
    "C121_two_degrees",
    "C121_chi2_body",
    "C121_chi2_upper",
    "C121_chi2_small",
    "C121_small_digits_refuted",
    "C121_normal_test_body",
    "C121_normal_test_upper",
    "C121_edges"
   ],
   "note": "Exact real arithmetic (exp, ln, sqrt are the real functions; double rounding not modelled). REFUTED only for the digits of statistics below 2.4e-15: there the code can return exactly 1 although the tail is 3e-8 smaller (one degree of freedom); proved instead: never off by more than 1.1e-7 there. The computation of the statistics themselves is the subject of other properties."
  },
  {
   "property": "C122",
   "status": "proved",
   "theorems": [
    "C122_defined",
    "C122_recurrence",
    "C122_positive",
    "C122_continuation",
    "C122_negative",
    "C122_edges",
    "C122_columns"
   ],
   "note": "Exact real arithmetic (ln, tan, PI the real ones; rounding not modelled). The bit-level test ulps_eq! that recognises negative integers is a parameter assumed to accept integers; a negative non-integer it accepts (one within 4 ulps of the integer below it) gives minus infinity."
  },
  {
   "property": "C123",
   "status": "partial",
   "theorems": [
    "C123_t_tail_defined",
    "C123_f_tail_defined",
    "C123_euler",
    "C123_student_domain",
    "C123_student_zero",
    "C123_student_reflect",
    "C123_t_tail_reflect",
    "C123_student",
    "C123_student_tail",
    "C123_p_value",
    "C123_square",
    "C123_f_error",
    "C123_f_zero",
    "C123_f_even",
    "C123_f_partial",
    "C123_f_rounds_even",
    "C123_f_rounds_one"
   ],
   "note": "Student's t is complete. F: accuracy is proved whenever the loop is left by its own test, and that it is so for even degrees of freedom up to 280 and when one of them is 1; not for all pairs (tried numerically, 140 rounds are too few when both are of the order of 1e5 or more). Exact real arithmetic, rounding not modelled; statistics and degrees of freedom are finite reals."
  },
  {
   "property": "C124",
   "status": "partial",
   "theorems": [
    "C124_domain",
    "C124_ends",
    "C124_median",
    "C124_odd",
    "C124_residual",
    "C124_quantile_partial",
    "C124_newton_slope",
    "C124_ln_beta",
    "C124_inverse_range",
    "C124_inverse_edges",
    "C124_inverse_mirror",
    "C124_rounds_end",
    "C124_start",
    "C124_report",
    "C124_no_freedom_refuted"
   ],
   "note": "REFUTED: without degrees of freedom (a report with no more rows than coefficients) the quantile panics. Accuracy is proved relative to the residual the root search leaves. Missing: that the search ends, and that the residual is small when it ends by its tolerance; each single round is proved to end."
  },
  {
   "property": "C13",
   "status": "partial",
   "theorems": [
    "C13_knn_avg_mean",
    "C13_mean_between_partial",
    "C13_mean_outside_refuted"
   ],
   "note": "The mean and the null condition are proved for f64. The bound between min and max is proved in exact arithmetic and REFUTED in f64 (rounding)."
  },
  {
   "property": "C14",
   "status": "proved",
   "theorems": [
    "C14_least_squares",
    "C14_weighted",
    "C14_ridge_always",
    "C14_class_fit",
    "C14_raise"
   ],
   "note": "Exact arithmetic over any ordered field; faer decompositions assumed to solve invertible systems."
  },
  {
   "property": "C15",
   "status": "proved",
   "theorems": [
    "C15_recursive",
    "C15_short_panics"
   ],
   "note": "Exact arithmetic. The fit meant is the one the recursive code uses, which penalises the bias (C66). Finding: with fewer usable rows than start_with it panics."
  },
  {
   "property": "C16",
   "status": "partial",
   "theorems": [
    "C16_rolling_partial",
    "C16_ridge",
    "C16_poisoned",
    "C16_square_window",
    "C16_refuted",
    "C16_null_gap_refuted",
    "C16_long_window_panics"
   ],
   "note": "Proved in full for a positive penalty. REFUTED for l2 = 0: a window that loses its rank when its oldest row leaves turns all later rows into NaN."
  },
  {
   "property": "C17",
   "status": "proved",
   "theorems": [
    "C17_history",
    "C17_downdate_restores"
   ],
   "note": "Removal of a row is quantified over rows whose removal leaves a determined fit."
  },
  {
   "property": "C18",
   "status": "proved",
   "theorems": [
    "C18_aligned"
   ],
   "note": "For the policies skip and fill, and raise/ignore without nulls; ignore with nulls is C65."
  },
  {
   "property": "C19",
   "status": "partial",
   "theorems": [
    "C19_own_row_partial",
    "C19_wrong_row",
    "C19_refuted"
   ],
   "note": "REFUTED: with skipped rows and start_with > 1 the prediction uses the features of another row."
  },
  {
   "property": "C20",
   "status": "partial",
   "theorems": [
    "C20_sweep_descends",
    "C20_fixed_point_optimal",
    "C20_more_iterations",
    "C20_converges",
    "C20_zero_column_refuted"
   ],
   "note": "Descent and optimality of fixed points proved in full; optimality of the result up to the tolerance proved without a bias or with centred features and enough iterations. REFUTED: a zero feature with l2 = 0 gives NaN; with a bias see C68."
  },
  {
   "property": "C21",
   "status": "proved",
   "theorems": [
    "C21_kendall_tau_b",
    "C21_numerator_bounded",
    "C21_order_invariant"
   ],
   "note": "f64 quotient of exact integer counts; every sort, every tie pattern. u64/i64 counters exact below 2^32 rows."
  },
  {
   "property": "C22",
   "status": "partial",
   "theorems": [
    "C22_ks_supremum",
    "C22_ks_binary_supremum",
    "C22_thirty_values_refuted"
   ],
   "note": "Supremum over every float t proved in f64 arithmetic for > 30 values each. REFUTED: documentation says fewer than 30 values give 0, the code does so for exactly 30 as well. p estimate formula modelled, not characterised."
  },
  {
   "property": "C23",
   "status": "partial",
   "theorems": [
    "C23_u_statistic_partial",
    "C23_p_in_unit_interval",
    "C23_tie_term_refuted"
   ],
   "note": "REFUTED: the tie term leaves out the group of largest values; the rest (U, p formula) is proved."
  },
  {
   "property": "C24",
   "status": "partial",
   "theorems": [
    "C24_weighted_fit",
    "C24_unweighted_fit",
    "C24_idempotent",
    "C24_f64_monotone",
    "C24_invalid_rejected",
    "C24_debug_panics_refuted"
   ],
   "note": "Optimality and uniqueness proved in exact arithmetic, monotonicity and absence of panics in f64 (release build). REFUTED with overflow checks: every call with >= 2 rows panics (usize underflow)."
  },
  {
   "property": "C25",
   "status": "partial",
   "theorems": [
    "C25_roc_auc_exact",
    "C25_rank_probability_partial",
    "C25_mixed_top_too_small",
    "C25_tied_top_refuted",
    "C25_no_negatives_nan",
    "C25_no_positives_nan",
    "C25_roc_curve"
   ],
   "note": "REFUTED: too small exactly when the largest score is shared by positives and negatives; the exact value is proved for every table (exact arithmetic)."
  },
  {
   "property": "C26",
   "status": "partial",
   "theorems": [
    "C26_confusion_counts",
    "C26_counts_total",
    "C26_mcc_partial",
    "C26_mcc_wraps_refuted"
   ],
   "note": "Counts proved below 2^32 rows. MCC proved below 2^16 rows; REFUTED above: the u32 products wrap."
  },
  {
   "property": "C27",
   "status": "partial",
   "theorems": [
    "C27_jaccard_partial",
    "C27_null_slot_refuted",
    "C27_count_null_refuted"
   ],
   "note": "Proved for columns without nulls. REFUTED with nulls: physical values of null slots are hashed as elements (and count_null counts the null on top)."
  },
  {
   "property": "C28",
   "status": "partial",
   "theorems": [
    "C28_psi_w_breakpoints",
    "C28_bins_partition",
    "C28_total_nonneg",
    "C28_psi_partial",
    "C28_psi_self",
    "C28_psi_above_panics",
    "C28_psi_refuted"
   ],
   "note": "psi_w_breakpoints proved (f64 columns). psi proved when no new value exceeds the largest learned breakpoint; REFUTED otherwise (index out of bounds)."
  },
  {
   "property": "C29",
   "status": "proved",
   "theorems": [
    "C29_convolve",
    "C29_convolve_error",
    "C29_lengths"
   ],
   "note": "Exact real arithmetic; both methods (fft through the circular convolution theorem), all five modes, all parallel schedules."
  },
  {
   "property": "C30",
   "status": "proved",
   "theorems": [
    "C30_rfft",
    "C30_rfft_null",
    "C30_invertible"
   ],
   "note": "Exact real arithmetic; realfft modelled by its documented transform; transform length at least 1."
  },
  {
   "property": "C31",
   "status": "proved",
   "theorems": [
    "C31_lempel_ziv"
   ],
   "note": "All boolean columns (a null is read as false by the code)."
  },
  {
   "property": "C32",
   "status": "partial",
   "theorems": [
    "C32_sample_entropy_partial",
    "C32_tiny_radius_refuted",
    "C32_long_series_refuted",
    "C32_degenerate",
    "C32_null_radius"
   ],
   "note": "Proved for finite series below 2^16 values and radii above machine epsilon, for every schedule. REFUTED for tiny radii (all counts lost) and long series (u32 wrap)."
  },
  {
   "property": "C33",
   "status": "partial",
   "theorems": [
    "C33_first_digits_partial",
    "C33_first_digits_float_partial",
    "C33_null_refuted"
   ],
   "note": "Integers and decimal texts of floats without nulls proved; REFUTED: the physical value of a null slot is counted. Rust's Display for floats is assumed to print plain decimal text of the value."
  },
  {
   "property": "C34",
   "status": "proved",
   "theorems": [
    "C34_combinations",
    "C34_unique_combinations",
    "C34_product"
   ],
   "note": "Itertools::combinations modelled by its documented result; capacity hint proved equal to the row count."
  },
  {
   "property": "C35",
   "status": "partial",
   "theorems": [
    "C35_trapezoids_partial",
    "C35_uniform_spacing",
    "C35_affine_exact",
    "C35_concatenation",
    "C35_reversal",
    "C35_length_mismatch",
    "C35_single_point_refuted"
   ],
   "note": "Proved from two points on (exact arithmetic). REFUTED for a single point: -x*y/2."
  },
  {
   "property": "C36",
   "status": "partial",
   "theorems": [
    "C36_weighted_cosine",
    "C36_cosine_self_value",
    "C36_cosine_self_refuted",
    "C36_weighted_corr_refuted"
   ],
   "note": "weighted_cosine_sim: proved. REFUTED: cosine_sim(x,x) is the norm of x, and weighted_corr is neither symmetric nor bounded by 1."
  },
  {
   "property": "C37",
   "status": "partial",
   "theorems": [
    "C37_set_similarities",
    "C37_cards_exist",
    "C37_range",
    "C37_symmetric",
    "C37_self",
    "C37_one_iff",
    "C37_dice_jaccard",
    "C37_tversky_jaccard",
    "C37_tversky_dice",
    "C37_empty_refuted",
    "C37_zero_ngram"
   ],
   "note": "Proved for non-empty words and n >= 1 in exact arithmetic. REFUTED for empty words: NaN."
  },
  {
   "property": "C38",
   "status": "proved",
   "theorems": [
    "C38_stopword",
    "C38_shape"
   ],
   "note": ""
  },
  {
   "property": "C39",
   "status": "partial",
   "theorems": [
    "C39_nearest",
    "C39_null_refuted"
   ],
   "note": "Proved for every metric and vocabulary without nulls. REFUTED with nulls: the content of a null cell can be returned."
  },
  {
   "property": "C40",
   "status": "proved",
   "theorems": [
    "C40_words",
    "C40_normalize_whitespace",
    "C40_normalize_idempotent",
    "C40_remove_non_ascii",
    "C40_remove_non_ascii_idempotent",
    "C40_remove_diacritics",
    "C40_remove_diacritics_idempotent",
    "C40_map_words",
    "C40_map_words_words"
   ],
   "note": "NFD decomposition is a parameter; idempotence of remove_diacritics assumes it fixes ASCII text."
  },
  {
   "property": "C41",
   "status": "partial",
   "theorems": [
    "C41_rows",
    "C41_nulls",
    "C41_shape_error",
    "C41_parallel",
    "C41_chunks",
    "C41_null_scalar_refuted"
   ],
   "note": "REFUTED part: a null scalar second argument panics."
  },
  {
   "property": "C42",
   "status": "proved",
   "theorems": [
    "C42_stem_total",
    "C42_short_words",
    "C42_removed"
   ],
   "note": "Strings shorter than 2^31 bytes (lengths are cast to i32); float parsing is a parameter."
  },
  {
   "property": "C43",
   "status": "partial",
   "theorems": [
    "C43_f_test_anova",
    "C43_null_value_refuted",
    "C43_null_group_refuted"
   ],
   "note": "Proved for data without nulls (exact arithmetic); REFUTED with nulls. p-value not modelled."
  },
  {
   "property": "C44",
   "status": "partial",
   "theorems": [
    "C44_chi2_pearson",
    "C44_degrees_of_freedom",
    "C44_symmetric",
    "C44_expected_frequencies",
    "C44_null_gives_nan",
    "C44_null_refuted"
   ],
   "note": "Proved for data without nulls (exact arithmetic, u64 counters); REFUTED with nulls: always NaN. p-value not modelled."
  },
  {
   "property": "C45",
   "status": "partial",
   "theorems": [
    "C45_random_int_range",
    "C45_random_int_expr_range",
    "C45_perturb_within_epsilon",
    "C45_random_null_only_nulls",
    "C45_random_null_total",
    "C45_random_str_sizes",
    "C45_perturb_positive_refuted",
    "C45_perturb_zero_refuted"
   ],
   "note": "Everything proved except REFUTED: perturb(positive=True) can move a value by more than epsilon (rounding), perturb(epsilon=0) panics."
  },
  {
   "property": "C46",
   "status": "partial",
   "theorems": [
    "C46_radius_zero_refuted",
    "C46_rejected_queries_empty"
   ],
   "note": "REFUTED: radius 0 returns nothing; the exact set of silently empty queries is characterised."
  },
  {
   "property": "C47",
   "status": "partial",
   "theorems": [
    "C47_length_one_radius_refuted"
   ],
   "note": "REFUTED: missing return in the Python wrapper."
  },
  {
   "property": "C48",
   "status": "partial",
   "theorems": [
    "C48_width_unchecked_refuted"
   ],
   "note": "REFUTED: within neither checks the width nor fails cleanly."
  },
  {
   "property": "C49",
   "status": "proved",
   "theorems": [
    "C49_knn_ptwise_exact",
    "C49_knn_ptwise_ids"
   ],
   "note": "Scalar metrics (l1, inf, l2/sql2 below dimension 16); at least one eligible row (else C54)."
  },
  {
   "property": "C50",
   "status": "proved",
   "theorems": [
    "C50_radius_ptwise_exact"
   ],
   "note": "Scalar metrics; non-empty frame."
  },
  {
   "property": "C51",
   "status": "partial",
   "theorems": [
    "C51_nb_cnt_exact",
    "C51_null_radius_refuted"
   ],
   "note": "Proved except for a single null radius, which panics (REFUTED)."
  },
  {
   "property": "C52",
   "status": "proved",
   "theorems": [
    "C52_kth_distance_exact"
   ],
   "note": "Scalar metrics; non-empty frame."
  },
  {
   "property": "C53",
   "status": "partial",
   "theorems": [
    "C53_never_neighbour_partial",
    "C53_inf_nan_neighbour_refuted"
   ],
   "note": "Proved for all metrics but inf; REFUTED for dist='inf'."
  },
  {
   "property": "C54",
   "status": "partial",
   "theorems": [
    "C54_no_candidates_panic_refuted",
    "C54_empty_frame_panic_refuted"
   ],
   "note": "REFUTED: the expressions panic on frames without eligible rows."
  },
  {
   "property": "C55",
   "status": "partial",
   "theorems": [
    "C55_random_binomial_refuted"
   ],
   "note": "REFUTED: pl.lit(n, Int32) is read with .u32(), so every call is a schema error."
  },
  {
   "property": "C56",
   "status": "partial",
   "theorems": [
    "C56_threshold_metrics",
    "C56_average_precision_exact",
    "C56_average_precision_refuted",
    "C56_high_threshold_refuted"
   ],
   "note": "Precision, recall, F, AUC proved for thresholds not above the largest score. REFUTED: average precision drops the last term; higher thresholds panic."
  },
  {
   "property": "C57",
   "status": "proved",
   "theorems": [
    "C57_list_jaccard",
    "C57_list_jaccard_length"
   ],
   "note": "All list columns of a type with decidable equality."
  },
  {
   "property": "C58",
   "status": "partial",
   "theorems": [
    "C58_psi_discrete_partial",
    "C58_total_nonneg",
    "C58_self_partial",
    "C58_null_refuted"
   ],
   "note": "Proved unless null is a category of both columns; REFUTED there: the join does not match nulls."
  },
  {
   "property": "C59",
   "status": "partial",
   "theorems": [
    "C59_approximate_entropy_partial",
    "C59_null_radius_refuted",
    "C32_degenerate"
   ],
   "note": "Proved for finite series and radii above machine epsilon. REFUTED: a null radius (std of fewer than two values) panics."
  },
  {
   "property": "C60",
   "status": "partial",
   "theorems": [
    "C60_mean_between",
    "C60_frequency_mean",
    "C60_frequency_var",
    "C60_null_refuted"
   ],
   "note": "Proved without nulls. REFUTED with nulls: the weight of a null row stays in the denominator."
  },
  {
   "property": "C61",
   "status": "partial",
   "theorems": [
    "C61_means_order",
    "C61_weighted_order",
    "C61_weighted_hmean_value",
    "C61_weighted_hmean_refuted",
    "C61_weighted_hmean_normalized"
   ],
   "note": "REFUTED part: weighted_hmean does not depend on the data."
  },
  {
   "property": "C62",
   "status": "proved",
   "theorems": [
    "C62_weighted_cov"
   ],
   "note": "Exact real arithmetic, no nulls, positive weights."
  },
  {
   "property": "C63",
   "status": "proved",
   "theorems": [
    "C63_bicor",
    "C63_bicor_affine"
   ],
   "note": "Exact real arithmetic; bounds for any median function, invariance for the sorted-middle median."
  },
  {
   "property": "C64",
   "status": "proved",
   "theorems": [
    "C64_xi_le_1",
    "C64_xi_untied"
   ],
   "note": "Exact arithmetic, no nulls; the constant-y case (NaN) is outside the claim."
  },
  {
   "property": "C65",
   "status": "partial",
   "theorems": [
    "C65_ignore_length_refuted"
   ],
   "note": "REFUTED: 'ignore' with a null returns a single null. The other policies keep the length (C18_aligned)."
  },
  {
   "property": "C66",
   "status": "partial",
   "theorems": [
    "C66_recursive_is_lin_reg",
    "C66_bias_penalised_refuted"
   ],
   "note": "Proved without a bias or without a penalty. REFUTED otherwise: the bias is penalised."
  },
  {
   "property": "C67",
   "status": "partial",
   "theorems": [
    "C67_update_weight",
    "C67_refuted"
   ],
   "note": "REFUTED: the row gets weight 1/c."
  },
  {
   "property": "C68",
   "status": "partial",
   "theorems": [
    "C68_first_sweep_stops",
    "C68_bias_early_stop_refuted"
   ],
   "note": "REFUTED: the stopping rule ignores the bias."
  },
  {
   "property": "C69",
   "status": "proved",
   "theorems": [
    "C69_multi_target",
    "C69_multi_rejects"
   ],
   "note": "Exact arithmetic."
  },
  {
   "property": "C70",
   "status": "proved",
   "theorems": [
    "C70_sample",
    "C70_sample_rejects",
    "C70_every_subset"
   ],
   "note": "Shuffle is an oracle yielding a permutation; counts above 2^32 rows not modelled."
  },
  {
   "property": "C71",
   "status": "partial",
   "theorems": [
    "C71_train_test",
    "C71_small_frame_refuted"
   ],
   "note": "REFUTED for frames where the share is no row or all rows: KeyError. Proved for all others."
  },
  {
   "property": "C72",
   "status": "partial",
   "theorems": [
    "C72_split",
    "C72_split_any_sum",
    "C72_rejects",
    "C72_all_rows_refuted",
    "C72_702010_refuted"
   ],
   "note": "REFUTED: up to as many rows as ratios are dropped; 0.7, 0.2, 0.1 are rejected with the left-to-right sum. Shares, disjointness and the bound on lost rows are proved."
  },
  {
   "property": "C73",
   "status": "proved",
   "theorems": [
    "C73_volume_neutral",
    "C73_rows"
   ],
   "note": ""
  },
  {
   "property": "C74",
   "status": "partial",
   "theorems": [
    "C74_downsample",
    "C74_rejects",
    "C74_null_rows_refuted",
    "C74_equivalence_refuted"
   ],
   "note": "REFUTED for null conditions (rows dropped); proved otherwise. The documented equivalence is refuted."
  },
  {
   "property": "C75",
   "status": "partial",
   "theorems": [
    "C75_random_cols",
    "C75_every_choice",
    "C75_enough_columns_refuted",
    "C75_never_selected_refuted"
   ],
   "note": "REFUTED when keep has columns outside the pool; proved when keep is part of it."
  },
  {
   "property": "C76",
   "status": "partial",
   "theorems": [
    "C76_parts",
    "C76_distinct_names",
    "C76_apply",
    "C76_rows_lost_refuted",
    "C76_null_lost_refuted"
   ],
   "note": "REFUTED when two keys print to one name; proved when names are distinct, with a sufficient condition."
  },
  {
   "property": "C77",
   "status": "partial",
   "theorems": [
    "C77_r2",
    "C77_r2_constant",
    "C77_r2_affine",
    "C77_adj_r2",
    "C77_adj_textbook_refuted",
    "C77_more_variables_than_rows_refuted",
    "C77_adj_null_refuted",
    "C77_null_pred_refuted",
    "C77_adj_r2_saturated"
   ],
   "note": "R2 proved for columns whose predictions are known wherever the actual is. REFUTED: null predictions inflate R2; adjusted R2 uses n-p, not n-p-1, counts null rows, and wraps around for p > n."
  },
  {
   "property": "C78",
   "status": "partial",
   "theorems": [
    "C78_losses",
    "C78_sums",
    "C78_msle",
    "C78_mad",
    "C78_null_pred_refuted"
   ],
   "note": "Proved when predictions are known wherever the actual is. REFUTED otherwise: a null prediction counts as an error of zero."
  },
  {
   "property": "C79",
   "status": "partial",
   "theorems": [
    "C79_smape",
    "C79_smape_zero_rows",
    "C79_smape_range_refuted",
    "C79_mape",
    "C79_mape_zero_actual",
    "C79_wmape"
   ],
   "note": "REFUTED for smape when a row has both values zero (NaN); proved otherwise."
  },
  {
   "property": "C80",
   "status": "proved",
   "theorems": [
    "C80_log_loss",
    "C80_certain_and_wrong",
    "C80_base_rate",
    "C80_cross_entropy",
    "C80_label_out_of_range",
    "C80_two_classes"
   ],
   "note": ""
  },
  {
   "property": "C81",
   "status": "proved",
   "theorems": [
    "C81_mase",
    "C81_rejects",
    "C81_precomputed",
    "C81_naive_forecast",
    "C81_scale_free"
   ],
   "note": ""
  },
  {
   "property": "C82",
   "status": "partial",
   "theorems": [
    "C82_fairness",
    "C82_fairness_swap",
    "C82_empty_group",
    "C82_p_pct_score",
    "C82_no_positive_refuted"
   ],
   "note": "REFUTED: equal groups without positives score NaN, not 1; proved otherwise."
  },
  {
   "property": "C83",
   "status": "partial",
   "theorems": [
    "C83_groups",
    "C83_value",
    "C83_ties",
    "C83_no_ties",
    "C83_perfect",
    "C83_range",
    "C83_k_zero",
    "C83_group_column_refuted",
    "C83_tie_order_refuted"
   ],
   "note": "REFUTED for every group column not named example_id (raises) and for ties without tie handling (the result depends on the sort); proved otherwise."
  },
  {
   "property": "C84",
   "status": "partial",
   "theorems": [
    "C84_gini_partial",
    "C84_gini_one_class",
    "C84_macro_partial",
    "C84_weighted_partial",
    "C84_absent_class"
   ],
   "note": "As in C25, proved when no positive and negative row share the largest score; C25_mixed_top_too_small shows the AUC is wrong otherwise."
  },
  {
   "property": "C85",
   "status": "partial",
   "theorems": [
    "C85_longest",
    "C85_average",
    "C85_all_streaks_refuted"
   ],
   "note": "REFUTED for query_streak: it also returns the runs of false and null; proved for longest and average."
  },
  {
   "property": "C86",
   "status": "partial",
   "theorems": [
    "C86_mean_abs_change",
    "C86_net_change",
    "C86_complexity",
    "C86_complexity_normalized",
    "C86_time_reversal",
    "C86_c3",
    "C86_c3_no_triples",
    "C86_c3_nulls_refuted"
   ],
   "note": "REFUTED for c3 with nulls (divides by a count that includes null rows); the rest proved."
  },
  {
   "property": "C87",
   "status": "partial",
   "theorems": [
    "C87_auto_corr",
    "C87_lag_zero",
    "C87_not_normalized",
    "C87_range_refuted",
    "C87_nulls_refuted"
   ],
   "note": "REFUTED: values above 1 occur; the sharp bound proved instead is (count-ddof)/(n-lag)."
  },
  {
   "property": "C88",
   "status": "partial",
   "theorems": [
    "C88_mean_n_abs_max",
    "C88_symm_ratio",
    "C88_count_uniques",
    "C88_count_uniques_refuted",
    "C88_range_count",
    "C88_mid_range",
    "C88_mid_range_empty",
    "C88_mid_range_refuted"
   ],
   "note": "REFUTED for query_count_uniques (counts values occurring exactly once); the rest proved."
  },
  {
   "property": "C89",
   "status": "proved",
   "theorems": [
    "C89_entropy",
    "C89_entropy_rename",
    "C89_not_normalized",
    "C89_cond_entropy"
   ],
   "note": "Proved over exact real arithmetic; value counts and group-by are oracles with recorded behaviour (InfoModel counts_ok, groups_ok)."
  },
  {
   "property": "C90",
   "status": "partial",
   "theorems": [
    "C90_permutation_entropy",
    "C90_monotone",
    "C90_rejects",
    "C90_tau_refuted",
    "C90_past_end_refuted"
   ],
   "note": "Proved for tau = 1; REFUTED for tau > 1: neighbouring rows are compared instead of rows tau apart, and windows past the end are counted."
  },
  {
   "property": "C91",
   "status": "partial",
   "theorems": [
    "C91_sql2",
    "C91_sqzl2",
    "C91_affine_series",
    "C91_affine_query",
    "C91_copy_found",
    "C91_ratio",
    "C91_constant_query_refuted",
    "C91_longer_query_refuted",
    "C91_nulls",
    "C91_short_query"
   ],
   "note": "REFUTED for constant queries with sqzl2 (never found, no minimum variance applied to the query) and for queries longer than the series (0 sequentially, panic in parallel); proved otherwise."
  },
  {
   "property": "C92",
   "status": "partial",
   "theorems": [
    "C92_target_encode",
    "C92_range",
    "C92_shrink",
    "C92_weight",
    "C92_row_order",
    "C92_nulls_refuted",
    "C92_zero_smoothing_refuted",
    "C92_no_target"
   ],
   "note": "REFUTED: null categories are dropped although documented as encoded; smoothing 0 can give NaN; the rest proved."
  },
  {
   "property": "C93",
   "status": "partial",
   "theorems": [
    "C93_woe",
    "C93_iv",
    "C93_iv_sum",
    "C93_swap",
    "C93_independent_refuted",
    "C93_binned",
    "C93_binned_refuted"
   ],
   "note": "Proved for the discrete functions; REFUTED for continuous columns with a null or non-finite value (the call fails) and for independence (the smoothing makes the information value positive)."
  },
  {
   "property": "C94",
   "status": "partial",
   "theorems": [
    "C94_gcd_columns",
    "C94_gcd_integer",
    "C94_lcm_columns",
    "C94_lcm_integer",
    "C94_refused",
    "C94_one_row_refuted",
    "C94_lcm_overflow_refuted",
    "C94_gcd_min_refuted"
   ],
   "note": "Proved except where REFUTED: a one-row frame with a null second column panics, an lcm beyond 32 bits wraps around, gcd(i32::MIN, 0) is negative."
  },
  {
   "property": "C95",
   "status": "partial",
   "theorems": [
    "C95_columns",
    "C95_fixed_point",
    "C95_metric",
    "C95_places",
    "C95_null_scalar_refuted",
    "C95_first_scalar"
   ],
   "note": "Proved over exact real arithmetic; REFUTED for a null scalar (or one-row) second point, which panics."
  },
  {
   "property": "C96",
   "status": "partial",
   "theorems": [
    "C96_inverse",
    "C96_expit",
    "C96_logit",
    "C96_xlogy",
    "C96_exp2",
    "C96_trunc_fract",
    "C96_sinc",
    "C96_columns",
    "C96_xlogy_columns",
    "C96_fract_null_refuted",
    "C96_fract_integers",
    "C96_xlogy_infinite"
   ],
   "note": "Proved over exact real arithmetic extended by infinities and NaN; REFUTED for fract on integer columns, which turns null into 0. gamma, digamma, next_up and next_down are not modelled here."
  },
  {
   "property": "C97",
   "status": "partial",
   "theorems": [
    "C97_monotone",
    "C97_monotone_nulls",
    "C97_monotone_null_refuted",
    "C97_center",
    "C97_z_normalize",
    "C97_z_normalize_affine",
    "C97_z_normalize_degenerate",
    "C97_softmax",
    "C97_softmax_shift",
    "C97_softmax_range_refuted",
    "C97_detrend",
    "C97_detrend_line",
    "C97_detrend_nulls_refuted",
    "C97_detrend_mean",
    "C97_norms",
    "C97_norms_normalized",
    "C97_norms_null_row"
   ],
   "note": "Proved over exact reals; REFUTED: nulls hide a descent from is_increasing, softmax overflows or underflows to NaN for values beyond about 1024 in size, detrend fails on columns with nulls."
  },
  {
   "property": "C98",
   "status": "partial",
   "theorems": [
    "C98_welch",
    "C98_student",
    "C98_one_sample",
    "C98_from_stats",
    "C98_p_values",
    "C98_invariance",
    "C98_row_order",
    "C98_constant",
    "C98_short_refuted",
    "C98_not_finite",
    "C98_unequal_refuted",
    "C98_alternative"
   ],
   "note": "Proved over exact reals with the incomplete beta function an assumed oracle; REFUTED: fewer than two finite values panic in Welch's and the one sample test, and Student's test uses the first column's count for both samples, so nulls make it wrong. The numeric evaluation of the incomplete beta function is not modelled."
  },
  {
   "property": "C99",
   "status": "partial",
   "theorems": [
    "C99_winsorize",
    "C99_counts",
    "C99_idempotent",
    "C99_linear_refuted",
    "C99_affine",
    "C99_no_values",
    "C99_refused",
    "C99_quantile"
   ],
   "note": "Proved over exact reals; REFUTED: with linear (or midpoint) quantiles winsorizing twice is not winsorizing once."
  }
 ]
}