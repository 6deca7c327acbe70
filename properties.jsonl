{"id": "C01", "title": "Radius query returns exactly the points in range", "statement": "For any tree built from any sequence of rows, `within(point, r)` (KDTree.within, query_radius_ptwise) returns precisely the stored rows whose reported distance to the point (in f64 arithmetic, same distance function) is <= r, each exactly as often as it was inserted, together with that distance; box pruning never drops a row.", "quantifier": "all dimensions, all f64 data (incl. infinities and NaN rows for l1/l2/sql2), all insertion orders, both split methods, all radii, all finite query points, metrics l1/l2/sql2/inf", "why_tests_cant": "Pruning correctness depends on rounding of every box/point combination and on every tree shape; tests sample a few random matrices.", "anchors": ["src/arkadia/kdt.rs: within_one_step, update_nb_within, _closest_dist_to_box", "src/arkadia/mod.rs: within", "src/utils/mod.rs: DIST::dist"]}
{"id": "C02", "title": "Radius count agrees with brute force", "statement": "`within_count(point, r)` (KDTree.within_count, query_nb_cnt) equals the number of stored rows with distance <= r, and equals the length of `within(point, r)`.", "quantifier": "all trees, points, radii as in C01", "why_tests_cant": "It is a separate traversal from `within`; agreement on all trees cannot be sampled.", "anchors": ["src/arkadia/kdt.rs: within_count_one_step", "src/arkadia/mod.rs: within_count"]}
{"id": "C03", "title": "kNN returns the k nearest rows, sorted", "statement": "With epsilon = 0, `knn_bounded(k, point, max_dist_bound)` returns a list sorted by distance, of at most k stored rows, none farther than the bound, such that every stored row not returned is either at distance >= the bound or there are k returned rows none of which is farther than it.", "quantifier": "all trees, all k >= 1, all finite points, all bounds, f64 arithmetic, l1/l2/sql2/inf", "why_tests_cant": "Depends on stack order, stale bounds inside a leaf and pruning under rounding for every tree shape.", "anchors": ["src/arkadia/kdt.rs: knn_one_step, update_top_k", "src/arkadia/mod.rs: knn, knn_bounded, knn_bounded_unchecked"]}
{"id": "C04", "title": "epsilon-approximate kNN guarantee", "statement": "With epsilon > 0, a stored row p that is missing from the result satisfies dist(p) + epsilon >= every returned distance when k rows are returned, and dist(p) + epsilon >= max_dist_bound when fewer are returned.", "quantifier": "all trees, k, points, epsilon >= 0, bounds", "why_tests_cant": "Documented as an error bound; must hold for every pruning path.", "anchors": ["src/arkadia/kdt.rs: knn_one_step", "python/polars_ds/spatial.py: KDTree.knn"]}
{"id": "C05", "title": "max_dist_bound is inclusive", "statement": "`knn` with `max_dist_bound = b` returns a neighbour at distance exactly b whenever fewer than k rows are closer (documented: `Do not include neighbors beyond this distance`), independently of how the tree was split.", "quantifier": "all trees, points, bounds", "why_tests_cant": "Only appears when a row lies exactly on the bound and in a different box from the query.", "anchors": ["src/arkadia/kdt.rs: knn_one_step", "python/polars_ds/spatial.py: KDTree.knn"]}
{"id": "C06", "title": "The tree holds exactly what was inserted", "statement": "After constructing a tree from a non-empty matrix and any sequence of `add` calls, the multiset of stored (row, id) pairs is exactly the rows inserted; ids are 0..n-1 in order of insertion; `count()` / len() is the number of rows; a rejected `add` (wrong dimension) leaves earlier rows intact.", "quantifier": "all histories of construct/add with any batch sizes", "why_tests_cant": "History property over leaf splits.", "anchors": ["src/arkadia/kdt.rs: add_unchecked, count_all", "src/pymodels/py_kdt.rs: PyKDT::new, add, count"]}
{"id": "C07", "title": "Query answers do not depend on insertion order, batching or split method", "statement": "Two trees over the same multiset of rows, built in any order, with any split method and capacity, give the same radius-query multiset, the same count, and the same list of kNN distances.", "quantifier": "all pairs of histories with equal row multisets", "why_tests_cant": "Quantifies over pairs of tree shapes.", "anchors": ["src/arkadia/kdt.rs: add_unchecked", "src/arkadia/utils.rs: SplitMethod, suggest_capacity"]}
{"id": "C08", "title": "Tree construction and queries terminate without panic", "statement": "Building a tree from rows of equal positive dimension (finite values for MEDIAN split) and querying it with a point of that dimension never panics, never indexes out of bounds and visits each node at most once.", "quantifier": "all finite data, all sizes, all queries", "why_tests_cant": "Stack overflow / infinite splitting on duplicates was a historical bug; needs all inputs.", "anchors": ["src/arkadia/kdt.rs: add_unchecked, knn_one_step, within_one_step"]}
{"id": "C09", "title": "Parallel evaluation equals sequential evaluation", "statement": "For every row-wise expression or KDTree query, `parallel=True` returns the same column as `parallel=False`, in the same row order, for any number of threads and any chunk schedule.", "quantifier": "all inputs, all thread counts, all completion orders", "why_tests_cant": "Schedules cannot be enumerated by tests.", "anchors": ["src/num_ext/knn.rs: knn_ptwise, query_radius_ptwise, query_nb_cnt", "src/utils/mod.rs: split_offsets", "src/pymodels/py_kdt.rs"]}
{"id": "C10", "title": "split_offsets is an exact partition", "statement": "The chunks produced for n threads are consecutive, disjoint, and cover [0, len) exactly, also when len < n.", "quantifier": "all len, all n >= 1", "why_tests_cant": "Must hold for every length and pool size.", "anchors": ["src/utils/mod.rs: split_offsets"]}
{"id": "C11", "title": "Columns are laid out row-major whatever the write schedule", "statement": "Converting columns to a row-major buffer writes every cell exactly once: cell r*m+c holds column c, row r, for every interleaving of the per-column writer tasks and every chunking of each column; no cell is left uninitialised; unequal lengths are rejected.", "quantifier": "all column sets, chunkings, schedules", "why_tests_cant": "Unsafe parallel pointer writes; schedules cannot be enumerated.", "anchors": ["src/utils/mod.rs: series_to_row_major_slice"]}
{"id": "C12", "title": "KDTree.knn output matrices are well-formed", "statement": "For an n-row query, `knn` returns n x k matrices; row i lists neighbours of query row i in ascending distance, followed only by padding (id u32::MAX, distance inf); number of real entries = number of neighbours found.", "quantifier": "all queries, k, bounds", "why_tests_cant": "Padding/offset arithmetic for every count.", "anchors": ["src/pymodels/py_kdt.rs: PyKDT::knn"]}
{"id": "C13", "title": "kNN average is an average of neighbours", "statement": "`query_knn_avg` is null iff no eligible neighbour exists; otherwise it equals the (weighted) mean of the targets of the found neighbours at distance >= min_bound and lies between their min and max (weights positive).", "quantifier": "all data, k, bounds, weighting modes", "why_tests_cant": "Convexity must hold for every weight vector.", "anchors": ["src/arkadia/mod.rs: KNNRegressor::knn_regress, KNNMethod::new", "src/num_ext/knn.rs: pl_knn_avg"]}
{"id": "C14", "title": "Least squares / ridge coefficients are the minimiser", "statement": "`lin_reg` (closed form, l2_reg >= 0, with or without bias, any solver) returns the unique coefficients minimising sum (y - xb)^2 + l2*|b without bias|^2 over the rows its null policy uses; the bias is never penalised; with l2 > 0 no rank condition is needed; the weighted fit minimises the weighted sum; the class LR fits the same coefficients; null_policy='raise' raises when there is a null.", "quantifier": "all X, y, weights>=0, l2>=0 with invertible normal matrix (exact arithmetic)", "why_tests_cant": "Optimality over all competing coefficient vectors.", "anchors": ["src/linalg/lr_solvers.rs: faer_solve_lstsq, faer_weighted_lstsq"]}
{"id": "C15", "title": "Recursive regression equals refitting on every prefix", "statement": "`recursive_lin_reg(start_with=n)`: on every row from the n-th used row on, the coefficients are those of a fresh fit on all rows used so far; rows that are not used and earlier rows are null.", "quantifier": "all data whose prefix normal matrices are invertible, all n, ridge included", "why_tests_cant": "Induction over an unbounded update history.", "anchors": ["src/linalg/lr_online_solvers.rs: faer_recursive_lstsq, woodbury_step"]}
{"id": "C16", "title": "Rolling regression equals refitting on every window", "statement": "`rolling_lin_reg(window_size=n)`: on every row i >= n-1 whose window has enough valid rows, the coefficients are those of a fresh fit on the rows used in the window i-n+1..i (whenever that fit is determined), predictions use the row's own features, other rows are null.", "quantifier": "all data with invertible windows; including window_size = number of features", "why_tests_cant": "Long add/remove histories; intermediate singularities.", "anchors": ["src/linalg/lr_online_solvers.rs: faer_rolling_lstsq"]}
{"id": "C17", "title": "Online model update equals refit; downdate inverts update", "statement": "After any sequence of OnlineLR.update calls adding rows (c=1), removing present rows (c=-1) and feeding NaN rows, the coefficients (and the internal inverse) are those of a fresh fit on the resulting data; adding and removing a row restores the model.", "quantifier": "all histories of updates", "why_tests_cant": "History property.", "anchors": ["src/linalg/lr_online_solvers.rs: OnlineLR::update, woodbury_step", "src/pymodels/py_lr.rs: PyOnlineLR"]}
{"id": "C18", "title": "Predictions stay aligned with rows when rows are skipped", "statement": "`lin_reg(return_pred=True, null_policy='skip')` returns one prediction and residual per input row, NaN exactly on the rows with a null, and the prediction of a kept row is computed from that row's features.", "quantifier": "all null masks", "why_tests_cant": "Quantifies over every mask.", "anchors": ["src/num_ext/linear_regression.rs: pl_lstsq_pred, series_to_mat_for_lstsq"]}
{"id": "C19", "title": "Recursive predictions stay aligned with rows under null_policy='skip'", "statement": "`recursive_lin_reg` prediction at a row uses that row's own features and the coefficients fitted up to that row, also when other rows were skipped for nulls.", "quantifier": "all null masks and start_with", "why_tests_cant": "Only visible with nulls; every mask matters.", "anchors": ["src/num_ext/linear_regression.rs: pl_recursive_lstsq"]}
{"id": "C20", "title": "Elastic net coordinate descent descends to the optimum", "statement": "Lasso/elastic net: every sweep of coordinate descent does not increase the objective |y-Xb|^2/(2n) + l1|b|_1 + l2/2|b|^2; a fixed point of a sweep is a global minimiser; more iterations never give a worse result; the returned coefficients are optimal up to a bound proportional to tol.", "quantifier": "all data, penalties, iteration counts (exact arithmetic)", "why_tests_cant": "Optimality over all competitors and all iteration counts.", "anchors": ["src/linalg/lr_solvers.rs: faer_coordinate_descent, soft_threshold_l1"]}
{"id": "C21", "title": "Kendall tau counts concordant minus discordant pairs", "statement": "`kendall_tau` = (concordant - discordant) / sqrt((n0 - ties_x)(n0 - ties_y)) over the pairwise-complete rows.", "quantifier": "all integer-rank columns, all tie patterns, any unstable sort", "why_tests_cant": "The O(n log n) merge-count must equal an O(n^2) definition on all inputs.", "anchors": ["src/stats/kendall_tau.rs"]}
{"id": "C22", "title": "KS statistic is the supremum of the ECDF difference", "statement": "`ks_2samp` statistic = sup over all real t of |F1(t) - F2(t)|.", "quantifier": "all sorted samples with more than 30 values each", "why_tests_cant": "Supremum over all reals.", "anchors": ["src/stats/ks.rs"]}
{"id": "C23", "title": "Mann-Whitney tie correction", "statement": "`mann_whitney_u` uses the tie term sum(t^3 - t) over all groups of tied ranks.", "quantifier": "all rank vectors", "why_tests_cant": "Depends on where the last tie group falls.", "anchors": ["src/stats/mann_whitney_u.rs: mann_whitney_tie_sum"]}
{"id": "C24", "title": "Isotonic regression is the weighted least-squares monotone fit", "statement": "`isotonic_regression` output is monotone in the requested direction, has the length of the input, and minimises the weighted squared error among all monotone sequences; it is idempotent on monotone data.", "quantifier": "all inputs and positive weights (exact arithmetic)", "why_tests_cant": "Optimality over all monotone competitors.", "anchors": ["src/num_ext/isotonic_regression.rs"]}
{"id": "C25", "title": "ROC AUC is the rank probability", "statement": "`query_roc_auc` equals P(score+ > score-) + 1/2 P(score+ = score-).", "quantifier": "all score/label columns with both classes present", "why_tests_cant": "Depends on tie structure of scores at the end of the curve.", "anchors": ["src/num_ext/tp_fp.rs: tp_fp_frame, pl_roc_auc", "src/num_ext/trapz.rs"]}
{"id": "C26", "title": "Confusion counts are exact and MCC does not overflow", "statement": "The confusion matrix counts sum to the number of rows, each equals its definition; `query_mcc` equals the Matthews formula on those counts for every table below 2^32 rows.", "quantifier": "all label columns; all counts < 2^32", "why_tests_cant": "Overflow needs > 65535 rows per cell.", "anchors": ["src/num_ext/tp_fp.rs: pl_mcc, pl_binary_confusion_matrix"]}
{"id": "C27", "title": "Column Jaccard similarity", "statement": "`jaccard_col(a, b, count_null)` = |A\u2229B| / |A\u222aB| with null counted as one value iff count_null.", "quantifier": "all columns", "why_tests_cant": "Null handling in every combination.", "anchors": ["src/num_ext/jaccard.rs"]}
{"id": "C28", "title": "PSI bins partition the data", "statement": "In PSI every finite value of baseline and new data is counted in exactly one bin (right-closed), counts sum to the column lengths, and every PSI contribution is >= 0.", "quantifier": "all breakpoints sorted with +inf last, all data", "why_tests_cant": "All boundary coincidences.", "anchors": ["src/num_ext/psi.rs"]}
{"id": "C29", "title": "Convolution modes", "statement": "`convolve` output lengths are n+k-1 / n / n / n / n-k+1 for full/same/left/right/valid, every value equals the convolution sum, shorter modes are slices of full, and parallel = sequential.", "quantifier": "all n >= k >= 2, all filters", "why_tests_cant": "All sizes/parities.", "anchors": ["src/num_ext/convolve.rs", "python/polars_ds/exprs/num.py: convolve"]}
{"id": "C30", "title": "rfft(return_full) is the full DFT", "statement": "For real input the mirrored spectrum of `rfft(return_full=True)` equals the full DFT of the padded/truncated series and has length n for both parities.", "quantifier": "all n, all real series", "why_tests_cant": "Parity of all lengths.", "anchors": ["src/num_ext/fft.rs"]}
{"id": "C31", "title": "Lempel-Ziv complexity is the number of LZ78 phrases", "statement": "`query_lempel_ziv` = number of distinct phrases in the incremental parse; between 1 and n for non-empty input, independent of hashing.", "quantifier": "all boolean columns", "why_tests_cant": "Induction over the parse.", "anchors": ["src/num_ext/lempel_ziv.rs"]}
{"id": "C32", "title": "Sample entropy counts matching template pairs", "statement": "`query_sample_entropy` = ln(B/A) where B and A are the counts of ordered pairs of distinct templates of length m, m+1 within r in max-norm.", "quantifier": "all series, m, r", "why_tests_cant": "Self-match subtraction relies on tree counts.", "anchors": ["src/num_ext/entrophies.rs"]}
{"id": "C33", "title": "First digit counts", "statement": "`query_first_digit_cnt` counts for each d in 1..9 the values whose leading decimal digit is d; zero is ignored; counts sum to the number of non-zero values.", "quantifier": "all integers (u64/i64 range)", "why_tests_cant": "Digit loops for every magnitude.", "anchors": ["src/num_ext/benford.rs"]}
{"id": "C34", "title": "Combinations and products are complete and duplicate-free", "statement": "`combinations(k)` yields each k-subset of the (unique) values exactly once, in order, with length C(n,k); `product` yields each pair exactly once with length n*m.", "quantifier": "all lists, all k", "why_tests_cant": "Completeness over all subsets.", "anchors": ["src/num_ext/iterations.rs"]}
{"id": "C35", "title": "Trapezoid rule", "statement": "`integrate_trapz` equals sum of trapezoids, is exact for affine data, additive over concatenation, and antisymmetric under reversal.", "quantifier": "all columns", "why_tests_cant": "Algebraic law.", "anchors": ["src/num_ext/trapz.rs"]}
{"id": "C36", "title": "Cosine similarity and weighted correlation formulas", "statement": "`cosine_sim(x,x)` = 1 and lies in [-1,1]; `weighted_corr(x,y)` is symmetric and lies in [-1,1].", "quantifier": "all columns with non-zero norm/variance", "why_tests_cant": "Inequality over all vectors.", "anchors": ["python/polars_ds/exprs/stats.py: cosine_sim, weighted_corr"]}
{"id": "C37", "title": "Set-based string similarities", "statement": "Jaccard, Sorensen-Dice, overlap and Tversky similarities on n-gram sets are symmetric (Tversky for alpha=beta), lie in [0,1], are 1 on equal non-trivial strings, and satisfy J = D/(2-D); Tversky(1,1) = Jaccard, Tversky(1/2,1/2) = Dice.", "quantifier": "all strings and n >= 1", "why_tests_cant": "Algebraic laws over all strings.", "anchors": ["src/str_ext/mod.rs: str_set_sim_helper", "src/str_ext/*.rs"]}
{"id": "C38", "title": "Stopword test is exact membership", "statement": "`is_stopword` returns true exactly for the words of the built-in list.", "quantifier": "all strings", "why_tests_cant": "Binary search over a literal table.", "anchors": ["src/str_ext/is_stopword.rs", "src/str_ext/consts.rs"]}
{"id": "C39", "title": "Nearest string", "statement": "`nearest_str` returns the first vocabulary word of minimal distance among those within the cutoff, null iff none.", "quantifier": "all vocabularies, words, cutoffs", "why_tests_cant": "All tie patterns.", "anchors": ["src/str_ext/nearest_str.rs"]}
{"id": "C40", "title": "String cleaning laws", "statement": "`normalize_whitespace` output has no leading/trailing/double whitespace and keeps the words; remove_non_ascii keeps exactly the ASCII characters in order; map_words equals replacing each mapped word; all idempotent where claimed.", "quantifier": "all strings", "why_tests_cant": "Algebraic laws.", "anchors": ["src/str_ext/str_cleaning.rs"]}
{"id": "C41", "title": "Null propagation of string distances", "statement": "For every pairwise string distance the result is null exactly where either input is null, has the length of the first column, broadcasts a length-1 second column, and parallel = sequential.", "quantifier": "all columns/chunks", "why_tests_cant": "All null masks and chunkings.", "anchors": ["src/str_ext/generic_str_distancer.rs"]}
{"id": "C42", "title": "Snowball stemmer is total and UTF-8 safe", "statement": "Stemming any string terminates, never panics or slices inside a character, returns valid UTF-8 with no more bytes than the input, and leaves words of one or two characters unchanged.", "quantifier": "all strings (UTF-8)", "why_tests_cant": "Generated code with cursor arithmetic; every input.", "anchors": ["src/str_ext/snowball/**"]}
{"id": "C43", "title": "F-test / ANOVA", "statement": "`f_test` = (between-group mean square)/(within-group mean square) by the one-pass formula; equals the definition.", "quantifier": "all groups and values (exact arithmetic)", "why_tests_cant": "Algebraic identity.", "anchors": ["src/stats/fstats.rs"]}
{"id": "C44", "title": "Chi-squared statistic", "statement": "`chi2` equals sum (O-E)^2/E over the full contingency table including empty cells, dof=(r-1)(c-1), symmetric in its arguments.", "quantifier": "all categorical columns", "why_tests_cant": "All tables.", "anchors": ["src/stats/chi2.rs"]}
{"id": "C45", "title": "Random integers stay in range", "statement": "`random_int(lower, upper)` yields values in [min, max) of the two bounds (constant when equal); perturb stays within epsilon; output length = input length and nulls are preserved by random_null.", "quantifier": "all bounds, all generator outputs", "why_tests_cant": "All seeds.", "anchors": ["src/stats/sample.rs"]}
{"id": "C46", "title": "Radius queries with tiny radii", "statement": "`within(X, r)` returns the stored rows at distance <= r for every r >= 0, in particular `r = 0` returns the rows equal to the query point; queries that are refused (radius <= f64::EPSILON, non-finite coordinates) must be distinguishable from empty answers.", "quantifier": "all trees, all radii, all query points", "why_tests_cant": "The cut-off is a floating point comparison on every radius, invisible for ordinary radii.", "anchors": ["src/arkadia/mod.rs: within, within_count", "python/polars_ds/spatial.py: KDTree.within"]}
{"id": "C47", "title": "A radius array of any length is honoured", "statement": "`KDTree.within(X, r)` and `within_count(X, r)` return a list for every 1-d array r of length row_count(X), including length one.", "quantifier": "all trees, all radius arrays", "why_tests_cant": "Depends on one dispatch path per array length.", "anchors": ["python/polars_ds/spatial.py: KDTree.within, within_count"]}
{"id": "C48", "title": "Queries of the wrong width are refused", "statement": "`KDTree.within(X, r)` with a matrix whose number of columns differs from the tree's dimension raises an exception (as `knn` and `add` do), never a panic and never an answer.", "quantifier": "all trees, all query matrices", "why_tests_cant": "Panic or silent answer depends on tree depth and coordinates.", "anchors": ["src/pymodels/py_kdt.rs: within_*", "src/arkadia/kdt.rs: _closest_dist_to_box"]}
{"id": "C49", "title": "query_knn_ptwise returns the k+1 nearest eligible rows", "statement": "For every frame, `query_knn_ptwise` gives each evaluated row the ids (and distances) of the k+1 nearest rows among those whose data mask is true and whose features are not null, below max_bound, in ascending order of distance; the value is null exactly for rows whose eval mask is not true, that have a non-finite feature, or when max_bound <= f64::EPSILON.", "quantifier": "all frames, masks, k, bounds, thread counts", "why_tests_cant": "Correctness of pruning, masking and row alignment must hold for every frame and mask.", "anchors": ["src/num_ext/knn.rs: pl_knn_ptwise, pl_knn_ptwise_w_dist", "python/polars_ds/exprs/expr_knn.py: query_knn_ptwise"]}
{"id": "C50", "title": "query_radius_ptwise returns exactly the rows in the ball", "statement": "For every frame, each row's list holds the ids of exactly the rows at distance <= r (ascending when sort=True); null exactly for rows with a non-finite feature or a radius <= f64::EPSILON.", "quantifier": "all frames, radii, thread counts", "why_tests_cant": "Must hold for every data set; pruning bugs show on rare geometry.", "anchors": ["src/num_ext/knn.rs: pl_query_radius_ptwise", "python/polars_ds/exprs/expr_knn.py: query_radius_ptwise"]}
{"id": "C51", "title": "query_nb_cnt counts exactly the rows in each row's ball", "statement": "For every frame and every radius (scalar or column), each row's count is the number of rows within its own radius; null exactly where the radius is null, tiny, or the row has a non-finite feature.", "quantifier": "all frames, radii columns, thread counts", "why_tests_cant": "Alignment of radius chunks with row chunks must hold for every length and thread count.", "anchors": ["src/num_ext/knn.rs: pl_nb_cnt", "python/polars_ds/exprs/expr_knn.py: query_nb_cnt"]}
{"id": "C52", "title": "query_dist_from_kth_nb is the k-th neighbour distance", "statement": "For every frame, each row's value is the largest distance among its k+1 nearest rows below the bound (its own row included).", "quantifier": "all frames, k, bounds, thread counts", "why_tests_cant": "As C49.", "anchors": ["src/num_ext/knn.rs: pl_dist_from_kth_nb", "python/polars_ds/exprs/expr_knn.py: query_dist_from_kth_nb"]}
{"id": "C53", "title": "Rows with null/NaN features are never neighbours", "statement": "No list returned by `query_knn_ptwise` contains the id of a row with a null or NaN feature or with a data mask that is not true (documented: 'Any row with a null/NaN will never be a neighbor').", "quantifier": "all frames, masks, metrics", "why_tests_cant": "Depends on how NaN flows through each metric for every row.", "anchors": ["python/polars_ds/exprs/expr_knn.py: query_knn_ptwise", "src/utils/mod.rs: DIST"]}
{"id": "C54", "title": "Neighbour queries on frames without eligible rows do not crash", "statement": "When no row is eligible (empty frame, everything masked out, all rows null), the neighbour expressions return empty lists / nulls / zero counts rather than panicking.", "quantifier": "all frames", "why_tests_cant": "Empty groups appear under group_by/over for data-dependent reasons.", "anchors": ["src/num_ext/knn.rs", "src/arkadia/kdt.rs: from_leaves_unchecked"]}
{"id": "C55", "title": "random_binomial draws one value per row", "statement": "`random_binomial(n, p)` returns one integer per row for every n >= 1 and every p in [0,1].", "quantifier": "all n, p, lengths, seeds", "why_tests_cant": "No unit test can show the call works for every argument; the failure is a data-type mismatch independent of the values.", "anchors": ["src/stats/sample.rs: pl_rand_binomial", "python/polars_ds/exprs/stats.py: random_binomial"]}
{"id": "C56", "title": "Binary metrics at a threshold", "statement": "`query_binary_metrics` reports the precision, recall, F-score of predicting positive when the score reaches the threshold, the AUC, and the average precision (sum over thresholds of recall step times precision), for every threshold.", "quantifier": "all label/score columns with both classes, all thresholds", "why_tests_cant": "The off-by-one at the last threshold and thresholds outside the score range only show on particular data.", "anchors": ["src/num_ext/tp_fp.rs: pl_combo_b", "python/polars_ds/exprs/metrics.py: query_binary_metrics"]}
{"id": "C57", "title": "Row-wise Jaccard similarity of lists", "statement": "`jaccard_row(a, b)` gives, for every row, the Jaccard similarity of the two lists as sets (a null item is one element), null when a list is null.", "quantifier": "all list columns", "why_tests_cant": "Must hold for every multiset of items, including repeats, nulls and empty lists.", "anchors": ["src/num_ext/jaccard.rs: pl_list_jaccard"]}
{"id": "C58", "title": "Discrete PSI matches categories", "statement": "`psi_discrete` compares the share of every category found in either column; identical columns have index 0, and the index is never negative.", "quantifier": "all categorical columns, nulls included", "why_tests_cant": "Unmatched categories and nulls only show on particular data.", "anchors": ["src/num_ext/psi.rs: pl_psi_discrete_report", "python/polars_ds/exprs/num.py: psi_discrete"]}
{"id": "C59", "title": "Approximate entropy", "statement": "`query_approx_entropy` = |phi(m+1) - phi(m)| with phi the mean log share of templates within r in max-norm (self matches included), for every series, m and r, under any thread schedule; it does not crash.", "quantifier": "all series, m, r, schedules", "why_tests_cant": "Relies on exact tree counts for every series and on independence of the schedule.", "anchors": ["src/num_ext/entrophies.rs: pl_approximate_entropy", "python/polars_ds/exprs/ts_features.py: query_approx_entropy"]}
{"id": "C60", "title": "Weighted mean and frequency weights", "statement": "`weighted_mean` lies between the smallest and largest value for positive weights; with integer weights, `weighted_mean` and `weighted_var(freq_weights=True)` equal the mean and sample variance of the data with each value repeated; rows with a null value are ignored.", "quantifier": "all columns and weights", "why_tests_cant": "An identity over all real data and all frequency vectors.", "anchors": ["python/polars_ds/exprs/stats.py: weighted_mean, weighted_var"]}
{"id": "C61", "title": "Harmonic, geometric, arithmetic means", "statement": "`hmean` <= `gmean` <= mean for positive columns, `weighted_gmean` <= `weighted_mean`, and `weighted_hmean` = sum(w) / sum(w/x).", "quantifier": "all positive columns and weights", "why_tests_cant": "Inequality over all positive data.", "anchors": ["python/polars_ds/exprs/stats.py: hmean, gmean, weighted_hmean, weighted_gmean"]}
{"id": "C62", "title": "Weighted covariance laws", "statement": "`weighted_cov` is symmetric, its diagonal is `weighted_var`, which is nonnegative; cov^2 <= var*var; variance ignores shifts and scales quadratically.", "quantifier": "all columns, positive weights", "why_tests_cant": "Algebraic laws over all real data.", "anchors": ["python/polars_ds/exprs/stats.py: weighted_cov, weighted_var"]}
{"id": "C63", "title": "Biweight midcorrelation laws", "statement": "`bicor` is in [-1,1], symmetric, 1 on equal columns, and unchanged by shifting and positively rescaling a column.", "quantifier": "all columns with some nonzero weighted deviation", "why_tests_cant": "Laws over all real data.", "anchors": ["python/polars_ds/exprs/stats.py: bicor"]}
{"id": "C64", "title": "Xi correlation bounds", "statement": "`xi_corr` never exceeds 1; with distinct y it is at most 1 - 3/(n+1), with equality when y increases with x, whatever the random tie order.", "quantifier": "all rows, all tie orders", "why_tests_cant": "Over all permutations and sizes.", "anchors": ["python/polars_ds/exprs/stats.py: xi_corr", "src/stats/xi_corr.rs"]}
{"id": "C65", "title": "Every null policy keeps one prediction per row", "statement": "`lin_reg(..., return_pred=True)` returns as many rows as its input for every null_policy, including 'ignore'.", "quantifier": "all data with nulls", "why_tests_cant": "Quantifies over every placement of nulls.", "anchors": ["src/num_ext/linear_regression.rs: pl_lstsq_pred, series_to_mat_for_lstsq"]}
{"id": "C66", "title": "Recursive regression agrees with lin_reg", "statement": "The coefficients of `recursive_lin_reg` at row i equal those of `lin_reg` with the same options on rows 0..i (in particular the bias is not penalised).", "quantifier": "all data, penalties, with and without bias", "why_tests_cant": "Agreement of two code paths for every input.", "anchors": ["src/linalg/lr_online_solvers.rs: faer_recursive_lstsq", "src/num_ext/linear_regression.rs: pl_recursive_lstsq, pl_lstsq"]}
{"id": "C67", "title": "update(c) scales the impact of a row by c", "statement": "`OnlineLR.update(X, y, c)` with c > 0 gives the fit in which the new row has weight c (documented: any other value scales the impact of the data).", "quantifier": "all data and c > 0", "why_tests_cant": "Optimality over all coefficient vectors and all c.", "anchors": ["src/linalg/lr_online_solvers.rs: woodbury_step", "python/polars_ds/linear_models.py: OnlineLR.update"]}
{"id": "C68", "title": "Elastic net with a bias does not stop early", "statement": "With `add_bias=True`, the elastic net result is optimal up to a bound that vanishes with tol.", "quantifier": "all data and tolerances", "why_tests_cant": "Requires optimality for every tolerance.", "anchors": ["src/linalg/lr_solvers.rs: faer_coordinate_descent"]}
{"id": "C69", "title": "Multi-target regression fits every target independently", "statement": "`lin_reg` with several targets returns for every target the least-squares coefficients, predictions and residuals of that target alone, and rejects nulls (except null features under a fill policy).", "quantifier": "all data, numbers of targets, penalties, solvers", "why_tests_cant": "Universally quantified over targets and data.", "anchors": ["src/num_ext/linear_regression.rs: pl_lstsq_multi, pl_lstsq_multi_pred, series_to_mat_for_multi_lstsq"]}
{"id": "C70", "title": "sample returns the asked number of distinct rows in order", "statement": "`sample(df, value)` returns rows of df in their original order, none repeated; exactly min(value, n) of them for an int, n*value rounded down (up to the rounding of one product) for a float in (0,1); other values raise; and every subset of rows of the right size can come out.", "quantifier": "all frames, sizes, rates and shuffles", "why_tests_cant": "Quantifies over every shuffle (seed) and frame; tests see a few seeds.", "anchors": ["python/polars_ds/sample_and_split/sample_and_split.py: sample, _sampler_expr"]}
{"id": "C71", "title": "A train/test split partitions the rows", "statement": "`split_by_ratio(df, r)` puts every row in exactly one of train and test, keeps the original order, and train has the share r of the rows; it succeeds for every non-empty frame and every 0 < r < 1.", "quantifier": "all frames, ratios and shuffles", "why_tests_cant": "Every shuffle and frame size.", "anchors": ["python/polars_ds/sample_and_split/sample_and_split.py: split_by_ratio"]}
{"id": "C72", "title": "A split by several ratios distributes all rows by those ratios", "statement": "`split_by_ratio(df, [r1..rk])` with ratios summing to 1 returns k disjoint pieces, the i-th with the share r_i of the rows, together holding every row.", "quantifier": "all frames, lists of ratios, shuffles", "why_tests_cant": "Every shuffle, every list of binary64 ratios and their rounding.", "anchors": ["python/polars_ds/sample_and_split/sample_and_split.py: split_by_ratio"]}
{"id": "C73", "title": "volume_neutral keeps equally many rows of every segment", "statement": "Within each control value, `volume_neutral` keeps the same number of rows of every segment: the smallest segment size, or target_volume if smaller; rows keep their order.", "quantifier": "all frames, segmentations, controls, target volumes and shuffles", "why_tests_cant": "Every grouping and every per-group shuffle.", "anchors": ["python/polars_ds/sample_and_split/sample_and_split.py: volume_neutral"]}
{"id": "C74", "title": "downsample thins only the rows where a condition is true", "statement": "With disjoint conditions, `downsample` keeps the asked count or share of the rows where each condition is true, and every row where no condition is true.", "quantifier": "all frames, conditions (with nulls), rates and shuffles", "why_tests_cant": "Every condition column and shuffle.", "anchors": ["python/polars_ds/sample_and_split/sample_and_split.py: downsample, _sampler_expr"]}
{"id": "C75", "title": "random_cols returns the kept columns and k others", "statement": "`random_cols(all, k, keep)` returns keep followed by k distinct columns of all outside keep, in the order of all; it raises exactly when there are fewer than k such columns; and every such choice can come out.", "quantifier": "all column lists, k, keep lists and draws", "why_tests_cant": "Every draw of the generator and every list.", "anchors": ["python/polars_ds/sample_and_split/sample_and_split.py: random_cols"]}
{"id": "C76", "title": "PartitionHelper loses no rows", "statement": "The parts of `PartitionHelper(df, by)` hold, under the joined name of each key, exactly the rows with that key in order, and together every row once; `apply` returns the function's value for exactly the parts where it did not raise.", "quantifier": "all frames, key columns, separators, functions", "why_tests_cant": "Every set of key values, including ones containing the separator or null.", "anchors": ["python/polars_ds/partition/partition.py: PartitionHelper.__init__, apply"]}
{"id": "C77", "title": "R2 and adjusted R2 measure explained variance", "statement": "`query_r2` is 1 - SS_res/SS_tot over the rows where both columns are known: at most 1, 1 exactly for equal columns, 0 for predicting the mean, not positive for any constant prediction, unchanged under the same affine map of both columns. `query_adj_r2` is 1-(1-R2)(n-1)/(n-p-1) and never exceeds R2.", "quantifier": "all columns (with nulls), all p", "why_tests_cant": "Holds for every pair of columns, including nulls and constant actuals; tests compare a few random columns.", "anchors": ["python/polars_ds/exprs/metrics.py: query_r2, query_adj_r2"]}
{"id": "C78", "title": "The error losses are averages of per-row losses over the known rows", "statement": "`query_l1`, `query_l2`, `query_l_inf`, `query_hubor_loss`, `query_log_cosh`, `query_msle` are the mean (maximum for l_inf) of the per-row loss over the rows where both columns are known (sums with normalize=False); they are 0 exactly for equal columns and are ordered as the losses are (l1 <= l_inf, l1^2 <= l2 <= l_inf^2, huber <= l2/2, log cosh <= l1). `query_mad` scales with the data and ignores shifts.", "quantifier": "all columns with nulls, all delta > 0", "why_tests_cant": "Inequalities between metrics and null handling for every column.", "anchors": ["python/polars_ds/exprs/metrics.py: query_l1, query_l2, query_l_inf, query_hubor_loss, query_log_cosh, query_msle, query_mad"]}
{"id": "C79", "title": "Percentage errors are averages of relative errors", "statement": "`query_smape` is the mean of |a-p|/(|a|+|p|), lies in [0,1], 0 exactly for equal columns; `query_mape` is the mean of |a-p|/|a|; weighted mape is the total absolute error over the total absolute actual.", "quantifier": "all columns with nulls and zeros", "why_tests_cant": "Zero rows and nulls anywhere in any column.", "anchors": ["python/polars_ds/exprs/metrics.py: query_smape, query_mape"]}
{"id": "C80", "title": "Log loss and cross entropy are minimised by the truth", "statement": "`query_log_loss` of 0/1 labels is the mean of -ln of the probability given to the true label: nonnegative, 0 only for certainty, infinite when certain and wrong; among constant predictions the base rate is best. `query_cat_cross_entropy` is the mean of -ln of the probability of the labelled class, and with two classes equals the log loss.", "quantifier": "all label and probability columns", "why_tests_cant": "Optimality quantifies over every competing prediction.", "anchors": ["python/polars_ds/exprs/metrics.py: query_log_loss, query_cat_cross_entropy"]}
{"id": "C81", "title": "MASE compares the error with a naive forecast on the training data", "statement": "`query_mase` is the mean absolute error divided by the mean absolute change over freq steps of the training column; it does not depend on the unit, equals a precomputed scale when one is passed, is 1 for the naive forecast of the training data itself, and freq <= 0 raises.", "quantifier": "all actual, prediction and training columns, all freq", "why_tests_cant": "Every column, every lag.", "anchors": ["python/polars_ds/exprs/metrics.py: query_mase"]}
{"id": "C82", "title": "Fairness scores compare the two groups", "statement": "`query_fairness` is the absolute difference between the mean prediction where the condition holds and where it does not, and `query_p_pct_score` the smaller of the two ratios, in [0,1], 1 exactly for equal rates; both are unchanged when the groups are swapped and null when a group is empty.", "quantifier": "all prediction columns and conditions with nulls", "why_tests_cant": "Every condition column.", "anchors": ["python/polars_ds/exprs/metrics.py: query_fairness, query_p_pct_score"]}
{"id": "C83", "title": "NDCG compares a ranking with the best one", "statement": "`calculate_ndcg` returns the mean over the groups with at least two rows of DCG@k of the order by score over the largest DCG@k any order can reach; it lies in [0,1] for nonnegative relevances, is 1 for a score that orders by relevance; with tie handling every tie shares the average relevance over its ranks and the result does not depend on the order of tied rows; any group column can be used.", "quantifier": "all frames, relevances, scores, groups, k, tie settings, and every order in which tied rows may be sorted", "why_tests_cant": "Optimality over all orders of a group and independence of the sort of ties.", "anchors": ["python/polars_ds/exprs/metrics.py: calculate_ndcg, _get_dcg_score_ignore_ties, _get_rank_discount_at_k, _get_dcg_score_with_ties"]}
{"id": "C84", "title": "Gini and multiclass AUC are built from the rank probability", "statement": "`query_gini` is (concordant - discordant pairs)/pairs, in [-1,1], 1 exactly when every positive outranks every negative. `query_multi_roc_auc` is the plain (macro) or class-frequency-weighted mean of the one-vs-rest probabilities that a random member of the class outranks a random non-member; with an absent class the result is NaN.", "quantifier": "all labels and scores below 2^32 rows, all numbers of classes", "why_tests_cant": "Every ranking with ties and every class distribution.", "anchors": ["python/polars_ds/exprs/metrics.py: query_gini, query_multi_roc_auc"]}
{"id": "C85", "title": "Streak queries describe the maximal runs of true", "statement": "`query_longest_streak` is the length of the longest block of consecutive rows in which the condition is known to hold (0 if none); `query_avg_streak` is the mean length of the maximal such blocks, which partition the rows where it holds; `query_streak` returns the lengths of the streaks.", "quantifier": "all boolean columns with nulls", "why_tests_cant": "All placements of true, false and null.", "anchors": ["python/polars_ds/exprs/ts_features.py: query_longest_streak, query_avg_streak, query_streak"]}
{"id": "C86", "title": "Change and complexity features use exactly the rows a lag apart", "statement": "`query_mean_abs_change`, `query_cid_ce`, `query_time_reversal_asymmetry_stats` and `query_c3_stats` are the documented averages (root of the sum for cid_ce) over the rows whose lagged partners exist and are known; reversing the series leaves the first two unchanged and negates the third (so it is 0 for a palindrome), shifting and scaling the series scales them accordingly, and the net change over a series is bounded by its length times the mean absolute change.", "quantifier": "all series with nulls, all lags", "why_tests_cant": "Quantifies over all series and their reversals and affine images.", "anchors": ["python/polars_ds/exprs/ts_features.py: query_mean_abs_change, query_cid_ce, query_time_reversal_asymmetry_stats, query_c3_stats"]}
{"id": "C87", "title": "Auto-correlation is a correlation", "statement": "`query_auto_corr` with normalize=True is the mean product of the deviations lag rows apart over the variance: in [-1,1], 1 at lag 0, unchanged under reversal and under non-degenerate affine maps; with normalize=False it is the mean product of the values lag rows apart.", "quantifier": "all series with nulls, lags and ddof", "why_tests_cant": "A bound over all series.", "anchors": ["python/polars_ds/exprs/ts_features.py: query_auto_corr"]}
{"id": "C88", "title": "Descriptive counts and extremes", "statement": "`query_mean_n_abs_max` is the largest mean of any n known absolute values; `query_symm_ratio` lies in [0,1/2] and is 0 exactly when mean and median agree; `query_range_count` counts the known values in the closed interval; `query_count_uniques` returns the count of unique values; `query_mid_range` is the mid-range of the known values.", "quantifier": "all columns with nulls, all n and bounds", "why_tests_cant": "Maximality over all selections of n values; a sharp bound over all columns.", "anchors": ["python/polars_ds/exprs/ts_features.py: query_mean_n_abs_max, query_symm_ratio, query_range_count, query_count_uniques, query_mid_range"]}
{"id": "C89", "title": "Entropy and conditional entropy are Shannon's", "statement": "`query_entropy` is the Shannon entropy of the relative frequencies in the given base: between 0 and the log of the number of different values, 0 exactly for a constant column, maximal exactly when all values are equally frequent, unchanged by row order and by renaming values. `query_cond_entropy(x, y)` is H(x,y)-H(y): between 0 and H(x), 0 exactly when y determines x, H(x) exactly when they are independent.", "quantifier": "all columns and bases", "why_tests_cant": "Sharp inequalities with their equality cases, over all columns.", "anchors": ["python/polars_ds/exprs/ts_features.py: query_entropy, query_cond_entropy", "src/num_ext/cond_entropy.rs: pl_conditional_entropy"]}
{"id": "C90", "title": "Permutation entropy is the entropy of the order patterns", "statement": "`query_permute_entropy(ts, tau, n_dims)` is the entropy of the order patterns of the values at rows i, i+tau, ..., i+(n_dims-1)tau for all i where these rows exist; it is between 0 and log(n_dims!), 0 exactly when there is one pattern, and unchanged under monotone maps of a series without ties.", "quantifier": "all series, tau, n_dims and bases", "why_tests_cant": "Quantifies over all series and all monotone maps.", "anchors": ["python/polars_ds/exprs/ts_features.py: query_permute_entropy"]}
{"id": "C91", "title": "Similar subsequences are counted exactly", "statement": "`query_similar_count(query, target, threshold)` is the number of positions where a window of the query's length fits and its (z-normalised) squared distance to the query is below the threshold, the same sequentially and in parallel with any number of threads; z-normalised matching ignores level and scale of both sides, so a shifted and scaled copy of the query is found with any positive threshold; the ratio lies in [0,1].", "quantifier": "all queries, series, thresholds, thread counts and affine maps", "why_tests_cant": "All series and all splits of the work over threads.", "anchors": ["python/polars_ds/exprs/ts_features.py: query_similar_count", "src/num_ext/subseq_sim.rs: pl_subseq_sim_cnt_l2, pl_subseq_sim_cnt_zl2", "src/utils/mod.rs: split_offsets"]}
{"id": "C92", "title": "Target encoding is a convex blend", "statement": "`target_encode` returns one row per category holding the mean target of the category blended with the overall mean, weighted by 1/(1+exp(-(count-min_samples_leaf)/smoothing)): between the two means, shrunk more for rarer categories, independent of row order; nulls are encoded as well.", "quantifier": "all columns with nulls, parameters and group orders", "why_tests_cant": "All columns, row orders and group-by orders.", "anchors": ["python/polars_ds/exprs/num.py: target_encode", "src/num_ext/target_encode.rs: pl_target_encode"]}
{"id": "C93", "title": "Weight of evidence and information value", "statement": "`woe_discrete` is ln of the category's smoothed share of events over its smoothed share of non-events; `info_value_discrete` is never negative, 0 in total exactly when the shares agree in every category; exchanging events and non-events negates the former and keeps the latter; `woe` and `info_value` do the same on quantile bins of the finite values of a continuous column.", "quantifier": "all columns with nulls and 0/1 targets", "why_tests_cant": "Inequality with its equality case over all columns.", "anchors": ["python/polars_ds/exprs/num.py: woe, woe_discrete, info_value, info_value_discrete", "src/num_ext/woe_iv.rs: get_woe_frame, pl_woe_discrete, pl_iv"]}
{"id": "C94", "title": "gcd and lcm are the greatest common divisor and least common multiple row by row", "statement": "`gcd(x, y)` and `lcm(x, y)` return in every row the non-negative greatest common divisor / least common multiple of the two integers, y being a column or an integer; null where an input is null; values beyond 32 bits and columns of different lengths are refused.", "quantifier": "all columns of 32-bit integers with nulls, and all integers y", "why_tests_cant": "All pairs of integers and all null patterns.", "anchors": ["python/polars_ds/exprs/num.py: gcd, lcm", "src/num_ext/gcd_lcm.rs: pl_gcd, pl_lcm"]}
{"id": "C95", "title": "haversine is the great circle distance", "statement": "`haversine` returns in every row the length in km of the shortest arc on a sphere of radius 6371 between the two places, null where a coordinate is null; it is a metric (symmetric, 0 exactly for equal places, triangle inequality), at most half the circumference, unchanged when the globe is turned.", "quantifier": "all coordinates, columns with nulls, and fixed second points", "why_tests_cant": "Real-valued inputs, triangle inequality over all triples of places.", "anchors": ["python/polars_ds/exprs/num.py: haversine", "src/num_ext/haversine.rs: naive_haversine", "src/utils/mod.rs: haversine_elementwise"]}
{"id": "C96", "title": "Scalar functions", "statement": "`expit` and `logit` are inverse to each other, monotone and point symmetric; `xlogy` is x log y and 0 for x = 0; `exp2` turns sums into products; `trunc` and `fract` split a number into integer and fractional part; `sinc` is the normalised sine cardinal, bounded by 1; on columns they act value by value and keep nulls.", "quantifier": "all numbers including infinities and NaN, and all columns with nulls", "why_tests_cant": "All real arguments.", "anchors": ["python/polars_ds/exprs/num.py: expit, logit, xlogy, exp2, trunc, fract, sinc", "src/num_ext/float_extras.rs: logit, expit, xlogy, pl_logit, pl_expit, pl_exp2, pl_trunc, pl_fract, pl_xlogy"]}
{"id": "C97", "title": "Monotonicity checks, normalising transforms, detrending, row norms", "statement": "`is_increasing`/`is_decreasing` are true exactly for (strictly) monotone columns; `center` gives mean 0, `z_normalize` mean 0 and variance 1 whatever the level and scale; `softmax` turns any real valued column into probabilities whose ratios are exponentials of differences; `detrend` removes the least squares line (or the mean), so adding a line to the series changes nothing; `l1/l2_sq/l_inf_horizontal` are the norms of each row's known values.", "quantifier": "all columns with nulls, parameters and affine maps", "why_tests_cant": "Optimality and invariance over all real series.", "anchors": ["python/polars_ds/exprs/num.py: is_increasing, is_decreasing, center, z_normalize, softmax, detrend, l1_horizontal, l2_sq_horizontal, l_inf_horizontal"]}
{"id": "C98", "title": "t tests", "statement": "`ttest_ind` (Welch or Student), `ttest_1samp` and `ttest_ind_from_stats` return the textbook t statistic of the finite values and its tail probability; one sided p values add up to 1 and the two sided one is twice the smaller; level, scale and row order of the data do not matter; giving the other sample by its statistics is the same as giving the sample.", "quantifier": "all columns with nulls and non-finite values, alternatives, affine maps, permutations", "why_tests_cant": "Holds for every pair of samples; degrees of freedom bounds and invariances are algebraic.", "anchors": ["python/polars_ds/exprs/stats.py: ttest_ind, ttest_1samp, ttest_ind_from_stats", "src/stats/t_test.rs: pl_ttest_2samp, pl_welch_t, pl_ttest_1samp, ttest_ind, welch_t, ttest_1samp", "src/stats/mod.rs: Alternative"]}
{"id": "C99", "title": "Winsorizing", "statement": "`winsorize` moves every known value to the nearest point of the interval between the two quantiles: values inside are untouched, nulls and row order stay, the order of values is preserved, fewer than (n-1)q_low+1 values are raised and fewer than (n-1)(1-q_high)+1 lowered, it commutes with positive affine maps, doing it twice is doing it once, and bad quantile levels are refused.", "quantifier": "all columns with nulls, quantile levels, quantile methods", "why_tests_cant": "Ranges over all real columns and levels; idempotence and the count bounds cannot be sampled.", "anchors": ["python/polars_ds/exprs/stats.py: winsorize"]}
{"id": "C100", "title": "Blueprints and pipelines", "statement": "Materializing a blueprint fits every step on the frame left by the earlier ones, and transforming the training frame with the pipeline reproduces exactly that result; any frame transforms to exactly the columns declared at fitting; missing or extra input columns are refused when checking is on; the target column is never changed by fitted steps; separating target and features loses nothing; renaming keeps all data; saving to and loading from JSON gives the same pipeline; transforming in batches equals transforming at once.", "quantifier": "all frames, steps, user expressions, blueprints, batches", "why_tests_cant": "Quantifies over all pipelines and frames; histories of fitting steps.", "anchors": ["python/polars_ds/modeling/pipeline.py: Blueprint, Pipeline, materialize, transform, to_dict, from_dict, rename, drop, ensure_features_io", "python/polars_ds/modeling/_structures.py: FitStep, PipelineStep"]}
{"id": "C101", "title": "Fitted imputing and scaling", "statement": "impute fills exactly the nulls with the training column's mean or median and keeps the mean; center, scale (standard, min_max, abs_max), robust_scale and winsorize apply the map learned on the training frame to any later frame: mean 0 and variance 1, range [0,1], range [-1,1], quantiles at 0 and 1, clipped values; conditional_impute changes exactly the rows where the condition holds to the value learned where it does not; only the given columns change and every row is transformed on its own; no finite input gives NaN or an error.", "quantifier": "all training frames, later frames, column lists, quantile levels, conditions", "why_tests_cant": "Quantifies over pairs of frames (training and later) and all real values.", "anchors": ["python/polars_ds/modeling/transforms.py: impute, conditional_impute, center, scale, robust_scale, winsorize"]}
{"id": "C102", "title": "One-hot and rank-hot encoding", "statement": "one_hot_encode adds, for every category seen in training (drop_first: all but the smallest), one column named column+separator+category that is 1 exactly in the rows of any later frame holding the category and 0 elsewhere (unseen values and nulls included); no other column changes. rank_hot_encode maps the value ranked k to k ones followed by zeros and unknown values and nulls to -1. Every text column is encoded and new names never clash.", "quantifier": "all training and later frames, category sets, separators, rankings", "why_tests_cant": "Quantifies over all category sets and pairs of frames.", "anchors": ["python/polars_ds/modeling/transforms.py: one_hot_encode, rank_hot_encode"]}
{"id": "C103", "title": "Polynomial features", "statement": "polynomial_features adds for every way of taking d of the columns with repetition exactly one column, the product of its columns (null where one is null), C(n+d-1, d) in all; with interaction_only the n pure powers are left out; other columns do not change; degree below 2 is refused.", "quantifier": "all column lists, degrees, frames", "why_tests_cant": "Quantifies over all column lists and degrees; counting needs induction.", "anchors": ["python/polars_ds/modeling/transforms.py: polynomial_features"]}
{"id": "C104", "title": "Dictionary encoders and linear imputing", "statement": "target_encode, woe_encode and iv_encode as transforms replace every category of the training frame by its learned value and unseen categories and nulls by the default, change only the text columns given and refuse when there is none; the default is as documented. linear_impute keeps known targets and fills null targets with the fitted value.", "quantifier": "all training and later frames, targets, defaults", "why_tests_cant": "Quantifies over pairs of frames.", "anchors": ["python/polars_ds/modeling/transforms.py: target_encode, woe_encode, iv_encode, _encoder_default_value, linear_impute"]}
{"id": "C105", "title": "Normality test", "statement": "normal_test returns D'Agostino and Pearson's published statistic (sum of squares of the normalised skewness and kurtosis of the finite values) and its chi-square p value; only the finite values count, in any order and on any scale; more skew at the same kurtosis lowers the p value; fewer than 20 finite values are refused and columns without spread give NaN.", "quantifier": "all columns of numbers, NaN, infinities and nulls, over exact reals", "why_tests_cant": "Quantifies over all columns; the published value fails only for very flat samples, which tests on normal data never meet.", "anchors": ["python/polars_ds/exprs/stats.py: normal_test", "src/stats/normal_test.rs: skew_test_statistic, kurtosis_test_statistic, pl_normal_test", "src/stats_utils/gamma.rs: sf"]}
{"id": "C106", "title": "Singular values and principal components", "statement": "singular_values returns min(rows, features) non-negative descending values whose squares sum to the squared entries of the centred complete rows; as_ratio gives shares in [0,1] summing to 1; as_explained_var gives s^2/(n_samples-1), summing to the total variance. pca returns orthonormal directions, the i-th having the largest spread among those orthogonal to the earlier ones, with uncorrelated coordinates; principal_components returns the coordinates of every row along the first k of them, NaN when there are fewer than k rows, and refuses k out of range and nulls.", "quantifier": "all frames with nulls, numbers of features, flags, and all correct decompositions", "why_tests_cant": "Quantifies over all frames and over what the decomposition library may return.", "anchors": ["python/polars_ds/exprs/num.py: singular_values, pca, principal_components", "src/num_ext/pca.rs: pl_singular_values, pl_pca, pl_principal_components", "src/utils/mod.rs: to_f64_matrix_without_nulls, to_f64_matrix_fail_on_nulls"]}
{"id": "C107", "title": "lin_reg_report: standard errors, tests, intervals and r2", "statement": "For every set of rows that the null policy accepts and that determines the coefficients, lin_reg_report returns the least squares coefficients; the squared standard error of each is, for 'se', the sum over the rows of the squared change of the coefficient per unit of that row's target times SSE/(n-m), for 'hc0'/'hc1'/'hc2' the same sum with every row's own squared residual (times n/(n-m); over 1 - leverage), and for 'hc3' the jackknife: the sum of the squared moves of the coefficient when one row is left out. t = beta/se, p is twice the upper tail at |t|, the interval is beta -/+ the 0.975 quantile times se. With weights the coefficients and errors are those of the rows scaled by the square roots of the weights, multiplying all weights by one number changes nothing, and weights 1 give the unweighted report. r2 is the coefficient of determination, adj_r2 its adjustment.", "quantifier": "all numbers of features, all rows (nulls included) and null policies, all five kinds of standard error, all nonnegative weights, with or without bias, over every real closed field", "why_tests_cant": "The formulas are tested against statsmodels on one random frame; the equality with fits of perturbed and reduced data, the off-by-1/n in r2 and the panic for skipped rows with weights only show over all inputs.", "anchors": ["src/num_ext/linear_regression.rs: pl_lin_reg_report, pl_wls_report", "python/polars_ds/exprs/expr_linear.py: lin_reg_report"]}
{"id": "C108", "title": "lin_reg_w_rcond: singular values, rank and truncated least squares", "statement": "For every set of rows the null policy accepts, lin_reg_w_rcond returns the singular values of the feature rows (with the bias column) in descending order, before any cut, with as many nonzero ones as the rank; singular directions whose value is smaller than the cut-off times the largest are dropped, where the cut-off is |rcond| but at least machine precision times max(rows, columns); the coefficients are the ones with the smallest squared error (plus l2_reg times the squares of the coefficients other than the bias) among the combinations of the directions kept.", "quantifier": "all rows (nulls included) and null policies, all numbers of features, all l2_reg and rcond, with or without bias, every decomposition meeting the defining equations, over every real closed field", "why_tests_cant": "The test compares one well conditioned random frame with numpy, where nothing is cut; which directions are dropped, the scale dependence of the cut-off and the values with a penalty only show over all inputs.", "anchors": ["src/linalg/lr_solvers.rs: faer_solve_lstsq_rcond", "src/num_ext/linear_regression.rs: pl_lstsq_w_rcond", "python/polars_ds/exprs/expr_linear.py: lin_reg_w_rcond"]}
{"id": "C109", "title": "simple_lin_reg: the least squares line with one feature", "statement": "For every column of features and targets (and nonnegative weights), simple_lin_reg(add_bias=True) returns the slope and intercept of the only line with the least (weighted) squared error over the rows in which everything is known, and no numbers when fewer than two places carry weight; without a bias the best slope through the origin; return_pred gives for every row the line at the feature and the target minus that, null where the inputs are; the residuals sum to zero and are orthogonal to the feature; the coefficients agree with lin_reg(null_policy='skip').", "quantifier": "all lengths, all columns with nulls, all nonnegative weights (any sign for the residual equations), with or without bias, over every ordered field", "why_tests_cant": "The function has no test at all ('No test. All forumla here are mathematically correct.'); with nulls the means and the sums are taken over different rows, which only a statement over all null patterns shows.", "anchors": ["python/polars_ds/exprs/expr_linear.py: simple_lin_reg"]}
{"id": "C110", "title": "Regression objects hold and apply what they last learned", "statement": "An object of the classes LR, ElasticNet or OnlineLR reports the coefficients and the bias it was built from or learned, predict applies exactly that line and refuses another number of columns, predict_df applies it to the named columns; fit and fit_df learn the unique least squares (ridge) solution of the rows their null policy uses, the same as the expression lin_reg; after any sequence of calls the object holds what the last successful fit learned, a call that raises changes nothing, and an object that was never fitted says so; an OnlineLR restored from its own values continues as the original.", "quantifier": "all numbers of features and rows, all data, null patterns and policies, all penalties, all sequences of calls, all frames and names", "why_tests_cant": "There are infinitely many histories of an object, data sets and null patterns; tests look at one fit followed by one prediction.", "anchors": ["python/polars_ds/linear_models.py: LR, ElasticNet, OnlineLR", "src/linalg/mod.rs: LinearRegression", "src/linalg/lr_solvers.rs: LR, ElasticNet", "src/linalg/lr_online_solvers.rs: OnlineLR", "src/pymodels/py_lr.rs"]}
{"id": "C111", "title": "Nearest-neighbour entropy is the Kozachenko-Leonenko estimate", "statement": "For dist='l2' or 'inf', query_knn_entropy on h finite rows of d features with 1 <= k < h is psi(h) - psi(k) + ln(volume of the d-ball of diameter 1) + d/h * sum of ln(2 * distance from each row to its k-th nearest other row), minus infinity when some row has k copies of itself. psi(h) - psi(k) is 1/k + ... + 1/(h-1) to within 1e-14. Rows <= k give NaN; k <= 0 or another distance is an error. parallel=True gives the value of parallel=False, and the order of the rows does not matter. Rows with a null are expected to be left out altogether (refuted: they are left out of the sum but counted in h).", "quantifier": "all tables of nullable f64 columns, all k, both metrics, all interleavings of the column writers, all numbers of threads and orders of the partial sums", "why_tests_cant": "tests check one or two data sets against a reference value; they cannot cover every schedule, every tie between distances, or every mix of null and valid rows", "anchors": ["src/num_ext/entrophies.rs: pl_knn_entropy, _knn_entropy_helper", "src/stats_utils/gamma.rs: digamma", "python/polars_ds/exprs/ts_features.py: query_knn_entropy"]}
{"id": "C112", "title": "Copula entropy depends on ranks only; conditional independence is symmetric; transfer entropy never looks ahead", "statement": "query_copula_entropy is minus the nearest-neighbour entropy of the points (average rank / length) of the rows. Hence replacing any column by a strictly increasing function of it (or by any column in the same order) changes nothing, and the same holds for query_cond_indep. query_cond_indep(x, y, z) = query_cond_indep(y, x, z) exactly, is the copula value of the three less the values of (y, z) and (x, z), and is NaN for at most k rows. query_transfer_entropy(x, source, lag) is the conditional independence of x[i + lag] and source[i] given x[i]; the last lag values of source do not matter; a lag below 1 or above the length never yields a value.", "quantifier": "all columns of an ordered type with nulls and ties, all k and lags, all executions of the plugin with and without parallelism", "why_tests_cant": "tests compare a few random series with reference values; invariance under every increasing transformation, symmetry for every data set and schedule, and independence of the future cannot be enumerated", "anchors": ["python/polars_ds/exprs/ts_features.py: query_copula_entropy, query_cond_indep, query_transfer_entropy", "src/num_ext/entrophies.rs: pl_knn_entropy"]}
{"id": "C113", "title": "DIA reports what is true of the frame", "statement": "For every frame the data inspection assistant (DIA) sorts each column into exactly one type group. infer_high_null lists exactly the columns with more nulls than the threshold; infer_discrete all discrete columns (boolean and categorical included, at most max_val_cnt values); infer_const, infer_binary and infer_k_distinct exactly the columns with 1, 2, k distinct values, nulls only tolerated with include_null; infer_prob exactly the columns all of whose rows are probabilities. row_validation reports exactly the rows on which some rule is false, with the first such rule or all such rules; col_validation exactly the rules that are false, however many rules a column has. Repeated calls give the same answer whatever happened in between.", "quantifier": "all frames with nulls, all thresholds and k, all sets of rules, all histories of calls, evictions from the cache and changes by the caller", "why_tests_cant": "the reports are aggregates over arbitrary data with nulls; tests fix a few frames and call each method once", "anchors": ["python/polars_ds/eda/diagnosis.py: DIA.__init__, col_validation, row_validation, infer_prob, infer_high_null, infer_discrete, infer_const, infer_binary, infer_k_distinct"]}
{"id": "C114", "title": "Functional dependencies are found and drawn faithfully", "statement": "DIA.infer_dependency compares every two discrete columns with at least two values once; each row gives the conditional entropy of `column` given `by`, sorted, and it is 0 exactly when `by` determines `column`. Although only one order of each pair is examined, no functional dependency is missed: if y determines x, the row (x, y) has 0, or the row (y, x) has 0 and the two determine each other. DIA.plot_dependency draws only dependencies below the threshold, without cycles, and what can be reached along its arrows is exactly what can be reached along all dependencies below the threshold; if those are exact, an arrow is drawn exactly where no column lies in between. A frame without discrete columns gives an empty report (refuted: it raises).", "quantifier": "all frames with nulls, all thresholds, every order of groups and of ties in sorting", "why_tests_cant": "the pruning of arrows and the restriction to one order of each pair are graph and counting arguments over arbitrary data; tests draw one graph", "anchors": ["python/polars_ds/eda/diagnosis.py: DIA.infer_dependency, DIA.plot_dependency", "src/num_ext/cond_entropy.rs: pl_conditional_entropy"]}
{"id": "C115", "title": "Numeric profiles and null correlations describe the columns they are about", "statement": "DIA.null_corr returns exactly one row for every two selected columns that are both partly null; the value is the phi coefficient of the two null patterns, lies in [-1, 1], is 1 only for identical and -1 only for complementary null patterns and 0 exactly at independence; rows are sorted by decreasing absolute value. DIA.numeric_profile's histogram has the counts of n_bins equal bins between minimum and maximum of the finite values, its outlier count is the number of values beyond the IQR fences (at most the ranks outside the quartiles, fewer for a larger multiplier, independent of units). DIA.special_values_report counts nulls, NaN and infinities, which together with the finite values are all rows.", "quantifier": "all frames, all columns (with nulls, NaN and infinities), all bin numbers, all multipliers and quantile rank rules", "why_tests_cant": "The correlation is claimed for every null pattern and every pair of columns; the histogram must not depend on which particular values occur. Tests look at the report of one data set.", "anchors": ["python/polars_ds/eda/diagnosis.py: DIA.null_corr, DIA.numeric_profile, DIA.special_values_report"]}
{"id": "C116", "title": "Edit distances are distances, their filters and vocabulary matching agree with them", "statement": "Levenshtein, Damerau-Levenshtein and padded Hamming distance of strings are metrics (zero exactly on equal strings, symmetric, triangle inequality); Levenshtein is at most the longer length; unpadded Hamming is null exactly when lengths differ and otherwise equals the padded one; Damerau <= OSA <= Levenshtein <= padded Hamming and LCS distance <= Levenshtein <= indel distance; OSA is symmetric and zero exactly on equal strings. The normalised similarities lie in [0, 1], are 1 exactly on equal strings and symmetric. filter_by_levenshtein and filter_by_hamming say for every row whether the distance is at most the bound, with the same pad argument as str_hamming, null where a string is null. similar_to_vocab says whether any, all, or the average of the similarities with the vocabulary reach the threshold; all implies avg implies any; null strings give null; the four documented metrics work. str_lcs_seq works with and without return_sim.", "quantifier": "all pairs of strings, all columns, bounds and thresholds, all vocabularies, all parallel schedules", "why_tests_cant": "Metric laws quantify over three strings of any length, the order of the distances over all pairs; tests compare single pairs against another library.", "anchors": ["src/str_ext/levenshtein.rs: pl_levenshtein, pl_levenshtein_sim, pl_levenshtein_filter", "src/str_ext/hamming.rs: pl_hamming, pl_hamming_padded, pl_hamming_filter", "src/str_ext/osa.rs", "src/str_ext/lcs_seq.rs: pl_lcs_seq, pl_lcs_sim", "src/str_ext/fuzz.rs", "python/polars_ds/exprs/string.py: filter_by_levenshtein, filter_by_hamming, str_hamming, str_lcs_seq, similar_to_vocab"]}
{"id": "C117", "title": "Rows near a point are found exactly; neighbour frequencies count who has a row as a neighbour", "statement": "within_dist_from is true exactly for the rows whose distance from the point (l1, l2, squared l2, inf, cosine, haversine) is at most the radius, a common one or one per row; rows with a null feature are not reported. is_knn_from is true exactly for the rows to which fewer than k rows are strictly nearer: at least k rows, exactly k without ties. A point of the wrong dimension is refused. query_radius_freq_cnt gives for every row the number of (other) rows in whose ball it lies, in descending order, and being in range is mutual, so this agrees with query_nb_cnt; query_knn_freq_cnt gives the number of evaluated rows that have the row among their nearest candidates. Rows never found are left out, no row appears twice.", "quantifier": "all points, frames (with nulls), radii and k, all distances, all parallel schedules and tie orders", "why_tests_cant": "The characterisation by rank must hold for every tie pattern and every k; mutual range must survive rounding for all floats; tests use a few points in general position.", "anchors": ["python/polars_ds/exprs/expr_knn.py: within_dist_from, is_knn_from, query_radius_freq_cnt, query_knn_freq_cnt, warn_len_compare", "src/num_ext/knn.rs: pl_query_radius_ptwise, pl_knn_ptwise"]}
{"id": "C118", "title": "Normal p-values are the normal tail", "statement": "The number the library uses as the upper tail of a normal distribution (the p-value of mann_whitney_u and xi_corr, and of t tests with infinitely many degrees of freedom) is the area under the normal density to the right of the statistic: within 1.3e-10 everywhere, and within 2.5e-9 of itself up to 155 standard deviations out. It lies in [0,1], is at most one half above the mean, and the two tails at equal distance add up to one. xi_corr's p-value is both tails of the N(0, 2/(5n)) law (NaN below 30 rows); mann_whitney_u's is one or both tails beyond the mean plus one half, clamped to [0,1].", "quantifier": "every real statistic, mean and positive standard deviation; every row count and every correlation", "why_tests_cant": "The tail is computed by fourteen different rational approximations on adjoining intervals; a test compares a few arguments with a table, and says nothing about the arguments between them.", "anchors": ["src/stats_utils/normal.rs: sf_unchecked, erfc, erf_impl, polynomial, ERF_IMPL_*", "src/stats/xi_corr.rs: pl_xi_corr_w_p", "src/stats/mann_whitney_u.rs: pl_mann_whitney_u"]}
{"id": "C119", "title": "A larger statistic never gets a larger p-value", "statement": "For a fixed mean and standard deviation, the normal p-value does not increase when the statistic increases.", "quantifier": "every pair of statistics", "why_tests_cant": "The violations sit at isolated switch points between approximations; no sample of pairs is likely to straddle one.", "anchors": ["src/stats_utils/normal.rs: erf_impl"]}
{"id": "C120", "title": "The log-gamma behind the p-values is the logarithm of the gamma function", "statement": "The logarithm of the gamma function that normalises the p-values of chi2 and normal_test (shape = half the degrees of freedom, so at least one half) is the logarithm of the integral of t^(a-1) e^(-t) over the positive numbers, to the 16 digits its documentation promises. That integral exists, is positive and is unique for every positive shape.", "quantifier": "every real shape a >= 1/2 (for existence: every a > 0)", "why_tests_cant": "An eleven-coefficient Lanczos approximation is checked by tests at a handful of arguments; a wrong last digit in a coefficient only shows at arguments no test uses.", "anchors": ["src/stats_utils/gamma.rs: ln_gamma, GAMMA_DK, GAMMA_R", "src/stats_utils/mod.rs: LN_2_SQRT_E_OVER_PI"]}
{"id": "C121", "title": "The p-values of chi2 and normal_test are chi-squared tails", "statement": "The p-value that chi2 and normal_test attach to a statistic is the area under the chi-squared density to the right of it, with the test's degrees of freedom (two for normal_test, where it is exp(-x/2)): right to about fifteen digits after the point for statistics up to the degrees of freedom (or 2), right to eleven significant digits (down to 1e-299) beyond, and the computation always ends. NaN stays NaN, a statistic of zero gives 1, an infinite one gives 0, and a positive statistic with no degrees of freedom is an error.", "quantifier": "every positive number of degrees of freedom and every real statistic", "why_tests_cant": "The incomplete gamma function is computed by a power series or by a continued fraction, each with an uncapped stopping rule; accuracy and termination for every pair of arguments cannot be sampled.", "anchors": ["src/stats_utils/gamma.rs: sf, checked_gamma_ur, checked_gamma_lr, ln_gamma", "src/stats/chi2.rs: _chi2_pvalue", "src/stats/normal_test.rs"]}
{"id": "C122", "title": "digamma is the slope of the logarithm of the gamma function", "statement": "pds.digamma returns, for a positive x, the derivative at x of ln Gamma (Gamma being the integral of t^(x-1) e^(-t)), within 2.4e-15 above a millionth and within 1.25e-12 below; for a negative non-integer the continuation by psi(x+1) = psi(x) + 1/x, within 2.4e-15; at zero and negative integers minus infinity, at NaN and minus infinity NaN, at plus infinity plus infinity. Rows are independent and nulls stay.", "quantifier": "every real argument, the three special values, every column", "why_tests_cant": "The function is computed by four arms (small-argument expansion, recurrence, asymptotic series, reflection); tests at sample points do not bound the error in between, and the link to the gamma function is an analytic statement.", "anchors": ["src/stats_utils/gamma.rs: digamma", "src/num_ext/float_extras.rs: pl_diagamma", "python/polars_ds/exprs/num.py: digamma"]}
{"id": "C123", "title": "The p-values of the t tests and of f_test are tails of Student's t and of F", "statement": "The p-value a t test attaches to a statistic is the share of the area under Student's density (1+t^2/df)^(-(df+1)/2) beyond it (above, below, or on both sides, as the alternative asks), within 8e-16 (df+6) for every statistic and 1 to 10^12 degrees of freedom, and to the same relative accuracy far in the tail; the two sides add up to 1 and the value at 0 is one half, exactly; non-positive degrees of freedom are an error. The p-value of f_test is the share of the area of the F density beyond the statistic, as accurately; the two-sided p-value of t equals that of F with 1 and df degrees of freedom at the square.", "quantifier": "every real statistic, every number of degrees of freedom (from 1 to 10^12 for the accuracy of t; even ones up to 280, or one of them equal to 1, for that of F)", "why_tests_cant": "The incomplete beta function is computed by a continued fraction cut off after 140 rounds, with a factor from an approximated log-gamma; whether 140 rounds suffice and how far the result is from the integral cannot be sampled over a continuum of arguments.", "anchors": ["src/stats_utils/beta.rs: student_t_sf, fisher_snedecor_sf, checked_beta_reg, beta_reg", "src/stats/t_test.rs", "src/stats/fstats.rs: pl_f_test"]}
{"id": "C124", "title": "Quantiles of Student's t", "statement": "The 97.5% point of Student's t behind the confidence limits of lin_reg_report is the point beyond which the stated share of the true distribution lies. The quantile function refuses what is not a probability, never panics otherwise, is infinite at 0 and 1, 0 at one half and odd about one half; the inverse incomplete beta function it calls stays in [0,1], and its step search never waits for ever; the limits enclose the estimate.", "quantifier": "all probabilities, all degrees of freedom, every number of rounds", "why_tests_cant": "A nested root search over a continuous pair of arguments; a hang or a wrong answer may show at any of them.", "anchors": ["src/stats_utils/beta.rs: student_t_ppf, inv_beta_reg, ln_beta", "src/num_ext/linear_regression.rs: t_alpha"]}
