# Formal model of polars_ds_extension in Rocq (Coq 8.16.1)

## 1. Approach

* Rust functions become small total Gallina functions.  `&mut` state is returned, a panic or a
  rejected input is an explicit value (`None`, `Err`, `Panic`), a `while` loop is structural recursion
  or recursion on fuel, and the theorem excludes the out-of-fuel case.
* Floating point.  The KD-tree is modelled over a record of numeric operations (a plain `Record`) and
  instantiated with IEEE-754 binary64 (Flocq's `binary_float 53 1024`, rounding to nearest even, with
  infinities and NaN).  The KD-tree theorems are therefore about f64 results, not about reals.
  Algebraic and statistical code (least squares, isotonic regression, ...) is modelled in exact
  arithmetic (`Q`, `R` or an arbitrary mathcomp field); rounding error there is out of scope.
* Library calls (unstable sorts, `partition_point` on unsorted input, rayon scheduling, matrix
  factorisations, polars kernels, random generators) are universally quantified arguments restricted
  only by their documented contract, never axioms.
* If the code violates a property, the model keeps the code's behaviour and the theorem is named
  `..._refuted` with a concrete witness.  Beside it we prove what does hold (`..._partial`, or a
  theorem under an explicit guard).

File layout in `rocq/theories`: `<Area>Model.v` (code, each definition cites file and lines),
`<Area>Spec.v` (independent specification), `<Area>Proofs.v` (lemmas), `<Area>Props.v`
(theorems closed by `exact`, non-vacuity examples and `Print Assumptions`).

## 2. Plan per property

| id | modelled | proof idea |
|----|----------|------------|
| C01 | DIST::dist, _closest_dist_to_box, find_bounds, add_unchecked, within_one_step, within | bounds invariant; monotonicity of rounded +,-,*,sqrt on non-negative values; multiset permutation over the pending stack |
| C02 | within_count_one_step, within_count | same traversal invariant |
| C03/C04 | knn_one_step, update_top_k, knn_bounded | loop invariant: sorted top-k plus discarded elements dominated |
| C05 | same | refutation by a concrete f64 tree; the guarded form is C03 |
| C06 | PyKDT::new/add/count | induction over histories, Permutation |
| C07 | corollary of C01-C03 and C06 | uniqueness of sorted k-prefix |
| C08 | fuel-free measure on pending stack, index guards | explicit error values shown unreachable |
| C09/C10 | split_offsets and the par_iter pattern | exact partition; reassembly by index for any completion order |
| C11 | series_to_row_major_slice as a multiset of (offset,value) writes | any permutation of the writes gives the same buffer |
| C12 | PyKDT::knn fill | list reasoning |
| C13 | knn_regress | convex combination over R |
| C14 | faer_solve_lstsq, faer_weighted_lstsq | completing the square (mathcomp matrices) |
| C15-C17 | woodbury_step, recursive/rolling loops, OnlineLR | Sherman-Morrison + induction |
| C18/C19 | mask handling in pl_lstsq_pred, pl_recursive_lstsq | list induction; refutation for C19 |
| C20 | faer_coordinate_descent | 1-d convex minimisation, subgradient optimality |
| C21 | kendall_tau merge count | inversions count of bottom-up merge sort |
| C22 | ks_2samp | ECDF constant between sample points |
| C23 | mann_whitney_tie_sum | refutation and guarded form |
| C24 | PAVA loop | KKT / partial-sum certificate |
| C25 | tp_fp_frame + trapz | refutation plus guarded theorem |
| C26 | confusion counts, u32 wrapping MCC | counting; refutation of wrap |
| C27 | jaccard | set cardinalities; refutation for nulls in both |
| C28 | psi bins | binary search spec; ln inequality |
| C29 | convolve | list reasoning |
| C30 | pl_rfft mirroring | conjugate symmetry of DFT |
| C31-C35 | lempel_ziv, entropies, benford, iterations, trapz | induction |
| C36 | Python formulas | refutations by witness |
| C37-C42 | str_ext | list/set reasoning; snowball env invariant |
| C43-C45 | stats | algebra |
| C46-C48 | PyKDT.within, Python wrappers | refutations and exact characterisation of the affected inputs |
| C49-C54 | pl_knn_ptwise, pl_query_radius_ptwise, pl_nb_cnt, pl_dist_from_kth_nb, pl_knn_avg | row semantics from C01-C11; parallel = sequential |
| C55 | random_binomial | refutation (dtype) |
| C56 | pl_combo_b | counting over the threshold table; refutation |
| C57/C58 | list_jaccard, psi_discrete | set cardinalities; join semantics |
| C59 | approximate entropy | counts from C02 |
| C60-C64 | weighted statistics, bicor, xi_corr | real algebra, Cauchy-Schwarz, rank sums |
| C65-C69 | null policies, recursive vs batch, update weights, elastic net stopping, multi-target | mathcomp matrices; refutations by concrete rational data |
| C70-C72 | sample, split_by_ratio | shuffle as an arbitrary permutation; counting; binary64 product error bounds; refutations by concrete frames |
| C73/C74 | volume_neutral, downsample | per-group shuffles, counting per group; three-valued logic |
| C75 | random_cols | combinations as subsequences (C57 model of combinations); any draw |
| C76 | PartitionHelper | dict semantics; injectivity of the joined name; refutations |
| C77 | metrics.py r2/adj_r2 on columns of option R | sums over complete rows; Cauchy-style bounds; refutations for nulls, n-p, wraparound |
| C78 | metrics.py losses | per-row inequalities averaged; zero iff equal; null refutation |
| C79 | smape, mape | per-row bounds; NaN rows as explicit values |
| C80 | log loss, cross entropy | Gibbs inequality for the base rate |
| C81 | mase | algebra over the training changes |
| C82 | fairness scores | means of the two groups; NaN case refuted |
| C83 | calculate_ndcg on any frame with any sort meeting `sorts_desc` | rearrangement inequality; runs of tied rows; Chebyshev bound for ties |
| C84 | gini, multiclass AUC on top of the model of C25 | reduction to C25; counting of pairs |
| C85 | run-length encoding of a nullable boolean column and the three queries | induction on the encoding; the runs partition the true rows |
| C86 | shifts, differences and lagged products of nullable columns | rows a lag apart as an index set; permutation under reversal |
| C87 | auto-correlation on the same vocabulary | Cauchy-Schwarz for the bound; counterexample for [-1,1] |
| C88 | top-k mean, symmetry ratio, counts | exchange argument on sorted lists; halves of a sorted list; counting |
| C89 | entropy and conditional entropy over lists with counting oracles | Gibbs' inequality (ln x <= x-1) with its equality case; chain rule by regrouping sums |
| C90 | embedding by slice/shift, argsort oracle, entropy of patterns | sortedness determines the pattern; entropy bounds of C89; counterexamples for tau > 1 |
| C91 | sliding windows over real lists, split over threads | count of a filtered index range; chunks of split_offsets cover the range |
| C92 | group-by oracle, blend | mean and weight inequalities; permutation invariance |
| C93 | group-by oracle, smoothed shares | sums over groups regroup to totals; sign of (g-b) ln(g/b) |
| C94 | 32-bit casts, Euclid via Z.gcd, wrapping lcm | divisibility; counterexamples computed |
| C95 | atan2 of the haversine in exact reals | arc length = angle of unit vectors; triangle inequality by the Gram determinant |
| C96 | functions on reals with infinities and NaN | ln/exp identities, bound on sin |
| C97 | columns of reals with nulls, f64 range for exp | sums over indices, normal equations, exp bounds |
| C98 | columns of extended reals with nulls, beta function as oracle | algebra of means and variances |
| C99 | quantiles of the sorted values by position, clip | sorted lists, floor and ceiling bounds |
| C100 | frames as named columns, expressions as arbitrary functions on frames, JSON trees | induction over steps, frame invariants |
| C101 | learned statistics per column, cell maps on frames | one generic lemma on columnwise maps, affine laws of mean, variance, quantile |
| C102 | text columns, sorted category lists, indicator columns | membership characterisation of the encoded pairs, sortedness of strings, name injectivity |
| C103 | combinations with replacement, column products | induction on degree and columns, Pascal's rule, permutation arguments |
| C104 | replacement tables on top of the models of C92 and C93 | one generic lemma on tables, instantiated |
| C105 | checked real arithmetic of both statistics, moments of the finite values | every division, root and logarithm shown to be defined from n >= 20; equality with the published formulas; permutation and affine lemmas for moments |
| C106 | rows of optional field elements, matrices of mathcomp, the SVD as an oracle with its defining equations | trace and Gram matrix identities, Courant-type bound for orthogonal directions, explicit decompositions for the refutations |
| C107 | RepModel: pl_lin_reg_report and pl_wls_report over a real closed field, with an oracle for Student's distribution; series_to_mat and the QR solver from LinModel | RepProofs: sensitivities as fits to unit targets, leave-one-out through the rank one update, weights as scaled rows; r2 in closed form and its difference from R2 |
| C108 | RcondModel: faer_solve_lstsq_rcond and pl_lstsq_w_rcond over a real closed field with exact square roots; the SVD of X'X is an oracle with its defining equations | RcondProofs: right singular vectors diagonalise the product of predictions, the truncated inverse solves the normal equations in the span kept; rank through X'X; traces for the ridge values |
| C109 | SlrModel: simple_lin_reg over an ordered field with polars' null rules for sum, mean, dot and arithmetic | SlrProofs: expansion of the error around the solution, sums over rows equal sums over complete rows; agreement with C14 by uniqueness of the minimum |
| C110 | `ClsModel.v`: the objects LR/ElasticNet/OnlineLR as state (values, has_bias, names), getters with their panics, predict, predict_df, from_values, fit/fit_df with null policies and name lists (including the object's own list), calls in sequence, OnlineLR restore and update with sizes | values/predict by computation over lists; fit from C14's uniqueness theorem through a lemma that the policies leave exactly the specified rows; histories by induction on the list of calls (last successful fit); restore by equality of states and C17; counterexamples by evaluation |
| C111 | DigammaModel.v: the digamma loop and series over R. KnnEntModel.v: query_knn_entropy on top of the k-d tree model (bit-exact f64 distances), the sums over R with infinities, gamma as an oracle at the half integers | psi(n)-psi(k) against the harmonic sum by monotonicity of the gap between successive values; distances from the exactness of the k-d tree search; parallel sum by commutativity; a counterexample with a null row |
| C112 | CopModel.v: average rank over length in f64, the three expressions on top of KnnEntModel.v | ranks depend on comparisons only, so equal order gives equal rank columns; symmetry from invariance of squared distances under swapping two axes (floating point addition commutes) and of sums under row order; slices as list prefixes and suffixes |
| C113 | DiaModel.v: DIA's type groups, infer_* methods, validation reports as functions of nullable columns; lru_cache as a store of shared lists with arbitrary eviction | induction over columns, rows and rules; Kleene conjunction; distinct counts through duplicate-free lists; histories by induction with the invariant that cached entries are computed values; counterexamples for the refuted parts |
| C114 | DepModel.v: pairs of columns by increasing number of values with the conditional entropy of InfoModel.v; the parent pruning loop of plot_dependency with its mutable set | counting: a determined column has no more values, equally many only if the dependency is mutual; reachability by induction on the distance in the column order; direct arrows by taking the lowest column in between |
| C115 | ProfModel.v: null_corr over exact Pearson correlation, cuts/bins/value_counts of the histogram over extended reals, outliers for any rank rule | 2x2 table algebra for phi and its equality cases; partition of the finite values over bins; uniqueness of sorted lists for the outliers |
| C116 | EditModel.v: the four rapidfuzz numbers as a contract (fewest edits, longest common subword), Hamming, normalised similarities, the two filters, similar_to_vocab, the plugin symbols of str_lcs_seq | alignments as an inductive relation equivalent to edit chains; composition of alignments gives the triangle inequality; embeddings between distances; Kleene logic for the vocabulary |
| C117 | NearModel.v: the Polars expressions of within_dist_from and is_knn_from over exact reals with nulls and NaN, bottom_k as a contract; explode, drop_nulls, value_counts on the outputs of the C49/C50 models | rank characterisation of bottom_k().max(); counting over lists without repetition; symmetry of rounded distances from the monotonicity laws of rounding |
| C118 | `normal.rs` whole (coefficients as exact decimals, the arms as a table), the p-value lines of `xi_corr.rs` and `mann_whitney_u.rs`; specification: improper integral of the normal density | derivative of each arm compared with the density by rational polynomial certificates (Bernstein coefficients, evaluated by the kernel's VM), errors followed from arm to arm upwards (absolute) and downwards (relative); Gaussian integral by differentiation under the integral sign; pi from Machin's formula |
| C119 | same | refuted at a switch point; almost monotone from C118; strict between switch points from the sign of the derivative |
| C120 | ln_gamma, Gamma as an improper integral | Gautschi's inequality pins Gamma at infinity; the defect of the approximation in the functional equation is a rational function whose second derivative is bounded by a coefficient-positivity certificate |
| C121 | gamma sf, checked_gamma_ur, checked_gamma_lr, p-values of chi2 and normal_test; chi-squared tail as an improper integral | the series is a partial sum with a geometric remainder; the continued fraction's convergents are compared with the integral through the sign and size of their defect's derivative; loops end by growth of the denominators |
| C122 | digamma at every argument, column function; slope of ln Gamma | the limit of ln(x+n) - sum 1/(x+k) is the slope (Gautschi squeezes the difference quotient); the code's asymptotic series is compared with it by telescoping; reflection formula by Herglotz' doubling argument |
| C123 | beta.rs: student_t_sf, fisher_snedecor_sf, checked_beta_reg with the Lentz loop and its 140 rounds; densities of t and F | Euler's identity by Gautschi bounds; the loop computes the odd convergents of the fraction; the integral is compared with two successive convergents by differentiating; the loop stops early enough by a contraction certificate valid for all df |
| C124 | beta.rs: student_t_ppf, inv_beta_reg, ln_beta with their three nested loops | invariant of the search; cutting a step ends because thirds tend to 0; derivative of the incomplete beta function; C120 and C123 for the accuracy |

## 3. Trusted base

* Coq 8.16.1's kernel (including its `vm_compute` machine, used for closed boolean/integer
  computations on literals).  No plugin of our own, no axiom of our own, no kernel check switched off,
  no functor or module type of our own.
* Axioms of the standard library that `Print Assumptions` lists (every theorem has its own
  `Print Assumptions` beneath it; the full list per theorem is in section 6):
  `ClassicalDedekindReals.sig_forall_dec`, `ClassicalDedekindReals.sig_not_dec`,
  `FunctionalExtensionality.functional_extensionality_dep` (all three from the construction of `R`) and
  `Classical_Prop.classic` (through Flocq's and Coquelicot's use of classical reals).  Nothing else.
  A listing of the whole environment (`coqchk -o`) also shows fields of sealed modules of the Coq reals
  and of mathcomp (`bigop`, `finfun`, `fintype`, `perm`, ...): they are opaque definitions, not axioms.
* Libraries used: the standard library, Flocq (binary64), mathcomp (matrices over ordered fields),
  Coquelicot (complex numbers).
* That the model is the code.  Every definition cites file and lines.  The main simplifications are
  stated at the definition and collected here:
  - KD-tree, neighbour expressions, Kendall, KS, trapz and isotonic monotonicity, sampling: IEEE
    binary64, round to nearest even, as in Rust (no fused operations, one NaN).
  - everything else numeric: exact arithmetic (Q, R, complex numbers, or any ordered field).
    Overflow of fixed-width integer counters is modelled where the code can reach it (u32 in MCC,
    sample entropy, neighbour counts).
  - `usize` arithmetic is `nat`; subtractions that could underflow are guarded or modelled as panics.
  - Polars is represented by its documented behaviour: a column is a list of chunks of nullable cells,
    arithmetic propagates nulls, aggregations skip them, joins do not match nulls, a scalar broadcasts,
    `no_null_iter` on a column with nulls yields the physical content of null slots.
  - Oracles, each quantified over universally in the theorem statements and restricted only by its
    contract: `sort_unstable_by` (any sorted permutation), `partition_point`/`select_nth`, rayon
    (any order of evaluation of the chunks, results stored by index), faer's factorisations (they solve
    invertible systems), realfft (computes the documented transform), random generators (values in the
    documented range), rapidfuzz distances (any function), Unicode NFD (any function), the SIMD distance
    of the external crate for dimension >= 16 (any function), `str::parse::<f64>` and float `Display`.

## 4. What is modelled and what is not

Modelled (file by file): arkadia/{kdt,leaf,mod,neighbor,utils}.rs, pymodels/py_kdt.rs and spatial.py;
num_ext/{knn,benford,convolve,entrophies,fft,isotonic_regression,iterations,jaccard,lempel_ziv,
linear_regression,psi,tp_fp,trapz}.rs (of linear_regression.rs: pl_lstsq, pl_lstsq_pred, pl_lstsq_multi,
pl_lstsq_multi_pred, pl_recursive_lstsq, pl_rolling_lstsq), linalg/*.rs;
stats/{chi2,fstats,kendall_tau,ks,mann_whitney_u,sample,xi_corr}.rs; str_ext/* except the distance
kernels; utils/mod.rs; and the Python front-ends of these functions in exprs/*.py.
Also: num_ext/{float_extras (bit operations), gcd_lcm, haversine, pca, subseq_sim, target_encode, woe_iv,
cond_entropy}.rs; stats/{t_test,normal_test}.rs; str_ext/{snowball_stem,str_cleaning,inflections,...}.rs;
sample_and_split/*.py (sample, downsample, volume_neutral, split_by_ratio, random_cols, ...);
partition/*.py; exprs/metrics.py (regression and ranking metrics, losses, fairness scores, multiclass
AUC), exprs/ts_features.py (streaks, lags, C3, CID, autocorrelation, ...), exprs/num.py (detrend,
softmax, monotonicity, target encoding, WOE/IV, winsorize, transforms); modeling/pipeline.py
(Blueprint, Pipeline, JSON round trip) and modeling/transforms.py (impute, scale, winsorize, one-hot,
rank-hot, target/WOE/IV encoders, polynomial features, conditional and linear imputing).
num_ext/linear_regression.rs pl_lin_reg_report, pl_wls_report and pl_lstsq_w_rcond (lin_reg_report,
lin_reg_w_rcond).
num_ext/simple_lin_reg (C109).  linear_models.py, pymodels/py_lr.rs and the LinearRegression trait: the objects
LR, ElasticNet, OnlineLR with their getters, fits, predictions and histories (C110).
num_ext/entrophies.rs pl_knn_entropy, stats_utils/gamma.rs digamma at positive arguments (C111).
ts_features.py query_copula_entropy, query_cond_indep, query_transfer_entropy (C112).
eda/diagnosis.py: type groups, infer_high_null, infer_discrete, infer_const, infer_binary, infer_k_distinct, infer_prob,
col_validation, row_validation, lru_cache (C113).
eda/diagnosis.py infer_dependency and the arrows of plot_dependency (C114).
- **eda/diagnosis.py numeric reports (C115)**: null_corr, the histogram and outlier_cnt of numeric_profile, special_values_report. Modelled over exact (extended) reals; the rank rule of polars' quantile is a parameter; mean, std, median columns of the profile are polars' own and not modelled; the great_tables formatting is not modelled.
- **String distances (C116)**: levenshtein.rs, hamming.rs, osa.rs, lcs_seq.rs, fuzz.rs, string.py filter_by_levenshtein, filter_by_hamming, str_hamming, similar_to_vocab, symbols of str_lcs_seq. rapidfuzz is external: contract `rapidfuzz_ok` (least number of edits / edits and swaps / alignment with swaps, longest common subword), shown satisfiable. Similarities are exact reals. str_jaro and str_jw are not modelled.
- **expr_knn.py point queries and frequencies (C117)**: within_dist_from, is_knn_from, warn_len_compare, query_radius_freq_cnt, query_knn_freq_cnt. Point distances in exact reals; the frequency counts in binary64. Contracts: `bottom_ok` (Series.bottom_k), `value_counts_ok`.

### C118, C119: the normal tail

`NormPoly.v` is a small verified checker: integer polynomials over a common denominator, and a test that one is
not negative on [0, len] (all Bernstein coefficients non-negative; `nonneg_on_sound`). `NormPieces.v` states for
each of the thirteen outer arms of `erf_impl` that its derivative differs from that of the exact function by at
most 2e-10 exp(-z^2), and lets the checker decide it. `NormZero.v` does the same for |z| < 1/2 with a Taylor
polynomial of exp, and bounds pi (`Machin`). `NormGauss.v` proves the Gaussian integral. `NormChain.v`/`NormErr.v`
add up the steps between arms from 0 outwards (absolute error), `NormRel.v` from 110 inwards (relative error; the
asymptotic series at 110 and Mills' bound are proved there). Not modelled: rounding, underflow of exp.

### C120: the logarithm of the gamma function

`GamInt.v` builds Gamma from the improper integral (existence, functional equation, Gautschi's inequality).
`GamLan.v`-`GamLan2.v` write the Lanczos sum as a quotient of integer polynomials and certify, by
coefficient-wise non-negativity of two polynomials, that the second derivative of the approximation's defect in the functional
equation is below 2e-15/(x+10)^4. `GamLan3.v`-`GamLan4.v` integrate that twice from infinity, `GamLan5.v` telescopes
it and fixes the additive constant at a = 1 with a rational bound on exp. Not modelled: rounding; shapes below 1/2.

### C121: chi-squared p-values

`GamInc.v` develops the two incomplete gamma functions and the partial sums of the series; `GamSer.v` proves the
series arm (termination and error), `GamFrac.v` the convergents of the continued fraction (their defect has one sign
and a bounded derivative) and `GamUr.v` the fraction arm including the rescaling by `big_inv` and the stop test.
`GamChi.v` turns these into statements about the chi-squared density. Not modelled: rounding, `checked_gamma_*` at
infinite arguments (no caller passes one).

### C122: the digamma function

`DigPsi.v` builds psi as a limit and proves it is the derivative of ln Gamma and within `next(12)` of the code's
recurrence plus asymptotic series. `DigSmall.v` bounds ln 12 and the arm below a millionth. `DigRefl.v` proves the
duplication formula and from it the reflection formula; `DigProofs.v` adds negative arguments. The parameter `near`
stands for `approx::ulps_eq!(x.floor(), x)`.

### C123: Student's t and F

`BetaSpec.v` states the two densities and their tails without the beta function. `BetaInt.v` proves Euler's identity
B(a,b) = Gamma(a)Gamma(b)/Gamma(a+b) (log-convexity in one argument squeezes the ratio). `BetaFrac.v` bounds the
numerators and denominators of the continued fraction, `BetaErr.v` shows that the error of an odd convergent is at most
(a+b+2)/(b+1) times its distance to the one before, `BetaLentz.v` that the code's loop (modified Lentz, including the
replacement of tiny denominators, which never triggers) computes the odd convergents, and `BetaStop.v` that the stop
test is met within the 140 rounds: for b = 1/2 by a rational table of 62 contraction factors checked by the kernel and
valid for every a at once, for a = 1/2 by a uniform factor 2/5, and for whole b because the fraction breaks off.
`BetaReg.v` adds the factor in front and the complement; `BetaTail.v` substitutes variables to reach the densities.
Not modelled: rounding; infinite statistics or degrees of freedom (`student_t_sf` falls back to the normal tail, C119).

### C124: the quantile of Student's t
`InvModel.v` models `inv_beta_reg` (Newton's method with steps cut to a third) with a number of rounds for each of its three
loops, over any incomplete beta function; `InvProofs.v` proves the invariant (every point is in (0,1)), how a run ends, and
that the two inner loops always end; `InvTail.v` compares the quantile with the integral of the density and the Newton factor
with the slope of the true function.  Not proved: that the outer loop ends, and the size of the residual when it ends by its
tolerance.  Not modelled: rounding, the `debug_assert`.

Not modelled:
* rounding error of the statistical and algebraic code (see above).  The special functions behind the p-values
  (erfc, log-gamma, incomplete gamma and beta functions, digamma) are modelled and compared with the integrals
  they approximate (C119 to C124); the earlier test-level properties still take them as oracles with a stated contract;
* linear_regression_f32.rs is the same algorithm with another float type;
* ball_tree.rs, mutual_info.rs and welch.rs (commented out or not compiled at this commit);
* eda/plots.py, the figures and table formatting of eda/diagnosis.py, compat/, config.py: drawing and
  renamed re-exports (the data reports of eda/diagnosis.py are modelled: C113, C114, C115);
* the Polars engine (SQL, expression serialization and lazy optimisation included), the Python
  interpreter, PyO3 conversions and memory safety of the `unsafe` blocks other than the write pattern
  of `series_to_row_major_slice` (C11).

## 5. Findings

The following are behaviours of the pinned commit that contradict its documentation or the obvious
reading of the API; each is a theorem `..._refuted` with a concrete witness unless marked (read), which
means it was only observed while reading the code.

Trees and neighbours
* kNN drops a row exactly at `max_dist_bound` when its box distance equals the bound (C05).
* The balanced split panics on NaN (C08).  A radius of 0, or below machine epsilon, finds nothing, not
  even the query point (C46).  `within_many` with an array of radii loses its result in the Python
  wrapper (C47).  `within` does not check the width of the query (C48).
* With `dist='inf'` rows with a NaN feature can be neighbours (C53).  Without an eligible row the
  expressions panic (C54).  A single null radius panics in `query_nb_cnt` (C51).
* In f64 the average of neighbours can leave [min, max] (C13).
* (read) cosine and haversine metrics prune with bounds that are not lower bounds;
  `query_knn_ptwise` ignores `epsilon`; `within_dist_from` with 'l2' compares a squared distance.

Regression
* Recursive prediction uses the features of the wrong row under `skip` (C19); rolling regression
  without penalty turns into NaN forever once a window loses rank (C16); recursive and rolling ridge
  penalise the bias, `lin_reg` does not (C66); `OnlineLR.update(c)` gives the row the weight 1/c (C67);
  elastic net with a bias stops too early (C68) and a zero column without l2 gives NaN (C20);
  `ignore` with nulls returns one null instead of one row per input (C65).
* (read) `LR.bias()`/`OnlineLR.bias()` have no return statement; `start_with` larger than the number
  of kept rows panics; `"choleskey"` selects QR; the R2 of `lin_reg_report` divides by n times the
  sample variance.

Statistics
* KS returns 0 for exactly 30 values although the documentation says fewer than 30 (C22); the
  Mann-Whitney tie term omits the group of largest values (C23); F-test and chi-squared with nulls
  (C43, C44); `perturb(positive=True)` can move by more than epsilon and `epsilon=0` panics (C45);
  `random_binomial` always fails on a dtype (C55).
* `cosine_sim` takes two square roots and `weighted_corr` uses x for both variances (C36);
  `weighted_mean` divides by the weight of null rows too (C60); `weighted_hmean` ignores the data (C61).

Numerics and metrics
* Isotonic regression underflows a `usize` (panic with overflow checks, C24); `trapz` of one point is
  -x*y/2 (C35); ROC AUC omits the last segment (C25), average precision the last term, and a threshold
  above the largest score panics (C56); MCC wraps in u32 (C26); column Jaccard hashes null slots (C27);
  PSI with a value above the largest breakpoint panics (C28); discrete PSI does not match nulls (C58);
  first digits of null slots are counted (C33); sample entropy loses all counts for tiny radii and
  wraps on long series (C32); approximate entropy panics on a null radius (C59).

Strings
* Similarity of an empty word is NaN (C37); the content of null cells can be the nearest string (C39);
  a null scalar panics (C41).
Sampling, splitting, partitions
* `volume_neutral` raises KeyError on frames with few rows (C71).  `split_by_ratio` drops rows to rounding,
  rejects 0.7/0.2/0.1 because the float sum is not 1, treats a one-element list like a single float, and
  `[1.0]` raises (C72).  Sampling by conditions drops rows whose condition is null; the documented
  equivalence is false and the example passes a list to `*conditions` (C74).  `random_cols`: `keep`
  outside the pool gives a spurious ValueError or columns that can never be drawn, `seed` is unused,
  duplicates raise TypeError (C75).  Partitions: clashing names lose rows; an unsupported dtype with a
  string `by` raises IndexError (C76).

Metrics
* Adjusted R2 divides by n-p instead of n-p-1, p > n wraps in u32, `len()` counts nulls, and null
  predictions inflate R2 (C77).  Losses divide by the number of known actuals, so a null prediction
  counts as zero error (C78).  smape is NaN when both values of a row are 0 (C79).  The p-percent score
  is NaN when no group has a positive prediction (C82).  The ranking metric needs a column named
  "example_id", k=0 means no cutoff, ties depend on the row order (C83).  An absent class makes
  multiclass AUC NaN (C84).

Time series
* `query_streak` also returns runs of false and null (C85); `query_c3` divides by n-2*lag counting nulls,
  NaN at n=2*lag (C86); autocorrelation exceeds 1 and counts nulls (C87); `query_count_uniques` counts
  values occurring exactly once and `query_mid_range` is
  half the range, not the mid-range (C88); entropy with normalize=False is not positive (C89); embeddings
  with tau > 1 take neighbouring rows and count windows past the end (C90); subsequence similarity: a
  constant query is never found with sqzl2; a longer query gives 0, a panic or an error depending on
  the mode; nulls panic (C91).  `query_knn_entropy` leaves rows with a null out of the sum but counts them
  in n; with dist="inf" a null coordinate counts as distance 0 (C111).

Encoders and transforms
* Null categories are dropped though documented as encoded; smoothing 0 gives NaN; an all-null target
  panics (C92).  Continuous WOE/IV fail when x has a null, NaN or infinity; the shares do not sum to 1
  unless there are two categories (C93).  gcd/lcm: a one-row null column panics, lcm wraps, gcd(MIN, 0) is
  negative (C94).  Haversine: a null scalar panics, the first point cannot be a scalar (C95).  `fract`
  turns nulls of integer columns into 0.0 and computes integers in f32 (C96).  Nulls hide a descent from
  the monotonicity check; softmax is NaN for values >= 1024; linear detrending fails with nulls (C97).
* t tests: fewer than two finite values panic; Student's test uses the first column's count for both;
  unknown alternative words silently mean two-sided (C98).  Linear and midpoint winsorizing are not
  idempotent (C99).
* normal_test loses the sign of the cube root for very flat samples, and panics on columns without a
  finite value (C105).  Explained variances divide by the number of singular values minus one; centering
  happens before rows with nulls are dropped; pca panics with fewer rows than features (C106).
* Pipelines: with lower-cased names the input check refuses the training frame and the target is not
  protected; `one_hot_encode` drops the target it did not encode; `cast_bools`, `nan_to_null`,
  `int_to_float` and `conditional_impute` can change the target; renames that swap or chain lose columns
  (C100).  (read) `Blueprint.select` with names raises ValueError.
* Transforms: an all-null training column makes impute fail and constant columns scale to NaN and
  infinities (C101); (read) impute by mode calls `.list.first()` on a column that is not a list.  New
  one-hot names can clash or overwrite existing columns, and text columns with one category are not
  encoded (C102).  Polynomial names with "*" can clash; the Blueprint and the function have different
  defaults for interaction_only (C103).  `linear_impute` counts null features as 0 (C104).
* lin_reg_report: r2 divides by the sample variance times n and so exceeds the coefficient of determination
  by (1 - R2)/n; adj_r2 is too small with a bias; skipped rows enter r2; weights with skipped rows panic;
  so does a report with no more used rows than coefficients (C107, through C124).  lin_reg_w_rcond cuts by the square of the singular value, so rescaling the data changes what is
  dropped; with a penalty it does not return the singular values of the features; the floor of the cut-off
  counts matrix elements (C108).
* simple_lin_reg with nulls: a null target leaves its feature in the denominator, means are taken over
  different rows, weights of unused rows count (C109).
* LR.bias() and OnlineLR.bias() return None; a bias up to the machine epsilon is dropped; is_fit() of a fresh
  object with has_bias panics; a fit_df that raises has already replaced the feature names; fit_df (or
  set_input_features) on the object's own name list empties it; predict_df counts nulls as 0 and leaves out
  coefficients without a name; an OnlineLR with a bias cannot be restored from its own values, and the
  inverse that is accepted makes every update panic;
  from_values drops a NaN bias (C110).

Data inspection
* C113: `infer_discrete` leaves out boolean and categorical columns (they are excluded from the check and never added
  back) and joins its two conditions by "or"; `infer_k_distinct`/`infer_binary`/`infer_const` count null as a value;
  `infer_prob` takes `.row(0)` of a frame with one row per list, so only the first list is checked, and raises on frames
  without float columns; `row_validation(all_reasons=True)` lists rules that are null; `col_validation` with two rules on
  one column raises (`name.keep()`); `infer_high_null` uses >=; lists returned by lru_cached methods are shared.
* C114: `infer_dependency` on a frame without discrete columns takes `.row(0)` of an empty selection and raises.
* C115 (numeric_profile): the histogram lists only non-empty bins, so the bars' positions are not the bins' positions; one infinite value (or a constant column) collapses the histogram into a single bar, because min and max include infinities while the filter drops them only afterwards; `cuts[-1] += 1e-5` moves the start of the last bin, not the end of the range; `n_bins=0` raises.

* C116 (strings): `filter_by_hamming` never passes `pad` on; `filter_by_levenshtein` takes abs(bound); `similar_to_vocab` with "jw" raises TypeError and with "avg" reports null strings as not similar; `str_lcs_seq` by default asks for "pl_lcs_seq_sim", which the plugin does not export (it exports "pl_lcs_sim"); OSA violates the triangle inequality ("ca", "ac", "abc").
* C117 (expr_knn.py): `within_dist_from(dist="l2")` compares the squared distance with r; null features count as no difference (sum_horizontal), so a row of nulls is at distance 0; a point without `len` is zipped without a check; `is_knn_from(k=0)` is null everywhere; `query_radius_freq_cnt` and `query_knn_freq_cnt` count the row itself, contrary to their docstrings ("other points").

- **C119** `normal.rs` `erf_impl`: the additive constants (0.3440242112 and twelve more) are the decimal spelling of
  single-precision literals in the reference (Boost writes `0.3440242112f`, i.e. 0.344024211168289...), used here in
  double precision. Each arm is therefore off by up to 1e-10 relative instead of 1e-17, and at the switch points
  z = 0.5, 2.25, 5.25, 17, 38 and 60 the tail jumps *up*: a larger statistic gets a larger p-value
  (`C119_monotone_refuted`, at 0.7071 standard deviations, by more than 2e-11).

Read only, not modelled
* The Rust `LR::from_values` (not reachable from Python) drops the bias; `OnlineLR.fit` does not reshape a
  1-d target as documented; `OnlineLR.update` fails for an int target; `np.nan_to_num` in the null policies
  also replaces infinities by huge numbers.
* `pl_fuzz` is declared UInt32 but returns Float64;
  `str_tokenize(stem=True)` is not unique; "inf" and "nan" stem to ""; `pl_rand_str` is declared Float64.
* C121: `checked_gamma_lr` returns 0 for arguments below about 1.1e-15, so the p-value of a tiny statistic with one
  degree of freedom is exactly 1 although the tail is smaller by more than 3e-8 (the tail falls like the square root).
* C122: `digamma` returns minus infinity for negative non-integers within 4 ulps above an integer (the continuation is
  large but finite there), and minus infinity (not NaN) at the poles themselves.
* C123: `beta_reg` gives no sign when its 140 rounds end without meeting the stop test. A numerical trial (not a proof)
  with 10^6 and 10^6 degrees of freedom gives an F tail wrong in the third digit.

## 6. Axioms per theorem

* No axiom ("Closed under the global context") (254 theorems):
  C100_batches, C100_casing, C100_ensure_in, C100_ensure_in_cased_refuted, C100_fit_transform, C100_json,
  C100_json_old, C100_output_columns, C100_rename, C100_rename_refuted, C100_rowwise, C100_separate,
  C100_target_dropped_refuted, C100_target_kept, C101_conditional, C101_conditional_rowwise, C102_names,
  C103_each_once, C106_centering_partial, C106_centering_refuted, C106_components, C106_components_other,
  C106_explained, C106_explained_partial, C106_explained_refuted, C106_few_rows_refuted, C106_pca, C106_ratio,
  C106_values, C106_variance_ratio, C107_adj_refuted, C107_no_freedom_refuted, C107_r2_partial, C107_r2_refuted, C107_r2_skip_refuted,
  C107_sensitivity, C107_standard_errors, C107_tests, C107_weighted, C107_weighted_ones, C107_weighted_scale,
  C107_weighted_skip_refuted, C107_weighted_tests, C108_all_cut, C108_cutoff_refuted, C108_floor_refuted,
  C108_full, C108_rank, C108_truncated_partial, C108_values_refuted, C109_line_partial,
  C109_null_means_refuted, C109_null_target_refuted, C109_null_weights_refuted, C109_origin_partial,
  C109_pred, C109_residuals, C109_same_as_lin_reg, C10_split_offsets_partition, C110_bias_refuted,
  C110_elastic_net_one_row, C110_failed_fit_df_names, C110_failed_fit_df_refuted, C110_few_rows, C110_fit,
  C110_fit_df, C110_fresh_partial, C110_fresh_refuted, C110_history, C110_names_refuted,
  C110_nan_bias_refuted, C110_own_names_refuted, C110_predict, C110_predict_df, C110_predict_null_refuted,
  C110_raise, C110_restore_panic_refuted, C110_restore_partial, C110_restore_refuted, C110_same_as_expression,
  C110_small_bias_refuted, C110_values, C113_binary_refuted, C113_cache_partial, C113_cache_refuted,
  C113_col_validation_partial, C113_col_validation_refuted, C113_const_binary, C113_discrete_partial,
  C113_discrete_refuted, C113_high_null, C113_high_null_refuted, C113_k_distinct_any, C113_k_distinct_partial,
  C113_prob_found, C113_prob_partial, C113_prob_refuted, C113_reasons_partial, C113_reasons_refuted,
  C113_row_names, C113_row_validation, C113_types, C115_no_bins_refuted, C115_special,
  C116_filter_hamming_partial, C116_filter_levenshtein, C116_hamming, C116_lcs_missing_refuted, C116_metrics,
  C116_negative_bound_refuted, C116_order, C116_osa, C116_osa_metric_refuted, C116_pad_refuted, C14_class_fit,
  C14_least_squares, C14_raise, C14_ridge_always, C14_weighted, C15_recursive, C15_short_panics,
  C16_long_window_panics, C16_null_gap_refuted, C16_poisoned, C16_refuted, C16_ridge, C16_rolling_partial,
  C16_square_window, C17_downdate_restores, C17_history, C18_aligned, C19_own_row_partial, C19_refuted,
  C19_wrong_row, C20_converges, C20_fixed_point_optimal, C20_more_iterations, C20_sweep_descends,
  C20_zero_column_refuted, C21_numerator_bounded, C24_idempotent, C24_unweighted_fit, C24_weighted_fit,
  C25_mixed_top_too_small, C25_no_negatives_nan, C25_no_positives_nan, C25_rank_probability_partial,
  C25_roc_auc_exact, C25_roc_curve, C25_tied_top_refuted, C26_confusion_counts, C26_counts_total,
  C26_mcc_partial, C26_mcc_wraps_refuted, C27_count_null_refuted, C27_jaccard_partial, C27_null_slot_refuted,
  C28_bins_partition, C28_psi_refuted, C31_lempel_ziv, C33_first_digits_float_partial,
  C33_first_digits_partial, C33_null_refuted, C34_combinations, C34_product, C34_unique_combinations,
  C35_affine_exact, C35_concatenation, C35_length_mismatch, C35_reversal, C35_single_point_refuted,
  C35_trapezoids_partial, C35_uniform_spacing, C37_cards_exist, C38_shape, C38_stopword, C39_nearest,
  C39_null_refuted, C40_map_words, C40_map_words_words, C40_normalize_idempotent, C40_normalize_whitespace,
  C40_remove_diacritics, C40_remove_diacritics_idempotent, C40_remove_non_ascii,
  C40_remove_non_ascii_idempotent, C40_words, C41_chunks, C41_null_scalar_refuted, C41_nulls, C41_parallel,
  C41_rows, C41_shape_error, C42_removed, C42_short_words, C42_stem_total, C43_f_test_anova,
  C43_null_group_refuted, C43_null_value_refuted, C44_chi2_pearson, C44_degrees_of_freedom,
  C44_expected_frequencies, C44_null_gives_nan, C44_null_refuted, C44_symmetric, C45_random_int_expr_range,
  C45_random_int_range, C45_random_str_sizes, C55_random_binomial_refuted, C56_average_precision_exact,
  C56_average_precision_refuted, C56_high_threshold_refuted, C56_threshold_metrics, C57_list_jaccard,
  C57_list_jaccard_length, C65_ignore_length_refuted, C66_bias_penalised_refuted, C66_recursive_is_lin_reg,
  C67_refuted, C67_update_weight, C68_bias_early_stop_refuted, C68_first_sweep_stops, C69_multi_rejects,
  C69_multi_target, C73_rows, C73_volume_neutral, C75_enough_columns_refuted, C75_every_choice,
  C75_never_selected_refuted, C75_random_cols, C76_apply, C76_distinct_names, C76_null_lost_refuted,
  C76_parts, C76_rows_lost_refuted, C81_rejects, C84_absent_class, C84_gini_one_class, C84_gini_partial,
  C84_macro_partial, C84_weighted_partial, C85_all_streaks_refuted, C85_longest, C88_count_uniques,
  C88_count_uniques_refuted, C94_gcd_columns, C94_gcd_integer, C94_gcd_min_refuted, C94_lcm_columns,
  C94_lcm_integer, C94_lcm_overflow_refuted, C94_one_row_refuted, C94_refused, C98_alternative
* `sig_forall_dec` (11 theorems):
  C100_target_cased_refuted, C100_target_cast_refuted, C102_clash_refuted, C102_constant_refuted,
  C102_one_hot, C102_one_per_row, C102_overwrite_refuted, C102_rank_hot, C102_rank_refused, C102_rowwise,
  C104_linear_null_refuted
* `sig_forall_dec`, `functional_extensionality_dep` (117 theorems):
  C101_abs_max, C101_center, C101_impute, C101_impute_mean_kept, C101_impute_null_refuted,
  C101_levels_refused, C101_min_max, C101_robust, C101_winsorize, C103_clash_refuted, C103_products,
  C103_refused, C103_special_products, C104_default, C104_in_pipelines, C104_linear_impute, C104_no_text_refused, C115_bins_partial,
  C115_empty_bins_refuted, C115_histogram, C115_last_edge_refuted, C115_one_bin_refuted, C115_outliers,
  C116_lcs, C116_similarities, C116_vocab, C116_vocab_refuted, C116_vocab_rows, C123_f_rounds_even,
  C123_f_rounds_one, C37_dice_jaccard, C37_empty_refuted, C37_one_iff, C37_range, C37_self,
  C37_set_similarities, C37_symmetric, C37_tversky_dice, C37_tversky_jaccard, C37_zero_ngram,
  C60_frequency_mean, C60_frequency_var, C60_mean_between, C60_null_refuted, C61_weighted_hmean_normalized,
  C61_weighted_hmean_refuted, C61_weighted_hmean_value, C62_weighted_cov, C64_xi_le_1, C64_xi_untied,
  C77_adj_null_refuted, C77_adj_r2, C77_adj_r2_saturated, C77_adj_textbook_refuted,
  C77_more_variables_than_rows_refuted, C77_null_pred_refuted, C77_r2, C77_r2_affine, C77_r2_constant,
  C78_mad, C78_null_pred_refuted, C79_mape, C79_mape_zero_actual, C79_smape, C79_smape_range_refuted,
  C79_smape_zero_rows, C79_wmape, C81_mase, C81_naive_forecast, C81_precomputed, C81_scale_free,
  C82_empty_group, C82_fairness, C82_fairness_swap, C82_no_positive_refuted, C82_p_pct_score, C85_average,
  C86_c3, C86_c3_no_triples, C86_c3_nulls_refuted, C86_mean_abs_change, C86_net_change, C86_time_reversal,
  C87_auto_corr, C87_lag_zero, C87_not_normalized, C87_nulls_refuted, C87_range_refuted, C88_mean_n_abs_max,
  C88_mid_range, C88_mid_range_empty, C88_mid_range_refuted, C88_range_count, C88_symm_ratio,
  C96_fract_integers, C96_fract_null_refuted, C96_trunc_fract, C97_center, C97_detrend, C97_detrend_line,
  C97_detrend_mean, C97_detrend_nulls_refuted, C97_monotone, C97_monotone_null_refuted, C97_monotone_nulls,
  C97_norms, C97_norms_normalized, C97_norms_null_row, C98_p_values, C99_affine, C99_counts, C99_idempotent,
  C99_linear_refuted, C99_no_values, C99_quantile, C99_refused, C99_winsorize
* `sig_forall_dec`, `sig_not_dec`, `functional_extensionality_dep` (56 theorems):
  C101_constant_refuted, C101_in_pipelines, C101_special_values, C101_standard, C104_target_encode, C115_null_corr, C115_phi,
  C118_mwu_no_spread, C118_symmetry, C118_xi_few_rows, C118_zero_sd, C13_mean_between_partial, C29_convolve,
  C29_convolve_error, C29_lengths, C30_invertible, C30_rfft, C30_rfft_null, C36_cosine_self_refuted,
  C36_cosine_self_value, C36_weighted_corr_refuted, C36_weighted_cosine, C63_bicor, C63_bicor_affine,
  C86_complexity, C86_complexity_normalized, C91_affine_query, C91_affine_series, C91_constant_query_refuted,
  C91_copy_found, C91_longer_query_refuted, C91_nulls, C91_ratio, C91_short_query, C91_sql2, C91_sqzl2,
  C92_no_target, C92_nulls_refuted, C92_range, C92_row_order, C92_shrink, C92_target_encode,
  C92_zero_smoothing_refuted, C97_z_normalize, C97_z_normalize_affine, C97_z_normalize_degenerate,
  C98_constant, C98_from_stats, C98_invariance, C98_not_finite, C98_one_sample, C98_row_order,
  C98_short_refuted, C98_student, C98_unequal_refuted, C98_welch
* `sig_forall_dec`, `sig_not_dec`, `classic`, `functional_extensionality_dep` (239 theorems):
  C01_sound_any_metric_partial, C01_within_exact, C02_within_count_exact, C03_knn_exact, C04_knn_epsilon,
  C05_bound_exclusive_partial, C05_bound_inclusive_refuted, C06_tree_contents, C07_order_independent,
  C08_nan_panics_refuted, C08_no_panic, C09_avg_expr_parallel, C09_count_expr_parallel, C09_kdtree_parallel,
  C09_knn_expr_parallel, C09_kth_expr_parallel, C09_radius_expr_parallel, C104_woe_encode, C105_flat,
  C105_order, C105_published_partial, C105_published_refuted, C105_scale, C105_skew, C105_small,
  C105_undefined, C111_copies, C111_digamma_step, C111_estimate_unique, C111_few_rows, C111_invalid,
  C111_knn_entropy, C111_null_rows, C111_null_rows_refuted, C111_parallel, C111_row_order, C112_cond_order,
  C112_cond_symmetric, C112_cond_value, C112_copula_order, C112_copula_value, C112_few_rows,
  C112_transfer_future, C112_transfer_invalid, C112_transfer_rows, C114_dependency, C114_direct,
  C114_none_refuted, C114_plot, C117_counts_itself_refuted, C117_is_knn, C117_is_knn_count,
  C117_is_knn_refuted, C117_knn_freq, C117_length, C117_length_refuted, C117_mutual, C117_null_refuted,
  C117_radius_freq, C117_within_l2_refuted, C117_within_partial, C118_absolute_error, C118_mwu_p_value,
  C118_range, C118_relative_error, C118_tail_defined, C118_xi_p_value, C119_almost_monotone,
  C119_monotone_refuted, C119_strict_between_cuts, C11_row_major_layout, C11_unequal_rejected,
  C120_gamma_defined, C120_gamma_unique, C120_ln_gamma, C121_chi2_body, C121_chi2_small, C121_chi2_upper,
  C121_edges, C121_normal_test_body, C121_normal_test_upper, C121_small_digits_refuted, C121_tail_defined,
  C121_two_degrees, C122_columns, C122_continuation, C122_defined, C122_edges, C122_negative, C122_positive,
  C122_recurrence, C123_euler, C123_f_error, C123_f_even, C123_f_partial, C123_f_tail_defined, C123_f_zero,
  C123_p_value, C123_square, C123_student, C123_student_domain, C123_student_reflect, C123_student_tail,
  C123_student_zero, C123_t_tail_defined, C123_t_tail_reflect, C124_domain, C124_ends, C124_inverse_edges, C124_inverse_mirror, C124_inverse_range,
  C124_ln_beta, C124_median, C124_newton_slope, C124_no_freedom_refuted, C124_odd, C124_quantile_partial,
  C124_report, C124_residual, C124_rounds_end, C124_start, C12_knn_shape, C13_knn_avg_mean,
  C13_mean_outside_refuted, C21_kendall_tau_b, C21_order_invariant, C22_ks_binary_supremum, C22_ks_supremum,
  C22_thirty_values_refuted, C23_p_in_unit_interval, C23_tie_term_refuted, C23_u_statistic_partial,
  C24_debug_panics_refuted, C24_f64_monotone, C24_invalid_rejected, C28_psi_above_panics, C28_psi_partial,
  C28_psi_self, C28_psi_w_breakpoints, C28_total_nonneg, C32_degenerate, C32_long_series_refuted,
  C32_null_radius, C32_sample_entropy_partial, C32_tiny_radius_refuted, C45_perturb_positive_refuted,
  C45_perturb_within_epsilon, C45_perturb_zero_refuted, C45_random_null_only_nulls, C45_random_null_total,
  C46_radius_zero_refuted, C46_rejected_queries_empty, C47_length_one_radius_refuted,
  C48_width_unchecked_refuted, C49_knn_ptwise_exact, C49_knn_ptwise_ids, C50_radius_ptwise_exact,
  C51_nb_cnt_exact, C51_null_radius_refuted, C52_kth_distance_exact, C53_inf_nan_neighbour_refuted,
  C53_never_neighbour_partial, C54_empty_frame_panic_refuted, C54_no_candidates_panic_refuted,
  C58_null_refuted, C58_psi_discrete_partial, C58_self_partial, C58_total_nonneg,
  C59_approximate_entropy_partial, C59_null_radius_refuted, C61_means_order, C61_weighted_order,
  C70_every_subset, C70_sample, C70_sample_rejects, C71_small_frame_refuted, C71_train_test,
  C72_702010_refuted, C72_all_rows_refuted, C72_rejects, C72_split, C72_split_any_sum, C74_downsample,
  C74_equivalence_refuted, C74_null_rows_refuted, C74_rejects, C78_losses, C78_msle, C78_sums, C80_base_rate,
  C80_certain_and_wrong, C80_cross_entropy, C80_label_out_of_range, C80_log_loss, C80_two_classes,
  C83_group_column_refuted, C83_groups, C83_k_zero, C83_no_ties, C83_perfect, C83_range,
  C83_tie_order_refuted, C83_ties, C83_value, C89_cond_entropy, C89_entropy, C89_entropy_rename,
  C89_not_normalized, C90_monotone, C90_past_end_refuted, C90_permutation_entropy, C90_rejects,
  C90_tau_refuted, C92_weight, C93_binned, C93_binned_refuted, C93_independent_refuted, C93_iv, C93_iv_sum,
  C93_swap, C93_woe, C95_columns, C95_first_scalar, C95_fixed_point, C95_metric, C95_null_scalar_refuted,
  C95_places, C96_columns, C96_exp2, C96_expit, C96_inverse, C96_logit, C96_sinc, C96_xlogy,
  C96_xlogy_columns, C96_xlogy_infinite, C97_softmax, C97_softmax_range_refuted, C97_softmax_shift
