(** Theorems about set similarity, stability indices, complexity and entropy features, first digits and
    combinations (C27, C28, C31-C34, C57-C59). *)
From Coq Require Import Bool List Arith ZArith QArith Reals Permutation Sorted Ascii.
From Verif Require Import Num F64 KdModel KdSpec KdProofs PyKdModel PyKdSpec KdDemo KnnExprModel KnnExprSpec KnnExprPropsLemmas PairSums RocModel RocSpec
  JaccModel JaccSpec PsiModel PsiSpec LzModel LzSpec DigitModel DigitSpec CombModel CombSpec EntropyModel EntropySpec
  JaccProofs PsiProofs CombProofs Num2PropsLemmas.
Import ListNotations.
Open Scope Z_scope.

(** C27.  For all columns without nulls, [jaccard_col] is |A ∩ B| / |A ∪ B| (NaN for two empty columns), lies in
    [0, 1], and is 1 exactly for equal sets. *)
Theorem C27_jaccard_partial : forall K (dec : forall a b : K, {a = b} + {a <> b}) cn (c1 c2 : list (bool * K)),
  has_nulls c1 = false -> has_nulls c2 = false ->
  is_jaccard (elements cn (logical c1)) (elements cn (logical c2)) (jaccard_col dec cn c1 c2) /\
  (forall q, jaccard_col dec cn c1 c2 = Some q ->
     (0 <= q <= 1)%Q /\ (q == 1 <-> (forall x, elements cn (logical c1) x <-> elements cn (logical c2) x))%Q).
Proof. exact @jaccard_col_full. Qed.
Print Assumptions C27_jaccard_partial.
Example C27_case : has_nulls jac_a = false /\ has_nulls jac_b = false /\
  match jaccard_col Z.eq_dec false jac_a jac_b with Some q => Qeq_bool q (1 # 2) | None => false end = true.
Proof. exact jac_case. Qed.
(** With nulls the property fails: the physical value of a null slot is taken for an element ... *)
Theorem C27_null_slot_refuted : (exists q, jaccard_col Z.eq_dec false jac_na jac_nb = Some q /\ (q == 1 # 2)%Q) /\
  ~ is_jaccard (elements false (logical jac_na)) (elements false (logical jac_nb)) (jaccard_col Z.eq_dec false jac_na jac_nb).
Proof. exact jac_null_slot. Qed.
Print Assumptions C27_null_slot_refuted.
(** ... and with [count_null] the null is counted on top of it. *)
Theorem C27_count_null_refuted : (exists q, jaccard_col Z.eq_dec true jac_ca jac_cb = Some q /\ (q == 1)%Q) /\
  ~ is_jaccard (elements true (logical jac_ca)) (elements true (logical jac_cb)) (jaccard_col Z.eq_dec true jac_ca jac_cb).
Proof. exact jac_count_null. Qed.
Print Assumptions C27_count_null_refuted.

(** C57.  [jaccard_row]: every pair of lists gives the Jaccard similarity of its elements (a null item is an element
    like any other), a null list gives null. *)
Theorem C57_list_jaccard : forall K (dec : forall a b : K, {a = b} + {a <> b}) (a b : list (option (list (option K)))) i x y,
  nth_error a i = Some x -> nth_error b i = Some y ->
  exists v, nth_error (list_jaccard dec a b) i = Some v /\
    match x, y with
    | Some l, Some r => exists q, v = Some q /\ is_jaccard (fun e => In e l) (fun e => In e r) q
    | _, _ => v = None
    end.
Proof. exact @list_jaccard_ok. Qed.
Print Assumptions C57_list_jaccard.
Theorem C57_list_jaccard_length : forall K (dec : forall a b : K, {a = b} + {a <> b}) (a b : list (option (list (option K)))),
  length a = length b -> length (list_jaccard dec a b) = length a.
Proof. exact @list_jaccard_length. Qed.
Print Assumptions C57_list_jaccard_length.
Example C57_case : length lj_a = length lj_b /\
  list_jaccard Z.eq_dec lj_a lj_b = [Some (Some (1 # 2)%Q); None; Some (Some (1 # 2)%Q)].
Proof. exact lj_case. Qed.

(** C28.  [psi_w_breakpoints]: for all non-empty data and ascending breakpoints the report has one row per
    right-closed bin with the two shares (not below 0.0001) and its contribution. *)
Theorem C28_psi_w_breakpoints : forall K (leb : K -> K -> bool), total_order leb -> forall inf bps base new,
  (forall x, leb x inf = true) -> ascending leb (bps ++ [inf]) ->
  base <> [] -> new <> [] -> zlen base < 2 ^ 32 -> zlen new < 2 ^ 32 ->
  exists rep, psi_w_breakpoints leb inf base new bps = Some rep /\ report_rows leb (bps ++ [inf]) base new rep.
Proof. exact @psi_w_breakpoints_ok. Qed.
Print Assumptions C28_psi_w_breakpoints.
(** The bins partition the data. *)
Theorem C28_bins_partition : forall K (leb : K -> K -> bool), total_order leb -> forall bp s, ascending leb bp ->
  (forall x, In x s -> exists b, In b bp /\ leb x b = true) -> zsum (bin_count leb bp s) (seq 0 (length bp)) = zlen s.
Proof. exact @bins_total. Qed.
Print Assumptions C28_bins_partition.
(** The index of every report is at least 0, and 0 exactly when all shares agree. *)
Theorem C28_total_nonneg : forall K (leb : K -> K -> bool) bp base new rep, report_rows leb bp base new rep ->
  exists t, psi_total rep = Some t /\ (0 <= t)%R /\
    (t = 0%R <-> forall j, (j < length bp)%nat -> share (bin_count leb bp base j) (zlen base) = share (bin_count leb bp new j) (zlen new)).
Proof. exact @report_total. Qed.
Print Assumptions C28_total_nonneg.
Example C28_case : ascending zinf_leb (psi_bps ++ [None]) /\ psi_base <> [] /\ psi_new <> [] /\ zlen psi_base < 2 ^ 32 /\ zlen psi_new < 2 ^ 32 /\
  map (bin_count zinf_leb (psi_bps ++ [None]) psi_base) (seq 0 3) = [2; 2; 2] /\
  map (bin_count zinf_leb (psi_bps ++ [None]) psi_new) (seq 0 3) = [2; 0; 2].
Proof. exact psi_case. Qed.
Example C28_case_order : total_order zinf_leb /\ forall x, zinf_leb x None = true.
Proof. exact (conj zinf_total zinf_top). Qed.
(** [psi] (breakpoints learned from the reference column): the same report, provided that every new value is at most
    the largest learned breakpoint. *)
Theorem C28_psi_partial : forall K (leb : K -> K -> bool), total_order leb -> forall inf qs ref,
  StronglySorted (fun a b => leb a b = true) qs -> (forall x, leb x inf = true) -> forall new,
  new <> [] -> ref <> [] -> zlen new < 2 ^ 32 ->
  (forall x, In x new -> exists b, In b (psi_brk leb inf qs ref) /\ leb x b = true) ->
  exists rep, psi leb inf qs new ref = Some rep /\ report_rows leb (psi_brk leb inf qs ref) ref new rep.
Proof. exact @psi_ok. Qed.
Print Assumptions C28_psi_partial.
Theorem C28_psi_self : forall K (leb : K -> K -> bool), total_order leb -> forall inf qs ref,
  StronglySorted (fun a b => leb a b = true) qs -> (forall x, leb x inf = true) -> ref <> [] -> zlen ref < 2 ^ 32 ->
  exists rep, psi leb inf qs ref ref = Some rep /\ psi_total rep = Some 0%R.
Proof. exact @psi_self. Qed.
Print Assumptions C28_psi_self.
Example C28_learned_case : StronglySorted (fun a b => zinf_leb a b = true) psi_bps /\
  psi_brk zinf_leb None psi_bps psi_base = [Some 2; Some 4; None] /\
  forall x, In x psi_new -> exists b, In b (psi_brk zinf_leb None psi_bps psi_base) /\ zinf_leb x b = true.
Proof. exact psi_learned_case. Qed.
(** Otherwise it panics (index out of bounds), e.g. for a constant reference column and a larger new value. *)
Theorem C28_psi_above_panics : forall K (leb : K -> K -> bool), total_order leb -> forall inf qs ref new,
  (exists x, In x new /\ forall b, In b (psi_brk leb inf qs ref) -> leb x b = false) -> psi leb inf qs new ref = None.
Proof. exact @psi_panics. Qed.
Print Assumptions C28_psi_above_panics.
Theorem C28_psi_refuted : psi zinf_leb None (map Some [1; 1; 1]) [Some 2] (map Some [1; 1; 1]) = None.
Proof. exact psi_gap. Qed.
Print Assumptions C28_psi_refuted.

(** C58.  [psi_discrete]: one row per category found on either side, provided that null is not a category of both. *)
Theorem C58_psi_discrete_partial : forall K (dec : forall a b : K, {a = b} + {a <> b}) (od : forall a b : option K, {a = b} + {a <> b}) (base new : list (option K)),
  new <> [] -> base <> [] -> ~ (In None new /\ In None base) -> category_report od base new (psi_discrete dec new base).
Proof. exact @discrete_full. Qed.
Print Assumptions C58_psi_discrete_partial.
Theorem C58_total_nonneg : forall K (od : forall a b : option K, {a = b} + {a <> b}) (base new : list (option K)) rep, category_report od base new rep ->
  exists t, psi_total rep = Some t /\ (0 <= t)%R /\
    (t = 0%R <-> forall c, In c base \/ In c new ->
       share (Z.of_nat (count_occ od base c)) (zlen base) = share (Z.of_nat (count_occ od new c)) (zlen new)).
Proof. exact @discrete_total. Qed.
Print Assumptions C58_total_nonneg.
Theorem C58_self_partial : forall K (dec : forall a b : K, {a = b} + {a <> b}) (x : list (option K)), x <> [] -> ~ In None x ->
  psi_total (psi_discrete dec x x) = Some 0%R.
Proof. exact @discrete_self. Qed.
Print Assumptions C58_self_partial.
Example C58_case : pd_new <> [] /\ pd_base <> [] /\ ~ (In None pd_new /\ In None pd_base) /\ length (psi_discrete Z.eq_dec pd_new pd_base) = 4%nat.
Proof. exact pd_case. Qed.
(** With null on both sides the two null groups are not matched by the join: identical data get a positive index. *)
Theorem C58_null_refuted : exists t, psi_total (psi_discrete Z.eq_dec pd_null pd_null) = Some t /\ (0 < t)%R.
Proof. exact pd_null_positive. Qed.
Print Assumptions C58_null_refuted.

(** C31.  For every boolean column, [query_lempel_ziv] is the number of phrases of the (unique) incremental parse. *)
Theorem C31_lempel_ziv : forall bits, exists ps rest, lz_parse [] bits ps rest /\ (forall ps' rest', lz_parse [] bits ps' rest' -> ps' = ps) /\
  bits = concat ps ++ rest /\ NoDup ps /\ lempel_ziv (map Some bits) = Some (length ps) /\ (bits <> [] -> (1 <= length ps <= length bits)%nat).
Proof. exact lz_full. Qed.
Print Assumptions C31_lempel_ziv.
Example C31_case : lempel_ziv (map Some [true; false; false; true; false; true; true; false; true; true]) = Some 4%nat.
Proof. exact lz_case. Qed.

(** C33.  For every integer column without nulls (fewer than 2^32 rows) entry [d] counts the values whose leading
    decimal digit is [d], and the entries add up to the number of non-zero values. *)
Theorem C33_first_digits_partial : forall vals : list Z, zlen vals < 2 ^ 32 ->
  exists out, first_digit_cnt (map (fun v => (true, v)) vals) = Some out /\ length out = 9%nat /\
    (forall d (p : Z -> bool), 1 <= d <= 9 -> (forall v, p v = true <-> leading d v) ->
       nth_error out (Z.to_nat (d - 1)) = Some (zlen (filter p vals))) /\
    zsum (fun x => x) out = zlen (filter (fun v => negb (v =? 0)) vals).
Proof. exact digits_int. Qed.
Print Assumptions C33_first_digits_partial.
(** Float columns: the same for the decimal texts of the finite values. *)
Theorem C33_first_digits_float_partial : forall vals : list (option (list ascii)), zlen vals < 2 ^ 32 ->
  (forall t, In (Some t) vals -> exists q, denotes t q) ->
  exists out, first_digit_cnt_text (map (fun v => (true, v)) vals) = Some out /\ length out = 9%nat /\
    (forall d (p : list ascii -> bool), 1 <= d <= 9 -> (forall t q, denotes t q -> (p t = true <-> leading_q d q)) ->
       nth_error out (Z.to_nat (d - 1)) = Some (zlen (filter p (drop_nulls vals)))).
Proof. exact digits_text. Qed.
Print Assumptions C33_first_digits_float_partial.
Example C33_case : first_digit_cnt (map (fun v => (true, v)) [123; -19; 0; 7; 999; 10]) = Some [3; 0; 0; 0; 0; 0; 1; 0; 1].
Proof. exact digits_case. Qed.
Example C33_float_case : denotes ["0"; "."; "0"; "2"; "5"]%char (inject_Z 25 * Qpower 10 (- 3)) /\
  first_digit_cnt_text (map (fun v => (true, v)) [Some ["0"; "."; "0"; "2"; "5"]%char; None; Some ["1"; "2"]%char]) = Some [1; 1; 0; 0; 0; 0; 0; 0; 0].
Proof. exact text_case. Qed.
(** A null whose slot holds 5 is counted under digit 5. *)
Theorem C33_null_refuted : first_digit_cnt [(false, 5); (true, 7)] = Some [0; 0; 0; 0; 1; 0; 1; 0; 0].
Proof. exact digits_null. Qed.
Print Assumptions C33_null_refuted.

(** C34.  For every column and k: fewer than k values is an error; otherwise the output lists the values at every
    increasing selection of k positions, each selection once, in lexicographic order, C(n, k) rows in total. *)
Theorem C34_combinations : forall A (leb : A -> A -> bool) col k unique,
  let s := source leb unique col in
  ((length s < k)%nat -> combinations leb col k unique = None) /\
  ((k <= length s)%nat -> exists out idxs, combinations leb col k unique = Some out /\
     map (map Some) out = map (pick s) idxs /\
     (forall idx, In idx idxs <-> selection (length s) k idx) /\ StronglySorted lex_lt idxs /\ NoDup idxs /\
     length out = binom (length s) k /\ count_combinations (length s) k = length out).
Proof. exact @combinations_ok. Qed.
Print Assumptions C34_combinations.
(** With [unique=True] these are exactly the ascending k-element lists of distinct column values, each once. *)
Theorem C34_unique_combinations : forall A (leb : A -> A -> bool), total_order leb -> forall col k out,
  combinations leb col k true = Some out ->
  NoDup out /\ forall c, In c out <->
    length c = k /\ StronglySorted (fun a b => leb a b = true /\ leb b a = false) c /\ (forall x, In x c -> In (Some x) col).
Proof. exact @combinations_unique_ok. Qed.
Print Assumptions C34_unique_combinations.
(** [product]: pair (i, j) of the non-null values stands at row i * m + j, and there are n * m rows. *)
Theorem C34_product : forall A (c1 c2 : list (option A)),
  let a := drop_nulls c1 in let b := drop_nulls c2 in
  length (product c1 c2) = (length a * length b)%nat /\
  forall i j x y, nth_error a i = Some x -> nth_error b j = Some y -> nth_error (product c1 c2) (i * length b + j) = Some [x; y].
Proof. exact @product_ok. Qed.
Print Assumptions C34_product.
Example C34_case : combinations Z.leb [Some 3; None; Some 1; Some 3; Some 2] 2 true = Some [[1; 2]; [1; 3]; [2; 3]] /\
  combinations Z.leb [Some 3; None; Some 1; Some 3] 2 false = Some [[3; 1]; [3; 3]; [1; 3]] /\
  product [Some 1; None; Some 2] [Some 5; Some 6] = [[1; 5]; [1; 6]; [2; 5]; [2; 6]].
Proof. exact comb_case. Qed.

Open Scope nat_scope.
(** C32.  For every finite f64 series of fewer than 2^16 values with at least 2m of them, every finite radius above
    the machine epsilon, every thread interleaving and every processing order: sample entropy is ln(B/A) with B, A
    the numbers of ordered pairs of distinct templates of length m and m+1 within r. *)
Theorem C32_sample_entropy_partial : forall (lib : SplitLib f64_ops unit) order (ts : list f64) m r trace,
  lib_ok f64_ops unit lib -> (forall l, Permutation (order l) l) -> all_finite f64_ops ts -> 1 <= m -> 2 * m <= length ts ->
  nfinite f64_ops r = true -> nle f64_ops r (nadd f64_ops (nzero f64_ops) (neps f64_ops)) = false -> (Z.of_nat (length ts) < 2 ^ 16)%Z ->
  interleaving (all_writes f64_ops (length (lag_columns f64_ops (map Some ts) m)) 0 (lag_columns f64_ops (map Some ts) m)) trace ->
  sample_entropy f64_ops lib order (map Some ts) m (Some r) trace =
  Ok (Some (matches f64_ops ts m (length ts + 1 - m) r, matches f64_ops ts (m + 1) (length ts - m) r)).
Proof. exact sampen. Qed.
Print Assumptions C32_sample_entropy_partial.
Example C32_case : all_finite f64_ops se_ts /\ 2 * 2 <= length se_ts /\ nfinite f64_ops (fi 1) = true /\
  nle f64_ops (fi 1) (nadd f64_ops (nzero f64_ops) (neps f64_ops)) = false /\
  matches f64_ops se_ts 2 5 (fi 1) = 16%Z /\ matches f64_ops se_ts 3 4 (fi 1) = 8%Z.
Proof. exact se_case. Qed.
(** A positive radius not above the machine epsilon: the result is ln(rows / (rows - 1)) whatever the data. *)
Theorem C32_tiny_radius_refuted : forall (lib : SplitLib f64_ops unit) order (ts : list f64) m r trace,
  lib_ok f64_ops unit lib -> (forall l, Permutation (order l) l) -> all_finite f64_ops ts -> 1 <= m -> 2 * m <= length ts ->
  nfinite f64_ops r = true -> nle f64_ops r (nzero f64_ops) = false -> nle f64_ops r (nadd f64_ops (nzero f64_ops) (neps f64_ops)) = true ->
  interleaving (all_writes f64_ops (length (lag_columns f64_ops (map Some ts) m)) 0 (lag_columns f64_ops (map Some ts) m)) trace ->
  sample_entropy f64_ops lib order (map Some ts) m (Some r) trace =
  Ok (Some (- Z.of_nat (length ts + 1 - m), - Z.of_nat (length ts - m)))%Z.
Proof. exact sampen_tiny. Qed.
Print Assumptions C32_tiny_radius_refuted.
Example C32_tiny_case : nfinite f64_ops tiny = true /\ nle f64_ops tiny (nzero f64_ops) = false /\
  nle f64_ops tiny (nadd f64_ops (nzero f64_ops) (neps f64_ops)) = true.
Proof. exact tiny_case. Qed.
(** Long series: the u32 sum of the counts wraps. *)
Theorem C32_long_series_refuted : forall lib order trace, lib_ok f64_ops unit lib -> (forall l, Permutation (order l) l) ->
  interleaving (all_writes f64_ops (length (lag_columns f64_ops (map Some wrap_ts) 2)) 0 (lag_columns f64_ops (map Some wrap_ts) 2)) trace ->
  exists a, sample_entropy f64_ops lib order (map Some wrap_ts) 2 (Some (fi 1)) trace = Ok (Some (-65536, a))%Z /\
    matches f64_ops wrap_ts 2 (length wrap_ts + 1 - 2) (fi 1) = (65536 * 65535)%Z.
Proof. exact sampen_wraps. Qed.
Print Assumptions C32_long_series_refuted.

(** C59.  Approximate entropy is |phi(m+1) - phi(m)| over the match counts (self matches included), for every
    interleaving and processing order (counts exact, logarithms over the reals). *)
Theorem C59_approximate_entropy_partial : forall (lib : SplitLib f64_ops unit) order (ts : list f64) m r trace,
  lib_ok f64_ops unit lib -> (forall l, Permutation (order l) l) -> all_finite f64_ops ts -> 1 <= m -> 2 * m <= length ts ->
  nfinite f64_ops r = true -> nle f64_ops r (nadd f64_ops (nzero f64_ops) (neps f64_ops)) = false ->
  interleaving (all_writes f64_ops (length (lag_columns f64_ops (map Some ts) m)) 0 (lag_columns f64_ops (map Some ts) m)) trace ->
  exists p, approx_counts f64_ops lib order (map Some ts) m (Some r) trace = Ok (Some p) /\
    approx_value p = Rabs (phi_spec (near f64_ops ts (m + 1) (length ts - m) r) (length ts - m) -
                           phi_spec (near f64_ops ts m (length ts + 1 - m) r) (length ts + 1 - m)).
Proof. exact apen. Qed.
Print Assumptions C59_approximate_entropy_partial.
(** A null radius panics (filtering_level * std of a constant-length-one or null column). *)
Theorem C59_null_radius_refuted : forall (lib : SplitLib f64_ops unit) order (ts : list (option f64)) m trace,
  approx_counts f64_ops lib order ts m None trace = Panic.
Proof. exact (fun _ _ _ _ _ => eq_refl). Qed.
Print Assumptions C59_null_radius_refuted.
