(** Property C117: rows near a point, and how often a row is a neighbour.  Vocabulary: NearSpec.v; tables and cells: KnnExprSpec.v.
    [bottom_ok], [value_counts_ok]: what Polars' bottom_k and value_counts(sort=True) give. *)
From Coq Require Import List Bool Arith Permutation Reals Lra Lia.
From Verif Require Import HavSpec HavModel NearSpec NearModel NearProofs NearProofs2 NearDemo.
From Verif Require Import Num F64 KdModel KdSpec KdProofs PyKdModel PyKdSpec PyKdProofs KdDemo KdPropsLemmas KnnExprModel KnnExprSpec KnnExprProofs KnnExprSem KnnIds KnnExprPropsLemmas.
Import ListNotations.
Open Scope nat_scope.
Open Scope list_scope.

(** within_dist_from (all distances but "l2"): rows without nulls are true exactly when their distance from the point is at most the radius (the row's own, or the common one). *)
Theorem C117_within_partial : forall has_len d pt (rows : list (list R)) vs rs, d <> NL2 -> pt <> [] -> rows <> [] ->
  Forall2 (fun q v => length q = length pt /\ true_dist d pt q v) rows vs -> length rs = length rows ->
  within_dist_from has_len d pt (length pt) (map (map Some) rows) (RCol (map Num rs)) =
    Some (map (fun vr => Some (if Rle_dec (fst vr) (snd vr) then true else false)) (combine vs rs)) /\
  forall r, within_dist_from has_len d pt (length pt) (map (map Some) rows) (RNum r) =
    Some (map (fun v => Some (if Rle_dec v r then true else false)) vs).
Proof. exact within_ok. Qed.
Print Assumptions C117_within_partial.
(** "l2": the radius is compared with the squared distance, so rows in range are missed and rows out of range included. *)
Theorem C117_within_l2_refuted :
  (exists pt q r, true_dist NL2 pt q 2%R /\ (2 <= r)%R /\ within_dist_from true NL2 pt 1 [map Some q] (RNum r) = Some [Some false]) /\
  (exists pt q r, true_dist NL2 pt q (1 / 2)%R /\ (r < 1 / 2)%R /\ within_dist_from true NL2 pt 1 [map Some q] (RNum r) = Some [Some true]).
Proof. exact l2_cases. Qed.
Print Assumptions C117_within_l2_refuted.
(** Nulls count as no difference: a row of nulls is at distance 0 from every point, and is among its nearest rows. *)
Theorem C117_null_refuted : forall bottom_k, bottom_ok bottom_k -> forall x r, (0 <= r)%R ->
  within_dist_from true NL1 [x] 1 [[None]] (RNum r) = Some [Some true] /\ within_dist_from true NSQL2 [x] 1 [[None]] (RNum r) = Some [Some true] /\
  is_knn_from bottom_k true NSQL2 [x] 1 [[None]; [Some (x + 1)%R]] 1 = Some [Some true; Some false].
Proof. exact null_cases. Qed.
Print Assumptions C117_null_refuted.
(** A point of the wrong length is refused if it has a length; a generator is cut off or the features left over are ignored. *)
Theorem C117_length : forall bottom_k d pt n rows r k, length pt <> n ->
  within_dist_from true d pt n rows r = None /\ is_knn_from bottom_k true d pt n rows k = None.
Proof. exact refused_len. Qed.
Print Assumptions C117_length.
Theorem C117_length_refuted : exists pt row, length pt <> length row /\ within_dist_from false NL1 pt (length row) [map Some row] (RNum 0) = Some [Some true].
Proof. exists [1%R], [1%R; 5%R]. split; [discriminate|]. unfold within_dist_from. cbn. destruct (Rle_dec _ _) as [?|N]; [reflexivity|]. exfalso. apply N. replace (1 - 1)%R with 0%R by ring. rewrite Rabs_R0. lra. Qed.
Print Assumptions C117_length_refuted.
(** is_knn_from: for every distance, true exactly for the rows to which fewer than k rows are strictly nearer ... *)
Theorem C117_is_knn : forall bottom_k has_len d pt (rows : list (list R)) vs k, bottom_ok bottom_k -> pt <> [] -> rows <> [] -> 1 <= k ->
  Forall2 (fun q v => length q = length pt /\ true_dist d pt q v) rows vs ->
  is_knn_from bottom_k has_len d pt (length pt) (map (map Some) rows) k = Some (map (fun v => Some (closer vs v <? k)) vs).
Proof. exact knn_rank. Qed.
Print Assumptions C117_is_knn.
(** ... which are at least k (or all) rows, and exactly k when no two distances are equal. *)
Theorem C117_is_knn_count : forall bottom_k has_len d pt (rows : list (list R)) vs k out, bottom_ok bottom_k -> pt <> [] -> rows <> [] -> 1 <= k ->
  Forall2 (fun q v => length q = length pt /\ true_dist d pt q v) rows vs ->
  is_knn_from bottom_k has_len d pt (length pt) (map (map Some) rows) k = Some out ->
  Nat.min k (length rows) <= trues out /\ (NoDup vs -> trues out = Nat.min k (length rows)).
Proof. exact knn_count. Qed.
Print Assumptions C117_is_knn_count.
(** Ties give more than k rows; k = 0 gives a column of nulls instead of false. *)
Theorem C117_is_knn_refuted : forall bottom_k, bottom_ok bottom_k ->
  is_knn_from bottom_k true NL1 [0%R] 1 [[Some 1%R]; [Some (-1)%R]; [Some 3%R]] 1 = Some [Some true; Some true; Some false] /\
  forall has_len d pt n rows out, is_knn_from bottom_k has_len d pt n rows 0 = Some out -> forall o, In o out -> o = None.
Proof. exact (fun b H => conj (tie_case b H) (fun has_len d pt n rows out => knn_zero b has_len d pt n rows out H)). Qed.
Print Assumptions C117_is_knn_refuted.
Example C117_points : bottom_ok some_bottom /\ true_dist NL2 [0; 0]%R [3; 4]%R 5 /\ true_dist NL1 [0; 0]%R [3; -4]%R 7 /\ true_dist NINF [0; 0]%R [3; -4]%R 4.
Proof. exact (conj some_bottom_ok point_cases). Qed.

(** query_radius_freq_cnt: for every row the number of rows in whose ball it lies, descending; rows in no ball are left out. *)
Theorem C117_radius_freq : forall A (dec : forall a b : A, {a = b} + {a <> b}) vc (lib : SplitLib f64_ops A) sort_nb simd n ids cols trace h r par,
  value_counts_ok dec vc -> lib_ok f64_ops A lib -> sort_nb_ok f64_ops sort_nb ->
  table f64_ops h cols -> interleaving (all_writes f64_ops (length cols) 0 cols) trace ->
  length ids = h -> NoDup ids -> 0 < h -> scalar_metric n (length cols) -> Num.nle f64_ops r (nzero f64_ops) = false ->
  (n = Dinf -> Forall (fun p => no_nan f64_ops (snd p)) (id_rows f64_ops ids cols)) -> par_ok par ->
  exists times res, query_radius_freq_cnt f64_ops vc lib sort_nb simd n ids cols trace r par = PyKdModel.Ok res /\ tally times res /\
    (forall a, ~ In a ids -> times a = 0) /\
    forall j a, nth_error ids j = Some a -> times a = length (filter (fun i =>
      (finite_row f64_ops (row_at f64_ops cols i) && negb (Num.nle f64_ops r (nadd f64_ops (nzero f64_ops) (neps f64_ops)))) &&
      Num.nle f64_ops (spec_dist f64_ops (metric_of n) (row_at f64_ops cols j) (row_at f64_ops cols i)) r) (seq 0 h)).
Proof. exact (fun A => @radius_freq f64_ops f64_laws A). Qed.
Print Assumptions C117_radius_freq.
(** Being in range is mutual (for rows of finite numbers), so this is the number of rows in the row's own ball, query_nb_cnt (C51). *)
Theorem C117_mutual : forall m p q r, all_finite f64_ops p -> all_finite f64_ops q ->
  Num.nle f64_ops (spec_dist f64_ops m p q) r = Num.nle f64_ops (spec_dist f64_ops m q p) r.
Proof. exact (dist_sym f64_ops f64_laws). Qed.
Print Assumptions C117_mutual.
(** query_knn_freq_cnt: for every row the number of evaluated rows that have it among their k+1 nearest candidates. *)
Theorem C117_knn_freq : forall A (dec : forall a b : A, {a = b} + {a <> b}) vc (lib : SplitLib f64_ops A) simd n ids dm em cols trace h k eps maxb par,
  value_counts_ok dec vc -> lib_ok f64_ops A lib -> table f64_ops h cols -> interleaving (all_writes f64_ops (length cols) 0 cols) trace ->
  length ids = h -> NoDup ids -> mask_fits h em -> scalar_metric n (length cols) -> 1 <= k ->
  (n = Dinf -> Forall (fun p => no_nan f64_ops (snd p)) (candidates f64_ops ids dm cols)) -> candidates f64_ops ids dm cols <> [] -> par_ok par ->
  exists near res, query_knn_freq_cnt f64_ops vc lib simd n ids dm em cols trace k eps maxb par = PyKdModel.Ok res /\
    length near = h /\ (forall i o, nth_error near i = Some o -> knn_cell_spec f64_ops (metric_of n) (candidates f64_ops ids dm cols) em cols k maxb i o) /\
    tally (fun a => length (filter (fun o => match option_map (map fst) o with Some l => if in_dec dec a l then true else false | None => false end) near)) res.
Proof. exact (fun A => @knn_freq f64_ops f64_laws A). Qed.
Print Assumptions C117_knn_freq.
(** Documented is the number of times a row is near other rows; but every row is in its own ball and counts itself: an isolated row is counted once. *)
Theorem C117_counts_itself_refuted : forall vc, value_counts_ok Nat.eq_dec vc -> exists out res,
  query_radius_ptwise f64_ops (demo_lib_of nat) demo_sort no_simd Dl2 [10; 11; 12; 13; 14] demo_cols (demo_trace demo_cols) (fi 2) false demo_par = PyKdModel.Ok out /\
  nth_error out 3 = Some (Some [13]) /\ (forall i l, nth_error out i = Some (Some l) -> In 13 l -> i = 3) /\
  query_radius_freq_cnt f64_ops vc (demo_lib_of nat) demo_sort no_simd Dl2 [10; 11; 12; 13; 14] demo_cols (demo_trace demo_cols) (fi 2) demo_par = PyKdModel.Ok res /\
  In (13, 1) res.
Proof. exact itself_case. Qed.
Print Assumptions C117_counts_itself_refuted.
Example C117_freq_case : value_counts_ok Nat.eq_dec some_value_counts /\ some_value_counts [10; 11; 11; 10; 12; 11] = [(11, 3); (10, 2); (12, 1)].
Proof. exact (conj (some_value_counts_ok) eq_refl). Qed.
