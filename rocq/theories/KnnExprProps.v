(** Properties C09-C11, C13, C49-C54: the nearest-neighbour expressions and the column helpers below them.
    Vocabulary: KdSpec.v (brute force), KnnExprSpec.v (tables, masks, interleavings, what each cell must hold). *)
From Coq Require Import Bool List Arith Lia Permutation Sorted NArith ZArith Reals.
From Flocq Require Import IEEE754.BinarySingleNaN.
From Verif Require Import Num F64 KdModel KdSpec KdProofs PyKdModel PyKdSpec PyKdProofs
  KdDemo KdPropsLemmas KnnExprModel KnnExprSpec KnnExprProofs KnnExprSem KnnIds KnnMeanR KnnExprPropsLemmas.
Import ListNotations.

(** C10.  The ranges [offset, offset+len) are n in number and, laid end to end, are exactly 0..len-1. *)
Theorem C10_split_offsets_partition : forall len n, 1 <= n ->
  exists chunks, split_offsets len n = Some chunks /\ length chunks = n /\
    concat (map (fun c => seq (fst c) (snd c)) chunks) = seq 0 len.
Proof. exact split_offsets_partition. Qed.
Print Assumptions C10_split_offsets_partition.
Example C10_case : split_offsets 3 8 = Some [(0, 0); (0, 0); (0, 0); (0, 0); (0, 0); (0, 0); (0, 0); (0, 3)]
  /\ split_offsets 10 4 = Some [(0, 2); (2, 2); (4, 2); (6, 4)].
Proof. split; reflexivity. Qed.

(** C11.  For every interleaving of the per-column writer threads the buffer is complete and holds,
    at i * #columns + j, row i of column j (null as NaN). *)
Theorem C11_row_major_layout : forall h cols trace, table f64_ops h cols ->
  interleaving (all_writes f64_ops (length cols) 0 cols) trace ->
  exists data, series_to_row_major_slice f64_ops cols trace = Ok data /\
    length data = h * length cols /\
    forall i j c, i < h -> nth_error cols j = Some c ->
      nth_error data (i * length cols + j) = Some (cell f64_ops i c).
Proof. exact row_major_layout. Qed.
Print Assumptions C11_row_major_layout.
Example C11_case : table f64_ops 5 demo_cols /\
  interleaving (all_writes f64_ops (length demo_cols) 0 demo_cols) (demo_trace demo_cols) /\
  exists data, series_to_row_major_slice f64_ops demo_cols (demo_trace demo_cols) = Ok data /\ length data = 10 /\
  map (nnan f64_ops) data = [false; false; false; false; false; false; false; false; true; false].
Proof. exact (conj demo_table (conj (demo_trace_ok demo_cols) row_major_case)). Qed.

(** C11.  No columns, or columns of different lengths, are rejected. *)
Theorem C11_unequal_rejected : forall cols trace,
  (cols = [] \/ exists c c', In c cols /\ In c' cols /\ length (cells c) <> length (cells c')) ->
  series_to_row_major_slice f64_ops cols trace = Err.
Proof. exact row_major_rejects. Qed.
Print Assumptions C11_unequal_rejected.
Example C11_rejected_case : series_to_row_major_slice f64_ops [[[Some (fi 1)]]; [[Some (fi 1)]; [None]]] [] = Err.
Proof. reflexivity. Qed.

(** C09.  Every nearest-neighbour expression gives the same result (values, errors and panics alike) with
    any number of threads, any processing order of the chunks, and any interleaving of the column writers. *)
Theorem C09_knn_expr_parallel :
  forall A (lib : SplitLib f64_ops A) simd n ids dm em cols trace trace' h k eps maxb par,
  table f64_ops h cols -> interleaving (all_writes f64_ops (length cols) 0 cols) trace ->
  interleaving (all_writes f64_ops (length cols) 0 cols) trace' ->
  length ids = h -> mask_fits h em -> par_ok par ->
  query_knn_ptwise f64_ops lib simd n ids dm em cols trace k eps maxb par
  = query_knn_ptwise f64_ops lib simd n ids dm em cols trace' k eps maxb None.
Proof. exact (@knn_expr_par f64_ops). Qed.
Print Assumptions C09_knn_expr_parallel.
Theorem C09_radius_expr_parallel :
  forall A (lib : SplitLib f64_ops A) sort_nb simd n ids cols trace trace' h r sort par,
  table f64_ops h cols -> interleaving (all_writes f64_ops (length cols) 0 cols) trace ->
  interleaving (all_writes f64_ops (length cols) 0 cols) trace' -> par_ok par ->
  query_radius_ptwise f64_ops lib sort_nb simd n ids cols trace r sort par
  = query_radius_ptwise f64_ops lib sort_nb simd n ids cols trace' r sort None.
Proof. exact (@radius_expr_par f64_ops). Qed.
Print Assumptions C09_radius_expr_parallel.
Theorem C09_count_expr_parallel :
  forall (lib : SplitLib f64_ops unit) simd n radius cols trace trace' h par,
  table f64_ops h cols -> interleaving (all_writes f64_ops (length cols) 0 cols) trace ->
  interleaving (all_writes f64_ops (length cols) 0 cols) trace' -> par_ok par ->
  pl_nb_cnt f64_ops lib simd n radius cols trace par = pl_nb_cnt f64_ops lib simd n radius cols trace' None.
Proof. exact (cnt_expr_par f64_ops). Qed.
Print Assumptions C09_count_expr_parallel.
Theorem C09_kth_expr_parallel :
  forall (lib : SplitLib f64_ops unit) simd n cols trace trace' h k maxb eps par,
  table f64_ops h cols -> interleaving (all_writes f64_ops (length cols) 0 cols) trace ->
  interleaving (all_writes f64_ops (length cols) 0 cols) trace' -> par_ok par ->
  pl_dist_from_kth_nb f64_ops lib simd n cols trace k maxb eps par
  = pl_dist_from_kth_nb f64_ops lib simd n cols trace' k maxb eps None.
Proof. exact (kth_expr_par f64_ops). Qed.
Print Assumptions C09_kth_expr_parallel.
Theorem C09_avg_expr_parallel :
  forall (lib : SplitLib f64_ops f64) simd n targets cols trace trace' h k weighted minb maxb par,
  table f64_ops h cols -> interleaving (all_writes f64_ops (length cols) 0 cols) trace ->
  interleaving (all_writes f64_ops (length cols) 0 cols) trace' -> par_ok par ->
  query_knn_avg f64_ops lib simd n targets cols trace k weighted minb maxb par
  = query_knn_avg f64_ops lib simd n targets cols trace' k weighted minb maxb None.
Proof. exact (avg_expr_par f64_ops). Qed.
Print Assumptions C09_avg_expr_parallel.
Example C09_case : table f64_ops 5 demo_cols /\
  interleaving (all_writes f64_ops (length demo_cols) 0 demo_cols) (demo_trace demo_cols) /\
  par_ok demo_par /\ mask_fits 5 None.
Proof. exact (conj demo_table (conj (demo_trace_ok demo_cols) (conj demo_par_ok I))). Qed.

(** C49.  [query_knn_ptwise]: each row's list is the k+1 nearest candidate rows (mask true, no null) below
    the bound, ascending, with distances; null exactly for rows not evaluated or with a non-finite feature. *)
Theorem C49_knn_ptwise_exact :
  forall A (lib : SplitLib f64_ops A) simd n ids dm em cols trace h k eps maxb par,
  lib_ok f64_ops A lib -> table f64_ops h cols -> interleaving (all_writes f64_ops (length cols) 0 cols) trace ->
  length ids = h -> mask_fits h em -> scalar_metric n (length cols) -> 1 <= k ->
  (n = Dinf -> Forall (fun p => no_nan f64_ops (snd p)) (candidates f64_ops ids dm cols)) ->
  candidates f64_ops ids dm cols <> [] -> par_ok par ->
  exists out, query_knn_ptwise f64_ops lib simd n ids dm em cols trace k eps maxb par = Ok out /\ length out = h /\
    forall i, i < h -> exists o, nth_error out i = Some o /\
      knn_cell_spec f64_ops (metric_of n) (candidates f64_ops ids dm cols) em cols k maxb i o.
Proof. exact (@knn_expr_ok f64_ops f64_laws). Qed.
Print Assumptions C49_knn_ptwise_exact.
(** ... and without distances: the ids of the same lists. *)
Theorem C49_knn_ptwise_ids :
  forall A (lib : SplitLib f64_ops A) simd n ids dm em cols trace h k eps maxb par,
  lib_ok f64_ops A lib -> table f64_ops h cols -> interleaving (all_writes f64_ops (length cols) 0 cols) trace ->
  length ids = h -> mask_fits h em -> scalar_metric n (length cols) -> 1 <= k ->
  (n = Dinf -> Forall (fun p => no_nan f64_ops (snd p)) (candidates f64_ops ids dm cols)) ->
  candidates f64_ops ids dm cols <> [] -> par_ok par ->
  exists out, query_knn_ptwise_ids f64_ops lib simd n ids dm em cols trace k eps maxb par = Ok out /\ length out = h /\
    forall i, i < h -> exists o, nth_error out i = Some (option_map (map fst) o) /\
      knn_cell_spec f64_ops (metric_of n) (candidates f64_ops ids dm cols) em cols k maxb i o.
Proof. exact (@knn_ids_ok f64_ops f64_laws). Qed.
Print Assumptions C49_knn_ptwise_ids.
Example C49_case : lib_ok f64_ops nat (demo_lib_of nat) /\ exists out,
  query_knn_ptwise f64_ops (demo_lib_of nat) no_simd Dl2 [10; 11; 12; 13; 14] None None demo_cols
    (demo_trace demo_cols) 1 (nzero f64_ops) (fi 100) demo_par = Ok out /\
  map (option_map (map fst)) out = [Some [10; 11]; Some [11; 10]; Some [12; 11]; Some [13; 12]; None] /\
  map fst (candidates f64_ops [10; 11; 12; 13; 14] None demo_cols) = [10; 11; 12; 13].
Proof. exact (conj (demo_lib_of_ok nat) knn_case). Qed.

(** C50.  [query_radius_ptwise]: each row's list holds the ids of exactly the rows within r (each once per
    row), ascending by distance when sorted. *)
Theorem C50_radius_ptwise_exact :
  forall A (lib : SplitLib f64_ops A) sort_nb simd n ids cols trace h r sort par,
  lib_ok f64_ops A lib -> sort_nb_ok f64_ops sort_nb ->
  table f64_ops h cols -> interleaving (all_writes f64_ops (length cols) 0 cols) trace ->
  length ids = h -> 0 < h -> scalar_metric n (length cols) -> nle r (nzero f64_ops) = false ->
  (n = Dinf -> Forall (fun p => no_nan f64_ops (snd p)) (id_rows f64_ops ids cols)) -> par_ok par ->
  exists out, query_radius_ptwise f64_ops lib sort_nb simd n ids cols trace r sort par = Ok out /\ length out = h /\
    forall i, i < h -> exists o, nth_error out i = Some o /\
      radius_cell_spec f64_ops (metric_of n) (id_rows f64_ops ids cols) cols r sort i o.
Proof. exact (@radius_expr_ok f64_ops f64_laws). Qed.
Print Assumptions C50_radius_ptwise_exact.
Example C50_case : sort_nb_ok f64_ops demo_sort /\
  query_radius_ptwise f64_ops (demo_lib_of nat) demo_sort no_simd Dl2 [10; 11; 12; 13; 14] demo_cols
    (demo_trace demo_cols) (fi 2) true demo_par
  = Ok [Some [10; 11]; Some [11; 10; 12]; Some [12; 11]; Some [13]; None].
Proof. exact (conj demo_sort_nb_ok radius_case). Qed.

(** C51.  [query_nb_cnt]: each row's value is the number of rows within its radius (its own for a column of
    radii, the common one for a single radius); null for a null radius or a row with a non-finite feature. *)
Theorem C51_nb_cnt_exact :
  forall (lib : SplitLib f64_ops unit) simd n radius cols trace h par,
  lib_ok f64_ops unit lib -> table f64_ops h cols -> interleaving (all_writes f64_ops (length cols) 0 cols) trace ->
  0 < h -> (N.of_nat h < 2 ^ 32)%N -> scalar_metric n (length cols) ->
  (n = Dinf -> Forall (fun p => no_nan f64_ops (snd p)) (map (fun j => (tt, row_at f64_ops cols j)) (seq 0 h))) ->
  par_ok par -> radius <> [None] -> (length radius = 1 \/ length radius = h) ->
  exists out, pl_nb_cnt f64_ops lib simd n radius cols trace par = Ok out /\ length out = h /\
    forall i, i < h -> exists o, nth_error out i = Some o /\
      cnt_cell_spec f64_ops (metric_of n) h cols (nth (if length radius =? 1 then 0 else i) radius None) i o.
Proof. exact (nb_cnt_ok f64_ops f64_laws). Qed.
Print Assumptions C51_nb_cnt_exact.
Example C51_case :
  pl_nb_cnt f64_ops (demo_lib_of unit) no_simd Dl2 [Some (fi 2); Some (fi 1); None; Some (fi 100); Some (fi 1)] demo_cols
    (demo_trace demo_cols) demo_par
  = Ok [Some 2; Some 2; None; Some 4; None]%N.
Proof. exact cnt_case. Qed.
(** A single null radius is not answered by nulls: it panics. *)
Theorem C51_null_radius_refuted : forall lib simd n cols trace h par, table f64_ops h cols ->
  interleaving (all_writes f64_ops (length cols) 0 cols) trace ->
  pl_nb_cnt f64_ops lib simd n [None] cols trace par = Panic.
Proof. exact null_radius_panics. Qed.
Print Assumptions C51_null_radius_refuted.

(** C52.  [query_dist_from_kth_nb]: the largest distance among the k+1 nearest rows below the bound. *)
Theorem C52_kth_distance_exact :
  forall (lib : SplitLib f64_ops unit) simd n cols trace h k maxb par,
  lib_ok f64_ops unit lib -> table f64_ops h cols -> interleaving (all_writes f64_ops (length cols) 0 cols) trace ->
  0 < h -> scalar_metric n (length cols) ->
  (n = Dinf -> Forall (fun p => no_nan f64_ops (snd p)) (map (fun j => (tt, row_at f64_ops cols j)) (seq 0 h))) ->
  par_ok par ->
  exists out, pl_dist_from_kth_nb f64_ops lib simd n cols trace k maxb (nzero f64_ops) par = Ok out /\ length out = h /\
    forall i, i < h -> exists o, nth_error out i = Some o /\ kth_cell_spec f64_ops (metric_of n) h cols k maxb i o.
Proof. exact (kth_expr_ok f64_ops f64_laws). Qed.
Print Assumptions C52_kth_distance_exact.
Example C52_case : exists out,
  pl_dist_from_kth_nb f64_ops (demo_lib_of unit) no_simd Dl2 demo_cols (demo_trace demo_cols) 2 (fi 100)
    (nzero f64_ops) demo_par = Ok out /\
  same_col out [Some 3; Some 2; Some 3; Some 9; None]%Z = true.
Proof. exact kth_case. Qed.

(** C53.  A row with a null feature, a NaN feature or a false data mask never appears as a neighbour,
    for every metric except "inf". *)
Theorem C53_never_neighbour_partial :
  forall A (lib : SplitLib f64_ops A) simd n ids dm em cols trace h k eps maxb par out i l,
  lib_ok f64_ops A lib -> table f64_ops h cols -> interleaving (all_writes f64_ops (length cols) 0 cols) trace ->
  length ids = h -> mask_fits h em -> scalar_metric n (length cols) -> n <> Dinf -> par_ok par ->
  query_knn_ptwise f64_ops lib simd n ids dm em cols trace k eps maxb par = Ok out ->
  nth_error out i = Some (Some l) ->
  forall a d, In (a, d) l -> exists j, nth_error ids j = Some a /\ mask_on dm j = true /\
    has_null f64_ops cols j = false /\ no_nan f64_ops (row_at f64_ops cols j).
Proof. exact (@never_neighbour). Qed.
Print Assumptions C53_never_neighbour_partial.
(** With dist = "inf" it is false: the row (NaN, 1) is returned as the second neighbour of (0, 0). *)
Theorem C53_inf_nan_neighbour_refuted : exists out d0 d1 rest,
  query_knn_ptwise f64_ops (demo_lib_of nat) no_simd Dinf [0; 1; 2] None None nan_cols (demo_trace nan_cols) 1
    (nzero f64_ops) (fi 100) None = Ok out /\ out = Some [(0, d0); (1, d1)] :: rest /\
  ~ no_nan f64_ops (row_at f64_ops nan_cols 1).
Proof. exact inf_nan_neighbour. Qed.
Print Assumptions C53_inf_nan_neighbour_refuted.

(** C54 is false: when no row is eligible (empty frame, all masked out, all null) the query panics
    instead of returning empty lists or nulls. *)
Theorem C54_no_candidates_panic_refuted :
  forall A (lib : SplitLib f64_ops A) simd n ids dm em cols trace h k eps maxb par,
  table f64_ops h cols -> interleaving (all_writes f64_ops (length cols) 0 cols) trace -> length ids = h -> 1 <= k ->
  candidates f64_ops ids dm cols = [] ->
  query_knn_ptwise f64_ops lib simd n ids dm em cols trace k eps maxb par = Panic.
Proof. exact (@no_candidates_panic). Qed.
Print Assumptions C54_no_candidates_panic_refuted.
Example C54_case : candidates f64_ops [0; 1; 2; 3; 4] (Some [Some false; None; Some false; None; Some true]) demo_cols = [].
Proof. reflexivity. Qed.
Theorem C54_empty_frame_panic_refuted :
  pl_nb_cnt f64_ops (demo_lib_of unit) no_simd Dl2 [Some (fi 1)] [[[]]] [] None = Panic.
Proof. exact empty_cnt_panics. Qed.
Print Assumptions C54_empty_frame_panic_refuted.

(** C13.  [query_knn_avg]: null exactly when no neighbour is at distance >= min_bound; otherwise the plain or
    weighted mean of the targets of those neighbours, in f64 arithmetic. *)
Theorem C13_knn_avg_mean :
  forall (lib : SplitLib f64_ops f64) simd n targets cols trace h k weighted minb maxb par,
  lib_ok f64_ops f64 lib -> table f64_ops h cols -> interleaving (all_writes f64_ops (length cols) 0 cols) trace ->
  length targets = h -> scalar_metric n (length cols) -> 1 <= k ->
  (n = Dinf -> Forall (fun p => no_nan f64_ops (snd p)) (candidates f64_ops targets None cols)) ->
  candidates f64_ops targets None cols <> [] -> par_ok par ->
  exists out, query_knn_avg f64_ops lib simd n targets cols trace k weighted minb maxb par = Ok out /\ length out = h /\
    forall i, i < h -> exists o, nth_error out i = Some o /\
      avg_cell_spec f64_ops (metric_of n) targets cols k weighted minb maxb i o.
Proof. exact (avg_expr_ok f64_ops f64_laws). Qed.
Print Assumptions C13_knn_avg_mean.
Example C13_case : exists out,
  query_knn_avg f64_ops (demo_lib_of f64) no_simd Dl2 (map fi [10; 20; 40; 80; 0]%Z) demo_cols (demo_trace demo_cols)
    1 false (nzero f64_ops) (fi 100) demo_par = Ok out /\
  same_col out [Some 15; Some 15; Some 30; Some 60; None]%Z = true.
Proof. exact avg_case. Qed.
(** C13, bounds: with the arithmetic carried out exactly, the mean lies between the smallest and the largest
    target (f64 rounding is what is missing, see the refutation below). *)
Theorem C13_mean_between_partial : forall weighted (minb lo hi : R) (near : list (R * R)), near <> [] ->
  Forall (fun x => 0 <= snd x /\ minb <= snd x /\ lo <= fst x <= hi)%R near ->
  (lo <= knn_mean R_ops weighted minb near <= hi)%R.
Proof. exact mean_between. Qed.
Print Assumptions C13_mean_between_partial.
(** In f64 the bound fails: all targets are 0.1 and the average is larger than 0.1. *)
Theorem C13_mean_outside_refuted : exists m1 m2 m3,
  query_knn_avg f64_ops (demo_lib_of f64) no_simd Dl2 [tenth; tenth; tenth] line_cols (demo_trace line_cols)
    2 false (nzero f64_ops) (fi 100) None = Ok [Some m1; Some m2; Some m3] /\ nlt tenth m1 = true.
Proof. exact avg_outside. Qed.
Print Assumptions C13_mean_outside_refuted.
