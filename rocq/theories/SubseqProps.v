(** C91: counting similar subsequences. *)
From Coq Require Import Reals List Arith.
From Verif Require Import WStatsSpec WStatsModel SubseqSpec SubseqModel SubseqProofs SubseqPropsLemmas.
Import ListNotations.
Open Scope R_scope.

(** sql2: the number of positions where the query fits and the squared distance is below the threshold, evaluated
    sequentially or in parallel. *)
Theorem C91_sql2 : forall (query series : list R) threshold par,
  (2 <= length query)%nat -> (length query <= length series)%nat ->
  exists n, query_similar_count query (map Some series) threshold Sql2 par = Count n /\
    counts_windows series (length query) (fun v => sqdist v query < threshold) n.
Proof. exact l2_thm. Qed.
Print Assumptions C91_sql2.

(** sqzl2: the same with the z-normalised query and windows, for any number of threads. *)
Theorem C91_sqzl2 : forall (query series : list R) threshold par,
  (2 <= length query)%nat -> (length query <= length series)%nat ->
  (forall n_threads, par = Some n_threads -> (1 <= n_threads)%nat) -> 0 < var_of query ->
  exists n, query_similar_count query (map Some series) threshold Sqzl2 par = Count n /\
    counts_windows series (length query) (fun v => sqdist (zscore query) (znorm v) < threshold) n.
Proof. exact zl2_thm. Qed.
Print Assumptions C91_sqzl2.

(** sqzl2 ignores level and scale of the series (away from the minimum variance) and of the query. *)
Theorem C91_affine_series : forall s t (query series : list R) threshold par,
  (2 <= length query <= length series)%nat -> (forall n, par = Some n -> (1 <= n)%nat) -> 0 < s ->
  (forall i, (i + length query <= length series)%nat ->
     min_var <= var_of (window series (length query) i) /\ min_var <= s ^ 2 * var_of (window series (length query) i)) ->
  query_similar_count query (map Some (map (fun x => s * x + t) series)) threshold Sqzl2 par =
  query_similar_count query (map Some series) threshold Sqzl2 par.
Proof. exact affine_series. Qed.
Print Assumptions C91_affine_series.
Theorem C91_affine_query : forall s t (query series : list R) threshold par,
  (2 <= length query <= length series)%nat -> (forall n, par = Some n -> (1 <= n)%nat) -> 0 < s ->
  query_similar_count (map (fun x => s * x + t) query) (map Some series) threshold Sqzl2 par =
  query_similar_count query (map Some series) threshold Sqzl2 par.
Proof. exact affine_query. Qed.
Print Assumptions C91_affine_query.

(** A shifted and scaled copy of the query is found with any positive threshold. *)
Theorem C91_copy_found : forall s t (query series : list R) threshold par i,
  (2 <= length query <= length series)%nat -> (forall n, par = Some n -> (1 <= n)%nat) -> 0 < s -> 0 < threshold ->
  (i + length query <= length series)%nat -> window series (length query) i = map (fun x => s * x + t) query ->
  min_var <= var_of query -> min_var <= s ^ 2 * var_of query ->
  exists n, query_similar_count query (map Some series) threshold Sqzl2 par = Count n /\ (1 <= n)%nat.
Proof. exact planted. Qed.
Print Assumptions C91_copy_found.
Example C91_case : min_var <= var_of [1; 3] /\ 0 < var_of [1; 3] /\ window [5; 4; 8; 0] 2 1 = map (fun x => 2 * x + 2) [1; 3] /\
  min_var <= 2 ^ 2 * var_of [1; 3] /\
  (forall i, (i + 2 <= length [1; 4; 1])%nat -> min_var <= var_of (window [1; 4; 1] 2 i) /\ min_var <= 2 ^ 2 * var_of (window [1; 4; 1] 2 i)).
Proof. exact subseq_case. Qed.

(** The ratio is the count over the number of windows and lies in [0,1]. *)
Theorem C91_ratio : forall (query series : list R) threshold m par,
  (2 <= length query <= length series)%nat -> (forall n, par = Some n -> (1 <= n)%nat) ->
  exists n, query_similar_count query (map Some series) threshold m par = Count n /\
    query_similar_ratio query (map Some series) threshold m par = Some (INR n / INR (length series - length query + 1)) /\
    0 <= INR n / INR (length series - length query + 1) <= 1.
Proof. exact ratio_range. Qed.
Print Assumptions C91_ratio.

(** A constant query is not found with sqzl2 even in an exact copy of it, whatever the threshold, although a minimum variance
    is documented for all variance calculations. *)
Theorem C91_constant_query_refuted : exists query : list R, (2 <= length query)%nat /\
  forall threshold par, (forall n, par = Some n -> (1 <= n)%nat) ->
    query_similar_count query (map Some query) threshold Sqzl2 par = Count 0 /\
    (0 < threshold -> query_similar_count query (map Some query) threshold Sql2 par = Count 1).
Proof. exact constant_refuted. Qed.
Print Assumptions C91_constant_query_refuted.

(** A query longer than the series: sql2 raises, sqzl2 returns 0 sequentially and panics in parallel. *)
Theorem C91_longer_query_refuted : forall (query series : list R) threshold,
  (length series + 1 < length query)%nat -> (2 <= length query)%nat ->
  query_similar_count query (map Some series) threshold Sqzl2 None = Count 0 /\
  (forall n, query_similar_count query (map Some series) threshold Sqzl2 (Some n) = Panics) /\
  (forall par, query_similar_count query (map Some series) threshold Sql2 par = Raises).
Proof. exact longer_query. Qed.
Print Assumptions C91_longer_query_refuted.
Theorem C91_nulls : forall (query : list R) (series : rcol) threshold m par,
  (2 <= length query)%nat -> In None series -> query_similar_count query series threshold m par = Panics.
Proof. exact null_target. Qed.
Print Assumptions C91_nulls.
Theorem C91_short_query : forall (query : list R) (series : rcol) threshold m par,
  (length query <= 1)%nat -> query_similar_count query series threshold m par = Raises.
Proof. exact short_query. Qed.
Print Assumptions C91_short_query.
