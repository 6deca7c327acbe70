(** Property C111: the nearest-neighbour entropy [query_knn_entropy].
    Vocabulary: KnnEntSpec.v (k-th nearest other row, volume of balls, the Kozachenko-Leonenko sum), DigammaSpec.v (harmonic
    differences), KnnExprSpec.v (tables, interleavings of the column writers, schedules). *)
From Coq Require Import Bool List Arith ZArith Lia Permutation Reals.
From Flocq Require Import IEEE754.BinarySingleNaN.
From Verif Require Import Num F64 KdModel KdSpec KdProofs PyKdModel PyKdSpec KnnExprModel KnnExprSpec KnnExprProofs KnnExprPropsLemmas
  MetricSpec DigammaModel DigammaSpec DigammaProofs KnnEntModel KnnEntSpec KnnEntProofs KnnEntProofs2 KnnEntProofs3 KnnEntProofs4.
Import ListNotations.
Open Scope nat_scope.

(** C111.  On finite rows the value is the Kozachenko-Leonenko estimate, for every interleaving of the writers and every schedule. *)
Theorem C111_knn_entropy : forall lib gamma n h cols trace k par,
  lib_ok f64_ops unit lib -> gamma_half_ok gamma -> n = Dl2 \/ n = Dinf ->
  table f64_ops h cols -> interleaving (all_writes f64_ops (length cols) 0 cols) trace -> par_ok par ->
  1 <= k -> k < h -> Forall (all_finite f64_ops) (rows_of h cols) -> moderate (metric_of n) (rows_of h cols) ->
  exists v g, query_knn_entropy gamma lib n cols trace (Z.of_nat k) par = Ok v /\
    (0 <= g - harmonic k h <= 1 / 100000000000000)%R /\ (h <= 12 -> g = harmonic k h) /\
    kl_estimate (metric_of n) (rows_of h cols) (length cols) k g v.
Proof. intros lib gamma n h cols trace k par LO GO. exact (entropy_ok lib gamma LO GO n h cols trace k par). Qed.
Print Assumptions C111_knn_entropy.
Example C111_case : lib_ok f64_ops unit (demo_lib_of unit) /\ gamma_half_ok demo_gamma /\ table f64_ops 2 two_cols /\
  interleaving (all_writes f64_ops (length two_cols) 0 two_cols) (demo_trace two_cols) /\
  Forall (all_finite f64_ops) (rows_of 2 two_cols) /\ moderate ML2 (rows_of 2 two_cols) /\
  query_knn_entropy demo_gamma (demo_lib_of unit) Dl2 two_cols (demo_trace two_cols) 1 (Some (2, [1; 0])) = Ok (Fin 1).
Proof.
  exact (conj (demo_lib_of_ok unit) (conj demo_gamma_ok (conj two_table (conj (demo_trace_ok _) (conj two_finite (conj two_moderate two_value)))))).
Qed.
(** The estimate determines the value, and the distance to the k-th nearest row is determined. *)
Theorem C111_estimate_unique : forall m rows dim k g v v',
  kl_estimate m rows dim k g v -> kl_estimate m rows dim k g v' -> v = v'.
Proof. intros m rows dim k g v v'. exact (kl_unique m rows dim k (length rows) g v v'). Qed.
Print Assumptions C111_estimate_unique.

(** The constant: successive values of the digamma function differ by 1/x up to the first neglected term of the series. *)
Theorem C111_digamma_step : forall x, (1 / 1000000 < x)%R ->
  (0 <= digamma (x + 1) - digamma x - / x <= next (Rmax x 12) - next (Rmax x 12 + 1))%R.
Proof. exact digamma_step. Qed.
Print Assumptions C111_digamma_step.

(** Too few rows, and invalid arguments. *)
Theorem C111_few_rows : forall lib gamma n h cols trace k par,
  n = Dl2 \/ n = Dinf -> table f64_ops h cols -> interleaving (all_writes f64_ops (length cols) 0 cols) trace ->
  1 <= k -> h <= k -> query_knn_entropy gamma lib n cols trace (Z.of_nat k) par = Ok NaN.
Proof. intros lib gamma. exact (few_rows lib gamma). Qed.
Print Assumptions C111_few_rows.
Theorem C111_invalid : forall lib gamma n cols trace k par, (k <= 0)%Z \/ (n <> Dl2 /\ n <> Dinf) ->
  query_knn_entropy gamma lib n cols trace k par = Err.
Proof. exact invalid. Qed.
Print Assumptions C111_invalid.

(** parallel=True and parallel=False agree on every table, nulls and infinities included. *)
Theorem C111_parallel : forall lib gamma n h cols trace k par, lib_ok f64_ops unit lib ->
  table f64_ops h cols -> interleaving (all_writes f64_ops (length cols) 0 cols) trace -> par_ok par ->
  query_knn_entropy gamma lib n cols trace k par = query_knn_entropy gamma lib n cols trace k None.
Proof. intros lib gamma n h cols trace k par LO. exact (par_seq lib gamma LO n h cols trace k par). Qed.
Print Assumptions C111_parallel.

(** The order of the rows does not matter. *)
Theorem C111_row_order : forall lib gamma n h cols cols' trace trace' k par par',
  lib_ok f64_ops unit lib -> gamma_half_ok gamma ->
  n = Dl2 \/ (n = Dinf /\ Forall (all_finite f64_ops) (rows_of h cols)) ->
  table f64_ops h cols -> table f64_ops h cols' -> length cols = length cols' -> Permutation (rows_of h cols) (rows_of h cols') ->
  interleaving (all_writes f64_ops (length cols) 0 cols) trace -> interleaving (all_writes f64_ops (length cols') 0 cols') trace' ->
  par_ok par -> par_ok par' ->
  1 <= k -> k < length (finite_rows (rows_of h cols)) -> moderate (metric_of n) (finite_rows (rows_of h cols)) ->
  query_knn_entropy gamma lib n cols trace (Z.of_nat k) par = query_knn_entropy gamma lib n cols' trace' (Z.of_nat k) par'.
Proof. intros lib gamma n h cols cols' trace trace' k par par' LO GO. exact (row_order lib gamma LO GO n h cols cols' trace trace' k par par'). Qed.
Print Assumptions C111_row_order.

(** A row with k copies of itself sends the estimate to minus infinity. *)
Theorem C111_copies : forall lib gamma n h cols trace k par i js,
  lib_ok f64_ops unit lib -> gamma_half_ok gamma -> n = Dl2 \/ n = Dinf ->
  table f64_ops h cols -> interleaving (all_writes f64_ops (length cols) 0 cols) trace -> par_ok par ->
  1 <= k -> k < h -> Forall (all_finite f64_ops) (rows_of h cols) -> moderate (metric_of n) (rows_of h cols) ->
  i < h -> NoDup js -> length js = k ->
  (forall j, In j js -> j < h /\ j <> i /\ nth j (rows_of h cols) [] = nth i (rows_of h cols) []) ->
  query_knn_entropy gamma lib n cols trace (Z.of_nat k) par = Ok NInf.
Proof. intros lib gamma n h cols trace k par i js LO GO. exact (copies lib gamma LO GO n h cols trace k par i js). Qed.
Print Assumptions C111_copies.
Example C111_copies_case :
  query_knn_entropy demo_gamma (demo_lib_of unit) Dl2 copy_cols (demo_trace copy_cols) 1 None = Ok NInf.
Proof. exact copy_value. Qed.

(** Rows with a null (metric l2) are left out of the sum but counted in the constant and in the divisor ... *)
Theorem C111_null_rows : forall lib gamma h cols trace k par,
  lib_ok f64_ops unit lib -> gamma_half_ok gamma ->
  table f64_ops h cols -> interleaving (all_writes f64_ops (length cols) 0 cols) trace -> par_ok par ->
  1 <= k -> k < length (finite_rows (rows_of h cols)) -> moderate ML2 (finite_rows (rows_of h cols)) ->
  exists v g, query_knn_entropy gamma lib Dl2 cols trace (Z.of_nat k) par = Ok v /\
    (0 <= g - harmonic k h <= 1 / 100000000000000)%R /\ (h <= 12 -> g = harmonic k h) /\
    kl_sum ML2 (finite_rows (rows_of h cols)) (length cols) k h g v.
Proof. intros lib gamma h cols trace k par LO GO. exact (entropy_nulls lib gamma LO GO h cols trace k par). Qed.
Print Assumptions C111_null_rows.
(** ... so the value is not the estimate for the rows that are there. *)
Theorem C111_null_rows_refuted : exists h cols trace k,
  table f64_ops h cols /\ interleaving (all_writes f64_ops (length cols) 0 cols) trace /\
  1 <= k /\ k < length (finite_rows (rows_of h cols)) /\ moderate ML2 (finite_rows (rows_of h cols)) /\
  forall lib gamma par, lib_ok f64_ops unit lib -> gamma_half_ok gamma -> par_ok par ->
  exists v, query_knn_entropy gamma lib Dl2 cols trace (Z.of_nat k) par = Ok v /\
    forall g, (Rabs (g - harmonic k (length (finite_rows (rows_of h cols)))) <= 1 / 10)%R ->
      ~ kl_estimate ML2 (finite_rows (rows_of h cols)) (length cols) k g v.
Proof. exact nulls_refuted. Qed.
Print Assumptions C111_null_rows_refuted.
