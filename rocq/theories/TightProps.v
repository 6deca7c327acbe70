(** Further statements for C32, C59, C61, C77, C88 and C96: single branches that the main theorems leave open. *)
From Coq Require Import Reals List ZArith Lra.
From Verif Require Import WStatsSpec WStatsModel MetricSpec MetricModel DescModel FloatxModel TightProofs.
From Verif Require Import Num F64 KdModel PyKdModel KnnExprModel KnnExprSpec EntropyModel TightEntropy.
Import ListNotations.
Open Scope R_scope.

(** C61: with weights that sum to one, [is_normalized] makes no difference to [weighted_hmean]. *)
Theorem C61_weighted_hmean_normalized : forall x w, Forall (fun a => a <> 0) x -> x <> [] -> Rsum w = 1 ->
  weighted_hmean (map Some x) (map Some w) true = 1 / INR (length x) /\
  weighted_hmean (map Some x) (map Some w) true = weighted_hmean (map Some x) (map Some w) false.
Proof. exact whm_normalized. Qed.
Print Assumptions C61_weighted_hmean_normalized.
Example C61_normalized_case : Forall (fun a => a <> 0) [2; 4] /\ Rsum [1 / 4; 3 / 4] = 1.
Proof. split; [repeat constructor; lra|cbn; lra]. Qed.

(** C77: as many parameters as rows: adjusted R2 is minus infinity whenever R2 is a number below one. *)
Theorem C77_adj_r2_saturated : forall a p v, query_r2 a p = Fin v -> v < 1 -> (2 <= length a)%nat -> (Z.of_nat (length a) < 2 ^ 32)%Z ->
  query_adj_r2 a p (Z.of_nat (length a)) = NInf.
Proof. exact adj_saturated. Qed.
Print Assumptions C77_adj_r2_saturated.
Example C77_saturated_case : exists v, query_r2 [Some 0; Some 2] [Some 0; Some 1] = Fin v /\ v < 1.
Proof. exact saturated_case. Qed.

(** C88: [query_mid_range] is half of the distance between the largest and the smallest known value, null when there
    is none... *)
Theorem C88_mid_range : forall x hi lo, greatest (values x) hi -> In lo (values x) -> (forall v, In v (values x) -> lo <= v) ->
  query_mid_range x = Some ((hi - lo) / 2).
Proof. exact mid_range_ok. Qed.
Print Assumptions C88_mid_range.
Theorem C88_mid_range_empty : forall x, values x = [] -> query_mid_range x = None.
Proof. exact mid_range_none. Qed.
Print Assumptions C88_mid_range_empty.
(** ...and so not the mid-range: it need not be the midpoint of the two, nor lie between them. *)
Theorem C88_mid_range_refuted : exists a b v, a < b /\ query_mid_range [Some a; Some b] = Some v /\ v < a /\ v <> (a + b) / 2.
Proof. exact mid_range_bad. Qed.
Print Assumptions C88_mid_range_refuted.

(** C96: the fractional part of an integer column is zero in every row, nulls included. *)
Theorem C96_fract_integers : forall x, length (pl_fract (Ints x)) = length x /\
  forall i v, nth_error x i = Some v -> nth_error (pl_fract (Ints x)) i = Some (Some (Fin 0)).
Proof. exact fract_ints. Qed.
Print Assumptions C96_fract_integers.
(** C96: x ln y for an infinite x has the sign of the limit, and is NaN at y = 1. *)
Theorem C96_xlogy_infinite : forall y, 0 < y ->
  (1 < y -> xlogy PInf (Fin y) = PInf /\ xlogy NInf (Fin y) = NInf) /\
  (y < 1 -> xlogy PInf (Fin y) = NInf /\ xlogy NInf (Fin y) = PInf) /\
  (y = 1 -> xlogy PInf (Fin y) = NaN /\ xlogy NInf (Fin y) = NaN).
Proof. exact xlogy_inf. Qed.
Print Assumptions C96_xlogy_infinite.

(** C32, C59: a series with fewer templates than columns, a radius that is not positive, or an infinite or NaN radius:
    both entropies are NaN, whatever the values and nulls of the series. *)
Theorem C32_degenerate : forall (lib : SplitLib f64_ops unit) order (ts : list (option f64)) m r trace,
  interleaving (all_writes f64_ops (length (lag_columns f64_ops ts m)) 0 (lag_columns f64_ops ts m)) trace ->
  (length ts + 1 - m < m + 1)%nat \/ nle f64_ops r (nzero f64_ops) = true \/ nfinite f64_ops r = false ->
  sample_entropy f64_ops lib order ts m (Some r) trace = Ok None /\
  approx_counts f64_ops lib order ts m (Some r) trace = Ok None.
Proof. exact entropy_degenerate. Qed.
Print Assumptions C32_degenerate.
(** C32: a null radius gives NaN (approximate entropy panics instead, [C59_null_radius_refuted]). *)
Theorem C32_null_radius : forall (lib : SplitLib f64_ops unit) order (ts : list (option f64)) m trace,
  interleaving (all_writes f64_ops (length (lag_columns f64_ops ts m)) 0 (lag_columns f64_ops ts m)) trace ->
  sample_entropy f64_ops lib order ts m None trace = Ok None.
Proof. exact entropy_null_radius. Qed.
Print Assumptions C32_null_radius.
Example C32_degenerate_case : nle f64_ops (nzero f64_ops) (nzero f64_ops) = true /\ (length (@nil (option f64)) + 1 - 2 < 2 + 1)%nat.
Proof. split; [reflexivity|repeat constructor]. Qed.
