(** Properties of the ranking metric (C83). *)
From Coq Require Import String.
From Coq Require Import Reals List ZArith Permutation Lra.
From Verif Require Import WStatsSpec NdcgSpec NdcgModel NdcgProofs NdcgPropsLemmas.
Import ListNotations.
Open Scope R_scope.
Open Scope string_scope.

Theorem C83_groups {row} columns key (rel score : row -> R) sort (SORT : sorts_desc (key "example_id") sort) k ties df :
  In "example_id" columns ->
  exists groups, NoDup groups /\ (forall g, In g groups <-> (2 <= length (in_group (key "example_id") g df))%nat) /\
    calculate_ndcg columns key rel score sort "example_id" k ties df =
    MeanNdcg (match groups with [] => None | _ => Some (mean_of (map (group_ndcg key rel score sort "example_id" k ties df) groups)) end).
Proof. exact (frame_thm columns key rel score sort k ties df). Qed.
Print Assumptions C83_groups.

Theorem C83_value {row} key (rel score : row -> R) sort (SORT : sorts_desc (key "example_id") sort) k df g : (forall r, 0 <= rel r) ->
  exists o best, Permutation o (in_group (key "example_id") g df) /\ descending (map score o) /\
    best_gain (topk k) (map rel (in_group (key "example_id") g df)) best /\
    (best <> 0 -> group_ndcg key rel score sort "example_id" k false df g = dcg_of (topk k) (map rel o) / best) /\
    (best = 0 -> group_ndcg key rel score sort "example_id" k false df g = 0) /\
    0 <= group_ndcg key rel score sort "example_id" k false df g <= 1.
Proof. exact (plain_thm key rel score sort SORT k df g). Qed.
Print Assumptions C83_value.

Theorem C83_ties {row} key (rel score : row -> R) sort (SORT : sorts_desc (key "example_id") sort) k df g scores : (forall r, 0 <= rel r) ->
  distinct_scores (map (fun r => (rel r, score r)) (in_group (key "example_id") g df)) scores ->
  exists best, best_gain (topk k) (map rel (in_group (key "example_id") g df)) best /\
    (best <> 0 -> group_ndcg key rel score sort "example_id" k true df g =
                  tied_dcg (topk k) (map (fun r => (rel r, score r)) (in_group (key "example_id") g df)) scores / best) /\
    (best = 0 -> group_ndcg key rel score sort "example_id" k true df g = 0) /\
    0 <= group_ndcg key rel score sort "example_id" k true df g <= 1.
Proof. exact (ties_thm key rel score sort SORT k df g scores). Qed.
Print Assumptions C83_ties.
Example C83_ties_case : distinct_scores [(1, 5); (0, 5); (2, 7)] [5; 7].
Proof.
  split; [repeat constructor; cbn; intros H; intuition lra|]. intro s. cbn. intuition.
Qed.

Theorem C83_no_ties {row} key (rel score : row -> R) sort (SORT : sorts_desc (key "example_id") sort) k df g :
  NoDup (map score (in_group (key "example_id") g df)) ->
  group_ndcg key rel score sort "example_id" k true df g = group_ndcg key rel score sort "example_id" k false df g.
Proof. exact (no_ties_thm key rel score sort SORT k df g). Qed.
Print Assumptions C83_no_ties.

Theorem C83_perfect {row} key (rel score : row -> R) sort (SORT : sorts_desc (key "example_id") sort) k df g :
  (forall a b, In a (in_group (key "example_id") g df) -> In b (in_group (key "example_id") g df) -> score b <= score a -> rel b <= rel a) ->
  ~ best_gain (topk k) (map rel (in_group (key "example_id") g df)) 0 ->
  group_ndcg key rel score sort "example_id" k false df g = 1.
Proof. exact (perfect_thm key rel score sort SORT k df g). Qed.
Print Assumptions C83_perfect.
Example C83_perfect_case : ~ best_gain None [1; 0] 0.
Proof.
  intros [_ H]. specialize (H [1; 0] (Permutation_refl _)). unfold dcg_of in H. cbn [dcg_from gain_weight] in H.
  change (INR (1 + 1)) with 2 in H. assert (0 < ln 2) by (rewrite <- ln_1; apply ln_increasing; lra).
  replace (ln 2 / ln 2) with 1 in H by (field; lra). lra.
Qed.

Theorem C83_range {row} columns key (rel score : row -> R) sort (SORT : sorts_desc (key "example_id") sort) k ties df v :
  (forall r, 0 <= rel r) -> In "example_id" columns ->
  calculate_ndcg columns key rel score sort "example_id" k ties df = MeanNdcg (Some v) -> 0 <= v <= 1.
Proof. exact (range_thm columns key rel score sort SORT k ties df v). Qed.
Print Assumptions C83_range.

Theorem C83_k_zero {row} columns key (rel score : row -> R) sort ties df :
  calculate_ndcg columns key rel score sort "example_id" (Some 0%Z) ties df =
  calculate_ndcg columns key rel score sort "example_id" None ties df.
Proof. exact (k_zero columns key rel score sort ties df). Qed.
Print Assumptions C83_k_zero.

Theorem C83_group_column_refuted {row} columns key (rel score : row -> R) sort group_col k ties df : group_col <> "example_id" ->
  calculate_ndcg columns key rel score sort group_col k ties df = ColumnNotFound.
Proof. exact (name_thm columns key rel score sort group_col k ties df). Qed.
Print Assumptions C83_group_column_refuted.

Theorem C83_tie_order_refuted : exists (sort1 sort2 : (bool -> R) -> list bool -> list bool) v,
  sorts_desc (demo_key "example_id") sort1 /\ sorts_desc (demo_key "example_id") sort2 /\
  calculate_ndcg ["example_id"] demo_key demo_rel demo_score sort1 "example_id" None false [false; true] = MeanNdcg (Some 1) /\
  calculate_ndcg ["example_id"] demo_key demo_rel demo_score sort2 "example_id" None false [false; true] = MeanNdcg (Some v) /\ v < 1.
Proof. exact tie_order_thm. Qed.
Print Assumptions C83_tie_order_refuted.
Example C83_sort_exists : sorts_desc (demo_key "example_id") isort2.
Proof. exact (isort2_ok (demo_key "example_id")). Qed.
