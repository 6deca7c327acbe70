(** C88: descriptive features of a column. *)
From Coq Require Import Reals List ZArith Lra Lia Permutation.
From Verif Require Import WStatsSpec WStatsModel MetricSpec MetricModel DescSpec DescModel DescProofs.
Import ListNotations.
Open Scope R_scope.

(** The mean of the [n] largest absolute values is the largest mean any [n] of the known absolute values can have
    (all of them when there are fewer than [n]). *)
Theorem C88_mean_n_abs_max : forall (x : rcol) (n : Z), (0 < n)%Z -> values x <> [] ->
  let abs := map Rabs (values x) in
  let k := Nat.min (Z.to_nat n) (length (values x)) in
  exists v, query_mean_n_abs_max x n = Some (Some v) /\
    (exists s, selection k abs s /\ v = mean_of s) /\ forall s, selection k abs s -> mean_of s <= v.
Proof. exact top_thm. Qed.
Example C88_mean_n_abs_max_case : exists x : rcol, values x <> [] /\ In None x /\ length x = 3%nat.
Proof. exists [Some 1; None; Some (-2)]. cbn. split; [discriminate|]. auto. Qed.
Print Assumptions C88_mean_n_abs_max.

(** The symmetry ratio of a non-constant column lies between 0 and 1/2 and is 0 exactly when mean and median agree. *)
Theorem C88_symm_ratio : forall x : rcol, (exists a b, In a (values x) /\ In b (values x) /\ a < b) ->
  exists v, query_symm_ratio x = Some (Fin v) /\ 0 <= v <= 1 / 2 /\ (v = 0 <-> mean_of (values x) = median_of (values x)).
Proof. exact symm_thm. Qed.
Example C88_symm_ratio_case : exists a b, In a (values [Some 1; None; Some 3]) /\ In b (values [Some 1; None; Some 3]) /\ a < b.
Proof. exists 1, 3. cbn. repeat split; auto. lra. Qed.
Print Assumptions C88_symm_ratio.

(** [query_count_uniques] counts the values that occur exactly once; it never exceeds the number of different values and
    equals it exactly when nothing is repeated. *)
Theorem C88_count_uniques : forall x : list (option Z),
  query_count_uniques x = occurring_once x /\ (query_count_uniques x <= distinct x)%nat /\
  (query_count_uniques x = distinct x <-> NoDup x).
Proof. exact uniq_thm. Qed.
Print Assumptions C88_count_uniques.

(** So it is not the number of unique values of the column. *)
Theorem C88_count_uniques_refuted : exists x : list (option Z), distinct x = 2%nat /\ query_count_uniques x = 0%nat.
Proof. exists [Some 1; Some 2; Some 2; Some 1]%Z. split; reflexivity. Qed.
Print Assumptions C88_count_uniques_refuted.

(** [query_range_count] is the number of rows with a known value inside the closed interval. *)
Theorem C88_range_count : forall (x : rcol) (lower upper : R),
  exists idx, NoDup idx /\ length idx = query_range_count x lower upper /\
    forall i, In i idx <-> exists v, nth_error x i = Some (Some v) /\ lower <= v <= upper.
Proof. exact range_thm. Qed.
Print Assumptions C88_range_count.
