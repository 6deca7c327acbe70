(** Properties of the lag-based time series features (C86, C87). *)
From Coq Require Import Reals List ZArith Lra Lia.
From Verif Require Import WStatsSpec WStatsModel MetricSpec MetricModel LagSpec LagModel LagProofs LagPropsLemmas.
Import ListNotations.
Open Scope R_scope.

Theorem C86_mean_abs_change x : pairs_at 1 x <> [] ->
  exists v, query_mean_abs_change x = Some v /\ v = avg (fun p => Rabs (snd p - fst p)) (pairs_at 1 x) /\ 0 <= v /\
    (v = 0 <-> forall a b, In (a, b) (pairs_at 1 x) -> a = b) /\
    query_mean_abs_change (rev x) = Some v /\
    forall s t, query_mean_abs_change (lift1 (fun y => s * y + t) x) = Some (Rabs s * v).
Proof. exact (mac_thm x). Qed.
Print Assumptions C86_mean_abs_change.
Theorem C86_net_change a l : l <> [] ->
  exists v, query_mean_abs_change (map Some (a :: l)) = Some v /\ Rabs (last l a - a) <= INR (length l) * v.
Proof. exact (telescoping a l). Qed.
Print Assumptions C86_net_change.
Definition ts : rcol := [Some 1; Some 3; None; Some 2; Some 0; Some 5].
Example C86_case : pairs_at 1 ts = [(1, 3); (2, 0); (0, 5)] /\ triples_at 1 ts = [(2, 0, 5)] /\ pairs_at 2 ts = [(3, 2); (2, 5)].
Proof. repeat split; reflexivity. Qed.

Theorem C86_complexity x : exists v, query_cid_ce x false = Fin v /\ v = sqrt (total (fun p => (fst p - snd p) ^ 2) (pairs_at 1 x)) /\
  (v = 0 <-> forall a b, In (a, b) (pairs_at 1 x) -> a = b) /\ query_cid_ce (rev x) false = Fin v /\
  forall s t, query_cid_ce (lift1 (fun y => s * y + t) x) false = Fin (Rabs s * v).
Proof. exact (ce_thm x). Qed.
Print Assumptions C86_complexity.

Theorem C86_complexity_normalized x : (2 <= length (values x))%nat -> 0 < var_of (values x) ->
  exists v, query_cid_ce x true = Fin v /\ v = sqrt (total (fun p => (fst p - snd p) ^ 2) (pairs_at 1 x) / var_of (values x)) /\
    query_cid_ce (rev x) true = Fin v /\ forall s t, s <> 0 -> query_cid_ce (lift1 (fun y => s * y + t) x) true = Fin v.
Proof. exact (ce_norm_thm x). Qed.
Print Assumptions C86_complexity_normalized.
Example C86_normalized_case : let x : rcol := [Some 1; Some 3] in (2 <= length (values x))%nat /\ 0 < var_of (values x).
Proof. split; [cbn; lia|]. unfold var_of, mean_of. cbn. lra. Qed.

Theorem C86_time_reversal x n : triples_at n x <> [] ->
  exists v, query_tra x n = Some v /\ v = avg (fun t => let '(a, b, c) := t in c ^ 2 * b - b * a ^ 2) (triples_at n x) /\
    query_tra (rev x) n = Some (- v) /\ (rev x = x -> v = 0) /\
    forall s, query_tra (lift1 (fun y => s * y) x) n = Some (s ^ 3 * v).
Proof. exact (tra_thm x n). Qed.
Print Assumptions C86_time_reversal.

Theorem C86_c3 x lag : (Z.of_nat (length x) < 2 ^ 32)%Z -> (2 * lag < length x)%nat ->
  exists v, query_c3_stats x lag = Fin v /\ v = total (fun t => let '(a, b, c) := t in a * b * c) (triples_at lag x) / INR (length x - 2 * lag) /\
    query_c3_stats (rev x) lag = Fin v /\
    (forall l, x = map Some l -> v = avg (fun t => let '(a, b, c) := t in a * b * c) (triples_at lag x)).
Proof. exact (c3_thm x lag). Qed.
Print Assumptions C86_c3.
Theorem C86_c3_no_triples x lag : (Z.of_nat (length x) < 2 ^ 32)%Z -> (length x = 2 * lag)%nat -> query_c3_stats x lag = NaN.
Proof. exact (c3_short x lag). Qed.
Print Assumptions C86_c3_no_triples.
Theorem C86_c3_nulls_refuted : exists x, triples_at 1 x = [(2, 2, 2)] /\ query_c3_stats x 1 = Fin 4.
Proof. exact c3_null_ex. Qed.
Print Assumptions C86_c3_nulls_refuted.

Theorem C87_auto_corr x lag ddof : (ddof < length (values x))%nat -> (lag < length x)%nat -> 0 < ssd (values x) ->
  exists v, query_auto_corr x lag ddof true = Some (Fin v) /\
    v = total (fun p => (fst p - mean_of (values x)) * (snd p - mean_of (values x))) (pairs_at lag x) / (INR (length x - lag) * (ssd (values x) / INR (length (values x) - ddof))) /\
    Rabs v <= INR (length (values x) - ddof) / INR (length x - lag) /\
    query_auto_corr (rev x) lag ddof true = Some (Fin v) /\
    forall s t, s <> 0 -> query_auto_corr (lift1 (fun y => s * y + t) x) lag ddof true = Some (Fin v).
Proof. exact (ac_thm x lag ddof). Qed.
Print Assumptions C87_auto_corr.
Example C87_case : 0 < ssd (values ts) /\ (2 < length ts)%nat.
Proof. split; [|cbn; lia]. unfold ssd, mean_of. cbn. lra. Qed.
Theorem C87_lag_zero x : (forall o, In o x -> o <> None) -> x <> [] -> 0 < ssd (values x) -> query_auto_corr x 0 0 true = Some (Fin 1).
Proof. exact (ac_lag0 x). Qed.
Print Assumptions C87_lag_zero.
Theorem C87_not_normalized x lag ddof : query_auto_corr x lag ddof false = match pairs_at lag x with [] => None | l => Some (Fin (avg (fun p => fst p * snd p) l)) end.
Proof. exact (ac_raw x lag ddof). Qed.
Print Assumptions C87_not_normalized.
Theorem C87_range_refuted : exists x, length x = 5%nat /\ query_auto_corr x 4 0 true = Some (Fin (3 / 2)).
Proof. exact ac_ex. Qed.
Print Assumptions C87_range_refuted.
Theorem C87_nulls_refuted : exists x, pairs_at 1 x = [(1, -1)] /\ query_auto_corr x 1 0 true = Some (Fin (- (1 / 2))).
Proof. exact ac_null_ex. Qed.
Print Assumptions C87_nulls_refuted.
