(** Properties of the streak queries (C85). *)
From Coq Require Import List Arith Reals Permutation.
From Verif Require Import WStatsSpec StreakSpec StreakModel StreakProofs.
Import ListNotations.
Open Scope nat_scope.

Theorem C85_longest c : let L := query_longest_streak c in
  (exists s, streak c s L) /\ forall s n, streak c s n -> n <= L.
Proof. exact (longest_thm c). Qed.
Print Assumptions C85_longest.

Theorem C85_average c : exists runs, NoDup runs /\ (forall s n, In (s, n) runs <-> maximal_streak c s n) /\
  (runs = [] -> query_avg_streak c = 0%R) /\ (runs <> [] -> query_avg_streak c = mean_of (map (fun r => INR (snd r)) runs)) /\
  Permutation (true_rows c) (flat_map (fun r => seq (fst r) (snd r)) runs).
Proof. exact (avg_thm c). Qed.
Print Assumptions C85_average.
Example C85_case : query_longest_streak [Some true; None; Some true; Some true; Some false; Some true] = 2.
Proof. reflexivity. Qed.

Theorem C85_all_streaks_refuted : exists c, query_streak c = [2; 3] /\ forall s n, maximal_streak c s n -> n = 2.
Proof. exact streak_ex. Qed.
Print Assumptions C85_all_streaks_refuted.
