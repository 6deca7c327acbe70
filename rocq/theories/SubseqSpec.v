(** Specification of subsequence matching. *)
From Coq Require Import Reals List.
From Verif Require Import WStatsSpec MetricSpec.
Import ListNotations.
Open Scope R_scope.

(** The [w] consecutive values that start in row [i]. *)
Definition window (l : list R) (w i : nat) : list R := firstn w (skipn i l).
(** Squared Euclidean distance of two lists of equal length. *)
Definition sqdist (a b : list R) : R := total (fun p => (fst p - snd p) ^ 2) (combine a b).
(** z-normalisation with the documented minimum variance of 1e-10. *)
Definition min_var : R := / 10 ^ 10.
Definition znorm (w : list R) : list R := map (fun x => (x - mean_of w) / sqrt (Rmax (var_of w) min_var)) w.
(** z-normalisation of the query. *)
Definition zscore (q : list R) : list R := map (fun x => (x - mean_of q) / sqrt (var_of q)) q.
(** [n] is the number of positions at which a window of [w] values fits into [l] and satisfies [good]. *)
Definition counts_windows (l : list R) (w : nat) (good : list R -> Prop) (n : nat) : Prop :=
  exists idx, NoDup idx /\ length idx = n /\ forall i, In i idx <-> (i + w <= length l)%nat /\ good (window l w i).
