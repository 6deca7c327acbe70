(** Specification: sums, means and variances of lists of reals, and replication by integer frequencies. *)
From Coq Require Import Reals List.
Import ListNotations.
Open Scope R_scope.

Fixpoint Rsum (l : list R) : R := match l with [] => 0 | a :: l' => a + Rsum l' end.
Definition mean_of (l : list R) : R := Rsum l / INR (length l).
(** Sample variance (denominator n - 1). *)
Definition var_of (l : list R) : R := Rsum (map (fun a => (a - mean_of l) ^ 2) l) / (INR (length l) - 1).
(** Weighted sum of f over rows (value, weight). *)
Definition wsum (f : R -> R) (rows : list (R * R)) : R := Rsum (map (fun r => snd r * f (fst r)) rows).
Definition wtotal (rows : list (R * R)) : R := Rsum (map snd rows).
(** Each value repeated as often as its frequency says. *)
Fixpoint replicate (x : list R) (k : list nat) : list R :=
  match x, k with a :: x', c :: k' => repeat a c ++ replicate x' k' | _, _ => [] end.

(** Median of a list: middle of the sorted list, or the average of the two middle values. *)
Fixpoint insert_R (a : R) (l : list R) : list R := match l with [] => [a] | b :: l' => if Rle_dec a b then a :: l else b :: insert_R a l' end.
Fixpoint sort_R (l : list R) : list R := match l with [] => [] | a :: l' => insert_R a (sort_R l') end.
Definition median_of (l : list R) : R :=
  let s := sort_R l in
  let n := length s in
  if Nat.even n then (nth (n / 2 - 1) s 0 + nth (n / 2) s 0) / 2 else nth (n / 2) s 0.
