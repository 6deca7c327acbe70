(** Model of descriptive features of python/polars_ds/exprs/ts_features.py, in exact real arithmetic. *)
From Coq Require Import Reals List ZArith.
From Verif Require Import WStatsSpec WStatsModel MetricSpec MetricModel DescSpec.
Import ListNotations.
Open Scope R_scope.

(** [x.top_k(n)]: the n largest values, nulls last; [mean] skips the nulls. *)
Definition top_k (n : nat) (l : list R) : list R := firstn n (rev (sort_R l)).
(** ts_features.py 83-89 query_mean_n_abs_max ([None] outside: ValueError). *)
Definition query_mean_n_abs_max (x : rcol) (n : Z) : option (option R) :=
  if (n <=? 0)%Z then None else Some (rmean (top_k (Z.to_nat n) (values (lift1 Rabs x)))).
Definition rmin (l : list R) : option R := match l with [] => None | a :: l' => Some (fold_left Rmin l' a) end.
(** ts_features.py 59-65 query_symm_ratio. *)
Definition query_symm_ratio (x : rcol) : option xnum :=
  match rmax (values x), rmin (values x) with
  | Some hi, Some lo => Some (xdiv (Rabs (cmean x - median_of (values x))) (hi - lo))
  | _, _ => None
  end.
(** ts_features.py 51-56 query_mid_range. *)
Definition query_mid_range (x : rcol) : option R :=
  match rmax (values x), rmin (values x) with Some hi, Some lo => Some ((hi - lo) / 2) | _, _ => None end.
(** ts_features.py 107-111 query_count_uniques: [is_unique().sum()]. *)
Definition query_count_uniques (x : list (option Z)) : nat := length (filter (fun v => Nat.eqb (count_occ odec x v) 1) x).
(** ts_features.py 114-118 query_range_count: [is_between] (both ends included) of null is null; [sum] skips it. *)
Definition query_range_count (x : rcol) (lower upper : R) : nat :=
  length (filter (fun v => if Rle_dec lower v then if Rle_dec v upper then true else false else false) (values x)).
