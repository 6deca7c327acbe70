(** Empirical distribution functions and the two-sample Kolmogorov-Smirnov statistic. *)
From Coq Require Import Bool List Arith ZArith Permutation Sorted.
From Verif Require Import Num F64 KdDemo.
Import ListNotations.

(** Fraction of the sample that is at most [t] (an f64 quotient of two counts). *)
Definition ecdf (v : list f64) (t : f64) : f64 :=
  ndiv f64_ops (fi (Z.of_nat (length (filter (fun x => nle f64_ops x t) v)))) (fi (Z.of_nat (length v))).
Definition gap (v1 v2 : list f64) (t : f64) : f64 := nabs f64_ops (nsub f64_ops (ecdf v1 t) (ecdf v2 t)).

(** [s] is the supremum of the gap over every (non-NaN) float t, attained at a sample point. *)
Definition is_sup_gap (v1 v2 : list f64) (s : f64) : Prop :=
  (forall t, nnan f64_ops t = false -> nle f64_ops (gap v1 v2 t) s = true) /\
  (exists t, In t (v1 ++ v2) /\ s = gap v1 v2 t).

Definition float_sort_ok (sort : list f64 -> list f64) : Prop :=
  forall l, Permutation (sort l) l /\
    (Forall (fun x : f64 => nnan f64_ops x = false) l ->
     StronglySorted (fun a b : f64 => nle f64_ops a b = true) (sort l)).

(** The values a column contributes: neither null nor infinite nor NaN. *)
Definition finite_values (col : list (option f64)) : list f64 :=
  flat_map (fun o => match o with Some x => if nfinite f64_ops x then [x] else [] | None => [] end) col.
(** The values of [col] in the rows where the other column equals [v]. *)
Definition rows_where (by_ : list (option Z)) (v : Z) (col : list (option f64)) : list (option f64) :=
  flat_map (fun p => match fst p with Some a => if (a =? v)%Z then [snd p] else [] | None => [] end) (combine by_ col).
