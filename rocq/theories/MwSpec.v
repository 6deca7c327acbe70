(** The Mann-Whitney U statistic and its tie term by definition. *)
From Coq Require Import Bool List ZArith QArith Permutation Sorted.
From Verif Require Import Num F64 PairSums.
Import ListNotations.
Open Scope Z_scope.

Definition same_value (a b : f64) : bool := nle f64_ops a b && nle f64_ops b a.
(** Number of pairs (x, y) with x > y, and with x = y. *)
Definition wins (xs ys : list f64) : Z := zsum (fun x : f64 => zsum (fun y : f64 => b2z (nlt f64_ops y x)) ys) xs.
Definition draws (xs ys : list f64) : Z := zsum (fun x : f64 => zsum (fun y : f64 => b2z (same_value y x)) ys) xs.
Definition U (xs ys : list f64) : Q := (inject_Z (wins xs ys) + inject_Z (draws xs ys) / 2)%Q.

(** Number of values of the pooled sample equal to [x]: the size t of x's tie group. *)
Definition tie_size (l : list f64) (x : f64) : Z := zsum (fun y : f64 => b2z (same_value y x)) l.
(** sum over the tie groups of t^3 - t; every one of the t members contributes t^2 - 1. *)
Definition tie_term (l : list f64) : Z := zsum (fun x : f64 => tie_size l x * tie_size l x - 1) l.
(** The same, but over the members of every group except the group of largest values. *)
Definition tie_term_below_max (l : list f64) : Z :=
  zsum (fun x : f64 => tie_size l x * tie_size l x - 1) (filter (fun x : f64 => existsb (fun y : f64 => nlt f64_ops x y) l) l).

Definition z_sort_ok (sort : list Z -> list Z) : Prop :=
  forall l, Permutation (sort l) l /\ StronglySorted Z.le (sort l).
