(** Specification vocabulary of within_dist_from, is_knn_from and the two frequency counts. *)
From Coq Require Import Reals List Bool Arith.
From Verif Require Import HavSpec.
Import ListNotations.
Open Scope R_scope.

(** The documented distances of two points. *)
Inductive near_dist := NL1 | NL2 | NSQL2 | NINF | NCOS | NHAV.
Definition add_up (l : list R) : R := fold_right Rplus 0 l.
Definition along (f : R -> R -> R) (p q : list R) : list R := map (fun xy => f (fst xy) (snd xy)) (combine p q).
Definition l1 (p q : list R) : R := add_up (along (fun x y => Rabs (y - x)) p q).
Definition sql2 (p q : list R) : R := add_up (along (fun x y => (y - x) * (y - x)) p q).
Definition linf (p q : list R) : R := fold_right Rmax 0 (along (fun x y => Rabs (y - x)) p q).
Definition dot (p q : list R) : R := add_up (along Rmult p q).
Definition true_dist (d : near_dist) (p q : list R) (v : R) : Prop :=
  match d with
  | NL1 => v = l1 p q
  | NL2 => v = sqrt (sql2 p q)
  | NSQL2 => v = sql2 p q
  | NINF => v = linf p q
  | NCOS => 0 < dot p p /\ 0 < dot q q /\ v = 1 - dot p q / (sqrt (dot p p) * sqrt (dot q q))
  | NHAV => exists a b x y, p = [a; b] /\ q = [x; y] /\ arc (point x y) (point a b) v
  end.
(** How many of the distances are smaller than [v]. *)
Definition closer (vs : list R) (v : R) : nat := length (filter (fun e => if Rlt_dec e v then true else false) vs).
(** How many rows of a boolean column are true. *)
Definition trues (l : list (option bool)) : nat := length (filter (fun o => match o with Some b => b | None => false end) l).
(** [m] of something per key: every key once, counts positive and descending. *)
Definition tally {A} (times : A -> nat) (res : list (A * nat)) : Prop :=
  NoDup (map fst res) /\ (forall a n, In (a, n) res <-> n = times a /\ (0 < n)%nat) /\
  forall i j a b, (i < j)%nat -> nth_error res i = Some a -> nth_error res j = Some b -> (snd b <= snd a)%nat.
