(** Specification: templates of a series and their matches in the maximum norm. *)
From Coq Require Import Bool List Arith ZArith Reals.
From Verif Require Import Num KdSpec PairSums.
Import ListNotations.
Open Scope nat_scope.

Section S.
Context (N : NumOps).
Notation T := (carrier N).
(** The [l] consecutive values starting at [i]. *)
Definition template (ts : list T) (l i : nat) : list T := firstn l (skipn i ts).
(** Templates [i] and [j] of length [l] differ by at most [r] in every coordinate. *)
Definition close (ts : list T) (l : nat) (r : T) (i j : nat) : bool :=
  nle N (spec_dist N MLINF (template ts l i) (template ts l j)) r.
(** Number of ordered pairs of distinct close templates among the first [k]. *)
Definition matches (ts : list T) (l k : nat) (r : T) : Z :=
  zlen (filter (fun ij => negb (fst ij =? snd ij) && close ts l r (fst ij) (snd ij)) (list_prod (seq 0 k) (seq 0 k))).
(** Number of templates close to template [j] (itself included). *)
Definition near (ts : list T) (l k : nat) (r : T) (j : nat) : Z :=
  zlen (filter (fun i => close ts l r i j) (seq 0 k)).
End S.

(** Pincus' phi over given match counts [c 0 .. c (k-1)]. *)
Fixpoint rsum_upto (f : nat -> R) (k : nat) : R := match k with O => 0%R | S k' => (rsum_upto f k' + f k')%R end.
Definition phi_spec (c : nat -> Z) (k : nat) : R := (rsum_upto (fun j => ln (IZR (c j) / INR k)) k / INR k)%R.
