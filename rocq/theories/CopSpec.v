(** Specification: average ranks, complete rows, columns in the same order. *)
From Coq Require Import Bool List Arith ZArith Reals.
From Flocq Require Import Core IEEE754.BinarySingleNaN.
From Verif Require Import Num F64 F64Facts.
Import ListNotations.
Open Scope nat_scope.

Section Order.
Context {X : Type} (leb : X -> X -> bool).
(** The values of a column. *)
Definition somes (col : list (option X)) : list X := flat_map (fun o => match o with Some x => [x] | None => [] end) col.
(** The average of the positions that the values equal to x take in the sorted column, counted from 1. *)
Definition lower (col : list (option X)) (x : X) : nat := length (filter (fun y => negb (leb x y)) (somes col)).
Definition equal (col : list (option X)) (x : X) : nat := length (filter (fun y => leb x y && leb y x) (somes col)).
Definition average_rank (col : list (option X)) (x : X) : R := (INR (lower col x) + (INR (equal col x) + 1) / 2)%R.
Definition total_order : Prop :=
  (forall x y, leb x y = true \/ leb y x = true) /\ (forall x y z, leb x y = true -> leb y z = true -> leb x z = true).
(** Row i has a value in every column. *)
Definition complete (cols : list (list (option X))) (i : nat) : bool :=
  forallb (fun c => match nth i c None with Some _ => true | None => false end) cols.
(** [p] is row i of the columns of rank / length, each rounded to f64 (NaN at a null). *)
Definition rank_point (cols : list (list (option X))) (i : nat) (p : list (carrier f64_ops)) : Prop :=
  length p = length cols /\
  forall j c, nth_error cols j = Some c ->
    match nth i c None with
    | Some x => fin (nth j p (nzero f64_ops)) (rnd64 (average_rank c x / INR (length c)))
    | None => nth j p (nzero f64_ops) = nnanv f64_ops
    end.
End Order.

(** Two columns with their nulls in the same places and their values in the same order. *)
Definition same_order {X Y} (leb : X -> X -> bool) (leb' : Y -> Y -> bool) (c : list (option X)) (c' : list (option Y)) : Prop :=
  length c = length c' /\
  (forall i, nth i c None = None <-> nth i c' None = None) /\
  (forall i j x y x' y', nth i c None = Some x -> nth j c None = Some y -> nth i c' None = Some x' -> nth j c' None = Some y' ->
     leb x y = leb' x' y').
