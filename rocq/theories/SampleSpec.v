(** What is assumed of the random generator: the draws of a uniform law lie in its range. *)
From Coq Require Import Bool List Arith ZArith Reals.
From Flocq Require Import IEEE754.BinarySingleNaN.
From Verif Require Import Num F64.
Import ListNotations.

Definition uniform_i32 (gen : Z -> Z -> nat -> Z) : Prop :=
  forall low high i, (low < high)%Z -> (low <= gen low high i < high)%Z.
Definition uniform_f64 (gen : f64 -> f64 -> nat -> f64) : Prop :=
  forall low high i, nfinite f64_ops low = true -> nfinite f64_ops high = true -> nlt f64_ops low high = true ->
    nfinite f64_ops (gen low high i) = true /\ (B2R low <= B2R (gen low high i) < B2R high)%R.
Definition uniform_incl (gen : nat -> nat -> nat -> nat) : Prop := forall lo hi i, lo <= hi -> lo <= gen lo hi i <= hi.
