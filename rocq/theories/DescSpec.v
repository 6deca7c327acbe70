(** Specification of simple descriptive features. *)
From Coq Require Import Reals List Permutation ZArith.
From Verif Require Import WStatsSpec.
Import ListNotations.
Open Scope R_scope.

(** [s] consists of [k] of the elements of [l]. *)
Definition selection {A} (k : nat) (l s : list A) : Prop := length s = k /\ exists rest, Permutation (s ++ rest) l.
(** The number of different values of a column (null counts as a value), and of values that occur exactly once. *)
Definition odec (a b : option Z) : {a = b} + {a <> b}.
Proof. decide equality. apply Z.eq_dec. Defined.
Definition distinct (x : list (option Z)) : nat := length (nodup odec x).
Definition occurring_once (x : list (option Z)) : nat := length (filter (fun v => Nat.eqb (count_occ odec x v) 1) (nodup odec x)).
