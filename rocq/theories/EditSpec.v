(** Vocabulary of property C116 (edit distances). *)
From Coq Require Import List Arith ZArith Reals.
From Verif Require Import StrSpec.
Import ListNotations.

(** One character inserted, deleted or replaced. *)
Inductive edit : chars -> chars -> Prop :=
| edit_ins : forall u x v, edit (u ++ v) (u ++ x :: v)
| edit_del : forall u x v, edit (u ++ x :: v) (u ++ v)
| edit_sub : forall u x y v, edit (u ++ x :: v) (u ++ y :: v).
(** ... or two neighbours swapped. *)
Inductive edit_or_swap : chars -> chars -> Prop :=
| one_edit : forall a b, edit a b -> edit_or_swap a b
| one_swap : forall u x y v, edit_or_swap (u ++ x :: y :: v) (u ++ y :: x :: v).
(** n steps in a row. *)
Inductive steps (step : chars -> chars -> Prop) : nat -> chars -> chars -> Prop :=
| no_step : forall a, steps step 0 a a
| more_steps : forall n a b c, step a b -> steps step n b c -> steps step (S n) a c.
(** The least n with a property. *)
Definition least_of (P : nat -> Prop) (n : nat) : Prop := P n /\ forall m, P m -> n <= m.
(** Two words written above each other with n errors: equal characters cost nothing, every other pair, every single character and
    every swapped pair of neighbours is one error, and no character is used twice. *)
Inductive aligned : nat -> chars -> chars -> Prop :=
| al_nil : aligned 0 [] []
| al_keep : forall n x a b, aligned n a b -> aligned n (x :: a) (x :: b)
| al_sub : forall n x y a b, aligned n a b -> aligned (S n) (x :: a) (y :: b)
| al_ins : forall n y a b, aligned n a b -> aligned (S n) a (y :: b)
| al_del : forall n x a b, aligned n a b -> aligned (S n) (x :: a) b
| al_swap : forall n x y a b, aligned n a b -> aligned (S n) (x :: y :: a) (y :: x :: b).
(** s is what remains of a after dropping characters. *)
Inductive subword : chars -> chars -> Prop :=
| sw_nil : subword [] []
| sw_keep : forall x s a, subword s a -> subword (x :: s) (x :: a)
| sw_drop : forall x s a, subword s a -> subword s (x :: a).
(** n is the length of the longest common subword. *)
Definition longest_common (a b : chars) (n : nat) : Prop :=
  (exists s, subword s a /\ subword s b /\ length s = n) /\ forall s, subword s a -> subword s b -> length s <= n.
(** A distance: zero on equal words only, symmetric, no shorter way through a third word. *)
Definition metric (d : chars -> chars -> nat) : Prop :=
  (forall a b, d a b = 0 <-> a = b) /\ (forall a b, d a b = d b a) /\ forall a b c, d a c <= d a b + d b c.
(** A similarity: from 0 to 1, 1 on equal words only, symmetric. *)
Definition similarity (s : chars -> chars -> R) : Prop :=
  (forall a b, (0 <= s a b <= 1)%R) /\ (forall a b, s a b = 1%R <-> a = b) /\ forall a b, s a b = s b a.
(** Sum of a list of numbers. *)
Fixpoint total (l : list R) : R := match l with [] => 0%R | x :: r => (x + total r)%R end.
