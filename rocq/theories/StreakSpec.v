(** Specification of streaks of a condition. *)
From Coq Require Import List Arith Reals.
Import ListNotations.

(** The condition is known to be true in row [i]. *)
Definition holds (c : list (option bool)) (i : nat) : Prop := nth_error c i = Some (Some true).
(** Rows [s .. s + n - 1] form a streak: the condition holds in all of them. *)
Definition streak (c : list (option bool)) (s n : nat) : Prop := forall i, s <= i < s + n -> holds c i.
(** A maximal streak cannot be extended on either side. *)
Definition maximal_streak (c : list (option bool)) (s n : nat) : Prop :=
  0 < n /\ streak c s n /\ (forall p, s = S p -> ~ holds c p) /\ ~ holds c (s + n).
Definition true_rows (c : list (option bool)) : list nat := filter (fun i => match nth_error c i with Some (Some true) => true | _ => false end) (seq 0 (length c)).
