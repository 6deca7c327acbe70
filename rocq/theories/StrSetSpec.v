(** Specification vocabulary for the n-gram set similarities: which byte strings are grams of a
    word, and how many grams satisfy a condition. *)
From Coq Require Import List Arith.
Import ListNotations.

Definition bytes := list nat.

(** The n-grams of [w]: its contiguous pieces of length n, or [w] itself when it is shorter. *)
Definition gram (n : nat) (w g : bytes) : Prop :=
  if length w <? n then g = w
  else length g = n /\ exists before after, w = before ++ g ++ after.

(** Exactly [k] byte strings satisfy [P]. *)
Definition card (P : bytes -> Prop) (k : nat) : Prop :=
  exists l, NoDup l /\ (forall g, In g l <-> P g) /\ length l = k.
