(** Specification of the Jaccard similarity: cardinalities of the intersection and of the union. *)
From Coq Require Import List ZArith QArith.
From Verif Require Import PairSums.
Import ListNotations.
Open Scope Z_scope.

(** The set of the [x] with [P x] has exactly [n] elements. *)
Definition card {A} (P : A -> Prop) (n : Z) : Prop :=
  exists l, NoDup l /\ (forall x, In x l <-> P x) /\ zlen l = n.
(** [v] is |A ∩ B| / |A ∪ B|; NaN ([None]) when both sets are empty. *)
Definition is_jaccard {A} (a b : A -> Prop) (v : option Q) : Prop :=
  exists i u, card (fun x => a x /\ b x) i /\ card (fun x => a x \/ b x) u /\
    (u = 0 -> v = None) /\ (u <> 0 -> exists q, v = Some q /\ (q == inject_Z i / inject_Z u)%Q).
(** The elements of a column; with [count_null] a null is one more element. *)
Definition elements {K} (count_null : bool) (c : list (option K)) (x : option K) : Prop :=
  In x c /\ (x = None -> count_null = true).
