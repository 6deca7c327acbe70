(** Model of src/num_ext/iterations.rs and of expr_iter.py [combinations], [product]. *)
From Coq Require Import List Arith ZArith.
From Verif Require Import RocModel.
Import ListNotations.
Open Scope nat_scope.

(** [Itertools::combinations(k)] (external crate): the k-element subsequences by ascending positions, in
    lexicographic order of the positions. *)
Fixpoint combos {A} (k : nat) (l : list A) : list (list A) :=
  match k with
  | O => [[]]
  | S k' => (fix go (l : list A) : list (list A) :=
               match l with [] => [] | a :: l' => map (cons a) (combos k' l') ++ go l' end) l
  end.

(** iterations.rs 18-24 count_combinations (usize; wrap-around not modelled: it is a capacity hint). *)
Definition count_combinations (n k : nat) : nat :=
  if n <? k then 0 else fold_left (fun acc val => acc * (n - val + 1) / val) (seq 1 (Nat.min k (n - k))) 1.

(** [drop_nulls()]. *)
Definition drop_nulls {A} (l : list (option A)) : list A :=
  flat_map (fun o => match o with Some a => [a] | None => [] end) l.

Section K.
Context {A : Type} (leb : A -> A -> bool).
(** expr_iter.py 125-129 and iterations.rs 85-111; [unique().drop_nulls().sort()] is the ascending list of distinct
    values.  [None]: the error for fewer than k values. *)
Definition source (unique : bool) (col : list (option A)) : list A :=
  if unique then keys leb (map (fun a => (a, 0%Z)) (drop_nulls col)) else drop_nulls col.
Definition combinations (col : list (option A)) (k : nat) (unique : bool) : option (list (list A)) :=
  let s := source unique col in
  if length s <? k then None else Some (combos k s).
End K.

(** iterations.rs 46-59, 70-83, 113-142 and expr_iter.py 65-69. *)
Definition product {A} (c1 c2 : list (option A)) : list (list A) :=
  flat_map (fun a => map (fun b => [a; b]) (drop_nulls c2)) (drop_nulls c1).
