(** Specification: selections of positions. *)
From Coq Require Import List Arith.
Import ListNotations.

(** Strictly increasing positions below [n]. *)
Fixpoint increasing (lo : nat) (idx : list nat) : Prop :=
  match idx with [] => True | i :: idx' => lo <= i /\ increasing (S i) idx' end.
Definition selection (n k : nat) (idx : list nat) : Prop :=
  length idx = k /\ increasing 0 idx /\ Forall (fun i => i < n) idx.
(** Lexicographic order of selections of one size. *)
Fixpoint lex_lt (a b : list nat) : Prop :=
  match a, b with
  | i :: a', j :: b' => i < j \/ i = j /\ lex_lt a' b'
  | _, _ => False
  end.
(** The values at the selected positions. *)
Definition pick {A} (l : list A) (idx : list nat) : list (option A) := map (nth_error l) idx.

(** Pascal's triangle. *)
Fixpoint binom (n k : nat) : nat :=
  match k, n with
  | 0, _ => 1
  | S _, 0 => 0
  | S k', S n' => binom n' k' + binom n' k
  end.
