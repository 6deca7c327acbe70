(** Model of the streak queries of python/polars_ds/exprs/ts_features.py.  A condition column is a list of optional
    booleans (None = null); [rle] is Polars' run-length encoding, which treats null as a value of its own. *)
From Coq Require Import List Arith Bool Reals.
Import ListNotations.

Definition oeqb (a b : option bool) : bool :=
  match a, b with Some x, Some y => eqb x y | None, None => true | _, _ => false end.
Fixpoint rle (c : list (option bool)) : list (nat * option bool) :=
  match c with
  | [] => []
  | a :: c' => match rle c' with
               | (n, b) :: r => if oeqb a b then (S n, b) :: r else (1, a) :: (n, b) :: r
               | [] => [(1, a)]
               end
  end.
(** [y.filter(y.struct.field("value")).struct.field("len")]: null values are not kept by a filter. *)
Definition true_lens (c : list (option bool)) : list nat :=
  map fst (filter (fun b => match snd b with Some true => true | _ => false end) (rle c)).
(** ts_features.py 121-149 query_longest_streak: [max().fill_null(0)]. *)
Definition query_longest_streak (c : list (option bool)) : nat :=
  match true_lens c with [] => 0 | a :: l => fold_left Nat.max l a end.
(** ts_features.py 152-181 query_avg_streak: [mean().fill_null(0)], in exact arithmetic. *)
Definition query_avg_streak (c : list (option bool)) : R :=
  match true_lens c with [] => 0%R | l => (fold_right Rplus 0 (map INR l) / INR (length l))%R end.
(** ts_features.py 184-206 query_streak: no filter on the value. *)
Definition query_streak (c : list (option bool)) : list nat := map fst (rle c).
