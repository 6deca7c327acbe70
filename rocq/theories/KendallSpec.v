(** Kendall's tau-b by its definition: sums over all pairs of complete rows. *)
From Coq Require Import Bool List ZArith Permutation Sorted.
From Verif Require Import Num F64 KdDemo PairSums.
Import ListNotations.
Open Scope Z_scope.

(** The rows where both columns have a value. *)
Definition complete_rows {X Y} (xs : list (option X)) (ys : list (option Y)) : list (X * Y) :=
  flat_map (fun p => match p with (Some x, Some y) => [(x, y)] | _ => [] end) (combine xs ys).

(** +1 for a concordant pair of rows, -1 for a discordant pair, 0 when tied in x or in y. *)
Definition concord (a b : Z * Z) : Z := Z.sgn (fst a - fst b) * Z.sgn (snd a - snd b).
Definition concordant_minus_discordant (rows : list (Z * Z)) : Z := psum concord rows.
(** Numbers of pairs not tied in x, not tied in y. *)
Definition untied_x (rows : list (Z * Z)) : Z := psum (fun a b => b2z (negb (fst a =? fst b))) rows.
Definition untied_y (rows : list (Z * Z)) : Z := psum (fun a b => b2z (negb (snd a =? snd b))) rows.

(** Lexicographic order and a sort by it. *)
Definition lex (a b : Z * Z) : Prop := fst a < fst b \/ (fst a = fst b /\ snd a <= snd b).
Definition lex_sort_ok (sort : list (Z * Z) -> list (Z * Z)) : Prop :=
  forall l, Permutation (sort l) l /\ StronglySorted lex (sort l).

Definition tau_b (rows : list (Z * Z)) : f64 :=
  ndiv f64_ops (fi (concordant_minus_discordant rows))
    (nsqrt f64_ops (nmul f64_ops (fi (untied_x rows)) (fi (untied_y rows)))).
