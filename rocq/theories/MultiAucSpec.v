(** Specification of the Gini coefficient and of the multiclass AUC. *)
From Coq Require Import Bool List Arith ZArith QArith.
From Verif Require Import PairSums QSum RocSpec.
Import ListNotations.
Open Scope Z_scope.

Section S.
Context {K : Type} (leb : K -> K -> bool).
(** Pairs of a positive and a negative row in which the positive one scores higher, and lower. *)
Definition pairs (rows : list (K * bool)) : list (K * K) :=
  flat_map (fun n => map (fun p => (fst p, fst n)) (filter (fun r => snd r) rows)) (filter (fun r => negb (snd r)) rows).
Definition ordered rows : Z := zlen (filter (fun pn => negb (leb (fst pn) (snd pn))) (pairs rows)).
Definition inverted rows : Z := zlen (filter (fun pn => negb (leb (snd pn) (fst pn))) (pairs rows)).
Definition somers_d rows : Q := (inject_Z (ordered rows - inverted rows) / inject_Z (zlen (pairs rows)))%Q.

(** Rows of a multiclass problem: the label, and the score of every class. *)
Definition mrow : Type := Z * (nat -> K).
(** Class [i] against the others, by the score of class [i]. *)
Definition one_vs_rest (i : nat) (rows : list mrow) : list (K * bool) := map (fun r => (snd r i, fst r =? Z.of_nat i)) rows.
Definition rows_of_class (i : nat) (rows : list mrow) : Z := zlen (filter (fun r => fst r =? Z.of_nat i) rows).
(** The columns that hold the rows. *)
Definition label_col (rows : list mrow) : list (option Z) := map (fun r => Some (fst r)) rows.
Definition score_col (n : nat) (rows : list mrow) : list (option (list K)) := map (fun r => Some (map (snd r) (seq 0 n))) rows.
(** No positive and negative row share the largest score (see C25). *)
Definition pure_top (rows : list (K * bool)) : Prop := one_score rows \/ top_pos leb rows = 0 \/ top_neg leb rows = 0.
(** Every class below [n] occurs, none takes all rows. *)
Definition good_classes (n : nat) (rows : list mrow) : Prop :=
  forall i, (i < n)%nat -> 0 < rows_of_class i rows < zlen rows /\ pure_top (one_vs_rest i rows).
End S.
