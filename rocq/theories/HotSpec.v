(** Specification vocabulary for encoders and polynomial features. *)
From Coq Require Import Reals String Bool Permutation Sorted.
From Coq Require Import List.
From Verif Require Import MetricSpec WStatsSpec WStatsModel PipeModel PipeSpec TfmSpec EncSpec.
Import ListNotations.
Open Scope R_scope.

(** A column of strings and nulls. *)
Definition text_col (y : list (option string)) : column := map (fun o => match o with Some s => Str s | None => Null end) y.
Definition category (f : frame) (c u : string) : Prop := exists y, lookup c f = Some (text_col y) /\ In (Some u) y.
Definition below (u v : string) : Prop := String.compare u v = Lt.
(** Category u of column c gets a column: there is another category and, with drop_first, u is not the smallest. *)
Definition gets_column (f : frame) (cs : list string) (drop_first : bool) (c u : string) : Prop :=
  In c cs /\ category f c u /\ (exists u', u' <> u /\ category f c u') /\ (drop_first = true -> exists u', category f c u' /\ below u' u).
Definition number (r : R) : cell := Num (Fin r).
Definition is_it (o : option string) (u : string) : R := if (match o with Some s => String.eqb s u | None => false end) then 1 else 0.
(** No character of s is a. *)
Fixpoint lacks (a : Ascii.ascii) (s : string) : Prop := match s with EmptyString => True | String b s' => b <> a /\ lacks a s' end.
(** Number of ways to choose k of n. *)
Fixpoint choose (n k : nat) : nat :=
  match k, n with
  | O, _ => 1%nat
  | S _, O => 0%nat
  | S k', S n' => (choose n' k' + choose n' k)%nat
  end.
(** The items of m in the order of the list cs. *)
Definition in_order {A} (cs m : list A) : Prop := exists ps, StronglySorted le ps /\ Forall (fun p => (p < length cs)%nat) ps /\ map Some m = map (nth_error cs) ps.
(** Product of the known values of a row; null if one is null. *)
Fixpoint row_product (xs : list (option R)) : option R :=
  match xs with [] => Some 1 | x :: xs' => match x, row_product xs' with Some a, Some b => Some (a * b) | _, _ => None end end.
Definition at_row (i : nat) (y : rcol) : option R := nth i y None.
(** The products of degree d to be formed, as lists of columns. *)
Definition wanted (cs : list string) (d : nat) (inter : bool) (m : list string) : Prop :=
  length m = d /\ in_order cs m /\ (inter = true -> exists a b, In a m /\ In b m /\ a <> b).
(** Dictionary encoders: a category of the training frame becomes its learned value, anything else the default. *)
Definition encodes (fit : frame -> list string -> option (list expr)) (V : list (@row string) -> string -> xnum) (f : frame) (cs : list string) (x : rcol) (dv : option xnum) : Prop :=
  exists es, fit f cs = Some es /\
    forall g, (forall c y, In c cs -> lookup c f = Some (text_col y) -> exists z, lookup c g = Some (text_col z)) ->
      exists g', with_columns es g = Some g' /\ names g' = names g /\
        (forall n, (~ In n cs \/ forall y, lookup n f <> Some (text_col y)) -> lookup n g' = lookup n g) /\
        forall c y z, In c cs -> lookup c f = Some (text_col y) -> lookup c g = Some (text_col z) ->
          exists w, lookup c g' = Some (num_col w) /\ length w = length z /\ forall i, (i < length z)%nat ->
            (forall k, nth i z None = Some k -> occurs k (combine y x) -> nth i w None = Some (V (combine y x) k)) /\
            ((forall k, nth i z None = Some k -> ~ occurs k (combine y x)) -> nth i w None = dv).
