(** Specification: the incremental (LZ78) parse. *)
From Coq Require Import List.
Import ListNotations.

(** [q] is a non-empty prefix of [p]; proper if [q <> p]. *)
Definition prefix_of {A} (q p : list A) : Prop := q <> [] /\ exists r, p = q ++ r.

(** [lz_parse seen w phrases rest]: given the phrases already [seen], the word [w] is cut into [phrases] followed by
    [rest]: every phrase is the shortest prefix of what remains that has not been seen, and every prefix of [rest]
    has been seen. *)
Inductive lz_parse {A} : list (list A) -> list A -> list (list A) -> list A -> Prop :=
| lz_end seen w : (forall q, prefix_of q w -> In q seen) -> lz_parse seen w [] w
| lz_cut seen p w ps rest :
    p <> [] -> ~ In p seen -> (forall q, prefix_of q p -> q <> p -> In q seen) ->
    lz_parse (p :: seen) w ps rest -> lz_parse seen (p ++ w) (p :: ps) rest.
