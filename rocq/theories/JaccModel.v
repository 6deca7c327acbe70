(** Model of src/num_ext/jaccard.rs.  Hash sets are duplicate-free lists ([nodup]); the element type is any
    type with decidable equality (integers, strings, [OrderedFloat]). *)
From Coq Require Import Bool List ZArith QArith.
From Verif Require Import PairSums AnovaModel.
Import ListNotations.
Open Scope Z_scope.

Section J.
Context {K : Type} (dec : forall a b : K, {a = b} + {a <> b}).

(** [collect::<PlHashSet<_>>()]. *)
Definition hash_set (l : list K) : list K := nodup dec l.
(** [hs1.intersection(&hs2).count()]. *)
Definition inter_count (s1 s2 : list K) : Z := zlen (filter (fun x => if in_dec dec x s2 then true else false) s1).

(** jaccard.rs 16-24 jaccard_str, 26-37 jaccard_int: on the items of two lists; [None] is NaN (0/0).
    [usize] subtraction cannot underflow since the intersection is a part of the first set. *)
Definition jaccard_sets (a b : list K) : option Q :=
  let s1 := hash_set a in
  let s2 := hash_set b in
  let s3_len := inter_count s1 s2 in
  qdiv (inject_Z s3_len) (inject_Z (zlen s1 + zlen s2 - s3_len)).
End J.

Section Cols.
Context {K : Type} (dec : forall a b : K, {a = b} + {a <> b}).

Definition odec : forall a b : option K, {a = b} + {a <> b}.
Proof. decide equality. Defined.

(** jaccard.rs 39-56, 58-88 pl_list_jaccard, on one pair of rows: the items are hashed as [Option<T>], so a null
    item is an element like any other; a null list gives null ([None]). *)
Definition list_jaccard_row (a b : option (list (option K))) : option (option Q) :=
  match a, b with Some a, Some b => Some (jaccard_sets odec a b) | _, _ => None end.
Definition list_jaccard (a b : list (option (list (option K)))) : list (option (option Q)) :=
  map (fun p => list_jaccard_row (fst p) (snd p)) (combine a b).

(** A column slot: its validity bit and its physical value.  [into_no_null_iter] ignores the validity bits
    and yields the physical value of null slots as well. *)
Definition slot := (bool * K)%type.
Definition has_nulls (c : list slot) : bool := existsb (fun s : bool * K => negb (fst s)) c.
Definition no_null_iter (c : list slot) : list K := map snd c.
(** The values a user sees. *)
Definition logical (c : list slot) : list (option K) := map (fun s : bool * K => if fst s then Some (snd s) else None) c.

(** jaccard.rs 90-227 pl_jaccard, columns of the same (supported) type. *)
Definition jaccard_col (count_null : bool) (c1 c2 : list slot) : option Q :=
  let adj := if count_null then if has_nulls c1 && has_nulls c2 then 1 else 0 else 0 in
  let hs1 := hash_set dec (no_null_iter c1) in
  let hs2 := hash_set dec (no_null_iter c2) in
  let adjusted := inter_count dec hs1 hs2 + adj in
  qdiv (inject_Z adjusted) (inject_Z (Z.abs (zlen hs1 + zlen hs2 - adjusted))).
End Cols.
