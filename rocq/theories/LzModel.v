(** Model of src/num_ext/lempel_ziv.rs and of [query_lempel_ziv] (ts_features.py 314-333). *)
From Coq Require Import Bool List Arith QArith.
Import ListNotations.

Definition phrase_dec (p q : list bool) : {p = q} + {p <> q} := list_eq_dec bool_dec p q.
(** [sub_strings.contains(subseq)]; the hash set is the list of its (distinct) elements. *)
Definition contains (p : list bool) (s : list (list bool)) : bool := if in_dec phrase_dec p s then true else false.

(** lempel_ziv.rs 13-25: the while loop over [ind], [inc]; every iteration raises [ind + inc] by one, so
    [length bits] iterations suffice ([None]: out of fuel, excluded in LzProofs). *)
Fixpoint lz_loop (fuel : nat) (bits : list bool) (ind inc : nat) (s : list (list bool)) : option (list (list bool)) :=
  if (ind + inc <=? length bits)%nat then
    match fuel with
    | O => None
    | S fuel' =>
        let subseq := firstn inc (skipn ind bits) in
        if contains subseq s then lz_loop fuel' bits ind (inc + 1) s
        else lz_loop fuel' bits (ind + inc) 1 (subseq :: s)
    end
  else Some s.
(** lempel_ziv.rs 6-27; a null is read as [false]. *)
Definition lempel_ziv (col : list (option bool)) : option nat :=
  let bits := map (fun b => match b with Some b => b | None => false end) col in
  option_map (@length _) (lz_loop (length bits) bits 0 1 []).
(** ts_features.py 314-333 with [as_ratio=True]; [None]: 0/0. *)
Definition lempel_ziv_ratio (col : list (option bool)) : option Q :=
  match lempel_ziv col with
  | Some c => if (length col =? 0)%nat then None else Some (inject_Z (Z.of_nat c) / inject_Z (Z.of_nat (length col)))%Q
  | None => None
  end.
