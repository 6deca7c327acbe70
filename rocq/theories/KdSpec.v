(** Specification of the spatial queries: brute force over the list of inserted rows.
    Nothing here refers to trees, boxes or stacks. *)
From Coq Require Import Bool List Arith Permutation Sorted.
From Verif Require Import Num.
Import ListNotations.

Section Spec.
Context (N : NumOps) (A : Type).
Notation T := (carrier N).

(** The metrics offered by the user-facing API. *)
Inductive metric := ML1 | ML2 | MSQL2 | MLINF.

(** Distances: coordinates left to right, every operation rounded as the number type does it. *)
Definition sum_of (f : T * T -> T) (l : list (T * T)) : T :=
  fold_left (fun acc xy => nadd N acc (f xy)) l (nzero N).
Definition spec_dist (m : metric) (p q : list T) : T :=
  let diff xy := nsub N (fst xy) (snd xy) in
  match m with
  | ML1 => sum_of (fun xy => nabs N (diff xy)) (combine p q)
  | MSQL2 => sum_of (fun xy => nmul N (diff xy) (diff xy)) (combine p q)
  | ML2 => nsqrt N (sum_of (fun xy => nmul N (diff xy) (diff xy)) (combine p q))
  | MLINF => fold_left (fun acc xy => nmax N acc (nabs N (diff xy))) (combine p q) (nzero N)
  end.

(** A stored row: its id and its coordinates. *)
Definition row := (A * list T)%type.

(** All rows within [r] of [q], with their distance, by scanning the whole list. *)
Definition brute_within (m : metric) (rows : list row) (q : list T) (r : T) : list (A * T) :=
  map (fun p => (fst p, spec_dist m (snd p) q))
      (filter (fun p => nle N (spec_dist m (snd p) q) r) rows).

(** [out] is a correct (epsilon-approximate) answer to a bounded k-nearest-neighbour query:
    it lists, in ascending order of distance, at most [k] of the rows, none farther than [maxb];
    and every row [p] left out with dist(p) + eps < maxb was left out only because [k] rows were
    returned, none of which is farther than dist(p) + eps. *)
Definition knn_answer (m : metric) (rows : list row) (k : nat) (q : list T) (maxb eps : T)
    (out : list (A * T)) : Prop :=
  exists chosen rest,
    Permutation rows (chosen ++ rest) /\
    out = map (fun p => (fst p, spec_dist m (snd p) q)) chosen /\
    StronglySorted (fun a b => nle N (snd a) (snd b) = true) out /\
    length out <= k /\
    Forall (fun a => nle N (snd a) maxb = true) out /\
    (forall p, In p rest ->
       nlt N (nadd N (spec_dist m (snd p) q) eps) maxb = true ->
       length out = k /\
       Forall (fun a => nlt N (nadd N (spec_dist m (snd p) q) eps) (snd a) = false) out).

(** The same with epsilon = 0, without the addition. *)
Definition knn_exact (m : metric) (rows : list row) (k : nat) (q : list T) (maxb : T)
    (out : list (A * T)) : Prop :=
  exists chosen rest,
    Permutation rows (chosen ++ rest) /\
    out = map (fun p => (fst p, spec_dist m (snd p) q)) chosen /\
    StronglySorted (fun a b => nle N (snd a) (snd b) = true) out /\
    length out <= k /\
    Forall (fun a => nle N (snd a) maxb = true) out /\
    (forall p, In p rest -> nlt N (spec_dist m (snd p) q) maxb = true ->
       length out = k /\ Forall (fun a => nle N (snd a) (spec_dist m (snd p) q) = true) out).

Definition no_nan (p : list T) : Prop := Forall (fun x => nnan N x = false) p.
Definition all_finite (q : list T) : Prop := Forall (fun x => nfinite N x = true) q.

(** Two values that compare equal ([-0.0 == 0.0]). *)
Definition same (x y : T) : Prop := nle N x y = true /\ nle N y x = true.
End Spec.
