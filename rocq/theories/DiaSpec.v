(** Vocabulary of property C113 (DIA reports). *)
From Coq Require Import String Bool List Arith ZArith QArith Sorted.
From Verif Require Import DiaModel.
Import ListNotations.
Open Scope nat_scope.

(** l has exactly n different elements. *)
Definition distinct {A} (l : list A) (n : nat) : Prop := exists s, NoDup s /\ (forall x, In x s <-> In x l) /\ length s = n.
(** The values of a column that are not null. *)
Definition known {V} (l : list (option V)) : list V := flat_map (fun o => match o with Some x => [x] | None => [] end) l.
(** How many values are null. *)
Definition nulls {V} (l : list (option V)) : nat := length l - length (known l).
(** out lists the names of exactly the columns of f with P, in the order of f. *)
Inductive chosen {C} (nm : C -> string) (P : C -> Prop) : list C -> list string -> Prop :=
| chosen_nil : chosen nm P [] []
| chosen_take c f o : P c -> chosen nm P f o -> chosen nm P (c :: f) (nm c :: o)
| chosen_skip c f o : ~ P c -> chosen nm P f o -> chosen nm P (c :: f) o.
(** The rule r is false on row i / not true on row i. *)
Definition fails (i : nat) (r : string * list (option bool)) : Prop := nth_error (snd r) i = Some (Some false).
Definition not_true (i : nat) (r : string * list (option bool)) : Prop := i < length (snd r) /\ nth_error (snd r) i <> Some (Some true).
(** The first failing rule of row i is s. *)
Definition first_failing (i : nat) (rules : list (string * list (option bool))) (s : string) : Prop :=
  exists j v, nth_error rules j = Some (s, v) /\ fails i (s, v) /\ forall j' r, j' < j -> nth_error rules j' = Some r -> ~ fails i r.
(** l lists the names of exactly the rules with P, sorted. *)
Definition names_of (P : string * list (option bool) -> Prop) (rules : list (string * list (option bool))) (l : list string) : Prop :=
  NoDup l /\ LocallySorted (fun a b => String.leb a b = true) l /\ forall s, In s l <-> exists r, In r rules /\ fst r = s /\ P r.
(** A list of class probabilities: all entries known to be non-negative numbers, with a sum within 1e-6 of 1. *)
Definition class_probs (l : list (option fl)) : Prop :=
  Forall (fun x => exists q, x = Val q /\ (0 <= q)%Q) (known l) /\
  (- (1 # 1000000) < fold_right (fun x s => match x with Val q => q + s | Bad => s end) 0 (known l) - 1 < 1 # 1000000)%Q.
(** All lists of a column have the same length. *)
Definition one_length {A} (v : list (option (list A))) : Prop := exists n, Forall (fun x => length x = n) (known v).
