(** Vocabulary of property C115 (numeric profile and null correlation). *)
From Coq Require Import String Bool List Arith Reals.
From Verif Require Import MetricSpec DiaModel.
Import ListNotations.
Open Scope nat_scope.
Open Scope list_scope.

(** Number of elements with a property. *)
Definition how_many {A} (p : A -> bool) (l : list A) : nat := length (filter p l).
Definition missing {A} (o : option A) : bool := match o with None => true | Some _ => false end.
(** Rows whose cell is missing / present as asked in both columns. *)
Definition rows_where {V} (mx my : bool) (x y : column V) : nat :=
  how_many (fun r => Bool.eqb (missing (fst r)) mx && Bool.eqb (missing (snd r)) my) (combine (vals x) (vals y)).
(** The phi coefficient of a two by two table. *)
Definition phi (n11 n10 n01 n00 : nat) : R :=
  ((INR n11 * INR n00 - INR n10 * INR n01) / sqrt (INR (n11 + n10) * INR (n01 + n00) * (INR (n11 + n01) * INR (n10 + n00))))%R.
Definition null_phi {V} (x y : column V) : R :=
  phi (rows_where true true x y) (rows_where true false x y) (rows_where false true x y) (rows_where false false x y).
(** Some cells are missing and some are not. *)
Definition partly {V} (c : column V) : Prop := (exists o, In o (vals c) /\ missing o = true) /\ exists o, In o (vals c) /\ missing o = false.

(** Smallest and largest element. *)
Definition least (l : list R) (a : R) : Prop := In a l /\ forall x, In x l -> (a <= x)%R.
Definition greatest (l : list R) (b : R) : Prop := In b l /\ forall x, In x l -> (x <= b)%R.
(** The finite values of a column. *)
Definition is_fin (o : option xnum) : bool := match o with Some (Fin _) => true | _ => false end.
Definition fin_values (c : list (option xnum)) : list R := flat_map (fun o => match o with Some (Fin x) => [x] | _ => [] end) c.
(** Lower edge of bin j of n: j/n, but 1/100000 later for the last bin unless it is the only one. *)
Definition edge (n j : nat) : R := (INR j / INR n + (if (j =? n - 1)%nat && negb (j =? 0)%nat then 1 / 100000 else 0))%R.
(** x lies in bin j: from its edge up to, and without, the next edge; no upper limit in the last bin. *)
Definition in_bin (lo hi : R) (n j : nat) (x : R) : bool :=
  (if Rle_dec (lo + (hi - lo) * edge n j) x then true else false) &&
  ((S j =? n)%nat || (if Rlt_dec x (lo + (hi - lo) * edge n (S j)) then true else false)).

(** The numbers of a column, and a cell further than m times q3 - q1 outside of [q1, q3]. *)
Definition numbers (c : list (option R)) : list R := flat_map (fun o => match o with Some x => [x] | None => [] end) c.
Definition far (q1 q3 m : R) (o : option R) : Prop :=
  exists x, o = Some x /\ (x < q1 - m * (q3 - q1) \/ q3 + m * (q3 - q1) < x)%R.
(** k cells of the column have a property. *)
Definition exactly {A} (k : nat) (P : A -> Prop) (l : list A) : Prop :=
  exists p : A -> bool, (forall a, p a = true <-> P a) /\ how_many p l = k.
