(** Vocabulary of property C114 (functional dependencies). *)
From Coq Require Import String List Reals Relations.
From Verif Require Import DiaModel DiaSpec DepModel InfoSpec.
Import ListNotations.
Open Scope list_scope.

(** Types with discrete values. *)
Definition discrete_type (t : dtype) : Prop := t = DInt \/ t = DStr \/ t = DCat \/ t = DBool.
(** A column the check can use: of a discrete type, with at least two values (null is a value). *)
Definition usable {V} (f : frame V) (c : column V) : Prop := In c f /\ discrete_type (ty c) /\ exists n, distinct (vals c) n /\ (1 < n)%nat.
(** On every two rows where p agrees, c agrees. *)
Definition fixes {V} (p c : column V) : Prop :=
  forall i j, (i < length (vals c))%nat -> (j < length (vals c))%nat ->
    nth_error (vals p) i = nth_error (vals p) j -> nth_error (vals c) i = nth_error (vals c) j.
(** A table: all columns have h rows and different names. *)
Definition table {V} (h : nat) (f : frame V) : Prop := NoDup (map name f) /\ Forall (fun c => length (vals c) = h) f.
(** There is a path from a to b along the arrows of g. *)
Definition path (g : list (string * string)) (a b : string) : Prop := clos_trans _ (fun x y => In (x, y) g) a b.
