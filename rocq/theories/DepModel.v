(** Model of python/polars_ds/eda/diagnosis.py 704-817: DIA.infer_dependency and the arrows of DIA.plot_dependency.
    Entropies are exact real numbers; [f] is the frame of the selected columns. *)
From Coq Require Import String Bool List Arith ZArith Reals Permutation Sorted.
From Verif Require Import InfoModel DiaModel.
Import ListNotations.
Open Scope nat_scope.
Open Scope list_scope.

(** itertools.combinations(l, 2). *)
Fixpoint pairs {A} (l : list A) : list (A * A) := match l with [] => [] | x :: r => map (pair x) r ++ pairs r end.
(** diagnosis.py 724: integer, string, categorical and boolean columns. *)
Definition valid (t : dtype) : bool := match t with DInt | DStr | DCat | DBool => true | _ => false end.
Section Dep.
Context {V : Type} (veq : forall a b : V, {a = b} + {a <> b}).
(** [DataFrame.sort] by a key: some permutation in increasing order (not stable). *)
Definition sort_key_ok {A} (key : A -> R) (sort : list A -> list A) : Prop :=
  forall l, Permutation (sort l) l /\ StronglySorted (fun a b => (key a <= key b)%R) (sort l).
Variable gb : list (option V * option V) -> list ((option V * option V) * nat).
Variable sort_cols : list (column V) -> list (column V).
Variable sort_out : list (string * string * R) -> list (string * string * R).
(** diagnosis.py 725-735: the columns with more than one value, sorted by their number of values. *)
Definition to_check (f : frame V) : list (column V) :=
  sort_cols (filter (fun c => Nat.ltb 1 (n_unique veq c)) (filter (fun c => valid (ty c)) f)).
(** diagnosis.py 724-771; [.row(0)] of a selection without columns raises. *)
Definition infer_dependency (f : frame V) : result (list (string * string * R)) :=
  let check := to_check f in
  if Nat.eqb (length (filter (fun c => valid (ty c)) f)) 0 then Raise
  else if Nat.leb (length check) 1 then Value []
  else Value (sort_out (map (fun p => (name (fst p), name (snd p), Rabs (pl_conditional_entropy (ceq veq) gb (combine (vals (fst p)) (vals (snd p)))))) (pairs check))).
End Dep.

(** diagnosis.py 791-794: (child, parent) of the rows below the threshold. *)
Definition below (threshold : R) (rows : list (string * string * R)) : list (string * string) :=
  map fst (filter (fun r => if Rlt_dec (snd r) threshold then true else false) rows).
(** diagnosis.py 795-798: the parents of a child, the children of a parent. *)
Definition parents (df : list (string * string)) (c : string) : list string := map snd (filter (fun e => String.eqb (fst e) c) df).
Definition children (df : list (string * string)) (p : string) : list string := map fst (filter (fun e => String.eqb (snd e) p) df).
(** diagnosis.py 803-811: the loop over the parents of c; [cur] is the set parents_of_c. *)
Fixpoint prune (df : list (string * string)) (par cur : list string) : list string :=
  match par with
  | [] => cur
  | p :: r =>
      let cur := if existsb (memb cur) (children df p) then filter (fun x => negb (String.eqb x p)) cur else cur in
      prune df r cur
  end.
(** diagnosis.py 803-815: the arrows (parent, child), for every child. *)
Definition arrows (df : list (string * string)) : list (string * string) :=
  flat_map (fun c => map (fun p => (p, c)) (prune df (parents df c) (nodup String.string_dec (parents df c)))) (nodup String.string_dec (map fst df)).
Definition plot_dependency {V} veq gb sort_cols sort_out (threshold : R) (f : frame V) : result (list (string * string)) :=
  match infer_dependency veq gb sort_cols sort_out f with Value rows => Value (arrows (below threshold rows)) | Raise => Raise end.
