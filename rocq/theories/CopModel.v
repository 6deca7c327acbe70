(** Model of python/polars_ds/exprs/ts_features.py 682-731 (query_copula_entropy, query_cond_indep, query_transfer_entropy) on top of
    KnnEntModel.v.  A column is a list of optional values of one ordered type [X] ([leb] its order; for floats NaN is the
    largest value, as in polars).  Differences of entropies are taken over the real numbers. *)
From Coq Require Import Bool List Arith ZArith Reals.
From Verif Require Import Num F64 KdModel KdDemo PyKdModel KnnExprModel MetricSpec KnnEntModel.
Import ListNotations.
Open Scope nat_scope.

(** Negation of an f64. *)
Definition xneg (a : xnum) : xnum := match a with Fin x => Fin (- x) | PInf => NInf | NInf => PInf | NaN => NaN end.
(** Arithmetic on expressions: a failing operand fails the query. *)
Definition lift2 (f : xnum -> xnum -> xnum) (a b : pyres xnum) : pyres xnum :=
  match a, b with
  | Ok x, Ok y => Ok (f x y)
  | Panic, _ | _, Panic => Panic
  | _, _ => Err
  end.
Definition xsub (a b : xnum) : xnum := xplus a (xneg b).
Definition pyneg (a : pyres xnum) : pyres xnum := match a with Ok x => Ok (xneg x) | Err => Err | Panic => Panic end.

Section Cop.
Context {X : Type} (leb : X -> X -> bool).
(** polars [rank()] (method "average"): twice the rank of x is 2 * (values before x) + (values equal to x) + 1; nulls are
    neither ranked nor counted. *)
Definition before (col : list (option X)) (x : X) : nat :=
  length (filter (fun o => match o with Some y => negb (leb x y) | None => false end) col).
Definition same (col : list (option X)) (x : X) : nat :=
  length (filter (fun o => match o with Some y => leb x y && leb y x | None => false end) col).
Definition rank_avg (col : list (option X)) (x : X) : f64t :=
  ndiv N (fi (2 * Z.of_nat (before col x) + Z.of_nat (same col x) + 1)) (fi 2).
(** ts_features.py 688: [x.rank() / x.len()]; [len] counts nulls. *)
Definition rank_share (col : list (option X)) : list (option f64t) :=
  map (option_map (fun x => ndiv N (rank_avg col x) (fi (Z.of_nat (length col))))) col.

Variables (gamma : R -> R) (lib : SplitLib N unit).
(** One evaluation of the plugin: the interleaving of the column writers and the schedule. *)
Definition run := (list (nat * f64t) * parallelism)%type.
(** ts_features.py 682-691 query_copula_entropy. *)
Definition query_copula_entropy (cols : list (list (option X))) (k : Z) (r : run) : pyres xnum :=
  pyneg (query_knn_entropy gamma lib Dl2 (map (fun c => [rank_share c]) cols) (fst r) k (snd r)).
(** ts_features.py 694-711 query_cond_indep. *)
Definition query_cond_indep (x y z : list (option X)) (k : Z) (r1 r2 r3 : run) : pyres xnum :=
  let xyz := query_copula_entropy [x; y; z] k r1 in
  let yz := query_copula_entropy [y; z] k r2 in
  let xz := query_copula_entropy [x; z] k r3 in
  lift2 xsub (lift2 xsub xyz yz) xz.
(** polars [slice(offset, length)]. *)
Definition slice_of (off : Z) (len : Z) (l : list (option X)) : list (option X) :=
  let n := Z.of_nat (length l) in firstn (Z.to_nat (Z.min len n)) (skipn (Z.to_nat (Z.min off n)) l).
(** ts_features.py 714-731 query_transfer_entropy; [pl.len() - lag] is u32 arithmetic (lag below 2^32). *)
Definition query_transfer_entropy (x source : list (option X)) (lag k : Z) (r1 r2 r3 : run) : pyres xnum :=
  if (lag <? 1)%Z then Err
  else
    let len := ((Z.of_nat (length x) - lag) mod 2 ^ 32)%Z in
    let x1 := slice_of 0 len x in
    let x2 := slice_of lag len x in
    let s := slice_of 0 len source in
    query_cond_indep x2 s x1 k r1 r2 r3.
End Cop.
