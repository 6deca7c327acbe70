(** Model of singular_values, pca and principal_components: python/polars_ds/exprs/num.py 270-362, src/num_ext/pca.rs,
    src/utils/mod.rs 22-46. Simplification: numbers are the elements of an arbitrary ordered field (exact arithmetic, no
    NaN or infinity on input); NaN and infinities on output are [None]. *)
From mathcomp Require Import all_ssreflect all_algebra.
Set Implicit Arguments.
Import GRing.Theory Num.Theory.
Local Open Scope ring_scope.

Section Pca.
Variable R : realFieldType.
(** A row of p cells, [None] being null; the feature columns, row by row. *)
Definition cells (p : nat) := {ffun 'I_p -> option R}.
Inductive outcome (A : Type) := Val (a : A) | ValueError | ComputeError | Panic.
Arguments Val {A} a. Arguments ValueError {A}. Arguments ComputeError {A}. Arguments Panic {A}.

(** The singular value decomposition of the crate faer, external, with or without the right singular vectors; [None]: no convergence. *)
Record svd_lib := SvdLib {
  sv : forall m n, 'M[R]_(m, n) -> option (seq R);
  svdv : forall m n, 'M[R]_(m, n) -> option (seq R * 'M[R]_n) }.

Variable p : nat.
(** polars mean of the known values, null without any; f - f.mean() cell by cell. *)
Definition col_mean (f : seq (cells p)) (j : 'I_p) : option R :=
  let l := pmap (fun r : cells p => r j) f in if l is [::] then None else Some ((\sum_(x <- l) x) / (size l)%:R).
Definition minus (a b : option R) : option R := if a is Some x then (if b is Some y then Some (x - y) else None) else None.
(** num.py 293-297 = 320-324 = 355-360 *)
Definition actual_inputs (center : bool) (f : seq (cells p)) : seq (cells p) :=
  if center then [seq [ffun j => minus (r j) (col_mean f j)] | r : cells p <- f] else f.
(** utils/mod.rs 22-31 to_f64_matrix_without_nulls *)
Definition no_nulls (r : cells p) : bool := [forall j, isSome (r j)].
Definition drop_nulls (f : seq (cells p)) : seq 'rV[R]_p := [seq \row_j odflt 0 (r j) | r : cells p <- f & no_nulls r].
Definition to_mat (l : seq 'rV[R]_p) : 'M[R]_(size l, p) := \matrix_(i, j) (l`_i) 0 j.

Variable L : svd_lib.
(** pca.rs 40-79 pl_singular_values *)
Definition pl_singular_values (f : seq (cells p)) : outcome (seq R) :=
  if sv L (to_mat (drop_nulls f)) is Some s then Val s else ComputeError.
(** num.py 300-301: pl.count() counts the elements of the list. *)
Definition explained (s : seq (option R)) : seq (option R) :=
  [seq if x is Some v then (if size s == 1%N then None else Some (v ^+ 2 / ((size s)%:R - 1))) else None | x <- s].
(** num.py 302-303; a sum over a NaN is NaN. *)
Definition total (s : seq (option R)) : option R := foldr (fun x t => if x is Some v then (if t is Some w then Some (v + w) else None) else None) (Some 0) s.
Definition ratio (s : seq (option R)) : seq (option R) :=
  [seq if x is Some v then (if total s is Some t then (if t == 0 then None else Some (v / t)) else None) else None | x <- s].
(** num.py 270-305 *)
Definition singular_values (f : seq (cells p)) (center as_explained_var as_ratio : bool) : outcome (seq (option R)) :=
  match pl_singular_values (actual_inputs center f) with
  | Val s => let out := [seq Some x | x <- s] in
             let out := if as_explained_var then explained out else out in
             Val (if as_ratio then ratio out else out)
  | ValueError => ValueError | ComputeError => ComputeError | Panic => Panic
  end.
(** pca.rs 134-182 pl_pca. The buffer for the vectors is dim x dim with dim = min(rows, features); faer asserts that it
    has as many rows as there are features. *)
Definition pl_pca (f : seq (cells p)) : outcome (seq (R * 'cV[R]_p)) :=
  let l := drop_nulls f in
  if (size l < p)%N then Panic
  else if svdv L (to_mat l) is Some (s, v) then Val [seq (s`_(i : 'I_p), col i v) | i <- enum 'I_p] else ComputeError.
(** num.py 308-329 *)
Definition pca (f : seq (cells p)) (center : bool) : outcome (seq (R * 'cV[R]_p)) := pl_pca (actual_inputs center f).
(** pca.rs 81-132 pl_principal_components: k columns; [None] cells are NaN. StructChunked::from_columns repeats a column of one
    row to the length of the frame. *)
Definition pl_principal_components (k : nat) (f : seq (cells p)) : outcome (seq (seq (option R))) :=
  if ~~ all no_nulls f then ComputeError
  else
    let l := drop_nulls f in
    if (size l < k)%N then Val (nseq k (nseq (size l) None))
    else if (size l < p)%N then Panic
    else if svdv L (to_mat l) is Some (_, v)
         then let components := to_mat l *m v in Val [seq [seq Some (components i j) | i <- enum 'I_(size l)] | j <- take k (enum 'I_p)]
         else ComputeError.
(** num.py 332-362 *)
Definition principal_components (f : seq (cells p)) (k : int) (center : bool) : outcome (seq (seq (option R))) :=
  if (p%:Z < k) || (k <= 0) then ValueError else pl_principal_components `|k|%N (actual_inputs center f).
End Pca.
Arguments Val {A} a. Arguments ValueError {A}. Arguments ComputeError {A}. Arguments Panic {A}.
Arguments minus {R} a b. Arguments explained {R} s. Arguments total {R} s. Arguments ratio {R} s.
Arguments to_mat {R p} l.
