(** Specification of principal component analysis: sums over rows and directions. *)
From mathcomp Require Import all_ssreflect all_algebra.
From Verif Require Import PcaModel.
Set Implicit Arguments.
Import GRing.Theory Num.Theory.
Local Open Scope ring_scope.

Section Spec.
Variable R : realFieldType.
(** Singular value decompositions: M = U diag(s) V^T with orthonormal columns, s descending and not negative. *)
Definition is_svd m n (M : 'M[R]_(m, n)) k (U : 'M[R]_(m, k)) (s : seq R) (V : 'M[R]_(n, k)) : Prop :=
  [/\ size s = k, sorted >=%R s & all (>= 0) s] /\
  [/\ U^T *m U = 1%:M, V^T *m V = 1%:M & M = U *m diag_mx (\row_i s`_i) *m V^T].
Definition svd_ok (L : svd_lib R) : Prop :=
  (forall m n (M : 'M[R]_(m, n)) s, sv L M = Some s -> exists k U V, k = minn m n /\ @is_svd m n M k U s V) /\
  (forall m n (M : 'M[R]_(m, n)) s V, (n <= m)%N -> svdv L M = Some (s, V) -> exists U, @is_svd m n M n U s V).

Variable p : nat.
(** Frames without nulls. *)
Definition full (f : seq (cells R p)) : Prop := forall (r : cells R p) j, r \in f -> r j != None.
(** The rows without nulls. *)
Definition complete_rows (f : seq (cells R p)) : seq 'rV[R]_p := [seq \row_j odflt 0 (r j) | r : cells R p <- f & [forall j, r j != None]].
(** Mean of feature j over the rows where it is known; mean over a list of rows. *)
Definition mean_known (f : seq (cells R p)) (j : 'I_p) : R := (\sum_(r <- f) odflt 0 (r j)) / (count (fun r : cells R p => r j != None) f)%:R.
Definition mean_rows (l : seq 'rV[R]_p) (j : 'I_p) : R := (\sum_(x <- l) x 0 j) / (size l)%:R.
(** Rows moved by minus c; the rows that are analysed. *)
Definition moved (c : 'I_p -> R) (l : seq 'rV[R]_p) : seq 'rV[R]_p := [seq \row_j (x 0 j - c j) | x : 'rV[R]_p <- l].
Definition analysed (center : bool) (f : seq (cells R p)) : seq 'rV[R]_p :=
  if center then moved (mean_known f) (complete_rows f) else complete_rows f.
(** Sum of all squared entries. *)
Definition energy (l : seq 'rV[R]_p) : R := \sum_(x <- l) \sum_j x 0 j ^+ 2.
(** Total sample variance. *)
Definition total_variance (l : seq 'rV[R]_p) : R := energy (moved (mean_rows l) l) / ((size l)%:R - 1).
(** Coordinate of a row along a direction, and the sum of squares of the coordinates. *)
Definition along (x : 'rV[R]_p) (w : 'cV[R]_p) : R := \sum_j x 0 j * w j 0.
Definition spread (l : seq 'rV[R]_p) (w : 'cV[R]_p) : R := \sum_(x <- l) along x w ^+ 2.
Definition inner (v w : 'cV[R]_p) : R := \sum_j v j 0 * w j 0.
End Spec.
Arguments inner {R p} v w. Arguments spread {R p} l w. Arguments along {R p} x w.
Arguments analysed {R p} center f. Arguments complete_rows {R p} f. Arguments energy {R p} l.
Arguments is_svd {R m n} M {k} U s V. Arguments svd_ok {R} L. Arguments moved {R p} c l. Arguments mean_rows {R p} l j. Arguments mean_known {R p} f j. Arguments total_variance {R p} l.
Arguments full {R p} f.
