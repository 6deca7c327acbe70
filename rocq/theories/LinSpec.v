(** Specifications for the linear regressions, independent of the model: predictions, losses and
    minimisers, written with plain sums over the rows of the data. *)
From mathcomp Require Import all_ssreflect all_algebra.
Set Implicit Arguments.
Import GRing.Theory Num.Theory.
Local Open Scope ring_scope.

Section Spec.
Variable R : realFieldType.

(** The linear prediction: sum of feature times coefficient. *)
Definition predict m (x : 'rV[R]_m) (w : 'cV[R]_m) : R := \sum_(j < m) x 0 j * w j 0.

(** The sum of squared errors over the rows (features, target). *)
Definition sq_err m (d : seq ('rV[R]_m * R)) (w : 'cV[R]_m) : R :=
  \sum_(r <- d) (r.2 - predict r.1 w) ^+ 2.

(** The weighted sum of squared errors over the rows ((features, target), weight). *)
Definition weighted_err m (d : seq (('rV[R]_m * R) * R)) (w : 'cV[R]_m) : R :=
  \sum_(r <- d) r.2 * (r.1.2 - predict r.1.1 w) ^+ 2.

(** Ridge: the coefficients selected by [pen] are penalised. *)
Definition ridge_err m (pen : pred 'I_m) (lambda : R) (d : seq ('rV[R]_m * R)) (w : 'cV[R]_m) : R :=
  sq_err d w + lambda * \sum_(j < m | pen j) (w j 0) ^+ 2.

(** All coefficients; all coefficients but the bias, the last one when there is one. *)
Definition everything m : pred 'I_m := fun _ => true.
Definition not_bias p (b : bool) : pred 'I_(p + b) := fun j => (j < p)%N.

(** [w] is the one and only minimiser of [L]. *)
Definition unique_min m (L : 'cV[R]_m -> R) (w : 'cV[R]_m) : Prop := forall v, v != w -> L w < L v.

(** The elastic net objective of scikit-learn, times twice the number of rows:
    |y - Xw|^2 + n (2 l1 |w|_1 + l2 |w|^2), the bias not penalised. *)
Definition elastic_err m (pen : pred 'I_m) (l1 l2 : R) (d : seq ('rV[R]_m * R)) (w : 'cV[R]_m) : R :=
  sq_err d w + (size d)%:R * (2%:R * l1 * (\sum_(j < m | pen j) `|w j 0|) + l2 * \sum_(j < m | pen j) (w j 0) ^+ 2).

(** The regression has a single solution: no coefficients other than zero predict zero on every row
    (and, when there is a penalty, are zero wherever they are penalised). *)
Definition identifiable m (pen : pred 'I_m) (lambda : R) (xs : seq 'rV[R]_m) : Prop :=
  forall h : 'cV[R]_m,
    (forall x, x \in xs -> predict x h = 0) ->
    (lambda != 0 -> forall j, pen j -> h j 0 = 0) ->
    h = 0.

(** A row of features with the constant 1 appended when there is a bias. *)
Definition design p (b : bool) (d : seq ('rV[R]_p * R)) : seq ('rV[R]_(p + b) * R) :=
  [seq (row_mx r.1 (const_mx 1), r.2) | r <- d].

(** Every feature sums to zero. *)
Definition centred p (d : seq ('rV[R]_p * R)) : Prop := forall j : 'I_p, \sum_(r <- d) r.1 0 j = 0.
(** How strongly the penalised features interact with feature [j]: the sum of the absolute inner
    products of its column with theirs. *)
Definition coupling m (d : seq ('rV[R]_m * R)) (pen : pred 'I_m) (j : 'I_m) : R :=
  \sum_(k < m | pen k) `| \sum_(r <- d) r.1 0 j * r.1 0 k |.
End Spec.

Arguments predict {R m} x w.
Arguments sq_err {R m} d w.
Arguments weighted_err {R m} d w.
Arguments ridge_err {R m} pen lambda d w.
Arguments unique_min {R m} L w.
Arguments elastic_err {R m} pen l1 l2 d w.
Arguments identifiable {R m} pen lambda xs.
Arguments design {R p} b d.
Arguments everything {m}.
Arguments not_bias {p} b.
Arguments centred {R p} d.
Arguments coupling {R m} d pen j.
