(** Specification of least squares with a cut-off for singular values. *)
From mathcomp Require Import all_ssreflect all_algebra.
From Verif Require Import LinSpec RcondModel.
Set Implicit Arguments.
Unset Strict Implicit.
Import GRing.Theory Num.Theory.
Local Open Scope ring_scope.

(** What a singular value decomposition of a square matrix is. *)
Definition svd3_ok (R : rcfType) (S : svd_of R) : Prop :=
  forall m (M : 'M[R]_m) U s V, S m M = Some (U, s, V) ->
    [/\ M = U *m diag_mx s *m V^T, U^T *m U = 1%:M, V^T *m V = 1%:M,
        (forall i, 0 <= s 0 i) & (forall i j : 'I_m, (i <= j)%N -> s 0 j <= s 0 i)].

Section Spec.
Variable R : realFieldType.
Variable m : nat.
Implicit Types (d : seq ('rV[R]_m * R)) (v : 'I_m -> 'cV[R]_m).

Definition dot (x y : 'cV[R]_m) : R := \sum_j x j 0 * y j 0.
(** The products of the predictions of two coefficient vectors summed over the rows, and the same with the
    penalty: its diagonal is what the penalised squares of a fit to zero are. *)
Definition prod_on d (x y : 'cV[R]_m) : R := \sum_(r <- d) predict r.1 x * predict r.1 y.
Definition pen_prod (pen : pred 'I_m) (lambda : R) d (x y : 'cV[R]_m) : R :=
  prod_on d x y + lambda * \sum_(j < m | pen j) x j 0 * y j 0.

(** [s] are the singular values of the rows of features and [v] its right singular vectors: orthonormal
    directions whose predictions are orthogonal, of length [s], in descending order. *)
Definition singular (q : 'cV[R]_m -> 'cV[R]_m -> R) (s : 'I_m -> R) v : Prop :=
  [/\ forall i j, dot (v i) (v j) = (i == j)%:R, forall i j, q (v i) (v j) = if i == j then s i ^+ 2 else 0,
      forall i, 0 <= s i & forall i j : 'I_m, (i <= j)%N -> s j <= s i].

(** The combinations of the directions that [K] keeps, and the best coefficients among them. *)
Definition in_span (K : pred 'I_m) v (w : 'cV[R]_m) : Prop := exists c : 'I_m -> R, w = \sum_(i | K i) c i *: v i.
Definition best_in_span (L : 'cV[R]_m -> R) (K : pred 'I_m) v (w : 'cV[R]_m) : Prop :=
  in_span K v w /\ forall z, in_span K v z -> z != w -> L w < L z.

(** The documented cut-off: singular values smaller than [rcond] times the largest are dropped. *)
Definition documented (rcond : R) (s : 'I_m -> R) : pred 'I_m := fun i => [forall j, rcond * s j <= s i].
End Spec.
Arguments dot {R m} x y.
Arguments prod_on {R m} d x y.
Arguments pen_prod {R m} pen lambda d x y.
Arguments singular {R m} q s v.
Arguments in_span {R m} K v w.
Arguments best_in_span {R m} L K v w.
Arguments documented {R m} rcond s.
