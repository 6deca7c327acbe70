(** Model of lin_reg_w_rcond: src/linalg/lr_solvers.rs (faer_solve_lstsq_rcond), src/num_ext/linear_regression.rs
    (pl_lstsq_w_rcond) and python/polars_ds/exprs/expr_linear.py.
    Simplifications: numbers are the elements of a real closed field (exact arithmetic with exact square
    roots); [eps] is the machine epsilon; faer's singular value decomposition is an oracle. *)
From mathcomp Require Import all_ssreflect all_algebra.
From Verif Require Import LinModel.
Set Implicit Arguments.
Unset Strict Implicit.
Import GRing.Theory Num.Theory.
Local Open Scope ring_scope.

Section Rcond.
Variable R : rcfType.

(** faer: thin_svd of a square matrix, (U, S, V), or no convergence. *)
Definition svd_of := forall m, 'M[R]_m -> option ('M[R]_m * 'rV[R]_m * 'M[R]_m).

(** The coefficients ([None]: NaN) and the singular values. *)
Record rcond_out m := ROut { o_coeffs : option 'cV[R]_m; o_sv : 'I_m -> R }.

(** lr_solvers.rs:184-226  faer_solve_lstsq_rcond.  [None]: the unwrap of a failed decomposition panics.  The
    fold over the singular values starts from the smallest float; here it starts from 0, which no singular
    value is below.  When a singular value that is kept is 0 its reciprocal is infinite: NaN coefficients. *)
Definition faer_solve_lstsq_rcond (S : svd_of) n m (X : 'M[R]_(n, m)) (y : 'cV[R]_n) (lambda : R) (has_bias : bool)
    (rcond : R) : option (rcond_out m) :=
  let n1 := abs_diff m has_bias in
  let xt := X^T in
  let xtx := xt *m X in
  let xtx := if (0 <= lambda) && (1 <= n1)%N then add_ridge n1 lambda xtx else xtx in
  match S m xtx with
  | None => None
  | Some (U, s, V) =>
      let singular_values := fun i => Num.sqrt (s 0 i) in
      let max_singular_value := \big[Num.max/0]_(i < m) singular_values i in
      let threshold := rcond * max_singular_value in
      let s_inv := diag_mx (\row_i (if threshold <= s 0 i then (s 0 i)^-1 else 0)) in
      let weights := V *m s_inv *m U^T *m xt *m y in
      Some (ROut (if [exists i, (threshold <= s 0 i) && (s 0 i == 0)] then None else Some weights) singular_values)
  end.

(** linear_regression.rs:449-452: [inputs] are the target and the features, [mat] has a row per row used and a
    column per target, feature and bias; [mat.len()] counts its elements. *)
Definition rcond_of (eps tol : R) (n p : nat) (b : bool) : R :=
  Num.max tol (eps * (maxn (p + 1) (n * (1 + p + b)))%:R).

(** linear_regression.rs:440-492  pl_lstsq_w_rcond as lin_reg_w_rcond (expr_linear.py:274-325) calls it.
    [Ok None]: a null that reached the matrix as NaN (policy ignore), what happens then is left open. *)
Definition lin_reg_w_rcond (S : svd_of) (eps : R) (b : bool) (l2_reg rcond : R) (pol : policy R) p
    (rows : seq (lrow R p)) : res (option (rcond_out (p + b))) :=
  match series_to_mat rows b pol with
  | Ok (df, _) =>
      match all_some (map (@num_row R (p + b)) df) with
      | None => Ok None
      | Some d =>
          match faer_solve_lstsq_rcond S (Xmat d) (Ymat d) l2_reg b (rcond_of eps `|rcond| (size d) p b) with
          | None => Panic
          | Some out => Ok (Some out)
          end
      end
  | Err => Err
  | Panic => Panic
  end.
End Rcond.
Arguments rcond_of {R} eps tol n p b.
Arguments o_coeffs {R m} r.
Arguments o_sv {R m} r.
