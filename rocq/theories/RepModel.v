(** Model of the regression report: src/num_ext/linear_regression.rs (pl_lin_reg_report, pl_wls_report) and
    lin_reg_report of python/polars_ds/exprs/expr_linear.py.
    Simplifications: numbers are the elements of a real closed field (exact arithmetic with exact square
    roots); a NaN or an infinity is [None], and what is computed from one is [None] too.  The struct of
    columns is a function from the feature (the bias is the last one) to its row, with r2 and adj_r2, which
    polars repeats on every row, beside it; the names of the features and of the columns are left out. *)
From mathcomp Require Import all_ssreflect all_algebra.
From Verif Require Import LinModel.
Set Implicit Arguments.
Unset Strict Implicit.
Import GRing.Theory Num.Theory.
Local Open Scope ring_scope.

Section Rep.
Variable R : rcfType.

(** [a / b] and [a.sqrt()] *)
Definition fdiv (a b : R) : option R := if b == 0 then None else Some (a / b).
Definition fsqrt (a : R) : option R := if a < 0 then None else Some (Num.sqrt a).

(** src/stats_utils/beta.rs student_t_sf (Err: None) and student_t_ppf for positive degrees of freedom, not
    modelled here (InvModel models the latter).  Without positive degrees of freedom student_t_ppf panics
    (C124_no_freedom_refuted): the two functions that call it have that branch. *)
Record student := Student { t_sf : R -> R -> option R; t_ppf : R -> R -> R }.

(** linear_regression.rs:100-120  StandardError and its From<String> *)
Inductive std_error := SE | HC0 | HC1 | HC2 | HC3.

Record report_row := RepRow { r_beta : R; r_se : option R; r_t : option R; r_p : option R;
                              r_lower : option R; r_upper : option R }.
Record report m := Report { r_rows : 'I_m -> report_row; r_r2 : option R; r_adj : option R }.

(** [t.var()] of polars: over the values that are not null, dividing by their number less 1, null for fewer
    than two; [y_var.get(0).unwrap_or(f64::NAN)]. *)
Definition mean_seq (v : seq R) : R := (\sum_(y <- v) y) / (size v)%:R.
Definition pl_var (ys : seq (option R)) : option R :=
  let v := pmap id ys in
  if (size v <= 1)%N then None
  else Some ((\sum_(y <- v) (y - mean_seq v) ^+ 2) / (size v - 1)%:R).

(** linear_regression.rs:626-664: the standard errors.  [nrows - ncols] is only used with at least as many
    rows as columns (otherwise the matrix has no inverse). *)
Definition std_errs (se : std_error) n m (X : 'M[R]_(n, m)) (inv : 'M[R]_m) (inv_xt : 'M[R]_(m, n))
    (res : 'cV[R]_n) (i : 'I_m) : option R :=
  let dof : R := n%:R - m%:R in
  match se with
  | SE => obind (fun mse => fsqrt (mse * inv i i)) (fdiv ((res^T *m res) 0 0) dof)
  | HC0 | HC1 =>
      let temp_diag := diag_mx res^T in
      let var_hc := inv_xt *m (temp_diag *m temp_diag) *m inv_xt^T in
      let factor := if se is HC1 then fdiv n%:R (n - m)%:R else Some 1 in
      obind (fun f => fsqrt (var_hc i i * f)) factor
  | HC2 | HC3 =>
      let d := fun k : 'I_n => (row k X *m col k inv_xt) 0 0 in
      let scalers := \row_k (if se is HC3 then 1 / (1 - d k) ^+ 2 else 1 / (1 - d k)) in
      if [exists k, 1 - d k == 0] then None
      else let temp_diag := diag_mx res^T in
           let var_hc := inv_xt *m (temp_diag *m temp_diag *m diag_mx scalers) *m inv_xt^T in
           fsqrt (var_hc i i)
  end.

(** linear_regression.rs:666-698 (also 803-835): the remaining columns.  For a NaN or infinite t the p value
    is left open ([None]). *)
Definition row_of (T : student) (dof beta : R) (se : option R) : report_row :=
  let t := obind (fdiv beta) se in
  let p := obind (fun t => omap (fun p => 2%:R * p) (t_sf T `|t| dof)) t in
  let t_alpha := t_ppf T (39%:R / 40%:R) dof in
  RepRow beta se t p (omap (fun s => beta - t_alpha * s) se) (omap (fun s => beta + t_alpha * s) se).

(** linear_regression.rs:614-622 (also 786-795) *)
Definition ratio_of n (y_var : option R) (res : 'cV[R]_n) : option R :=
  obind (fun v => fdiv (\sum_k (res k 0) ^+ 2) (v * n%:R)) y_var.
Definition r2_of (ratio : option R) : option R := omap (fun q => 1 - q) ratio.
Definition adj_of n (dof : R) (ratio : option R) : option R :=
  obind (fun q => omap (fun f => 1 - q * f) (fdiv (n - 1)%:R (dof - 1))) ratio.

(** linear_regression.rs:598-730: from the matrix on. *)
Definition report_mat (F : faer R) (T : student) (se : std_error) n m (X : 'M[R]_(n, m)) (y : 'cV[R]_n)
    (y_var : option R) : report m :=
  let xtx := X^T *m X in
  let xtx_inv := qr_inverse F xtx in
  let xtx_inv_xt := xtx_inv *m X^T in
  let coeffs := xtx_inv_xt *m y in
  let dof : R := n%:R - m%:R in
  let res := y - X *m coeffs in
  let ratio := ratio_of y_var res in
  Report (fun i => row_of T dof (coeffs i 0) (std_errs se X xtx_inv xtx_inv_xt res i))
         (r2_of ratio) (adj_of n dof ratio).

(** linear_regression.rs:576-732  pl_lin_reg_report on [t.var()] and the rows, as lin_reg_report
    (expr_linear.py:538-604) calls it without weights.  [Ok None]: NaNs, from a null cell.  :681 student_t_ppf
    panics when there are no more rows than coefficients. *)
Definition lin_reg_report (F : faer R) (T : student) (se : std_error) (b : bool) (pol : policy R) p
    (rows : seq (lrow R p)) : res (option (report (p + b))) :=
  let y_var := pl_var (map (@tgt R p) rows) in
  match series_to_mat rows b pol with
  | Ok (df, _) =>
      if (size df <= p + b)%N then Panic else
      Ok (omap (fun d => report_mat F T se (Xmat d) (Ymat d) y_var) (all_some (map (@num_row R (p + b)) df)))
  | Err => Err
  | Panic => Panic
  end.

(** linear_regression.rs:768-864: from the matrix on, with weights. *)
Definition wls_mat (F : faer R) (T : student) n m (X : 'M[R]_(n, m)) (y : 'cV[R]_n) (weights : 'rV[R]_n)
    (y_var : option R) : report m :=
  let w := diag_mx weights in
  let xt := X^T in
  let xtwx := xt *m w *m X in
  let xtwy := xt *m w *m y in
  let xtwx_inv := qr_inverse F xtwx in
  let coeffs := qr_solve F xtwx xtwy in
  let dof : R := n%:R - m%:R in
  let res := y - X *m coeffs in
  let mse := fdiv (\sum_k weights 0 k * (res k 0) ^+ 2) dof in
  let ratio := ratio_of y_var res in
  Report (fun i => row_of T dof (coeffs i 0) (obind (fun mse => fsqrt (mse * xtwx_inv i i)) mse))
         (r2_of ratio) (adj_of n dof ratio).

(** linear_regression.rs:734-865  pl_wls_report, as lin_reg_report calls it with weights.  [cont_slice]
    panics on a null weight; the product of [xt] (one column per row used) and the diagonal of all weights
    panics when the lengths differ; :813 student_t_ppf panics when there are no more rows than coefficients. *)
Definition lin_reg_report_w (F : faer R) (T : student) (b : bool) (pol : policy R) p
    (weights : seq (option R)) (rows : seq (lrow R p)) : res (option (report (p + b))) :=
  let y_var := pl_var (map (@tgt R p) rows) in
  match all_some weights with
  | None => Panic
  | Some w =>
    match series_to_mat rows b pol with
    | Ok (df, _) =>
        if size w == size df then
          if (size df <= p + b)%N then Panic else
          Ok (omap (fun d => wls_mat F T (Xmat d) (Ymat d) (row_of_seq (size d) w) y_var)
                   (all_some (map (@num_row R (p + b)) df)))
        else Panic
    | Err => Err
    | Panic => Panic
    end
  end.
End Rep.
Arguments fdiv {R} a b.
Arguments fsqrt {R} a.
Arguments pl_var {R} ys.
Arguments mean_seq {R} v.
