(** C108: least squares with a cut-off for small singular values (lin_reg_w_rcond). *)
From mathcomp Require Import all_ssreflect all_algebra realalg.
From Verif Require Import LinModel LinSpec LinExprSpec LinDemos RcondModel RcondSpec RcondProofs RcondDemo.
Set Implicit Arguments.
Unset Strict Implicit.
Import GRing.Theory Num.Theory.
Local Open Scope ring_scope.

(** The values returned are the singular values of the (penalised) features and the coefficients are the best
    among the combinations of the directions kept.  Partial: the documented rule keeps the values that are at
    least the cut-off times the largest; the rule proved has the square of the value on the right, and the
    cut-off's floor counts the elements of the matrix. *)
Theorem C108_truncated_partial : forall (R : rcfType) (S : svd_of R), svd3_ok S -> forall eps : R, 0 < eps ->
  forall p (b : bool) (pol : policy R) (rows : seq (lrow R p)) (l2 rcond : R),
  let d := design b (used_rows pol rows) in
  let cut := Num.max `|rcond| (eps * (maxn (p + 1) (size d * (1 + p + b)))%:R) in
  (0 < size rows)%N -> accepts pol rows -> (p <= size (used_rows pol rows))%N ->
  forall out, lin_reg_w_rcond S eps b l2 rcond pol rows = Ok (Some out) ->
  exists v, singular (pen_prod (not_bias b) (Num.max 0 l2) d) (o_sv out) v /\
    ((exists i, o_sv out i != 0) -> exists w, o_coeffs out = Some w /\
       best_in_span (ridge_err (not_bias b) (Num.max 0 l2) d) (fun i => [forall j, cut * o_sv out j <= o_sv out i ^+ 2]) v w) /\
    ((forall i, o_sv out i = 0) -> (0 < p + b)%N -> o_coeffs out = None).
Proof. exact (fun R S HS eps He p b pol rows l2 rcond H1 H2 H3 => @rcond_ok R S HS eps He p b pol rows l2 rcond H1 H2 H3). Qed.
Print Assumptions C108_truncated_partial.

(** Without a penalty they are the singular values of the features, and as many are nonzero as the rank. *)
Theorem C108_rank : forall (R : rcfType) (S : svd_of R), svd3_ok S -> forall eps : R, 0 < eps ->
  forall p (b : bool) (pol : policy R) (rows : seq (lrow R p)) (l2 rcond : R),
  let d := design b (used_rows pol rows) in
  (0 < size rows)%N -> accepts pol rows -> (p <= size (used_rows pol rows))%N ->
  forall out, lin_reg_w_rcond S eps b l2 rcond pol rows = Ok (Some out) -> l2 <= 0 ->
  (exists v, singular (prod_on d) (o_sv out) v) /\
  #|[set i | o_sv out i != 0]| = \rank (\matrix_(i < size d, j < p + b) (nth (0, 0) d i).1 0 j).
Proof. exact rcond_rank. Qed.
Print Assumptions C108_rank.

(** When every direction is kept the coefficients are the ridge fit. *)
Theorem C108_full : forall (R : rcfType) (S : svd_of R), svd3_ok S -> forall eps : R, 0 < eps ->
  forall p (b : bool) (pol : policy R) (rows : seq (lrow R p)) (l2 rcond : R),
  let d := design b (used_rows pol rows) in
  let cut := Num.max `|rcond| (eps * (maxn (p + 1) (size d * (1 + p + b)))%:R) in
  (0 < size rows)%N -> accepts pol rows -> (p <= size (used_rows pol rows))%N ->
  forall out, lin_reg_w_rcond S eps b l2 rcond pol rows = Ok (Some out) ->
  (exists i, o_sv out i != 0) -> (forall i j, cut * o_sv out j <= o_sv out i ^+ 2) ->
  exists w, o_coeffs out = Some w /\ unique_min (ridge_err (not_bias b) (Num.max 0 l2) d) w.
Proof. exact (fun R S HS eps He p b pol rows l2 rcond H1 H2 H3 => @rcond_full R S HS eps He p b pol rows l2 rcond H1 H2 H3). Qed.
Print Assumptions C108_full.

(** The cut-off is not relative: with every singular value below it all the coefficients are zero... *)
Theorem C108_all_cut : forall (R : rcfType) (S : svd_of R), svd3_ok S -> forall eps : R, 0 < eps ->
  forall p (b : bool) (pol : policy R) (rows : seq (lrow R p)) (l2 rcond : R),
  (0 < size rows)%N -> accepts pol rows -> (p <= size (used_rows pol rows))%N ->
  forall out, lin_reg_w_rcond S eps b l2 rcond pol rows = Ok (Some out) ->
  (exists i, o_sv out i != 0) -> (forall i, o_sv out i < `|rcond|) -> o_coeffs out = Some 0.
Proof. exact rcond_small. Qed.
Print Assumptions C108_all_cut.
(** ...although the documented rule always keeps the largest, and the fit is 1. *)
Theorem C108_cutoff_refuted : forall (R : rcfType) (eps : R), 0 < eps -> exists (S : svd_of R), svd3_ok S /\ exists out,
  lin_reg_w_rcond S eps false 0 (2%:R^-1) (SKIP R) (one_row (4%:R^-1) (4%:R^-1)) = Ok (Some out) /\
  (forall i, o_sv out i = 4%:R^-1) /\ o_coeffs out = Some 0 /\ (forall i, documented (2%:R^-1) (o_sv out) i) /\
  unique_min (sq_err (design false (used_rows (SKIP R) (one_row (4%:R^-1 : R) (4%:R^-1))))) (v1 1).
Proof. exact (fun R eps He => ex_intro _ (@diag_svd R) (conj (@diag_svd_ok R) (cut_demo He))). Qed.
Print Assumptions C108_cutoff_refuted.

(** With a penalty the values returned are never the singular values of the features. *)
Theorem C108_values_refuted : forall (R : rcfType) (S : svd_of R), svd3_ok S -> forall eps : R, 0 < eps ->
  forall p (b : bool) (pol : policy R) (rows : seq (lrow R p)) (l2 rcond : R),
  let d := design b (used_rows pol rows) in
  (0 < size rows)%N -> accepts pol rows -> (p <= size (used_rows pol rows))%N ->
  forall out, lin_reg_w_rcond S eps b l2 rcond pol rows = Ok (Some out) -> 0 < l2 -> (0 < p)%N ->
  forall s v, singular (prod_on d) s v -> ~ (forall i, o_sv out i = s i).
Proof. exact (fun R S HS eps He p b pol rows l2 rcond H1 H2 H3 => @rcond_ridge R S HS eps He p b pol rows l2 rcond H1 H2 H3). Qed.
Print Assumptions C108_values_refuted.

(** The floor of the cut-off counts the elements of the features and the target, not the larger side: for one
    row and one feature the documented floor is eps, and with rcond = 0 a value between eps and 2 eps is cut. *)
Theorem C108_floor_refuted : forall (R : rcfType) (eps : R), 0 < eps -> exists (S : svd_of R), svd3_ok S /\
  forall x, eps * (maxn 1 1)%:R < x -> x < eps * 2%:R -> exists out,
  lin_reg_w_rcond S eps false 0 0 (SKIP R) (one_row x x) = Ok (Some out) /\ (forall i, o_sv out i = x) /\
  (forall i j : 'I_(1 + false), eps * (maxn 1 1)%:R * o_sv out j <= o_sv out i ^+ 2) /\ o_coeffs out = Some 0.
Proof. exact (fun R eps He => ex_intro _ (@diag_svd R) (conj (@diag_svd_ok R) (floor_demo He))). Qed.
Print Assumptions C108_floor_refuted.

Section Cases.
Notation A := realalg_rcfType.
Example C108_full_case : svd3_ok (@diag_svd A) /\ exists out,
  lin_reg_w_rcond (@diag_svd A) (2%:R^-1) false 0 1 (SKIP A) (one_row 1 1) = Ok (Some out) /\ (forall i, o_sv out i = 1) /\
  let d := design false (used_rows (SKIP A) (one_row (1 : A) 1)) in
  forall i j, Num.max `|1| (2%:R^-1 * (maxn (1 + 1) (size d * (1 + 1 + false)))%:R) * o_sv out j <= o_sv out i ^+ 2.
Proof. exact (conj (@diag_svd_ok A) (full_demo A)). Qed.
Example C108_ridge_case : exists out,
  lin_reg_w_rcond (@diag_svd A) (2%:R^-1) false 3%:R 0 (SKIP A) (one_row 1 1) = Ok (Some out) /\ (forall i, o_sv out i = 2%:R).
Proof. exact (ridge_demo (half_gt0 A)). Qed.
Example C108_zero_case : exists out,
  lin_reg_w_rcond (@diag_svd A) (2%:R^-1) false 0 0 (SKIP A) (one_row 0 1) = Ok (Some out) /\ (forall i, o_sv out i = 0).
Proof. exact (zero_demo (2%:R^-1 : A)). Qed.
End Cases.
