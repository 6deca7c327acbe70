(** C14-C20 and C65-C69: the linear regressions.  Numbers are the elements of any ordered field [R], that is
    exact arithmetic; [faer_ok F] says the external decompositions solve and invert invertible matrices. *)
From mathcomp Require Import all_ssreflect all_algebra.
From Verif Require Import LinModel LinSpec LinProofs LinExprSpec LinExpr2 LinRolling LinHist LinCd LinMore LinMore2 LinDemos LinPropsLemmas.
Set Implicit Arguments.
Unset Strict Implicit.
Local Open Scope ring_scope.
Import GRing.Theory Num.Theory.

(** C14.  [lin_reg] returns the one and only minimiser of the (penalised) sum of squared errors over the rows
    the null policy uses; the bias is not penalised; a negative l2 counts as 0. *)
Theorem C14_least_squares : forall (R : realFieldType) (F : faer R), faer_ok F ->
  forall (p : nat) (a : lr_args R) (rows : seq (lrow R p)),
  (0 < size rows)%N -> accepts (a_policy a) rows -> (p <= size (used_rows (a_policy a) rows))%N ->
  a_weights a = None -> a_l1 a <= 0 ->
  let d := design (a_bias a) (used_rows (a_policy a) rows) in
  let l2 := Num.max 0 (a_l2 a) in
  identifiable (not_bias (a_bias a)) l2 (map fst d) ->
  exists w, pl_lstsq F a rows = Ok (Some w) /\ unique_min (ridge_err (not_bias (a_bias a)) l2 d) w.
Proof. exact lstsq_ok. Qed.
Print Assumptions C14_least_squares.
Theorem C14_weighted : forall (R : realFieldType) (F : faer R), faer_ok F ->
  forall (p : nat) (a : lr_args R) (rows : seq (lrow R p)) (w : seq R),
  (0 < size rows)%N -> accepts (a_policy a) rows -> (p <= size (used_rows (a_policy a) rows))%N ->
  a_weights a = Some w -> (forall o, o \in w -> 0 <= o) ->
  let d := design (a_bias a) (used_rows (a_policy a) rows) in
  size w = size d ->
  identifiable everything 0 [seq r.1.1 | r <- zip d w & 0 < r.2] ->
  exists c, pl_lstsq F a rows = Ok (Some c) /\ unique_min (weighted_err (zip d w)) c.
Proof. exact lstsq_weighted_ok. Qed.
Print Assumptions C14_weighted.
(** With a positive penalty no rank condition is needed at all. *)
Theorem C14_ridge_always : forall (R : realFieldType) (F : faer R), faer_ok F ->
  forall (p : nat) (a : lr_args R) (rows : seq (lrow R p)),
  accepts (a_policy a) rows -> (0 < size (used_rows (a_policy a) rows))%N ->
  (p <= size (used_rows (a_policy a) rows))%N ->
  a_weights a = None -> a_l1 a <= 0 -> 0 < a_l2 a ->
  exists w, pl_lstsq F a rows = Ok (Some w) /\
    unique_min (ridge_err (not_bias (a_bias a)) (a_l2 a) (design (a_bias a) (used_rows (a_policy a) rows))) w.
Proof. exact lstsq_ridge. Qed.
Print Assumptions C14_ridge_always.
(** The class [LR]. *)
Theorem C14_class_fit : forall (R : realFieldType) (F : faer R), faer_ok F ->
  forall (p : nat) (b : bool) (lambda : R) (s : solver_name) (d : seq ('rV[R]_p * R)),
  (p <= size d)%N -> (0 < size d)%N -> 0 <= lambda ->
  identifiable (not_bias b) lambda (map fst (design b d)) ->
  exists w, lr_fit F b lambda s d = Ok w /\ unique_min (ridge_err (not_bias b) lambda (design b d)) w.
Proof. exact lr_fit_ok. Qed.
Print Assumptions C14_class_fit.
(** null_policy = "raise" raises exactly when there is a null (and does not otherwise, by C14_least_squares). *)
Theorem C14_raise : forall (R : realFieldType) (F : faer R) (p : nat) (a : lr_args R) (rows : seq (lrow R p)),
  a_policy a = RAISE R -> ~~ no_null rows -> pl_lstsq F a rows = Err /\ pl_lstsq_pred F a rows = Err.
Proof. exact raise_err. Qed.
Print Assumptions C14_raise.
(** (0,1), (null,7), (1,3), (2,5) with a bias: slope 2, bias 1.  The hypotheses are met in its proof. *)
Example C14_case : pl_lstsq (exact_faer rat_realFieldType) (args true 0 0 1) (rows14 _) = Ok (Some (v2 2%:R 1)).
Proof. exact (demo14 (exact_faer_ok _)). Qed.
Example C14_weighted_case : let a := LrArgs false (SKIP rat_realFieldType) Nqr 0 0 1 (Some [:: 2%:R]) in
  [/\ accepts (a_policy a) (rows_c _), (1 <= size (used_rows (a_policy a) (rows_c _)))%N,
      (forall o : rat, o \in [:: 2%:R : rat] -> 0 <= o) &
      identifiable everything 0 [seq r.1.1 | r <- zip (design false (used_rows (a_policy a) (rows_c _))) [:: (2%:R : rat)] & 0 < r.2]].
Proof. exact (demo14_weighted rat_realFieldType). Qed.

(** C15.  Row i of [recursive_lin_reg] holds the coefficients fitted on the rows used up to i, null before there
    are [n] of them and on rows that are not used.  Unlike in [lin_reg] the bias is penalised (see C66). *)
Theorem C15_recursive : forall (R : realFieldType) (F : faer R), faer_ok F ->
  forall (p : nat) (pol : policy R) (n : nat) (b : bool) (lambda : R) (rows : seq (lrow R p)) (r0 : lrow R p),
  (0 < size rows)%N -> accepts pol rows -> (0 < n)%N -> 0 <= lambda ->
  (p <= size (used_rows pol rows))%N -> (n <= size (used_rows pol rows))%N ->
  identifiable everything lambda (map fst (design b (take n (used_rows pol rows)))) ->
  exists out, [/\ pl_recursive_lstsq F n b lambda pol rows = Ok out, size out = size rows &
    forall i, (i < size rows)%N ->
      if isSome (used pol (nth r0 rows i)) && (n <= size (seen pol rows i))%N then
        exists w pr, nth None out i = Some (Some w, pr) /\
          unique_min (ridge_err everything lambda (design b (seen pol rows i))) w
      else nth None out i = None].
Proof. exact C15_lemma. Qed.
Print Assumptions C15_recursive.
(** With fewer usable rows than [start_with] the expression panics instead of returning nulls. *)
Theorem C15_short_panics : forall (R : realFieldType) (F : faer R) (p : nat) (pol : policy R) (n : nat) (b : bool) (lambda : R) (rows : seq (lrow R p)),
  (0 < size rows)%N -> accepts pol rows -> (p <= size (used_rows pol rows))%N -> (size (used_rows pol rows) < n)%N ->
  pl_recursive_lstsq F n b lambda pol rows = Panic.
Proof. exact recursive_short. Qed.
Print Assumptions C15_short_panics.
(** Data (1,1), (2,2), (null,1) meet the hypotheses, and at row 1 the coefficient is 1. *)
Example C15_case : exists out, pl_recursive_lstsq (exact_faer rat_realFieldType) 2 false 0 (SKIP _) (rows19 _) = Ok out /\
  exists pr, nth None out 1 = Some (Some (v1 1), pr).
Proof. have [out [H1 H2]] := demo19 (exact_faer_ok rat_realFieldType). by exists out; split=> //; exists (Some 1). Qed.

(** C16.  Row i of [rolling_lin_reg] holds the coefficients fitted on the rows used in the window ending at i.
    Missing: it needs every window without its oldest row, on the way from one window to the next, to determine
    the coefficients too, which the property does not ask for. *)
Theorem C16_rolling_partial : forall (R : realFieldType) (F : faer R), faer_ok F ->
  forall (p : nat) (b : bool) (pol : policy R) (n ms : nat) (lambda : R) (rows : seq (lrow R p)) (r0 : lrow R p),
  accepts pol rows -> (0 < n)%N -> (n <= size rows)%N -> (p <= size rows)%N -> 0 <= lambda ->
  (forall j, (j + n <= size rows)%N ->
     all (fun r => isSome (used pol r)) rows || (ms <= size (used_rows pol (take n (drop j rows))))%N ->
     identifiable everything lambda (map fst (design b (used_rows pol (take n (drop j rows)))))) ->
  (forall j, (j + n < size rows)%N ->
     identifiable everything lambda (map fst (design b (used_rows pol (take n.-1 (drop j.+1 rows)))))) ->
  exists out, [/\ pl_rolling_lstsq F n ms b lambda pol rows = Ok out, size out = size rows &
    forall i, (i < size rows)%N ->
      if (n <= i.+1)%N &&
         (all (fun r => isSome (used pol r)) rows || (ms <= size (window pol rows n i))%N) then
        exists w, nth None out i =
             Some (Some w, if used pol (nth r0 rows i) is Some (x, _) then Some (predict (features b x) w) else None) /\
          unique_min (ridge_err everything lambda (design b (window pol rows n i))) w
      else nth None out i = None].
Proof. exact rolling_ok. Qed.
Print Assumptions C16_rolling_partial.
(** With a positive penalty nothing is missing. *)
Theorem C16_ridge : forall (R : realFieldType) (F : faer R), faer_ok F ->
  forall (p : nat) (b : bool) (pol : policy R) (n ms : nat) (lambda : R) (rows : seq (lrow R p)) (r0 : lrow R p),
  accepts pol rows -> (0 < n)%N -> (n <= size rows)%N -> (p <= size rows)%N -> 0 < lambda ->
  exists out, [/\ pl_rolling_lstsq F n ms b lambda pol rows = Ok out, size out = size rows &
    forall i, (i < size rows)%N ->
      if (n <= i.+1)%N &&
         (all (fun r => isSome (used pol r)) rows || (ms <= size (window pol rows n i))%N) then
        exists w, nth None out i =
             Some (Some w, if used pol (nth r0 rows i) is Some (x, _) then Some (predict (features b x) w) else None) /\
          unique_min (ridge_err everything lambda (design b (window pol rows n i))) w
      else nth None out i = None].
Proof. exact C16_ridge_lemma. Qed.
Print Assumptions C16_ridge.
(** The property is false: as soon as one window without its oldest row does not determine the coefficients, all
    later rows are NaN; ... *)
Theorem C16_poisoned : forall (R : realFieldType) (F : faer R), faer_ok F ->
  forall (p : nat) (pol : policy R) (n ms : nat) (b : bool) (lambda : R) (rows : seq (lrow R p)) (k : nat),
  accepts pol rows -> (0 < n)%N -> (n <= size rows)%N -> (p <= size rows)%N -> 0 <= lambda ->
  all (fun r => isSome (used pol r)) rows ->
  identifiable everything lambda (map fst (design b (used_rows pol (take n rows)))) ->
  (k + n < size rows)%N ->
  ~ identifiable everything lambda (map fst (design b (used_rows pol (take n.-1 (drop k.+1 rows))))) ->
  exists out, [/\ pl_rolling_lstsq F n ms b lambda pol rows = Ok out, size out = size rows &
    forall i, (k + n <= i)%N -> (i < size rows)%N -> nth None out i = Some (None, None)].
Proof. exact rolling_poison. Qed.
Print Assumptions C16_poisoned.
(** ... in particular with a window of as many rows as there are coefficients only the first window is fitted, ... *)
Theorem C16_square_window : forall (R : realFieldType) (F : faer R), faer_ok F ->
  forall (p : nat) (pol : policy R) (n ms : nat) (b : bool) (rows : seq (lrow R p)),
  accepts pol rows -> (0 < n)%N -> (n <= size rows)%N -> (p <= size rows)%N -> (n <= p + b)%N ->
  all (fun r => isSome (used pol r)) rows ->
  identifiable everything 0 (map fst (design b (used_rows pol (take n rows)))) ->
  exists out, [/\ pl_rolling_lstsq F n ms b 0 pol rows = Ok out, size out = size rows &
    forall i, (n <= i)%N -> (i < size rows)%N -> nth None out i = Some (None, None)].
Proof. exact rolling_square. Qed.
Print Assumptions C16_square_window.
(** ... although every window determines its coefficients; ... *)
Theorem C16_refuted : exists (rows : seq (lrow rat_realFieldType 1)) out,
  pl_rolling_lstsq (exact_faer _) 2 1 true 0 (SKIP _) rows = Ok out /\ nth None out 2 = Some (None, None) /\
  size rows = 3%N /\
  forall i, (1 <= i < 3)%N -> identifiable everything 0 (map fst (design true (window (SKIP _) rows 2 i))).
Proof. exact C16_refuted_lemma. Qed.
Print Assumptions C16_refuted.
(** ... and with null_policy = "skip" a gap of nulls as long as the window makes all later rows NaN. *)
Theorem C16_null_gap_refuted : exists (rows : seq (lrow rat_realFieldType 1)) out,
  pl_rolling_lstsq (exact_faer _) 2 1 false 0 (SKIP _) rows = Ok out /\
  nth None out 3 = Some (None, None) /\ nth None out 4 = Some (None, None) /\
  forall i, (3 <= i < 5)%N -> (1 <= size (window (SKIP _) rows 2 i))%N /\
    identifiable everything 0 (map fst (design false (window (SKIP _) rows 2 i))).
Proof. exact C16_gap_lemma. Qed.
Print Assumptions C16_null_gap_refuted.
Theorem C16_long_window_panics : forall (R : realFieldType) (F : faer R) (p : nat) (pol : policy R) (n ms : nat) (b : bool) (lambda : R) (rows : seq (lrow R p)),
  (0 < size rows)%N -> accepts pol rows -> (p <= size rows)%N -> (size rows + 1 < n)%N ->
  pl_rolling_lstsq F n ms b lambda pol rows = Panic.
Proof. exact rolling_short. Qed.
Print Assumptions C16_long_window_panics.
(** Rows (1,1), (2,1), (1,0) without a bias meet the hypotheses of C16_rolling_partial for a window of 2 (or 3). *)
Example C16_case : forall j, (j < 3)%N -> forall n, (0 < n)%N ->
  identifiable everything 0 (map fst (design false (used_rows (SKIP rat_realFieldType) (take n (drop j (rows_3 _)))))).
Proof. exact (demo16_ok (R := rat_realFieldType)). Qed.

(** C17.  After any sequence of additions, removals and NaN rows, [OnlineLR] is in exactly the state of a model
    fitted on the resulting data, and its coefficients minimise the penalised error over that data. *)
Theorem C17_history : forall (R : realFieldType) (F : faer R), faer_ok F ->
  forall (p : nat) (b : bool) (lambda : R), 0 <= lambda ->
  forall (d : seq ('rV[R]_p * R)) (cs : seq (nrow R p * R)) (d' : seq ('rV[R]_p * R)),
  identifiable (not_bias b) lambda (map fst (design b d)) -> history b lambda d cs d' ->
  run b (Some (online_fit F b lambda d)) cs = Some (online_fit F b lambda d') /\
  unique_min (ridge_err (not_bias b) lambda (design b d')) (o_coef (online_fit F b lambda d')).
Proof. exact history_refit. Qed.
Print Assumptions C17_history.
Theorem C17_downdate_restores : forall (R : realFieldType) (F : faer R), faer_ok F ->
  forall (p : nat) (b : bool) (lambda : R), 0 <= lambda ->
  forall (d : seq ('rV[R]_p * R)) (r : 'rV[R]_p * R),
  identifiable (not_bias b) lambda (map fst (design b d)) ->
  online_update b (online_update b (Some (online_fit F b lambda d)) (Some r) 1) (Some r) (-1)
  = Some (online_fit F b lambda d).
Proof. exact downdate_restores. Qed.
Print Assumptions C17_downdate_restores.
Example C17_case : history false 0 [:: (f1 (1 : rat_realFieldType), 2%:R)]
    [:: (Some (f1 2%:R, 1), 1); (None, 5%:R); (Some (f1 1, 2%:R), -1)] [:: (f1 2%:R, 1)] /\
  identifiable (not_bias false) 0 (map fst (design false [:: (f1 (1 : rat_realFieldType), 2%:R)])).
Proof. exact (demo17_history rat_realFieldType). Qed.

(** C18.  One prediction and residual per row, from the row's own features; null exactly on the unused rows. *)
Theorem C18_aligned : forall (R : realFieldType) (F : faer R) (p : nat) (a : lr_args R) (rows : seq (lrow R p)) c,
  (0 < size rows)%N -> accepts (a_policy a) rows -> (p <= size (used_rows (a_policy a) rows))%N ->
  pl_lstsq F a rows = Ok (Some c) ->
  pl_lstsq_pred F a rows =
    Ok (map (fun r => if used (a_policy a) r is Some (x, y)
                      then let pr := predict (features (a_bias a) x) c in Some (pr, y - pr)
                      else None) rows).
Proof. exact pred_ok. Qed.
Print Assumptions C18_aligned.
Example C18_case : pl_lstsq_pred (exact_faer rat_realFieldType) (args true 0 0 1) (rows14 _) =
  Ok [:: Some (1, 0); None; Some (3%:R, 0); Some (5%:R, 0)].
Proof. exact (demo18 (exact_faer_ok _)). Qed.

(** C19.  With [start_with = 1], or when no row is skipped, the prediction of a row is made from its own features
    and the coefficients fitted up to it.  Missing: [start_with] > 1 with skipped rows, where it is false. *)
Theorem C19_own_row_partial : forall (R : realFieldType) (F : faer R), faer_ok F ->
  forall (p : nat) (pol : policy R) (n : nat) (b : bool) (lambda : R) (rows : seq (lrow R p)) (r0 : lrow R p),
  (0 < size rows)%N -> accepts pol rows -> (0 < n)%N -> 0 <= lambda ->
  (p <= size (used_rows pol rows))%N -> (n <= size (used_rows pol rows))%N ->
  identifiable everything lambda (map fst (design b (take n (used_rows pol rows)))) ->
  n = 1%N \/ all (fun r => isSome (used pol r)) rows ->
  exists out, [/\ pl_recursive_lstsq F n b lambda pol rows = Ok out, size out = size rows &
    forall i, (i < size rows)%N ->
      if isSome (used pol (nth r0 rows i)) && (n <= size (seen pol rows i))%N then
        exists w x y, [/\ used pol (nth r0 rows i) = Some (x, y),
          unique_min (ridge_err everything lambda (design b (seen pol rows i))) w &
          nth None out i = Some (Some w, Some (predict (features b x) w))]
      else nth None out i = None].
Proof. exact C19_lemma. Qed.
Print Assumptions C19_own_row_partial.
(** When a row is skipped and n > 1, the prediction is made from the features of the row used n - 1 rows earlier. *)
Theorem C19_wrong_row : forall (R : realFieldType) (F : faer R), faer_ok F ->
  forall (p : nat) (pol : policy R) (n : nat) (b : bool) (lambda : R) (rows : seq (lrow R p)) (r0 : lrow R p),
  (0 < size rows)%N -> accepts pol rows -> (0 < n)%N -> 0 <= lambda ->
  (p <= size (used_rows pol rows))%N -> (n <= size (used_rows pol rows))%N ->
  identifiable everything lambda (map fst (design b (take n (used_rows pol rows)))) ->
  ~~ all (fun r => isSome (used pol r)) rows ->
  exists out, [/\ pl_recursive_lstsq F n b lambda pol rows = Ok out, size out = size rows &
    forall i, (i < size rows)%N -> isSome (used pol (nth r0 rows i)) -> (n <= size (seen pol rows i))%N ->
      exists w, nth None out i =
        Some (Some w, Some (predict (features b (nth (0, 0) (used_rows pol rows) (size (seen pol rows i) - n)).1) w))].
Proof. exact C19_wrong_lemma. Qed.
Print Assumptions C19_wrong_row.
(** (1,1), (2,2), (null,1) with start_with = 2: at row 1 the coefficient is 1, x = 2, and the prediction is 1. *)
Theorem C19_refuted : exists (rows : seq (lrow rat_realFieldType 1)) out,
  pl_recursive_lstsq (exact_faer _) 2 false 0 (SKIP _) rows = Ok out /\
  used (SKIP _) (nth (mk1 None None) rows 1) = Some (f1 2%:R, 2%:R) /\
  nth None out 1 = Some (Some (v1 1), Some 1).
Proof. exact C19_refuted_lemma. Qed.
Print Assumptions C19_refuted.
Example C19_case : accepts (SKIP rat_realFieldType) (rows_3 _) /\
  all (fun r => isSome (used (SKIP rat_realFieldType) r)) (rows_3 _).
Proof. by rewrite /rows_3 /= !complete_mk1. Qed.

(** C20.  Coordinate descent for lasso and elastic net.  A sweep never increases the objective, and if it does not
    decrease it, the point is a fixed point and a global minimum. *)
Theorem C20_sweep_descends : forall (R : realFieldType) (p : nat) (b : bool) (d : seq ('rV[R]_p * R)) (l1 l2 : R),
  0 <= l1 -> 0 <= l2 -> (0 < size d)%N ->
  let D := design b d in
  let E := elastic_err (not_bias b) l1 l2 D in
  forall be be' mc, cd_sweep (Xmat D) (Ymat D) l1 l2 b be = Some (be', mc) ->
  E be' <= E be /\ (E be <= E be' -> be' = be /\ forall v, E be <= E v).
Proof. exact C20_sweep_lemma. Qed.
Print Assumptions C20_sweep_descends.
Theorem C20_fixed_point_optimal : forall (R : realFieldType) (p : nat) (b : bool) (d : seq ('rV[R]_p * R)) (l1 l2 : R),
  0 <= l1 -> 0 <= l2 -> (0 < size d)%N ->
  let D := design b d in
  forall be mc, cd_sweep (Xmat D) (Ymat D) l1 l2 b be = Some (be, mc) ->
  forall v, elastic_err (not_bias b) l1 l2 D be <= elastic_err (not_bias b) l1 l2 D v.
Proof. exact C20_fixed_lemma. Qed.
Print Assumptions C20_fixed_point_optimal.
(** More iterations never give a worse result, whatever the tolerance. *)
Theorem C20_more_iterations : forall (R : realFieldType) (p : nat) (b : bool) (d : seq ('rV[R]_p * R)) (l1 l2 : R),
  0 <= l1 -> 0 <= l2 -> (0 < size d)%N ->
  let D := design b d in
  let E := elastic_err (not_bias b) l1 l2 D in
  forall tol it k w w',
  faer_coordinate_descent (Xmat D) (Ymat D) l1 l2 b tol it = Some w ->
  faer_coordinate_descent (Xmat D) (Ymat D) l1 l2 b tol (it + k) = Some w' ->
  E w' <= E w /\ E w <= E 0.
Proof. exact C20_more_lemma. Qed.
Print Assumptions C20_more_iterations.
(** Without a bias, or with centred features, the expression's result is optimal up to a bound proportional to the
    tolerance, once the budget of 2000 iterations exceeds (sum of y^2) / (c tol^2). *)
Theorem C20_converges : forall (R : realFieldType) (F : faer R) (p : nat) (a : lr_args R) (rows : seq (lrow R p)) (c : R),
  let used := used_rows (a_policy a) rows in
  let d := design (a_bias a) used in
  let E := elastic_err (not_bias (a_bias a)) (a_l1 a) (a_l2 a) d in
  (0 < size used)%N -> accepts (a_policy a) rows -> (p <= size used)%N ->
  a_weights a = None -> 0 < a_l1 a -> 0 <= a_l2 a -> 0 < a_tol a -> (a_bias a -> centred used) ->
  0 < c ->
  (forall j : 'I_(p + a_bias a), (j < p)%N -> c <= \sum_(r <- d) (r.1 0 j) ^+ 2 + (size used)%:R * a_l2 a) ->
  \sum_(r <- used) r.2 ^+ 2 < 2000%:R * (c * a_tol a ^+ 2) ->
  exists w, pl_lstsq F a rows = Ok (Some w) /\
    forall v, E w <= E v + 2%:R * a_tol a * \sum_(j < p + a_bias a | not_bias (a_bias a) j)
                             coupling d (not_bias (a_bias a)) j * `|v j 0 - w j 0|.
Proof. exact elastic_converges. Qed.
Print Assumptions C20_converges.
(** A feature that is zero on every row makes the whole lasso result NaN, although a minimiser exists. *)
Theorem C20_zero_column_refuted : forall (R : realFieldType) (F : faer R) (p : nat) (a : lr_args R) (rows : seq (lrow R p)) (j : 'I_p),
  let us := used_rows (a_policy a) rows in
  (0 < size us)%N -> accepts (a_policy a) rows -> (p <= size us)%N ->
  a_weights a = None -> 0 < a_l1 a -> a_l2 a = 0 -> (forall r, r \in us -> r.1 0 j = 0) ->
  pl_lstsq F a rows = Ok None.
Proof. exact elastic_zero_column. Qed.
Print Assumptions C20_zero_column_refuted.
Example C20_zero_column_case : pl_lstsq (exact_faer rat_realFieldType) (args false 1 0 1) (rows_z _) = Ok None.
Proof. exact (demo20_zero (exact_faer rat_realFieldType) 1). Qed.
Example C20_converges_case : let a := args false (1 / 10%:R) 0 (1 / 10%:R : rat_realFieldType) in
  let us := used_rows (a_policy a) (rows_c _) in
  [/\ (0 < size us)%N, accepts (a_policy a) (rows_c _), (1 <= size us)%N, 0 < a_l1 a & 0 < a_tol a] /\
  [/\ (forall j : 'I_(1 + a_bias a), (j < 1)%N -> 1 <= \sum_(r <- design (a_bias a) us) (r.1 0 j) ^+ 2 + (size us)%:R * a_l2 a) &
  \sum_(r <- us) r.2 ^+ 2 < 2000%:R * (1 * a_tol a ^+ 2)].
Proof. exact (demo20_conv rat_realFieldType). Qed.

(** C65.  null_policy = "ignore" with any null: one null instead of one output per row. *)
Theorem C65_ignore_length_refuted : forall (R : realFieldType) (F : faer R) (p : nat) (a : lr_args R) (rows : seq (lrow R p)),
  a_policy a = IGNORE R -> a_weights a = None -> ~~ no_null rows -> (p <= size rows)%N ->
  pl_lstsq_pred F a rows = Ok [:: None].
Proof. exact pred_ignore. Qed.
Print Assumptions C65_ignore_length_refuted.
(** skip and fill keep one output per row (C18_aligned); with "ignore" and no nulls too. *)
Example C65_case : exists rows : seq (lrow rat_realFieldType 1), ~~ no_null rows /\ size rows = 4%N.
Proof. exists (rows14 _); split=> //; by rewrite /= !complete_mk1 complete_mk1_none. Qed.

(** C66.  [lin_reg] and [recursive_lin_reg] with the same penalty and a bias give different coefficients for the
    same row: the recursive (and rolling) regression penalises the bias. *)
Theorem C66_bias_penalised_refuted : exists (rows : seq (lrow rat_realFieldType 1)) out w pr,
  pl_lstsq (exact_faer _) (args true 0 1 1) rows = Ok (Some (v2 0 1)) /\
  pl_recursive_lstsq (exact_faer _) 1 true 1 (SKIP _) rows = Ok out /\
  size rows = 1%N /\ nth None out 0 = Some (Some w, pr) /\ w != v2 0 1.
Proof. exact C66_lemma. Qed.
Print Assumptions C66_bias_penalised_refuted.
(** Without a bias, or without a penalty, they agree: the row for i is what [lin_reg] gives on rows 0..i. *)
Theorem C66_recursive_is_lin_reg : forall (R : realFieldType) (F : faer R), faer_ok F ->
  forall (p : nat) (pol : policy R) (n : nat) (b : bool) (lambda : R) (rows : seq (lrow R p)) (r0 : lrow R p),
  (0 < size rows)%N -> accepts pol rows -> (0 < n)%N -> 0 <= lambda ->
  (p <= size (used_rows pol rows))%N -> (n <= size (used_rows pol rows))%N -> (p <= n)%N ->
  identifiable everything lambda (map fst (design b (take n (used_rows pol rows)))) ->
  b = false \/ lambda = 0 ->
  exists out, [/\ pl_recursive_lstsq F n b lambda pol rows = Ok out, size out = size rows &
    forall i, (i < size rows)%N -> isSome (used pol (nth r0 rows i)) -> (n <= size (seen pol rows i))%N ->
      exists w pr, nth None out i = Some (Some w, pr) /\
        pl_lstsq F (LrArgs b pol Nqr 0 lambda 0 None) (take i.+1 rows) = Ok (Some w)].
Proof. exact recursive_is_lin_reg. Qed.
Print Assumptions C66_recursive_is_lin_reg.

(** C67.  [OnlineLR.update(row, c)] with c > 0 weighs the row by 1/c, not by c. *)
Theorem C67_update_weight : forall (R : realFieldType) (F : faer R), faer_ok F ->
  forall (p : nat) (b : bool) (lambda : R), 0 <= lambda ->
  forall (d : seq ('rV[R]_p * R)) (x : 'rV[R]_p) (y c : R),
  identifiable (not_bias b) lambda (map fst (design b d)) -> 0 < c ->
  exists st, online_update b (Some (online_fit F b lambda d)) (Some (x, y)) c = Some st /\
    unique_min (fun w => ridge_err (not_bias b) lambda (design b d) w
                         + c^-1 * (y - predict (features b x) w) ^+ 2) (o_coef st).
Proof. exact update_weight. Qed.
Print Assumptions C67_update_weight.
Theorem C67_refuted : exists (d : seq ('rV[rat_realFieldType]_1 * rat_realFieldType)) x y st,
  identifiable (not_bias false) 1 (map fst (design false d)) /\
  online_update false (Some (online_fit (exact_faer _) false 1 d)) (Some (x, y)) 2%:R = Some st /\
  ~ unique_min (fun w => ridge_err (not_bias false) 1 (design false d) w
                         + 2%:R * (y - predict (features false x) w) ^+ 2) (o_coef st).
Proof. exact C67_lemma. Qed.
Print Assumptions C67_refuted.

(** C68.  With a bias, the elastic net stops when the slopes change little even if the bias has just moved: if no
    slope leaves 0 in the first sweep, the result is slopes 0 and bias = mean, for every tolerance, ... *)
Theorem C68_first_sweep_stops : forall (R : realFieldType) (F : faer R) (p : nat) (a : lr_args R) (rows : seq (lrow R p)),
  let used := used_rows (a_policy a) rows in
  let d := design (a_bias a) used in
  (0 < size used)%N -> accepts (a_policy a) rows -> (p <= size used)%N ->
  a_weights a = None -> 0 < a_l1 a -> 0 <= a_l2 a -> 0 < a_tol a ->
  (forall j : 'I_(p + a_bias a), (j < p)%N -> 0 < \sum_(r <- d) (r.1 0 j) ^+ 2 + (size used)%:R * a_l2 a) ->
  (forall j : 'I_(p + a_bias a), (j < p)%N -> `| \sum_(r <- d) r.2 * r.1 0 j | <= (size used)%:R * a_l1 a) ->
  pl_lstsq F a rows =
    Ok (Some (\col_j if (j < p)%N then 0 else (\sum_(r <- used) r.2) / (size used)%:R)).
Proof. exact elastic_stops. Qed.
Print Assumptions C68_first_sweep_stops.
(** ... which is not a minimum: on (0,1), (1,0) with l1 = 1/10 slope -1 and bias 1 are better. *)
Theorem C68_bias_early_stop_refuted : exists (rows : seq (lrow rat_realFieldType 1)),
  forall tol : rat_realFieldType, 0 < tol -> exists w v,
  pl_lstsq (exact_faer _) (args true (1 / 10%:R) 0 tol) rows = Ok (Some w) /\
  elastic_err (not_bias true) (1 / 10%:R) 0 (design true (used_rows (SKIP _) rows)) v + 1 / 10%:R <=
  elastic_err (not_bias true) (1 / 10%:R) 0 (design true (used_rows (SKIP _) rows)) w.
Proof. exact C68_lemma. Qed.
Print Assumptions C68_bias_early_stop_refuted.

(** C69.  Several targets: every target is fitted as if it were alone, and predictions and residuals are those of
    each row's own features; nulls are rejected except null features under "fill". *)
Theorem C69_multi_target : forall (R : realFieldType) (F : faer R), faer_ok F ->
  forall (p k : nat) (b : bool) (lambda : R) (s : solver_name) (pol : policy R) (rows : seq (mrow R k p)) (r0 : mrow R k p),
  multi_accepts pol rows -> (0 < size rows)%N ->
  (forall t, identifiable (not_bias b) (Num.max 0 lambda) (map fst (design b (used_rows pol (map (one_target t) rows))))) ->
  exists W preds, [/\ pl_lstsq_multi F b lambda s pol rows = Ok W,
    pl_lstsq_multi_pred F b lambda s pol rows = Ok preds, size preds = size rows &
    forall t : 'I_k,
      unique_min (ridge_err (not_bias b) (Num.max 0 lambda) (design b (used_rows pol (map (one_target t) rows)))) (col t W) /\
      forall i, (i < size rows)%N ->
        exists x y, [/\ used pol (one_target t (nth r0 rows i)) = Some (x, y),
          (nth (0, 0) preds i).1 0 t = predict (features b x) (col t W) &
          (nth (0, 0) preds i).2 0 t = y - predict (features b x) (col t W)]].
Proof. exact multi_ok. Qed.
Print Assumptions C69_multi_target.
Theorem C69_multi_rejects : forall (R : realFieldType) (F : faer R) (p k : nat) (b : bool) (lambda : R) (s : solver_name) (pol : policy R) (rows : seq (mrow R k p)),
  ~~ multi_accepts pol rows ->
  pl_lstsq_multi F b lambda s pol rows = Err /\ pl_lstsq_multi_pred F b lambda s pol rows = Err.
Proof. exact multi_reject. Qed.
Print Assumptions C69_multi_rejects.
Example C69_case : multi_accepts (@FILL rat_realFieldType 1) (rows_m _) /\
  (forall t, identifiable (not_bias false) 0 (map fst (design false (used_rows (@FILL rat_realFieldType 1) (map (one_target t) (rows_m _)))))) /\
  ~~ multi_accepts (SKIP rat_realFieldType) (rows_m _).
Proof. exact (demo_multi rat_realFieldType). Qed.
