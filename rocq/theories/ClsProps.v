(** C110: the regression classes LR, ElasticNet and OnlineLR as objects. *)
From mathcomp Require Import all_ssreflect all_algebra.
From Verif Require Import LinModel LinSpec LinProofs LinExprSpec LinDemos ClsModel ClsSpec ClsProofs ClsOnline ClsDemo.
Set Implicit Arguments.
Unset Strict Implicit.
Import GRing.Theory Num.Theory.
Local Open Scope ring_scope.

(** An object built from values reports and keeps them, if the bias is zero or above the machine epsilon... *)
Theorem C110_values : forall (R : realFieldType) (name : eqType) (eps : R), 0 <= eps ->
  forall (cs : seq R) (b : R) (names : seq name), b = 0 \/ eps < `|b| ->
  let m := from_values eps (map Some cs) (Some b) names in
  is_fit m = Ok true /\ coeffs m = Ok (map Some cs) /\ bias m = Ok (Some b) /\
  py_bias CElasticNet m = Ok (Some (Some b)) /\ m_names m = names.
Proof. exact values_ok. Qed.
Print Assumptions C110_values.
(** ...but a smaller bias is lost. *)
Theorem C110_small_bias_refuted : forall (R : realFieldType) (name : eqType) (eps : R),
  forall (cs : seq R) (b : R) (names : seq name), b != 0 -> `|b| <= eps ->
  let m := from_values eps (map Some cs) (Some b) names in
  coeffs m = Ok (map Some cs) /\ bias m = Ok (Some 0).
Proof. exact small_bias. Qed.
Print Assumptions C110_small_bias_refuted.
(** ...and so is a NaN bias: the object predicts numbers where the given equation gives NaN. *)
Theorem C110_nan_bias_refuted : forall (R : realFieldType) (name : eqType) (eps : R) (cs : seq R) (names : seq name),
  let m := from_values eps (map Some cs) None names in
  coeffs m = Ok (map Some cs) /\ bias m = Ok (Some 0).
Proof. exact nan_bias. Qed.
Print Assumptions C110_nan_bias_refuted.
(** LR.bias() and OnlineLR.bias() return None, whatever the bias is. *)
Theorem C110_bias_refuted : forall (R : realFieldType) (name : eqType) (m : model R name) (c : class) (v : num R),
  c <> CElasticNet -> bias m = Ok v -> py_bias c m = Ok None.
Proof. exact py_bias_none. Qed.
Print Assumptions C110_bias_refuted.
(** A fresh object without a bias says that it is not fitted... *)
Theorem C110_fresh_partial : forall (R : realFieldType) (name : eqType) (eps : R) (names : seq name),
  is_fit (@new R name false names) = Ok false /\ coeffs (@new R name false names) = Err /\
  forall k X, predict eps (@new R name false names) k X = Err.
Proof. exact fresh_no_bias. Qed.
Print Assumptions C110_fresh_partial.
(** ...with a bias every method panics, is_fit() included. *)
Theorem C110_fresh_refuted : forall (R : realFieldType) (name : eqType) (eps : R) (names : seq name),
  is_fit (@new R name true names) = Panic /\ coeffs (@new R name true names) = Panic /\
  bias (@new R name true names) = Panic /\ forall k X, predict eps (@new R name true names) k X = Panic.
Proof. exact fresh_bias. Qed.
Print Assumptions C110_fresh_refuted.

(** predict: the reported line (a bias up to the machine epsilon is left out), for the right number of
    columns only. *)
Theorem C110_predict : forall (R : realFieldType) (name : eqType) (eps : R), 0 <= eps ->
  forall (m : model R name) (cs : seq R) (b : R), coeffs m = Ok (map Some cs) -> bias m = Ok (Some b) ->
  (forall X : seq (seq R), all (fun x => size x == size cs) X ->
    predict eps m (size cs) (map (map Some) X) = Ok [seq Some (line cs (if eps < `|b| then b else 0) x) | x <- X]) /\
  (forall k X, k != size cs -> predict eps m k X = Err).
Proof. exact predict_ok. Qed.
Print Assumptions C110_predict.
Example C110_values_case : line [:: 2%:R; 3%:R : rat_realFieldType] 1 [:: 4%:R; 5%:R] = 24%:R.
Proof. by rewrite /line big_ord_recl big_ord1. Qed.

(** predict_df: the same line on the named columns, a null counting as zero. *)
Theorem C110_predict_df : forall (R : realFieldType) (name : eqType)
  (m : model R name) (cs : seq R) (b : R) (df : frame R name) cols,
  coeffs m = Ok (map Some cs) -> bias m = Ok (Some b) -> size (m_names m) = size cs -> (0 < size cs)%N ->
  [seq col_of df n | n <- m_names m] = map Some cols ->
  predict_df m df = Ok [seq Some (line cs b [seq odflt 0 (nth None c i) | c <- cols]) | i <- iota 0 (height df)].
Proof. exact predict_df_ok. Qed.
Print Assumptions C110_predict_df.
(** A row whose only feature is null gets the prediction 0. *)
Theorem C110_predict_null_refuted : forall (R : realFieldType) (eps : R), 0 <= eps ->
  exists (m : model R nat_eqType) df, m = from_values eps [:: Some 2%:R] (Some 0) [:: 0%N] /\
  col_of df 0%N = Some [:: None] /\ predict_df m df = Ok [:: Some 0].
Proof. exact null_as_zero. Qed.
Print Assumptions C110_predict_null_refuted.
(** Coefficients without a name are left out silently. *)
Theorem C110_names_refuted : forall (R : realFieldType) (eps : R), 0 <= eps ->
  exists (m : model R nat_eqType) df, m = from_values eps [:: Some 2%:R; Some 3%:R] (Some 0) [:: 0%N] /\
  coeffs m = Ok [:: Some 2%:R; Some 3%:R] /\ predict_df m df = Ok [:: Some 2%:R].
Proof. exact truncated. Qed.
Print Assumptions C110_names_refuted.

(** LR.fit learns the least squares (ridge) solution of the rows its null policy uses. *)
Theorem C110_fit : forall (R : realFieldType) (name : eqType) (F : faer R), faer_ok F ->
  forall (lambda : R) (s : solver_name), 0 <= lambda ->
  forall (m : model R name) (p : nat) (pol : policy R) (rows : seq (lrow R p)),
  accepts pol rows -> (p <= size (used_rows pol rows))%N -> (0 < size (used_rows pol rows))%N ->
  let d := design (m_bias m) (used_rows pol rows) in
  identifiable (not_bias (m_bias m)) lambda (map fst d) ->
  exists w m', py_fit (lr_solver F lambda s) m pol rows = (Done, m') /\
    unique_min (ridge_err (not_bias (m_bias m)) lambda d) w /\ learned w m' /\ m_names m' = m_names m.
Proof. exact py_fit_ok. Qed.
Print Assumptions C110_fit.
(** LR.fit_df does so for the rows of the frame, and remembers the names. *)
Theorem C110_fit_df : forall (R : realFieldType) (name : eqType) (F : faer R), faer_ok F ->
  forall (lambda : R) (s : solver_name), 0 <= lambda ->
  forall (m : model R name) (df : frame R name) (names : seq name) (target : name) (pol : policy R) rows,
  table df names target rows ->
  accepts pol rows -> (size names <= size (used_rows pol rows))%N -> (0 < size (used_rows pol rows))%N ->
  let d := design (m_bias m) (used_rows pol rows) in
  identifiable (not_bias (m_bias m)) lambda (map fst d) ->
  exists w m', py_fit_df (lr_solver F lambda s) m df (Names names) target pol = (Done, m') /\
    unique_min (ridge_err (not_bias (m_bias m)) lambda d) w /\ learned w m' /\ m_names m' = names.
Proof. exact py_fit_df_ok. Qed.
Print Assumptions C110_fit_df.
(** The expression lin_reg returns the same coefficients. *)
Theorem C110_same_as_expression : forall (R : realFieldType) (F : faer R), faer_ok F ->
  forall (lambda : R), 0 <= lambda ->
  forall (b : bool) (p : nat) (pol : policy R) (rows : seq (lrow R p)) (s : solver_name) (tol : R) w,
  accepts pol rows -> (p <= size (used_rows pol rows))%N -> (0 < size (used_rows pol rows))%N ->
  let d := design b (used_rows pol rows) in
  identifiable (not_bias b) lambda (map fst d) -> unique_min (ridge_err (not_bias b) lambda d) w ->
  pl_lstsq F (LrArgs b pol s 0 lambda tol None) rows = Ok (Some w).
Proof. exact expression_same. Qed.
Print Assumptions C110_same_as_expression.
Example C110_fit_case (b : bool) : let rows := two_rows rat_realFieldType in
  table (two_lines rat_realFieldType) [:: 0%N] 2%N rows /\ accepts (SKIP _) rows /\
  (1 <= size (used_rows (SKIP _) rows))%N /\
  identifiable (not_bias b) 0 (map fst (design b (used_rows (SKIP _) rows))).
Proof. exact (conj (@two_table _) (conj (@two_fits _).1 (conj (@two_fits _).2.1 (@two_ident _ b 0)))). Qed.

(** Too few usable rows raise; ElasticNet only needs one row. *)
Theorem C110_few_rows : forall (R : realFieldType) (name : eqType) (S : solver R) (m : model R name)
  (p : nat) (pol : policy R) (rows : seq (lrow R p)), accepts pol rows ->
  (needs_rows S && (size (used_rows pol rows) < p)%N) || (size (used_rows pol rows) == 0)%N ->
  py_fit S m pol rows = (Raised, m).
Proof. exact few_rows. Qed.
Print Assumptions C110_few_rows.
Theorem C110_elastic_net_one_row : forall (R : realFieldType) (name : eqType) (l1 l2 tol : R) (max_iter : nat)
  (m : model R name) (p : nat) (pol : policy R) (rows : seq (lrow R p)), accepts pol rows ->
  (0 < size (used_rows pol rows))%N ->
  exists v, py_fit (en_solver l1 l2 tol max_iter) m pol rows = (Done, Model (m_bias m) (Some v) (m_names m)).
Proof. exact en_one_row. Qed.
Print Assumptions C110_elastic_net_one_row.
Theorem C110_raise : forall (R : realFieldType) (name : eqType) (S : solver R) (m : model R name)
  (p : nat) (rows : seq (lrow R p)), ~~ no_null rows -> py_fit S m (RAISE R) rows = (Raised, m).
Proof. exact raise_rows. Qed.
Print Assumptions C110_raise.

(** After any calls of fit, fit_df and set_input_features the object holds what the last successful fit
    learned, whether calls raised since or not; once one succeeded, no getter raises or panics. *)
Theorem C110_history : forall (R : realFieldType) (name : eqType) (S : solver R) (m : model R name)
  (cs : seq (call R name)),
  (no_success S m cs /\ coeffs (run S m cs) = coeffs m /\ bias (run S m cs) = bias m) \/
  (exists c1 c c2, cs = c1 ++ c :: c2 /\ succeeds S (run S m c1) c /\
     no_success S (run S m (rcons c1 c)) c2 /\
     coeffs (run S m cs) = coeffs (run S m (rcons c1 c)) /\ bias (run S m cs) = bias (run S m (rcons c1 c)) /\
     (exists vs, coeffs (run S m cs) = Ok vs) /\ exists v, bias (run S m cs) = Ok v).
Proof. exact history_ok. Qed.
Print Assumptions C110_history.
(** But a fit_df that raises for lack of rows has already replaced the names: predictions on frames change
    although the coefficients stay. *)
Theorem C110_failed_fit_df_refuted : forall (R : realFieldType) (eps : R), 0 <= eps ->
  forall (F : faer R) (lambda : R) (s : solver_name), exists (m : model R nat_eqType) df target m' df',
    py_fit_df (lr_solver F lambda s) m df (Names [:: 1%N]) target (SKIP R) = (Raised, m') /\
    coeffs m' = coeffs m /\
    predict_df m df' = Ok [:: Some 2%:R] /\ predict_df m' df' = Ok [:: Some 10%:R].
Proof. exact failed_fit_df. Qed.
Print Assumptions C110_failed_fit_df_refuted.
Theorem C110_failed_fit_df_names : forall (R : realFieldType) (name : eqType) (S : solver R) (m : model R name)
  (df : frame R name) (names : seq name) (target : name) (pol : policy R) rows,
  table df names target rows -> accepts pol rows ->
  (needs_rows S && (size (used_rows pol rows) < size names)%N) || (size (used_rows pol rows) == 0)%N ->
  py_fit_df S m df (Names names) target pol = (Raised, Model (m_bias m) (m_vals m) names).
Proof. exact few_rows_df. Qed.
Print Assumptions C110_failed_fit_df_names.
(** Fitting on the object's own list of names succeeds, and loses the names: predict_df raises. *)
Theorem C110_own_names_refuted : forall (R : realFieldType) (name : eqType) (S : solver R) (m : model R name)
  (df : frame R name) (target : name) (pol : policy R) m',
  py_fit_df S m df (Own name) target pol = (Done, m') ->
  m_names m' = [::] /\ forall df', predict_df m' df' = Err.
Proof. exact own_names. Qed.
Print Assumptions C110_own_names_refuted.
Example C110_own_case (F : faer rat_realFieldType) (b : bool) : exists m',
  py_fit_df (lr_solver F 0 Nqr) (@new _ nat_eqType b [:: 0%N]) (two_lines _) (Own nat_eqType) 2%N (IGNORE _) = (Done, m').
Proof. exact (own_fit F 0 Nqr b). Qed.

(** OnlineLR: without a bias an object restored from coeffs() and inv() goes on as the original would... *)
Theorem C110_restore_partial : forall (R : realFieldType) (name : eqType) (eps : R), 0 <= eps ->
  forall (F : faer R), faer_ok F -> forall lambda : R, 0 <= lambda ->
  forall (p : nat) (d : seq ('rV[R]_p * R)) (cs : seq (nrow R p * R)) d',
  identifiable (not_bias false) lambda (map fst (design false d)) -> history false lambda d cs d' ->
  let fit := online_fit F false lambda d in
  exists o o' w, restore eps (coeffs_part (o_coef fit)) 0 (o_inv fit) = Ok o /\ o_run o cs = Ok (Some o') /\
    coeffs (om_model name o') = Ok (map Some (coeffs_part w)) /\
    unique_min (ridge_err (not_bias false) lambda (design false d')) w.
Proof. exact restored_history. Qed.
Print Assumptions C110_restore_partial.
(** ...with a bias it cannot be restored from its own values... *)
Theorem C110_restore_refuted : forall (R : realFieldType) (eps : R) (p : nat) (s : online R (p + true)) (v : R),
  restore eps (coeffs_part (o_coef s)) v (o_inv s) = Err.
Proof. exact restore_bias. Qed.
Print Assumptions C110_restore_refuted.
(** ...and the matrix that is accepted makes every update panic. *)
Theorem C110_restore_panic_refuted : forall (R : realFieldType) (name : eqType) (eps : R)
  (cs : seq R) (v : R) (inv : 'M[R]_(size cs)), eps < `|v| ->
  exists o, restore eps cs v inv = Ok o /\ coeffs (om_model name o) = Ok (map Some cs) /\ bias (om_model name o) = Ok (Some v) /\
  forall p (x : 'rV[R]_p) y c, o_update o (Some (x, y)) c = Panic.
Proof. exact restored_panic. Qed.
Print Assumptions C110_restore_panic_refuted.
Example C110_restore_case : history false 0 [:: (f1 (1 : rat_realFieldType), 2%:R)]
  [:: (Some (f1 2%:R, 3%:R), 1)] [:: (f1 1, 2%:R); (f1 2%:R, 3%:R)].
Proof. exact (H_add (H_nil _ _ _)). Qed.
