(** C109: fitting one feature (simple_lin_reg). *)
From mathcomp Require Import all_ssreflect all_algebra.
From Verif Require Import LinModel LinSpec LinProofs LinExprSpec LinDemos SlrModel SlrSpec SlrProofs SlrDemo.
Set Implicit Arguments.
Unset Strict Implicit.
Import GRing.Theory Num.Theory.
Local Open Scope ring_scope.

(** With a bias: the one line with the least (weighted) squared error, and no numbers when there is none.
    Partial: nulls only in whole rows. *)
Theorem C109_line_partial : forall (R : realFieldType) (weighted : bool) (l : seq (row R)),
  let w := if weighted then Some (ws l) else None in
  all (together weighted) l -> all (weight_ok weighted) l ->
  (spread (points weighted l) ->
     exists b a : R, coeffs true (xs l) (ys l) w = [:: Val b; Val a] /\ best_line (points weighted l) b a) /\
  (~ spread (points weighted l) -> forall i x, nth Null (coeffs true (xs l) (ys l) w) i <> Val x).
Proof. exact bias_thm. Qed.
Print Assumptions C109_line_partial.

(** Without a bias: the best line through the origin.  Partial: no null targets where the feature is known. *)
Theorem C109_origin_partial : forall (R : realFieldType) (weighted : bool) (l : seq (row R)),
  let w := if weighted then Some (ws l) else None in
  all (target_known weighted) l -> all (weight_ok weighted) l ->
  (away (points weighted l) ->
     exists b : R, coeffs false (xs l) (ys l) w = [:: Val b] /\ best_slope (points weighted l) b) /\
  (~ away (points weighted l) -> forall i x, nth Null (coeffs false (xs l) (ys l) w) i <> Val x).
Proof. exact slope_thm. Qed.
Print Assumptions C109_origin_partial.

(** One prediction and residual per row: the line at the feature, and the target less the prediction. *)
Theorem C109_pred : forall (R : realFieldType) (bias : bool) (l : seq (row R)) (w : option (seq (val R))) (b a : R),
  coeffs bias (xs l) (ys l) w = (if bias then [:: Val b; Val a] else [:: Val b]) ->
  pred_resid bias (xs l) (ys l) w =
  [seq let pred x := if bias then b * x + a else b * x in
       (cell (omap pred (rx r)), if ry r is Some y then cell (omap (fun x => y - pred x) (rx r)) else Null) | r <- l].
Proof. exact pred_thm. Qed.
Print Assumptions C109_pred.

(** The residuals sum to zero and are orthogonal to the feature, also for weights of any sign. *)
Theorem C109_residuals : forall (R : realFieldType) (weighted : bool) (l : seq (row R)) (b a : R),
  all (together weighted) l -> coeffs true (xs l) (ys l) (if weighted then Some (ws l) else None) = [:: Val b; Val a] ->
  \sum_(q <- points weighted l) wt q * (py q - (b * px q + a)) = 0 /\
  \sum_(q <- points weighted l) wt q * px q * (py q - (b * px q + a)) = 0.
Proof. exact resid_thm. Qed.
Print Assumptions C109_residuals.

(** lin_reg with null_policy="skip" on the same columns returns the same coefficients. *)
Theorem C109_same_as_lin_reg : forall (R : realFieldType) (F : faer R), faer_ok F -> forall l : seq (row R),
  let rows := [seq mk1 (rx r) (ry r) | r <- l] in
  (forall b a : R, spread (points false l) -> best_line (points false l) b a ->
     pl_lstsq F (LrArgs true (SKIP R) Nqr 0 0 1 None) rows = Ok (Some (v2 b a))) /\
  (forall b : R, away (points false l) -> best_slope (points false l) b ->
     pl_lstsq F (LrArgs false (SKIP R) Nqr 0 0 1 None) rows = Ok (Some (v1 b))).
Proof. exact (fun R F HF l => conj (@same1 R F HF l) (@same0 R F HF l)). Qed.
Print Assumptions C109_same_as_lin_reg.

(** A null target where the feature is known and not zero always spoils the slope through the origin. *)
Theorem C109_null_target_refuted : forall (R : realFieldType) (l : seq (row R)) (b : R),
  best_slope (points false l) b -> b <> 0 ->
  (exists r x, List.In r l /\ rx r = Some x /\ x != 0 /\ ry r = None) -> slope (xs l) (ys l) None <> Val b.
Proof. exact slope_null. Qed.
Print Assumptions C109_null_target_refuted.

(** With a bias the means are taken over different rows; with weights all weights are counted. *)
Theorem C109_null_means_refuted : exists l : seq (row rat_realFieldType),
  coeffs true (xs l) (ys l) None = [:: Val (4%:R^-1); Val (4%:R^-1)] /\ best_line (points false l) 1 0.
Proof. exact (ex_intro _ null_y (conj null_y_run null_y_best)). Qed.
Print Assumptions C109_null_means_refuted.
Theorem C109_null_weights_refuted : exists l : seq (row rat_realFieldType),
  coeffs true (xs l) (ys l) (Some (ws l)) = [:: Val (6%:R / 5%:R); Val (3%:R / 5%:R)] /\ best_line (points true l) 1 1.
Proof. exact (ex_intro _ null_row (conj null_row_run null_row_best)). Qed.
Print Assumptions C109_null_weights_refuted.

Example C109_case : [/\ all (together true) good, all (weight_ok true) good, spread (points true good) &
  coeffs true (xs good) (ys good) (Some (ws good)) = [:: Val 2%:R; Val 1]].
Proof. exact good_ok. Qed.
Example C109_pred_case : pred_resid true (xs good) (ys good) (Some (ws good)) = [:: (Val 1, Val 0); (Null, Null); (Val 3%:R, Val 0)].
Proof. exact good_pred. Qed.
Example C109_origin_case : all (target_known true) good /\ away (points true good).
Proof. exact good_away. Qed.
Example C109_null_target_case : best_slope (points false half) 1 /\
  exists r x, List.In r half /\ rx r = Some x /\ x != 0 /\ ry r = None.
Proof. exact (conj half_best (ex_intro _ _ (ex_intro _ 1 (conj (or_intror (or_introl erefl)) (conj erefl (conj isT erefl)))))). Qed.
