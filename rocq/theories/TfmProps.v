(** C101: fitted transforms. *)
From Coq Require Import Reals String Bool.
From Coq Require Import List.
From Verif Require Import MetricSpec WStatsSpec WStatsModel MetricModel WinsModel PipeModel PipeSpec TfmModel TfmSpec TfmProofs TightTfm.
Import ListNotations.
Open Scope R_scope.

(** impute fills nulls, and nothing else, with the statistic of the training column. *)
Theorem C101_impute : forall odd, acts (impute_mean odd) (fun x y => real_col (filled (mean_of (values x)) y)) /\
  acts (impute_median odd) (fun x y => real_col (filled (median_of (values x)) y)).
Proof. exact impute_acts. Qed.
Print Assumptions C101_impute.
Theorem C101_impute_mean_kept : forall x, values x <> [] -> mean_of (values (filled (mean_of (values x)) x)) = mean_of (values x).
Proof. exact filled_mean. Qed.
Print Assumptions C101_impute_mean_kept.
(** One training column without values makes the whole fit fail. *)
Theorem C101_impute_null_refuted : forall odd f c x cs, In c cs -> lookup c f = Some (real_col x) -> values x = [] ->
  impute_mean odd f cs = None /\ impute_median odd f cs = None.
Proof. exact impute_null. Qed.
Print Assumptions C101_impute_null_refuted.
Theorem C101_center : forall odd, acts (center odd) (fun x y => real_col (lift1 (fun v => v - mean_of (values x)) y)) /\
  forall l, l <> [] -> mean_of (map (fun v => v - mean_of l) l) = 0.
Proof. exact (fun odd => conj (center_acts odd) center_mean). Qed.
Print Assumptions C101_center.
(** scale, standard: the training column gets mean 0 and (population) variance 1. *)
Theorem C101_standard : forall odd, acts (scale_standard odd) (fun x y => num_col (map (option_map (fun v => xdiv (v - mean_of (values x)) (sqrt (pvar (values x))))) y)) /\
  forall x, values x <> [] -> ~ constant (values x) ->
    (forall y, num_col (map (option_map (fun v => xdiv (v - mean_of (values x)) (sqrt (pvar (values x))))) y) = real_col (lift1 (zscore (values x)) y)) /\
    mean_of (map (zscore (values x)) (values x)) = 0 /\ pvar (map (zscore (values x)) (values x)) = 1 /\
    (forall s t v, 0 < s -> zscore (map (fun v => s * v + t) (values x)) (s * v + t) = zscore (values x) v).
Proof. exact (fun odd => conj (standard_acts odd) standard_train). Qed.
Print Assumptions C101_standard.
(** scale, min_max: order-preserving, the training column's range becomes [0, 1]. *)
Theorem C101_min_max : forall odd, acts (scale_min_max odd) (fun x y => num_col (map (option_map (fun v => xdiv (v - lmin (values x)) (lmax (values x) - lmin (values x)))) y)) /\
  forall x, values x <> [] -> ~ constant (values x) -> let lo := lmin (values x) in let hi := lmax (values x) in
    (forall y, num_col (map (option_map (fun v => xdiv (v - lo) (hi - lo))) y) = real_col (lift1 (unit_pos lo hi) y)) /\
    least (values x) lo /\ greatest (values x) hi /\ lo < hi /\ (forall v, In v (values x) -> 0 <= unit_pos lo hi v <= 1) /\ unit_pos lo hi lo = 0 /\ unit_pos lo hi hi = 1 /\
    (forall u v, unit_pos lo hi u <= unit_pos lo hi v <-> u <= v).
Proof. exact (fun odd => conj (minmax_acts odd) minmax_full). Qed.
Print Assumptions C101_min_max.
(** scale, abs_max: the training column lands in [-1, 1], touches an end, zero stays zero. *)
Theorem C101_abs_max : forall odd, acts (scale_abs_max odd) (fun x y => num_col (map (option_map (fun v => xdiv v (Rmax (Rabs (lmin (values x))) (Rabs (lmax (values x)))))) y)) /\
  forall x, values x <> [] -> (exists v, In v (values x) /\ v <> 0) -> let m := Rmax (Rabs (lmin (values x))) (Rabs (lmax (values x))) in
    (forall y, num_col (map (option_map (fun v => xdiv v m)) y) = real_col (lift1 (fun v => v / m) y)) /\
    (forall v, In v (values x) -> -1 <= v / m <= 1) /\ (exists v, In v (values x) /\ Rabs (v / m) = 1) /\ (forall v, v / m = 0 <-> v = 0).
Proof. exact (fun odd => conj (absmax_acts odd) absmax_train). Qed.
Print Assumptions C101_abs_max.
(** robust_scale: the two quantiles of the training column become 0 and 1. *)
Theorem C101_robust : forall odd a b m, 0 <= a /\ a < b /\ b <= 1 ->
  acts (robust_scale odd a b m) (fun x y => num_col (map (option_map (fun v => xdiv (v - qval x a m) (qval x b m - qval x a m))) y)) /\
  forall x, values x <> [] -> qval x a m <> qval x b m ->
    (forall y, num_col (map (option_map (fun v => xdiv (v - qval x a m) (qval x b m - qval x a m))) y) = real_col (lift1 (unit_pos (qval x a m) (qval x b m)) y)) /\
    qval x a m < qval x b m /\ (forall q, 0 <= q <= 1 -> quantile (map (unit_pos (qval x a m) (qval x b m)) (values x)) q m = Some (unit_pos (qval x a m) (qval x b m) (qval x q m))) /\
    quantile (map (unit_pos (qval x a m) (qval x b m)) (values x)) a m = Some 0 /\ quantile (map (unit_pos (qval x a m) (qval x b m)) (values x)) b m = Some 1.
Proof. exact robust_full. Qed.
Print Assumptions C101_robust.
(** winsorize as a transform: new data is clipped to the training quantiles. *)
Theorem C101_winsorize : forall odd a b m, 0 <= a /\ a < b /\ b <= 1 ->
  acts (winsorize_fit odd a b m) (fun x y => real_col (lift1 (clip (qval x a m) (qval x b m)) y)).
Proof. exact wins_acts. Qed.
Print Assumptions C101_winsorize.
Theorem C101_levels_refused : forall odd a b m f cs, ~ (0 <= a /\ a < b /\ b <= 1) -> robust_scale odd a b m f cs = None /\ winsorize_fit odd a b m f cs = None.
Proof. exact levels_refused. Qed.
Print Assumptions C101_levels_refused.
(** A constant training column scales to NaN and infinities. *)
Theorem C101_constant_refuted : forall x v, values x <> [] -> constant (values x) ->
  xdiv (v - mean_of (values x)) (sqrt (pvar (values x))) = (if Req_EM_T v (mean_of (values x)) then NaN else if Rlt_dec (mean_of (values x)) v then PInf else NInf) /\
  xdiv (v - lmin (values x)) (lmax (values x) - lmin (values x)) = (if Req_EM_T v (lmin (values x)) then NaN else if Rlt_dec (lmin (values x)) v then PInf else NInf).
Proof. exact const_scale. Qed.
Print Assumptions C101_constant_refuted.
(** conditional_impute: where the condition is true the value learned from the training rows where it was false, elsewhere the old value. *)
Theorem C101_conditional : forall odd G rules f, NoDup (map fst rules) ->
  (forall c r, In (c, r) rules -> exists x b n, lookup c f = Some (real_col x) /\ r f = Some [(n, bool_col b)] /\ length b = length x) ->
  exists es, conditional_impute odd G rules f = Some es /\
    forall g, (forall c r, In (c, r) rules -> exists y b n, lookup c g = Some y /\ r g = Some [(n, bool_col b)] /\ length b = length y) ->
      exists g', with_columns es g = Some g' /\ names g' = names g /\ (forall d, ~ In d (map fst rules) -> lookup d g' = lookup d g) /\
        forall c r x b n y b' n', In (c, r) rules -> lookup c f = Some (real_col x) -> r f = Some [(n, bool_col b)] -> length b = length x ->
          lookup c g = Some y -> r g = Some [(n', bool_col b')] -> length b' = length y ->
          exists w, lookup c g' = Some w /\ length w = length y /\
            forall i, (i < length y)%nat -> nth i w Null = match nth i b' None with Some true => learned G b x | _ => nth i y Null end.
Proof. exact cond_thm. Qed.
Print Assumptions C101_conditional.
(** The fitted transforms write only the columns they were given and work row by row, as C100_target_kept and C100_batches ask. *)
Theorem C101_in_pipelines : forall odd T, In T ([impute_mean odd; impute_median odd; center odd; scale_standard odd; scale_min_max odd; scale_abs_max odd]) \/
    (exists a b m, T = robust_scale odd a b m) \/ (exists a b m, T = winsorize_fit odd a b m) ->
  writes_only (as_func T) /\ forall f cs es, as_func T f cs = Some es -> rowwise_step (WithColumns es).
Proof. exact in_pipes. Qed.
Print Assumptions C101_in_pipelines.
Theorem C101_conditional_rowwise : forall odd G rules f es, conditional_impute odd G rules f = Some es -> Forall (fun cr => rowwise (snd cr)) rules -> rowwise_step (WithColumns es).
Proof. exact cond_rows. Qed.
Print Assumptions C101_conditional_rowwise.
Example C101_case : let x := [Some 1; None; Some 3] in let f := [("a"%string, real_col x); ("y"%string, [BoolC false; BoolC true; Null])] in
  trained f ["a"%string] /\ numeric f ["a"%string] /\ ~ constant (values x) /\ mean_of (values x) = 2 /\ pvar (values x) = 1 /\ lmin (values x) = 1 /\ lmax (values x) = 3 /\
  qval x 0 Linear <> qval x 1 Linear /\
  (exists b n, col_expr "y" f = Some [(n, bool_col b)] /\ length b = length x /\ false_rows b x = [1]) /\
  (exists es, as_func (impute_mean (fun _ _ => None)) f (Some ["a"%string]) = Some es /\ with_columns es f = Some [("a"%string, [Num (Fin 1); Num (Fin 2); Num (Fin 3)]); ("y"%string, [BoolC false; BoolC true; Null])]).
Proof. exact demo_tfm. Qed.
(** A value that is null, NaN or infinite in the frame the fitted centring or scaling is applied to stays what it is. *)
Theorem C101_special_values : forall odd T, In T [center odd; scale_standard odd; scale_min_max odd; scale_abs_max odd] ->
  forall f c x, lookup c f = Some (real_col x) -> values x <> [] -> exists e, T f [c] = Some [e] /\
    forall g y, lookup c g = Some (num_col y) -> exists z, e g = Some [(c, z)] /\ length z = length y /\ forall i,
      (nth_error y i = Some None -> nth_error z i = Some Null) /\
      (forall s, s = NaN \/ s = PInf \/ s = NInf -> nth_error y i = Some (Some s) -> nth_error z i = Some (Num s)).
Proof. exact special_values. Qed.
Print Assumptions C101_special_values.
