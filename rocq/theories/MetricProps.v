(** C77-C82: regression and classification metrics. *)
From Coq Require Import Reals List Lra Lia.
From Coq Require Import ZArith.
From Verif Require Import WStatsSpec WStatsModel MetricSpec MetricModel MetricProofs MetricProofs2 MetricProofs3 MetricProofs4 MetricPropsLemmas.
Import ListNotations.
Open Scope R_scope.

Theorem C77_r2 a p : pred_known a p -> let l := complete a p in ~ constant (actuals l) ->
  exists v, query_r2 a p = Fin v /\ v = 1 - ss_res l / ss_tot l /\ v <= 1 /\ (v = 1 <-> all_equal l) /\
    ((forall r, In r l -> snd r = mean_of (actuals l)) -> v = 0) /\ (forall c, (forall r, In r l -> snd r = c) -> v <= 0).
Proof. exact (r2_thm a p). Qed.
Print Assumptions C77_r2.
Example C77_case : pred_known a0 p0 /\ ~ constant (actuals (complete a0 p0)).
Proof. exact (conj known0 nonconst0). Qed.

Theorem C77_r2_constant a p : pred_known a p -> constant (actuals (complete a p)) ->
  (all_equal (complete a p) -> query_r2 a p = NaN) /\ (~ all_equal (complete a p) -> query_r2 a p = NInf).
Proof. exact (r2_constant a p). Qed.
Print Assumptions C77_r2_constant.
Example C77_constant_case : constant (actuals (complete (col [2; 2]%Z) (col [1; 2]%Z))).
Proof. intros a b [<-|[<-|[]]] [<-|[<-|[]]]; reflexivity. Qed.

Theorem C77_r2_affine a p s t : s <> 0 -> query_r2 (lift1 (fun v => s * v + t) a) (lift1 (fun v => s * v + t) p) = query_r2 a p.
Proof. exact (r2_affine a p s t). Qed.
Print Assumptions C77_r2_affine.

Theorem C77_adj_r2 a p k v : pred_known a p -> query_r2 a p = Fin v -> (Z.of_nat (length a) < 2 ^ 32)%Z -> (1 <= k < Z.of_nat (length a))%Z ->
  exists w, query_adj_r2 a p k = Fin w /\ w = 1 - (1 - v) * (INR (length a) - 1) / (INR (length a) - IZR k) /\ w <= v.
Proof. exact (adj_thm a p k v). Qed.
Print Assumptions C77_adj_r2.
Example C77_adj_case : exists v, query_r2 a0 p0 = Fin v /\ (1 <= 2 < Z.of_nat (length a0))%Z.
Proof. destruct (C77_r2 a0 p0 known0 nonconst0) as [v [E _]]. exists v. split; [exact E|cbn; lia]. Qed.

Theorem C77_adj_textbook_refuted : exists a p v, pred_known a p /\ query_r2 a p = Fin v /\ v = 0 /\ length a = 4%nat /\
  query_adj_r2 a p 1 = Fin 0 /\ 1 - (1 - v) * (INR 4 - 1) / (INR 4 - 1 - 1) = - (1 / 2).
Proof. exact adj_textbook_ex. Qed.
Print Assumptions C77_adj_textbook_refuted.

Theorem C77_more_variables_than_rows_refuted : exists a p v w, pred_known a p /\ length a = 3%nat /\ query_r2 a p = Fin v /\ query_adj_r2 a p 5 = Fin w /\ v = 0 /\ 0.99 < w.
Proof. exact adj_wrap_ex. Qed.
Print Assumptions C77_more_variables_than_rows_refuted.

Theorem C77_adj_null_refuted : exists a p w w', pred_known a p /\ query_adj_r2 a p 2 = Fin w /\
  query_adj_r2 (map (fun r => Some (fst r)) (complete a p)) (map (fun r => Some (snd r)) (complete a p)) 2 = Fin w' /\ w = - (1 / 3) /\ w' = - (1 / 2).
Proof. exact adj_null_ex. Qed.
Print Assumptions C77_adj_null_refuted.

Theorem C77_null_pred_refuted : exists a p, length a = length p /\ query_r2 a p = Fin (11 / 26) /\
  query_r2 (map (fun r => Some (fst r)) (complete a p)) (map (fun r => Some (snd r)) (complete a p)) = Fin (- 9).
Proof. exact r2_null_ex. Qed.
Print Assumptions C77_null_pred_refuted.

Theorem C78_losses a p delta : pred_known a p -> let l := complete a p in l <> [] -> 0 < delta ->
  exists v1 v2 vi vh vc,
    query_l1 a p true = Fin v1 /\ v1 = avg (fun r => Rabs (err r)) l /\
    query_l2 a p true = Fin v2 /\ v2 = avg (fun r => err r ^ 2) l /\
    query_l_inf a p = Some vi /\ greatest (map (fun r => Rabs (err r)) l) vi /\
    query_hubor_loss a p delta = Fin vh /\ vh = avg (fun r => huber_of delta (err r)) l /\
    query_log_cosh a p true = Fin vc /\ vc = avg (fun r => ln (cosh (err r))) l /\
    (0 <= v1 <= vi /\ v1 ^ 2 <= v2 <= vi ^ 2 /\ 0 <= vh <= v2 / 2 /\ vh <= delta * v1 /\ 0 <= vc <= v1 /\ vc <= v2 / 2) /\
    (vi <= delta -> vh = v2 / 2) /\
    (v1 = 0 <-> all_equal l) /\ (v2 = 0 <-> all_equal l) /\ (vi = 0 <-> all_equal l) /\ (vh = 0 <-> all_equal l) /\ (vc = 0 <-> all_equal l).
Proof. exact (losses_thm a p delta). Qed.
Print Assumptions C78_losses.
Example C78_case : pred_known a0 p0 /\ complete a0 p0 <> [] /\ query_l1 a0 p0 true = Fin (5 / 3).
Proof.
  split; [exact known0|]. split; [easy|]. destruct (C78_losses a0 p0 1 known0 ltac:(easy) ltac:(lra)) as [v1 [_ [_ [_ [_ [E [V _]]]]]]].
  rewrite E, V. f_equal. unfold avg, mean_of, err. cbn [complete a0 p0 map Rsum length fst snd INR].
  unfold Rabs. repeat destruct (Rcase_abs _); lra.
Qed.

Theorem C78_sums a p : query_l1 a p false = Fin (total (fun r => Rabs (err r)) (complete a p)) /\
  query_l2 a p false = Fin (total (fun r => err r ^ 2) (complete a p)) /\
  query_log_cosh a p false = Fin (total (fun r => ln (cosh (err r))) (complete a p)).
Proof. exact (sums_thm a p). Qed.
Print Assumptions C78_sums.

Theorem C78_msle a p : pred_known a p -> let l := complete a p in l <> [] -> (forall r, In r l -> -1 < fst r /\ -1 < snd r) ->
  exists v, query_msle a p true = Fin v /\ v = avg (fun r => (ln (1 + fst r) - ln (1 + snd r)) ^ 2) l /\ 0 <= v /\ (v = 0 <-> all_equal l).
Proof. exact (msle_thm a p). Qed.
Print Assumptions C78_msle.
Example C78_msle_case : forall r, In r (complete a0 p0) -> -1 < fst r /\ -1 < snd r.
Proof. intros r [<-|[<-|[<-|[]]]]; cbn; lra. Qed.

Theorem C78_mad x : values x <> [] ->
  exists v, mad_mean x = Some v /\ v = avg (fun y => Rabs (y - mean_of (values x))) (values x) /\ 0 <= v /\
    v ^ 2 <= avg (fun y => (y - mean_of (values x)) ^ 2) (values x) /\
    forall s t, mad_mean (lift1 (fun y => s * y + t) x) = Some (Rabs s * v).
Proof. exact (mad_thm x). Qed.
Print Assumptions C78_mad.

Theorem C78_null_pred_refuted : exists a p, length a = length p /\
  query_l1 a p true = Fin (1 / 2) /\ avg (fun r => Rabs (err r)) (complete a p) = 1 /\
  query_l2 a p true = Fin (1 / 2) /\ avg (fun r => err r ^ 2) (complete a p) = 1.
Proof. exact null_pred_ex. Qed.
Print Assumptions C78_null_pred_refuted.

Theorem C79_smape a p : pred_known a p -> let l := complete a p in l <> [] -> ~ In (0, 0) l ->
  exists v, query_smape a p = Fin v /\ v = avg srel l /\ 0 <= v <= 1 /\ (v = 0 <-> all_equal l) /\
            (v = 1 <-> forall r, In r l -> fst r * snd r <= 0).
Proof. exact (smape_thm a p). Qed.
Print Assumptions C79_smape.
Example C79_case : ~ In (0, 0) (complete a0 p0).
Proof. cbn. intros [E|[E|[E|[]]]]; injection E; intros; lra. Qed.

Theorem C79_smape_zero_rows a p : In (0, 0) (complete a p) -> query_smape a p = NaN.
Proof. exact (smape_nan a p). Qed.
Print Assumptions C79_smape_zero_rows.

Theorem C79_smape_range_refuted : exists a p, pred_known a p /\ complete a p <> [] /\ query_smape a p = NaN.
Proof. exact smape_ex. Qed.
Print Assumptions C79_smape_range_refuted.

Theorem C79_mape a p : let l := complete a p in l <> [] -> (forall r, In r l -> fst r <> 0) ->
  exists v, query_mape a p false = Some (Fin v) /\ v = avg (fun r => Rabs (err r) / Rabs (fst r)) l /\ 0 <= v /\ (v = 0 <-> all_equal l).
Proof. exact (mape_thm a p). Qed.
Print Assumptions C79_mape.
Example C79_mape_case : forall r, In r (complete a0 p0) -> fst r <> 0.
Proof. intros r [<-|[<-|[<-|[]]]]; cbn; lra. Qed.

Theorem C79_mape_zero_actual a p : (exists v, In (0, v) (complete a p)) -> forall r, query_mape a p false <> Some (Fin r).
Proof. exact (mape_zero a p). Qed.
Print Assumptions C79_mape_zero_actual.

Theorem C79_wmape a p : pred_known a p -> let l := complete a p in (exists r, In r l /\ fst r <> 0) ->
  exists v, query_mape a p true = Some (Fin v) /\ v = total (fun r => Rabs (err r)) l / total (fun r => Rabs (fst r)) l /\ 0 <= v /\
            (v = 0 <-> all_equal l).
Proof. exact (wmape_thm a p). Qed.
Print Assumptions C79_wmape.

Theorem C80_log_loss a p : let l := complete a p in binary l -> l <> [] -> (forall r, In r l -> prob_true r <> 0) ->
  exists v, query_log_loss a p true = Some (Fin v) /\ v = avg (fun r => - ln (prob_true r)) l /\ 0 <= v /\ (v = 0 <-> all_equal l) /\
            query_log_loss a p false = Some (Fin (INR (length l) * v)).
Proof. exact (ll_thm a p). Qed.
Print Assumptions C80_log_loss.
Example C80_case : binary [(1, 0.7); (0, 0.4); (1, 1)] /\ (forall r, In r [(1, 0.7); (0, 0.4); (1, 1)] -> prob_true r <> 0).
Proof.
  split; intros r [<-|[<-|[<-|[]]]]; unfold prob_true; cbn; try (destruct (Req_EM_T _ 1)); try (split; [|lra]); try lra; auto.
Qed.

Theorem C80_certain_and_wrong a p norm : binary (complete a p) -> (exists r, In r (complete a p) /\ prob_true r = 0) ->
  query_log_loss a p norm = Some PInf.
Proof. exact (ll_inf a p norm). Qed.
Print Assumptions C80_certain_and_wrong.

Theorem C80_base_rate a : (forall u, In u (values a) -> u = 0 \/ u = 1) -> 0 < mean_of (values a) < 1 -> forall q, 0 < q < 1 ->
  exists vm vq, query_log_loss a (lift1 (fun _ => mean_of (values a)) a) true = Some (Fin vm) /\
                query_log_loss a (lift1 (fun _ => q) a) true = Some (Fin vq) /\ vm <= vq.
Proof. exact (base_thm a). Qed.
Print Assumptions C80_base_rate.
Example C80_base_case : 0 < mean_of (values (col [0; 1; 1]%Z)) < 1.
Proof. unfold mean_of. cbn. lra. Qed.

Theorem C80_cross_entropy a p : length a = length p -> a <> [] ->
  (forall i q, In (i, q) (combine a p) -> (i < length q)%nat /\ 0 < nth i q 0 <= 1) ->
  exists v, query_cat_cross_entropy a p true = Some (Fin v) /\ v = avg (fun r => - ln (nth (fst r) (snd r) 0)) (combine a p) /\ 0 <= v /\
            (v = 0 <-> forall i q, In (i, q) (combine a p) -> nth i q 0 = 1) /\
            query_cat_cross_entropy a p false = Some (Fin (INR (length a) * v)).
Proof. exact (ce_thm a p). Qed.
Print Assumptions C80_cross_entropy.
Example C80_ce_case : forall i q, In (i, q) (combine [2; 0]%nat [[0.2; 0.3; 0.5]; [0.6; 0.2; 0.2]]) -> (i < length q)%nat /\ 0 < nth i q 0 <= 1.
Proof. intros i q [E|[E|[]]]; injection E as <- <-; cbn; (split; [lia|lra]). Qed.

Theorem C80_label_out_of_range a p norm : length a = length p -> (exists i q, In (i, q) (combine a p) /\ (length q <= i)%nat) ->
  query_cat_cross_entropy a p norm = None.
Proof. exact (ce_oob a p norm). Qed.
Print Assumptions C80_label_out_of_range.

Theorem C80_two_classes rows norm : rows <> [] -> (forall r, In r rows -> (fst r < 2)%nat /\ 0 < snd r < 1) ->
  query_cat_cross_entropy (map fst rows) (map two rows) norm =
  query_log_loss (map (fun r => Some (INR (fst r))) rows) (map (fun r => Some (snd r)) rows) norm.
Proof. exact (ce_two rows norm). Qed.
Print Assumptions C80_two_classes.

Theorem C81_mase a p t f : (1 <= f)%nat -> complete a p <> [] -> changes f t <> [] -> mean_of (changes f t) <> 0 ->
  query_mase a p (Train (map Some t)) f = Some (Some (Fin (avg (fun r => Rabs (err r)) (complete a p) / mean_of (changes f t)))).
Proof. exact (mase_val a p t f). Qed.
Print Assumptions C81_mase.

Theorem C81_rejects a p t : query_mase a p t 0 = None.
Proof. exact (mase_zero a p t). Qed.
Print Assumptions C81_rejects.

Theorem C81_precomputed a p l f : (1 <= f)%nat -> complete a p <> [] -> l <> 0 ->
  query_mase a p (Precomputed l) f = Some (Some (Fin (avg (fun r => Rabs (err r)) (complete a p) / l))).
Proof. exact (mase_pre a p l f). Qed.
Print Assumptions C81_precomputed.

Theorem C81_naive_forecast t f : (1 <= f)%nat -> changes f t <> [] -> mean_of (changes f t) <> 0 ->
  query_mase (map Some (skipn f t)) (map Some (firstn (length t - f) t)) (Train (map Some t)) f = Some (Some (Fin 1)).
Proof. exact (mase_naive t f). Qed.
Print Assumptions C81_naive_forecast.
Example C81_case : changes 1 [1; 4; 2] <> [] /\ mean_of (changes 1 [1; 4; 2]) <> 0.
Proof.
  split; [easy|]. unfold changes, mean_of, err. cbn [skipn combine map fst snd Rsum length INR].
  unfold Rabs. repeat destruct (Rcase_abs _); lra.
Qed.

Theorem C81_scale_free a p t f s : s <> 0 ->
  query_mase (lift1 (fun v => s * v) a) (lift1 (fun v => s * v) p) (Train (lift1 (fun v => s * v) t)) f = query_mase a p (Train t) f.
Proof. exact (mase_scale a p t f s). Qed.
Print Assumptions C81_scale_free.

Theorem C82_fairness p c : cond_values p c true <> [] -> cond_values p c false <> [] ->
  query_fairness p c = Some (Rabs (mean_of (cond_values p c true) - mean_of (cond_values p c false))).
Proof. exact (fair_val p c). Qed.
Print Assumptions C82_fairness.

Theorem C82_fairness_swap p c : query_fairness p (cnot c) = query_fairness p c.
Proof. exact (pct_not p c). Qed.
Print Assumptions C82_fairness_swap.

Theorem C82_empty_group p c : cond_values p c true = [] \/ cond_values p c false = [] -> query_fairness p c = None /\ query_p_pct_score p c = None.
Proof. exact (fair_null p c). Qed.
Print Assumptions C82_empty_group.

Theorem C82_p_pct_score p c : (forall v, In (Some v) p -> v = 0 \/ v = 1) ->
  let u := mean_of (cond_values p c true) in let v := mean_of (cond_values p c false) in
  cond_values p c true <> [] -> cond_values p c false <> [] -> 0 < u \/ 0 < v ->
  exists s, query_p_pct_score p c = Some (Fin s) /\ 0 <= s <= 1 /\ (0 < u -> 0 < v -> s = Rmin (u / v) (v / u)) /\
            (s = 1 <-> u = v) /\ (s = 0 <-> u = 0 \/ v = 0).
Proof. exact (pct_thm p c). Qed.
Print Assumptions C82_p_pct_score.
Example C82_case : let p := col [1; 0; 1; 1]%Z in let c := [Some true; Some true; None; Some false] in
  cond_values p c true = [1; 0] /\ cond_values p c false = [1] /\ 0 < mean_of (cond_values p c true).
Proof. cbn. repeat split. unfold mean_of. cbn. lra. Qed.

Theorem C82_no_positive_refuted : exists p c, (forall v, In (Some v) p -> v = 0 \/ v = 1) /\ cond_values p c true <> [] /\ cond_values p c false <> [] /\
  mean_of (cond_values p c true) = mean_of (cond_values p c false) /\ query_p_pct_score p c = Some NaN.
Proof. exact pct_ex. Qed.
Print Assumptions C82_no_positive_refuted.

