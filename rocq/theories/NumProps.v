(** Theorems about isotonic regression, the trapezoidal rule and the binary classification metrics
    (C24-C26, C35, C56). *)
From Coq Require Import Bool List Arith ZArith QArith Qabs.
From Verif Require Import Num F64 PairSums QSum AnovaModel IsoModel IsoSpec IsoQ IsoF64 TrapzModel TrapzSpec TrapzProofs
  RocModel RocSpec RocAuc RocConf NumPropsLemmas.
Import ListNotations.
Open Scope Z_scope.

(** C24.  For every data and every positive weights, [isotonic_regression] (release build, exact arithmetic)
    returns a sequence of the same length, monotone in the requested direction, of smallest weighted squared error
    among all such sequences, and no other sequence reaches that error. *)
Theorem C24_weighted_fit : forall inc y w, length w = length y -> Forall (fun a => 0 < a)%Q w ->
  exists x, isotonic_q false (map Some y) (Some (map Some w)) inc = IsoOk (map Some x) /\ isotonic_fit inc y w x.
Proof. exact isotonic_q_weighted. Qed.
Print Assumptions C24_weighted_fit.
Theorem C24_unweighted_fit : forall inc y,
  exists x, isotonic_q false (map Some y) None inc = IsoOk (map Some x) /\ isotonic_fit inc y (map (fun _ => 1%Q) y) x.
Proof. exact isotonic_q_unweighted. Qed.
Print Assumptions C24_unweighted_fit.
Theorem C24_idempotent : forall inc y w, length w = length y -> Forall (fun a => 0 < a)%Q w -> monotone inc y ->
  exists x, isotonic_q false (map Some y) (Some (map Some w)) inc = IsoOk (map Some x) /\ Forall2 Qeq y x.
Proof. exact iso_idempotent. Qed.
Print Assumptions C24_idempotent.
Example C24_case : length iso_w = length iso_y /\ Forall (fun a => 0 < a)%Q iso_w /\
  match isotonic_q false (map Some iso_y) (Some (map Some iso_w)) true with
  | IsoOk l => forallb (fun p => match p with (Some a, b) => Qeq_bool a b | _ => false end)
                       (combine l [1; 9 # 4; 9 # 4; 7 # 2; 7 # 2; 5]%Q) && (length l =? 6)%nat
  | _ => false
  end = true.
Proof. exact iso_case. Qed.
(** In binary64: for every data and weights a release build never panics, keeps the length, and the output is
    monotone whenever it is free of NaN. *)
Theorem C24_f64_monotone : forall inc (y w : list f64),
  length w = length y -> Forall (fun a : f64 => nle f64_ops a (nzero f64_ops) = false) w ->
  exists x : list f64, isotonic_f64 false (map Some y) (Some (map Some w)) inc = IsoOk (map Some x) /\
    length x = length y /\ (no_nan x -> fmonotone inc x).
Proof. exact isotonic_f64_total. Qed.
Print Assumptions C24_f64_monotone.
(** Nulls, a weight column of the wrong length and weights that are zero or negative are errors. *)
Theorem C24_invalid_rejected : forall checked inc (y : list (option f64)) (wt : option (list (option f64))), (2 <= length y)%nat ->
  (In None y \/ exists w, wt = Some w /\ (length w <> length y \/ In None w \/
      exists a : f64, In (Some a) w /\ nle f64_ops a (nzero f64_ops) = true)) ->
  isotonic_f64 checked y wt inc = IsoErr.
Proof. exact isotonic_f64_errors. Qed.
Print Assumptions C24_invalid_rejected.
(** Built with overflow checks (the debug profile) every call with at least two rows panics: [t - 1] is computed
    for [t = 0]. *)
Theorem C24_debug_panics_refuted : forall inc (y w : list f64), (2 <= length y)%nat ->
  length w = length y -> Forall (fun a : f64 => nle f64_ops a (nzero f64_ops) = false) w ->
  isotonic_f64 true (map Some y) (Some (map Some w)) inc = IsoPanic.
Proof. exact isotonic_f64_checked. Qed.
Print Assumptions C24_debug_panics_refuted.
Example C24_f64_case : length iso_fw = length iso_fy /\ (2 <= length iso_fy)%nat /\
  Forall (fun a : f64 => nle f64_ops a (nzero f64_ops) = false) iso_fw.
Proof. exact iso_f_case. Qed.

(** C25.  For every table of scores and labels with a positive and a negative, and fewer than 2^32 rows,
    [query_roc_auc] is the rank probability, reduced by half the share of tied (positive, negative) pairs at the
    largest score (unless all scores are equal). *)
Theorem C25_roc_auc_exact : forall K (leb : K -> K -> bool), total_order leb -> forall rows, zlen rows < 2 ^ 32 ->
  0 < npos rows -> 0 < nneg rows ->
  exists q, roc_auc leb (labels rows) (scores rows) = OVal q /\
    (one_score rows -> q == rank_probability leb rows)%Q /\
    (~ one_score rows -> q == rank_probability leb rows -
       inject_Z (top_pos leb rows * top_neg leb rows) / inject_Z (2 * (npos rows * nneg rows)))%Q.
Proof. exact @auc_ok. Qed.
Print Assumptions C25_roc_auc_exact.
(** The property as documented holds when the largest score is not shared by a positive and a negative ... *)
Theorem C25_rank_probability_partial : forall K (leb : K -> K -> bool) rows, total_order leb -> zlen rows < 2 ^ 32 ->
  0 < npos rows -> 0 < nneg rows -> (one_score rows \/ top_pos leb rows = 0 \/ top_neg leb rows = 0) ->
  exists q, roc_auc leb (labels rows) (scores rows) = OVal q /\ (q == rank_probability leb rows)%Q.
Proof. exact @auc_pure_top. Qed.
Print Assumptions C25_rank_probability_partial.
(** ... and fails in every other case. *)
Theorem C25_mixed_top_too_small : forall K (leb : K -> K -> bool) rows, total_order leb -> zlen rows < 2 ^ 32 ->
  0 < npos rows -> 0 < nneg rows -> ~ one_score rows -> 0 < top_pos leb rows -> 0 < top_neg leb rows ->
  exists q, roc_auc leb (labels rows) (scores rows) = OVal q /\ (q < rank_probability leb rows)%Q.
Proof. exact @auc_mixed_top. Qed.
Print Assumptions C25_mixed_top_too_small.
Theorem C25_tied_top_refuted : zlen auc_bad < 2 ^ 32 /\ 0 < npos auc_bad /\ 0 < nneg auc_bad /\
  exists q, roc_auc Z.leb (labels auc_bad) (scores auc_bad) = OVal q /\ (q == 1 # 2)%Q /\ (rank_probability Z.leb auc_bad == 3 # 4)%Q.
Proof. exact auc_refuted. Qed.
Print Assumptions C25_tied_top_refuted.
Example C25_case : total_order Z.leb /\ zlen auc_rows < 2 ^ 32 /\ 0 < npos auc_rows /\ 0 < nneg auc_rows /\ ~ one_score auc_rows /\
  top_pos Z.leb auc_rows * top_neg Z.leb auc_rows = 0 /\ Qeq_bool (rank_probability Z.leb auc_rows) (11 # 12) = true /\
  match roc_auc Z.leb (labels auc_rows) (scores auc_rows) with OVal q => Qeq_bool q (11 # 12) | _ => false end = true.
Proof. exact auc_case. Qed.
Theorem C25_no_negatives_nan : forall K (leb : K -> K -> bool), total_order leb -> forall rows, zlen rows < 2 ^ 32 ->
  0 < npos rows -> nneg rows = 0 -> roc_auc leb (labels rows) (scores rows) = ONan.
Proof. exact @auc_no_negatives. Qed.
Print Assumptions C25_no_negatives_nan.
Theorem C25_no_positives_nan : forall K (leb : K -> K -> bool) rows, zlen rows < 2 ^ 32 ->
  npos rows = 0 -> roc_auc leb (labels rows) (scores rows) = ONan.
Proof. exact @auc_no_positives. Qed.
Print Assumptions C25_no_positives_nan.
(** [query_tpr_fpr] lists every distinct score once, ascending, with the rates of "score >= threshold". *)
Theorem C25_roc_curve : forall K (leb : K -> K -> bool), total_order leb -> forall rows, zlen rows < 2 ^ 32 ->
  0 < npos rows -> 0 < nneg rows ->
  exists ts, thresholds leb rows ts /\
    tpr_fpr leb (labels rows) (scores rows) =
      OVal (map (fun t => (t, Some (inject_Z (tp_at leb rows t) / inject_Z (npos rows))%Q,
                              Some (inject_Z (fp_at leb rows t) / inject_Z (nneg rows))%Q)) ts).
Proof. exact @tpr_fpr_ok. Qed.
Print Assumptions C25_roc_curve.

(** C26.  The four confusion counts are the numbers of rows with each (label, prediction); they add up to the
    number of rows. *)
Theorem C26_confusion_counts : forall rows, zlen rows < 2 ^ 32 ->
  confusion (combine_labels (map fst rows) (map snd rows)) =
  [cell rows false false; cell rows false true; cell rows true false; cell rows true true].
Proof. exact confusion_ok. Qed.
Print Assumptions C26_confusion_counts.
Theorem C26_counts_total : forall rows, zlen rows < 2 ^ 32 ->
  zsum (fun x => x) (confusion (combine_labels (map fst rows) (map snd rows))) = zlen rows.
Proof. exact confusion_sum. Qed.
Print Assumptions C26_counts_total.
Example C26_case : zlen conf_rows < 2 ^ 32 /\ confusion (combine_labels (map fst conf_rows) (map snd conf_rows)) = [1; 1; 1; 2].
Proof. exact conf_case. Qed.
(** Below 2^16 rows [query_mcc] divides the Matthews numerator by the root of the Matthews product, and the
    quotient lies in [-1, 1]. *)
Theorem C26_mcc_partial : forall rows, zlen rows < 2 ^ 16 ->
  let tn := cell rows false false in let fp := cell rows false true in
  let fn := cell rows true false in let tp := cell rows true true in
  mcc_parts (combine_labels (map fst rows) (map snd rows)) =
    (tp * tn - fn * fp, (tp + fn) * (tp + fp) * (fp + tn) * (fn + tn)) /\
  (tp * tn - fn * fp) * (tp * tn - fn * fp) <= (tp + fn) * (tp + fp) * (fp + tn) * (fn + tn).
Proof. exact mcc_small. Qed.
Print Assumptions C26_mcc_partial.
(** Above, the u32 products wrap: 131072 rows predicted without error give numerator 0, hence MCC 0 instead of 1. *)
Theorem C26_mcc_wraps_refuted :
  cell mcc_wrap_rows true true = 65536 /\ cell mcc_wrap_rows false false = 65536 /\
  cell mcc_wrap_rows true false = 0 /\ cell mcc_wrap_rows false true = 0 /\
  fst (mcc_parts (combine_labels (map fst mcc_wrap_rows) (map snd mcc_wrap_rows))) = 0 /\
  0 < snd (mcc_parts (combine_labels (map fst mcc_wrap_rows) (map snd mcc_wrap_rows))).
Proof. exact mcc_wrap. Qed.
Print Assumptions C26_mcc_wraps_refuted.

(** C35.  From two points on, [integrate_trapz] is the sum of the trapezoids (exact arithmetic); it is exact for
    affine data, additive over concatenation and changes sign under reversal. *)
Theorem C35_trapezoids_partial : forall pts, (2 <= length pts)%nat ->
  exists q, pl_trapz (ycol pts) (xcol pts) = TVal q /\ (q == trapezoids pts)%Q.
Proof. exact pl_trapz_points. Qed.
Print Assumptions C35_trapezoids_partial.
Theorem C35_uniform_spacing : forall y dx, (2 <= length y)%nat ->
  exists q, integrate_trapz_dx (map Some y) dx = TVal q /\ (q == trapezoids (combine (grid (Qabs dx) (length y)) y))%Q.
Proof. exact pl_trapz_uniform. Qed.
Print Assumptions C35_uniform_spacing.
Theorem C35_affine_exact : forall (a b : Q) (xs : list Q), (2 <= length xs)%nat ->
  exists q, pl_trapz (ycol (map (fun x => (x, a * x + b)%Q) xs)) (xcol (map (fun x => (x, a * x + b)%Q) xs)) = TVal q /\
    (q == (a * (last xs 0 * last xs 0) / 2 + b * last xs 0) - (a * (hd 0 xs * hd 0 xs) / 2 + b * hd 0 xs))%Q.
Proof. exact tz_affine. Qed.
Print Assumptions C35_affine_exact.
Theorem C35_concatenation : forall l1 p l2, l1 <> [] -> l2 <> [] -> exists q1 q2 q,
  pl_trapz (ycol (l1 ++ [p])) (xcol (l1 ++ [p])) = TVal q1 /\
  pl_trapz (ycol (p :: l2)) (xcol (p :: l2)) = TVal q2 /\
  pl_trapz (ycol (l1 ++ p :: l2)) (xcol (l1 ++ p :: l2)) = TVal q /\ (q == q1 + q2)%Q.
Proof. exact tz_concat. Qed.
Print Assumptions C35_concatenation.
Theorem C35_reversal : forall pts, (2 <= length pts)%nat -> exists q q',
  pl_trapz (ycol pts) (xcol pts) = TVal q /\ pl_trapz (ycol (rev pts)) (xcol (rev pts)) = TVal q' /\ (q' == - q)%Q.
Proof. exact tz_reverse. Qed.
Print Assumptions C35_reversal.
Theorem C35_length_mismatch : forall y x, length y <> length x -> (1 < length x)%nat -> y <> [] -> ~ In None x -> ~ In None y ->
  pl_trapz y x = TErr.
Proof. exact tz_errors. Qed.
Print Assumptions C35_length_mismatch.
Example C35_case : (2 <= length tz_pts)%nat /\ Qeq_bool (trapezoids tz_pts) 10 = true.
Proof. exact tz_case. Qed.
(** A single point gives -x*y/2 instead of 0. *)
Theorem C35_single_point_refuted : exists pt q, pl_trapz (ycol [pt]) (xcol [pt]) = TVal q /\ ~ (q == trapezoids [pt])%Q.
Proof. exact tz_single. Qed.
Print Assumptions C35_single_point_refuted.

(** C56.  Precision, recall, F-score and AUC reported by [query_binary_metrics] are those of predicting positive
    at or above the threshold, as long as some score reaches the threshold. *)
Theorem C56_threshold_metrics : forall K (leb : K -> K -> bool) rows thr, total_order leb -> zlen rows < 2 ^ 32 ->
  0 < npos rows -> 0 < nneg rows -> (exists r, In r rows /\ leb thr (fst r) = true) ->
  exists m, combo_b leb (labels rows) (scores rows) thr = OVal m /\
    (m_recall m == recall_at leb rows thr)%Q /\ (m_precision m == precision_at leb rows thr)%Q /\
    m_f m = qdiv ((2#1) * (m_precision m * m_recall m))%Q (m_precision m + m_recall m)%Q /\
    (exists a, roc_auc leb (labels rows) (scores rows) = OVal a /\ m_auc m = Some a).
Proof. exact @combo_metrics. Qed.
Print Assumptions C56_threshold_metrics.
(** The average precision leaves out the term of the largest threshold. *)
Theorem C56_average_precision_exact : forall K (leb : K -> K -> bool) rows thr, total_order leb -> zlen rows < 2 ^ 32 ->
  0 < npos rows -> 0 < nneg rows -> (exists r, In r rows /\ leb thr (fst r) = true) ->
  exists m ts top, combo_b leb (labels rows) (scores rows) thr = OVal m /\ thresholds leb rows ts /\ last ts top = top /\ In top ts /\
    (m_ap m == avg_precision leb rows ts - recall_at leb rows top * precision_at leb rows top)%Q.
Proof. exact @combo_ap. Qed.
Print Assumptions C56_average_precision_exact.
Theorem C56_average_precision_refuted :
  exists m ts, combo_b Z.leb (labels one_tp) (scores one_tp) 5 = OVal m /\ thresholds Z.leb one_tp ts /\
    (avg_precision Z.leb one_tp ts == 1)%Q /\ (m_ap m == 0)%Q.
Proof. exact combo_zero. Qed.
Print Assumptions C56_average_precision_refuted.
(** A threshold above every score panics (index out of bounds). *)
Theorem C56_high_threshold_refuted : forall K (leb : K -> K -> bool) rows thr, total_order leb -> zlen rows < 2 ^ 32 ->
  0 < npos rows -> 0 < nneg rows -> (forall r, In r rows -> leb thr (fst r) = false) ->
  combo_b leb (labels rows) (scores rows) thr = OPanic.
Proof. exact @combo_above. Qed.
Print Assumptions C56_high_threshold_refuted.
Example C56_high_threshold_case : combo_b Z.leb (labels one_tp) (scores one_tp) 10 = OPanic.
Proof. exact combo_panic. Qed.
Example C56_case :
  let rows := [(1, false); (2, false); (8, true); (9, true)] in
  exists m ts, combo_b Z.leb (labels rows) (scores rows) 5 = OVal m /\ thresholds Z.leb rows ts /\
    (avg_precision Z.leb rows ts == 1)%Q /\ (m_ap m == 1 # 2)%Q.
Proof. exact combo_perfect. Qed.
