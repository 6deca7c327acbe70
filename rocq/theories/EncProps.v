(** C92, C93: target encoding, weight of evidence, information value. *)
From Coq Require Import Reals List Permutation Bool.
From Verif Require Import WStatsSpec MetricSpec EncSpec EncModel EncProofs.
Import ListNotations.
Open Scope R_scope.

(** One row per category: the category's mean target and the overall mean blended with weight
    1/(1+exp(-(count-min_samples_leaf)/smoothing)). *)
Theorem C92_target_encode : forall (A : Type) (dec : forall a b : A, {a = b} + {a <> b}) gb (rows : list (@row A)) m s,
  group_ok dec gb -> targets rows <> [] -> s <> 0 ->
  exists out, target_encode gb rows m s = Some out /\
    is_table rows (fun k => let w := weight (length (targets_of dec k rows)) m s in
      Fin (w * mean_of (targets_of dec k rows) + (1 - w) * mean_of (targets rows))) out.
Proof. exact @encode_thm. Qed.
Print Assumptions C92_target_encode.

(** The encoded value lies between the category's mean and the overall mean, hence in any interval holding the targets. *)
Theorem C92_range : forall (A : Type) (dec : forall a b : A, {a = b} + {a <> b}) gb (rows : list (@row A)) m s a b out k v,
  group_ok dec gb -> s <> 0 -> (forall t, In t (targets rows) -> a <= t <= b) ->
  target_encode gb rows m s = Some out -> In (k, v) out ->
  exists r, v = Fin r /\ a <= r <= b /\
    Rmin (mean_of (targets_of dec k rows)) (mean_of (targets rows)) <= r <= Rmax (mean_of (targets_of dec k rows)) (mean_of (targets rows)).
Proof. exact @encode_range. Qed.
Print Assumptions C92_range.

(** It keeps the sign of the category's deviation and shrinks it by the weight ... *)
Theorem C92_shrink : forall (A : Type) (dec : forall a b : A, {a = b} + {a <> b}) gb (rows : list (@row A)) m s out k v,
  group_ok dec gb -> s <> 0 -> target_encode gb rows m s = Some out -> In (k, v) out ->
  exists r, v = Fin r /\
    r - mean_of (targets rows) = weight (length (targets_of dec k rows)) m s * (mean_of (targets_of dec k rows) - mean_of (targets rows)).
Proof. exact @encode_shrink. Qed.
Print Assumptions C92_shrink.
(** ... which is in (0,1), grows with the number of rows of the category and is 1/2 exactly at min_samples_leaf rows. *)
Theorem C92_weight : forall n n' m s, 0 < s ->
  0 < weight n m s < 1 /\ ((n < n')%nat -> weight n m s < weight n' m s) /\
  (1 / 2 < weight n m s <-> m < INR n) /\ (weight n m s = 1 / 2 <-> m = INR n).
Proof. exact (fun n n' m s S => conj (weight_range n m s) (conj (weight_mono n n' m s S) (weight_half n m s S))). Qed.
Print Assumptions C92_weight.

(** The table does not depend on the order of the rows. *)
Theorem C92_row_order : forall (A : Type) (dec : forall a b : A, {a = b} + {a <> b}) gb gb' (rows rows' : list (@row A)) m s,
  group_ok dec gb -> group_ok dec gb' -> Permutation rows rows' -> s <> 0 -> targets rows <> [] ->
  exists out out', target_encode gb rows m s = Some out /\ target_encode gb' rows' m s = Some out' /\ Permutation out out'.
Proof. exact @encode_order. Qed.
Print Assumptions C92_row_order.
Example C92_case : let rows : list (@row bool) := [(Some true, Some 1); (Some false, Some 0); (None, Some 1); (Some true, None); (Some true, Some 0)] in
  group_ok bool_dec (group_ref bool_dec) /\ targets rows <> [] /\ zero_one rows /\ occurs true rows /\ targets_of bool_dec true rows = [1; 0].
Proof. exact enc_case. Qed.

(** Documented: nulls are encoded as well.  They are not. *)
Theorem C92_nulls_refuted : forall (A : Type) (dec : forall a b : A, {a = b} + {a <> b}) gb, group_ok dec gb ->
  exists rows : list (@row A), In (None, Some 1) rows /\ forall m s, target_encode gb rows m s = Some [].
Proof. exact @encode_nulls. Qed.
Print Assumptions C92_nulls_refuted.
(** With smoothing = 0 a category with exactly min_samples_leaf rows is encoded as NaN. *)
Theorem C92_zero_smoothing_refuted : forall (A : Type) (dec : forall a b : A, {a = b} + {a <> b}) gb (rows : list (@row A)) m,
  group_ok dec gb -> targets rows <> [] ->
  exists out, target_encode gb rows m 0 = Some out /\
    forall k, occurs k rows -> INR (length (targets_of dec k rows)) = m -> In (k, NaN) out.
Proof. exact @encode_zero. Qed.
Print Assumptions C92_zero_smoothing_refuted.
(** Without any known target the call panics. *)
Theorem C92_no_target : forall (A : Type) (gb : list (A * R) -> list (A * list R)) rows m s,
  (forall r, In r rows -> snd r = None) -> target_encode gb rows m s = None.
Proof. exact @encode_panics. Qed.
Print Assumptions C92_no_target.

(** Weight of evidence: the log of the ratio of the category's shares of the events and of the non-events. *)
Theorem C93_woe : forall (A : Type) (dec : forall a b : A, {a = b} + {a <> b}) gb (rows : list (@row A)),
  group_ok dec gb -> zero_one rows ->
  is_table rows (fun k => ln (share (hits_of dec 1 k rows) (hits 1 rows) / share (hits_of dec 0 k rows) (hits 0 rows))) (woe_discrete gb rows).
Proof. exact @woe_thm. Qed.
Print Assumptions C93_woe.
Theorem C93_iv : forall (A : Type) (dec : forall a b : A, {a = b} + {a <> b}) gb (rows : list (@row A)),
  group_ok dec gb -> zero_one rows ->
  is_table rows (fun k => let g := share (hits_of dec 1 k rows) (hits 1 rows) in let b := share (hits_of dec 0 k rows) (hits 0 rows) in
    (g - b) * ln (g / b)) (info_value_discrete gb rows).
Proof. exact @iv_thm. Qed.
Print Assumptions C93_iv.
(** Information values are not negative, and their sum is 0 exactly when both shares agree in every category. *)
Theorem C93_iv_sum : forall (A : Type) (dec : forall a b : A, {a = b} + {a <> b}) gb (rows : list (@row A)),
  group_ok dec gb -> zero_one rows ->
  0 <= info_value_discrete_sum gb rows /\
  (forall k v, In (k, v) (info_value_discrete gb rows) -> 0 <= v <= info_value_discrete_sum gb rows) /\
  (info_value_discrete_sum gb rows = 0 <->
   forall k, occurs k rows -> share (hits_of dec 1 k rows) (hits 1 rows) = share (hits_of dec 0 k rows) (hits 0 rows)).
Proof. exact @iv_sum. Qed.
Print Assumptions C93_iv_sum.
(** Exchanging events and non-events negates the weight of evidence and keeps the information value. *)
Theorem C93_swap : forall (A : Type) (dec : forall a b : A, {a = b} + {a <> b}) gb gb' (rows : list (@row A)),
  group_ok dec gb -> group_ok dec gb' -> zero_one rows ->
  let swapped := map (fun r => (fst r, option_map (fun t => 1 - t) (snd r))) rows in
  (forall k v, In (k, v) (woe_discrete gb rows) <-> In (k, - v) (woe_discrete gb' swapped)) /\
  (forall k v, In (k, v) (info_value_discrete gb rows) <-> In (k, v) (info_value_discrete gb' swapped)).
Proof. exact @swap_thm. Qed.
Print Assumptions C93_swap.
(** The smoothing makes the information value positive for a column that is independent of the target. *)
Theorem C93_independent_refuted : exists rows : list (@row bool), forall gb, group_ok bool_dec gb ->
  zero_one rows /\ (forall k, INR (hits_of bool_dec 0 k rows) = 2 * INR (hits_of bool_dec 1 k rows)) /\
  0 < info_value_discrete_sum gb rows.
Proof. exact (ex_intro _ indep_rows indep_thm). Qed.
Print Assumptions C93_independent_refuted.

(** Continuous columns: bins of the finite values ... *)
Theorem C93_binned : forall (A : Type) gb (qcut : list R -> list A) (xs : list R) target,
  (forall l, length (qcut l) = length l) -> length target = length xs ->
  woe gb qcut (map (fun r => Some (Fin r)) xs) target = Some (woe_discrete gb (combine (map Some (qcut xs)) target)).
Proof. exact @woe_finite. Qed.
Print Assumptions C93_binned.
(** ... but a single null, NaN or infinite value makes the call fail, although such values are filtered out. *)
Theorem C93_binned_refuted : forall (A : Type) gb (qcut : list R -> list A) x target v,
  (forall l, length (qcut l) = length l) -> length target = length x -> In v x -> (forall r, v <> Some (Fin r)) ->
  woe gb qcut x target = None /\ info_value gb qcut x target = None.
Proof. exact @woe_raises. Qed.
Print Assumptions C93_binned_refuted.
