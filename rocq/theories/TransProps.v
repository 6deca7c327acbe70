(** C97: monotonicity checks, normalising transforms, detrending and horizontal norms. *)
From Coq Require Import Reals List ZArith.
From Verif Require Import WStatsSpec WStatsModel MetricSpec LagSpec TransSpec TransModel TransProofs.
Import ListNotations.
Open Scope R_scope.

(** Columns without nulls: true exactly for (strictly) increasing / decreasing columns. *)
Theorem C97_monotone : forall (l : list R) strict,
  (is_increasing (map Some l) strict = true <-> increasing strict l) /\ (is_decreasing (map Some l) strict = true <-> decreasing strict l).
Proof. exact (fun l s => conj (inc_full l s) (dec_full l s)). Qed.
Print Assumptions C97_monotone.
(** With nulls only neighbouring known values are compared ... *)
Theorem C97_monotone_nulls : forall x strict,
  (is_increasing x strict = true <-> forall i a b, get x i = Some a -> get x (S i) = Some b -> before strict a b) /\
  (is_decreasing x strict = true <-> forall i a b, get x i = Some a -> get x (S i) = Some b -> before strict b a).
Proof. exact (fun x s => conj (inc_iff x s) (dec_iff x s)). Qed.
Print Assumptions C97_monotone_nulls.
(** ... so a null hides a descent: 3, null, 1 counts as strictly increasing. *)
Theorem C97_monotone_null_refuted : forall strict,
  is_increasing [Some 3; None; Some 1] strict = true /\ is_decreasing [Some 1; None; Some 3] strict = true.
Proof. exact mono_null. Qed.
Print Assumptions C97_monotone_null_refuted.

(** Centring subtracts the mean: mean 0 afterwards, nulls kept. *)
Theorem C97_center : forall x, values x <> [] -> mean_of (values (center x)) = 0 /\ length (center x) = length x /\
  (forall i, get (center x) i = option_map (fun v => v - mean_of (values x)) (get x i)).
Proof. exact center_thm. Qed.
Print Assumptions C97_center.
(** Z-normalising: mean 0 and variance 1, nulls kept; level and scale of the input do not matter. *)
Theorem C97_z_normalize : forall x, (2 <= length (values x))%nat -> 0 < var_of (values x) ->
  exists y, z_normalize x = map (option_map Fin) y /\ (forall i, get y i = None <-> get x i = None) /\ length y = length x /\
    mean_of (values y) = 0 /\ var_of (values y) = 1.
Proof. exact zn_thm. Qed.
Print Assumptions C97_z_normalize.
Theorem C97_z_normalize_affine : forall x s t, (2 <= length (values x))%nat -> 0 < var_of (values x) -> 0 < s ->
  z_normalize (lift1 (fun v => s * v + t) x) = z_normalize x.
Proof. exact zn_affine. Qed.
Print Assumptions C97_z_normalize_affine.
(** A constant column gives NaN, a single value null. *)
Theorem C97_z_normalize_degenerate : forall x,
  (forall c, (2 <= length (values x))%nat -> (forall v, In v (values x) -> v = c) ->
     forall i, nth i (z_normalize x) None = match get x i with Some _ => Some NaN | None => None end) /\
  ((length (values x) < 2)%nat -> forall i, nth i (z_normalize x) None = None).
Proof. exact (fun x => conj (zn_const x) (zn_one x)). Qed.
Print Assumptions C97_z_normalize_degenerate.

(** Softmax gives probabilities whose ratios are the exponentials of the differences ... *)
Theorem C97_softmax : forall x, values x <> [] -> (forall v, In v (values x) -> -600 <= v <= 600) -> (Z.of_nat (length (values x)) <= 2 ^ 32)%Z ->
  exists y, softmax x = map (option_map Fin) y /\ length y = length x /\ (forall i, get y i = None <-> get x i = None) /\
    probabilities (values y) /\
    (forall i j a b p q, get x i = Some a -> get x j = Some b -> get y i = Some p -> get y j = Some q -> p / q = exp (a - b)).
Proof. exact sm_thm. Qed.
Print Assumptions C97_softmax.
(** ... and does not depend on the level. *)
Theorem C97_softmax_shift : forall x c, (forall v, In v (values x) -> -600 <= v <= 600) -> (forall v, In v (values x) -> -600 <= v + c <= 600) ->
  (Z.of_nat (length (values x)) <= 2 ^ 32)%Z -> softmax (lift1 (fun v => v + c) x) = softmax x.
Proof. exact sm_shift. Qed.
Print Assumptions C97_softmax_shift.
(** Not for "any real valued column": a value of 1024 or more overflows and becomes NaN, a column of values of -1075 or less
    becomes NaN altogether. *)
Theorem C97_softmax_range_refuted : (forall x i v, get x i = Some v -> 1024 <= v -> nth i (softmax x) None = Some NaN) /\
  (forall x, (forall v, In v (values x) -> v <= -1075) -> forall i v, get x i = Some v -> nth i (softmax x) None = Some NaN).
Proof. exact (conj sm_over sm_under). Qed.
Print Assumptions C97_softmax_range_refuted.

(** Linear detrending subtracts the best line in the least squares sense; what is left has mean 0 and no trend. *)
Theorem C97_detrend : forall l, (2 <= length l)%nat -> exists r a b, detrend (map Some l) Linear = Some (map Some r) /\ length r = length l /\
  (forall i, (i < length l)%nat -> nth i l 0 = a + b * INR i + nth i r 0) /\
  (forall a' b', line_loss a b l <= line_loss a' b' l) /\ mean_of r = 0 /\ trend r = 0.
Proof. exact detrend_thm. Qed.
Print Assumptions C97_detrend.
(** Adding a line to the series changes nothing. *)
Theorem C97_detrend_line : forall l t u l', (2 <= length l)%nat -> length l' = length l ->
  (forall i, (i < length l)%nat -> nth i l' 0 = nth i l 0 + (t + u * INR i)) ->
  detrend (map Some l') Linear = detrend (map Some l) Linear.
Proof. exact detrend_line. Qed.
Print Assumptions C97_detrend_line.
(** A column with nulls is an error, since the row numbers are generated for the known values only. *)
Theorem C97_detrend_nulls_refuted : forall ts, In None ts -> detrend ts Linear = None.
Proof. exact detrend_null. Qed.
Print Assumptions C97_detrend_nulls_refuted.
Theorem C97_detrend_mean : forall ts, values ts <> [] -> exists r, detrend ts Mean = Some r /\ length r = length ts /\ mean_of (values r) = 0 /\
  (forall i, get r i = option_map (fun v => v - mean_of (values ts)) (get ts i)).
Proof. exact detrend_mean. Qed.
Print Assumptions C97_detrend_mean.

(** Row norms over the known values, and the inequalities between them; [normalize] divides by the number of columns. *)
Theorem C97_norms : forall row, values row <> [] -> exists m, l_inf_horizontal row false = Some m /\ greatest (map Rabs (values row)) m /\
  (let k := INR (length (values row)) in let l1 := l1_horizontal row false in let l2 := l2_sq_horizontal row false in
   l1 = total Rabs (values row) /\ l2 = total (fun a => a ^ 2) (values row) /\
   m <= l1 <= k * m /\ m ^ 2 <= l2 <= l1 ^ 2 /\ l1 ^ 2 <= k * l2 /\ l2 <= m * l1).
Proof. exact norms_thm. Qed.
Print Assumptions C97_norms.
Theorem C97_norms_normalized : forall row,
  l_inf_horizontal row true = option_map (fun m => m / INR (length row)) (l_inf_horizontal row false) /\
  l1_horizontal row true = l1_horizontal row false / INR (length row) /\ l2_sq_horizontal row true = l2_sq_horizontal row false / INR (length row).
Proof. exact norms_normalized. Qed.
Print Assumptions C97_norms_normalized.
Theorem C97_norms_null_row : forall row, values row = [] ->
  l_inf_horizontal row false = None /\ l1_horizontal row false = 0 /\ l2_sq_horizontal row false = 0.
Proof. exact norms_null. Qed.
Print Assumptions C97_norms_null_row.
Example C97_case : let x : list (option R) := [Some 1; None; Some 3] in
  (2 <= length (values x))%nat /\ 0 < var_of (values x) /\ (forall v, In v (values x) -> -600 <= v <= 600) /\ increasing true [1; 2; 5].
Proof. exact trans_case. Qed.
