(** C105: normality test. *)
From Coq Require Import Reals List Permutation.
From Verif Require Import WStatsSpec MetricSpec TtestSpec TtestModel NtestSpec NtestModel NtestProofs.
Import ListNotations.
Open Scope R_scope.

(** Where the kurtosis of the sample is not extremely small, the test returns the published statistic and its chi-square p value. *)
Theorem C105_published_partial : forall gamma_ur, gamma_ok gamma_ur -> forall y, let l := finite_values y in let n := INR (length l) in
  (20 <= length l)%nat -> ~ constant l -> 0 < b2_denom (kurt l) n ->
  exists zk K, is_z_kurt (kurt l) n zk /\ (forall z, is_z_kurt (kurt l) n z -> z = zk) /\ K = z_skew (skewness l) n ^ 2 + zk ^ 2 /\
    normal_test gamma_ur y = Ok (Fin K, Fin (exp (- K / 2))) /\ 0 <= K /\ 0 < exp (- K / 2) <= 1.
Proof. exact stat_thm. Qed.
Print Assumptions C105_published_partial.

(** Where it is, the statistic is too small and the p value too large. *)
Theorem C105_flat : forall gamma_ur, gamma_ok gamma_ur -> forall y, let l := finite_values y in let n := INR (length l) in
  (20 <= length l)%nat -> ~ constant l -> b2_denom (kurt l) n < 0 ->
  exists zk K, is_z_kurt (kurt l) n zk /\ normal_test gamma_ur y = Ok (Fin K, Fin (exp (- K / 2))) /\ 0 <= K < z_skew (skewness l) n ^ 2 + zk ^ 2 /\
    exp (- (z_skew (skewness l) n ^ 2 + zk ^ 2) / 2) < exp (- K / 2) <= 1.
Proof. exact neg_thm. Qed.
Print Assumptions C105_flat.
(** Fifty zeros and fifty ones are such a column, so the published value is not always returned. *)
Theorem C105_published_refuted : forall gamma_ur, gamma_ok gamma_ur -> exists y zk K p, let l := finite_values y in let n := INR (length l) in
  length l = 100%nat /\ ~ constant l /\ skewness l = 0 /\ kurt l = 1 /\ is_z_kurt (kurt l) n zk /\ normal_test gamma_ur y = Ok (Fin K, Fin p) /\
  K <> z_skew (skewness l) n ^ 2 + zk ^ 2 /\ p <> exp (- (z_skew (skewness l) n ^ 2 + zk ^ 2) / 2).
Proof. exact refuted_thm. Qed.
Print Assumptions C105_published_refuted.

(** Columns without spread, and the one kurtosis with a zero denominator, give NaN. *)
Theorem C105_undefined : forall gamma_ur, gamma_ok gamma_ur -> forall y, let l := finite_values y in
  (20 <= length l)%nat -> constant l \/ b2_denom (kurt l) (INR (length l)) = 0 -> normal_test gamma_ur y = Ok (NaN, NaN).
Proof. exact zero_thm. Qed.
Print Assumptions C105_undefined.
(** Fewer than twenty finite values are refused, and a column with none panics. *)
Theorem C105_small : forall gamma_ur y, (length (finite_values y) < 20)%nat ->
  normal_test gamma_ur y = if Nat.eqb (length (finite_values y)) 0 then Panic else Err.
Proof. exact small_thm. Qed.
Print Assumptions C105_small.
(** Only the finite values count, in any order, on any scale. *)
Theorem C105_order : forall gamma_ur y y', Permutation (finite_values y) (finite_values y') -> normal_test gamma_ur y = normal_test gamma_ur y'.
Proof. exact perm_thm. Qed.
Print Assumptions C105_order.
Theorem C105_scale : forall gamma_ur s t y, s <> 0 -> normal_test gamma_ur (map (affine s t) y) = normal_test gamma_ur y.
Proof. exact affine_thm. Qed.
Print Assumptions C105_scale.
(** More skew at the same kurtosis is stronger evidence against normality. *)
Theorem C105_skew : forall gamma_ur y y', gamma_ok gamma_ur -> let l := finite_values y in let l' := finite_values y' in
  (20 <= length l)%nat -> length l' = length l -> ~ constant l -> ~ constant l' -> kurt l' = kurt l -> b2_denom (kurt l) (INR (length l)) <> 0 -> Rabs (skewness l) < Rabs (skewness l') ->
  exists K p K' p', normal_test gamma_ur y = Ok (Fin K, Fin p) /\ normal_test gamma_ur y' = Ok (Fin K', Fin p') /\ K < K' /\ p' < p.
Proof. exact mono_thm. Qed.
Print Assumptions C105_skew.

Example C105_case : (exists g, gamma_ok g) /\ let l := finite_values balanced in let l' := finite_values lopsided in
  (20 <= length l)%nat /\ length l' = length l /\ ~ constant l /\ ~ constant l' /\ kurt l = 7 / 3 /\ kurt l' = 7 / 3 /\ 0 < b2_denom (7 / 3) (INR (length l)) /\ skewness l = 0 /\ Rabs (skewness l) < Rabs (skewness l').
Proof. split; [exists (fun _ t => exp (- t)); easy|exact pair_ok]. Qed.
