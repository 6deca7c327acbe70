(** Specification of t tests. *)
From Coq Require Import Reals List.
From Verif Require Import WStatsSpec MetricSpec.
Import ListNotations.
Open Scope R_scope.

(** The finite values of a column, dropping nulls, NaN and infinities. *)
Definition finite_values (x : list (option xnum)) : list R := flat_map (fun o => match o with Some (Fin r) => [r] | _ => [] end) x.
(** A column whose known values are all finite. *)
Definition all_finite (x : list (option xnum)) : Prop := forall v, In (Some v) x -> exists r, v = Fin r.
Definition cnt (l : list R) : R := INR (length l).
(** Student's t with pooled variance, for samples of any two sizes. *)
Definition pooled_var (a b : list R) : R := ((cnt a - 1) * var_of a + (cnt b - 1) * var_of b) / (cnt a + cnt b - 2).
Definition student_t (a b : list R) : R := (mean_of a - mean_of b) / sqrt (pooled_var a b * (/ cnt a + / cnt b)).
(** Welch's t and the Welch-Satterthwaite degrees of freedom. *)
Definition welch_stat (a b : list R) : R := (mean_of a - mean_of b) / sqrt (var_of a / cnt a + var_of b / cnt b).
Definition welch_df (a b : list R) : R :=
  (var_of a / cnt a + var_of b / cnt b) ^ 2 / ((var_of a / cnt a) ^ 2 / (cnt a - 1) + (var_of b / cnt b) ^ 2 / (cnt b - 1)).
Definition one_sample_t (a : list R) (mu : R) : R := (mean_of a - mu) / sqrt (var_of a / cnt a).
(** A survival function of a distribution symmetric around 0: values in [0,1], decreasing, sf(-t) = 1 - sf(t). *)
Definition symmetric_sf (sf : R -> R) : Prop :=
  (forall t, 0 <= sf t <= 1) /\ (forall s t, s < t -> sf t < sf s) /\ (forall t, sf (- t) = 1 - sf t).
(** Survival function of Student's t distribution in terms of the regularized incomplete beta function. *)
Definition t_tail (beta_reg : R -> R -> R -> R) (df t : R) : R :=
  let i := beta_reg (df / 2) (1 / 2) (df / (df + t ^ 2)) in if Rle_dec t 0 then 1 - i / 2 else i / 2.
(** The p value of the statistic t for the three alternatives: the mean is smaller, greater, or different. *)
Inductive alternative := TwoSided | Less | Greater.
Definition p_of (sf : R -> R) (t : R) (alt : alternative) : R :=
  match alt with Less => sf (- t) | Greater => sf t | TwoSided => 2 * sf (Rabs t) end.
