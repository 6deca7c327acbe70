(** D'Agostino and Pearson's test, from the references. *)
From Coq Require Import Reals List.
From Verif Require Import WStatsSpec MetricSpec TtestSpec.
Import ListNotations.
Open Scope R_scope.

Definition central (k : nat) (l : list R) : R := Rsum (map (fun a => (a - mean_of l) ^ k) l) / INR (length l).
(** Sample skewness and (Pearson) kurtosis. *)
Definition skewness (l : list R) : R := central 3 l / (sqrt (central 2 l)) ^ 3.
Definition kurt (l : list R) : R := central 4 l / (central 2 l) ^ 2.
(** D'Agostino (1970): normalised skewness. *)
Definition W2 (n : R) : R :=
  let beta2 := 3 * (n ^ 2 + 27 * n - 70) * (n + 1) * (n + 3) / ((n - 2) * (n + 5) * (n + 7) * (n + 9)) in -1 + sqrt (2 * (beta2 - 1)).
Definition delta (n : R) : R := / sqrt (ln (sqrt (W2 n))).
Definition alpha_ (n : R) : R := sqrt (2 / (W2 n - 1)).
Definition z_skew (g1 n : R) : R := delta n * arcsinh (g1 * sqrt ((n + 1) * (n + 3) / (6 * (n - 2))) / alpha_ n).
(** Anscombe and Glynn (1983): normalised kurtosis. The cube root has the sign of its argument. *)
Definition b2_mean (n : R) : R := 3 * (n - 1) / (n + 1).
Definition b2_var (n : R) : R := 24 * n * (n - 2) * (n - 3) / ((n + 1) ^ 2 * (n + 3) * (n + 5)).
Definition b2_skew (n : R) : R := 6 * (n ^ 2 - 5 * n + 2) / ((n + 7) * (n + 9)) * sqrt (6 * (n + 3) * (n + 5) / (n * (n - 2) * (n - 3))).
Definition A_ (n : R) : R := 6 + 8 / b2_skew n * (2 / b2_skew n + sqrt (1 + 4 / (b2_skew n) ^ 2)).
Definition b2_denom (b2 n : R) : R := 1 + (b2 - b2_mean n) / sqrt (b2_var n) * sqrt (2 / (A_ n - 4)).
Definition is_z_kurt (b2 n z : R) : Prop :=
  exists c, c ^ 3 = (1 - 2 / A_ n) / b2_denom b2 n /\ z = (1 - 2 / (9 * A_ n) - c) / sqrt (2 / (9 * A_ n)).
(** The exponential law of mean 2, that is chi square with two degrees of freedom: what the incomplete gamma function of shape 1 must be. *)
Definition gamma_ok (gamma_ur : R -> R -> R) : Prop := forall t, 0 < t -> gamma_ur 1 t = exp (- t).
Definition affine (s t : R) (o : option xnum) : option xnum := match o with Some (Fin r) => Some (Fin (s * r + t)) | _ => o end.
