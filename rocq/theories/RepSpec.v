(** Specification of a regression report, written with fits and plain sums over the rows. *)
From mathcomp Require Import all_ssreflect all_algebra.
From Verif Require Import LinSpec.
Set Implicit Arguments.
Unset Strict Implicit.
Import GRing.Theory Num.Theory.
Local Open Scope ring_scope.

Section Spec.
Variable R : realFieldType.
Variable m : nat.
Implicit Types (d : seq ('rV[R]_m * R)) (w : 'cV[R]_m).

(** Row [k], its features and its residual under the coefficients [w]. *)
Definition resid d w k : R := (nth (0, 0) d k).2 - predict (nth (0, 0) d k).1 w.

(** The same features with other targets. *)
Definition with_targets d (g : nat -> R) : seq ('rV[R]_m * R) :=
  mkseq (fun i => ((nth (0, 0) d i).1, g i)) (size d).

(** By how much the fitted coefficients change when the target of row [k] grows by one: the fit to the
    targets that are 1 at row [k] and 0 elsewhere. *)
Definition sensitivity d k (s : 'cV[R]_m) : Prop :=
  unique_min (sq_err (with_targets d (fun i => (i == k)%:R))) s.

(** The rows without row [k]. *)
Definition without d k := take k d ++ drop k.+1 d.

(** [w] fits the rows [d]; [S k] is the sensitivity to the target of row [k]. *)
Definition fits d w (S : nat -> 'cV[R]_m) : Prop :=
  unique_min (sq_err d) w /\ forall k, (k < size d)%N -> sensitivity d k (S k).

(** The squared standard errors of coefficient [j].  The coefficient is the sum over the rows of
    sensitivity times target, so its variance is the sum of squared sensitivities times the variances of the
    targets.  Ordinary: all targets have the same variance, estimated by the sum of squared errors over the
    degrees of freedom; HC0: estimated row by row by the squared residual; HC1: HC0 times n / (n - m); HC2:
    the squared residual over 1 - leverage, the leverage being how much the prediction of a row grows when
    its own target grows by one; HC3: the jackknife, how much the coefficient moves when a row is left out. *)
Definition dof d : R := (size d)%:R - m%:R.
Definition var_se d w (S : nat -> 'cV[R]_m) (j : 'I_m) : R :=
  (\sum_(k < size d) (S k j 0) ^+ 2) * (sq_err d w / dof d).
Definition var_hc0 d w (S : nat -> 'cV[R]_m) (j : 'I_m) : R :=
  \sum_(k < size d) (S k j 0) ^+ 2 * (resid d w k) ^+ 2.
Definition var_hc1 d w (S : nat -> 'cV[R]_m) (j : 'I_m) : R := (size d)%:R / dof d * var_hc0 d w S j.
Definition leverage d (S : nat -> 'cV[R]_m) k : R := predict (nth (0, 0) d k).1 (S k).
Definition var_hc2 d w (S : nat -> 'cV[R]_m) (j : 'I_m) : R :=
  \sum_(k < size d) (S k j 0) ^+ 2 * ((resid d w k) ^+ 2 / (1 - leverage d S k)).
Definition jackknife d w (L : nat -> 'cV[R]_m) (j : 'I_m) : R :=
  \sum_(k < size d) (w j 0 - L k j 0) ^+ 2.

(** The total sum of squares of the targets, and the coefficient of determination and its adjustment, for
    [q] features besides the constant. *)
Definition avg (v : seq R) : R := (\sum_(y <- v) y) / (size v)%:R.
Definition tss (v : seq R) : R := \sum_(y <- v) (y - avg v) ^+ 2.
Definition R2 d w : R := 1 - sq_err d w / tss (map snd d).
Definition adj_R2 (q : nat) d w : R :=
  1 - (1 - R2 d w) * (((size d)%:R - 1) / ((size d)%:R - q%:R - 1)).
End Spec.
Arguments resid {R m} d w k.
Arguments with_targets {R m} d g.
Arguments sensitivity {R m} d k s.
Arguments without {R m} d k.
Arguments fits {R m} d w S.
Arguments dof {R m} d.
Arguments var_se {R m} d w S j.
Arguments var_hc0 {R m} d w S j.
Arguments var_hc1 {R m} d w S j.
Arguments leverage {R m} d S k.
Arguments var_hc2 {R m} d w S j.
Arguments jackknife {R m} d w L j.
Arguments avg {R} v.
Arguments tss {R} v.
Arguments R2 {R m} d w.
Arguments adj_R2 {R m} q d w.

(** Weighted least squares: every row, its constant included, scaled by the square root of its weight. *)
Definition scaled (R : rcfType) m (d : seq ('rV[R]_m * R)) (ws : seq R) : seq ('rV[R]_m * R) :=
  [seq (Num.sqrt r.2 *: r.1.1, Num.sqrt r.2 * r.1.2) | r <- zip d ws].
Arguments scaled {R m} d ws.
