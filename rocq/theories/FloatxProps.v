(** C96: scalar functions. *)
From Coq Require Import Reals List ZArith.
From Verif Require Import MetricSpec FloatxSpec FloatxModel FloatxProofs.
Import ListNotations.
Open Scope R_scope.

(** expit and logit are inverse to each other. *)
Theorem C96_inverse : (forall x, logit (expit (Fin x)) = Fin x) /\ (forall p, 0 <= p <= 1 -> expit (logit (Fin p)) = Fin p).
Proof. exact inverse_thm. Qed.
Print Assumptions C96_inverse.
Theorem C96_expit : forall x y, expit (Fin x) = Fin (logistic x) /\ 0 < logistic x < 1 /\ (x < y -> logistic x < logistic y) /\
  logistic (- x) = 1 - logistic x /\ expit PInf = Fin 1 /\ expit NInf = Fin 0 /\ expit NaN = NaN.
Proof. exact expit_thm. Qed.
Print Assumptions C96_expit.
Theorem C96_logit : forall p q, 0 < p < 1 -> 0 < q < 1 ->
  logit (Fin p) = Fin (log_odds p) /\ (p < q -> log_odds p < log_odds q) /\ log_odds (1 - p) = - log_odds p /\
  logit (Fin 0) = NInf /\ logit (Fin 1) = PInf /\ (forall r, r < 0 \/ 1 < r -> logit (Fin r) = NaN) /\ logit NaN = NaN.
Proof. exact logit_thm. Qed.
Print Assumptions C96_logit.
(** x log y is 0 for x = 0 whatever y is, NaN included in y only. *)
Theorem C96_xlogy : (forall y, y <> NaN -> xlogy (Fin 0) y = Fin 0) /\ (forall x, xlogy x NaN = NaN) /\
  (forall x y, 0 < y -> xlogy (Fin x) (Fin y) = Fin (x * ln y)) /\ (forall x, 0 < x -> xlogy (Fin x) (Fin 0) = NInf) /\
  (forall x y, x <> 0 -> y < 0 -> xlogy (Fin x) (Fin y) = NaN).
Proof. exact xlogy_thm. Qed.
Print Assumptions C96_xlogy.
Theorem C96_exp2 : forall x y,
  exp2 (Fin (x + y)) = (match exp2 (Fin x), exp2 (Fin y) with Fin a, Fin b => Fin (a * b) | _, _ => NaN end) /\
  (forall n, exp2 (Fin (INR n)) = Fin (2 ^ n)).
Proof. exact exp2_thm. Qed.
Print Assumptions C96_exp2.
(** Integer and fractional part add up to the number, have its sign, and are less than 1 apart from it / in size. *)
Theorem C96_trunc_fract : forall r, exists t f, trunc (Fin r) = Fin t /\ fract (Fin r) = Fin f /\
  is_trunc r t /\ r = t + f /\ Rabs f < 1 /\ 0 <= r * f.
Proof. exact trunc_thm. Qed.
Print Assumptions C96_trunc_fract.
(** sinc is bounded by 1, even, zero at the other integers and (nearly) 1 at 0. *)
Theorem C96_sinc : forall x, Rabs (sinc x) <= 1 /\ sinc (- x) = sinc x /\ (x <> 0 -> sinc x = sin (PI * x) / (PI * x)) /\
  (forall n : Z, n <> 0%Z -> sinc (IZR n) = 0) /\ Rabs (sinc 0 - 1) <= / 10 ^ 39.
Proof. exact (fun x => match sinc_thm x with conj a (conj b (conj c d)) => conj a (conj b (conj c (conj d sinc_zero))) end). Qed.
Print Assumptions C96_sinc.
Example C96_case : 0 < 1 / 4 < 1 /\ 0 < 1 / 2 < 1 /\ 1 / 4 < 1 / 2 /\ trunc (Fin (-3 / 2)) = Fin (-1).
Proof. exact floatx_case. Qed.
(** On columns they are applied value by value, nulls stay null. *)
Theorem C96_columns : valuewise logit (fun x => pl_logit (Floats x)) /\ valuewise expit (fun x => pl_expit (Floats x)) /\
  valuewise exp2 (fun x => pl_exp2 (Floats x)) /\ valuewise fract (fun x => pl_fract (Floats x)) /\
  (forall x, exists y, pl_trunc (Floats x) = Floats y /\ y = apply_values trunc x) /\
  valuewise (fun z => logit (Fin (IZR z))) (fun x => pl_logit (Ints x)) /\ valuewise (fun z => expit (Fin (IZR z))) (fun x => pl_expit (Ints x)).
Proof. exact columns_thm. Qed.
Print Assumptions C96_columns.
Theorem C96_xlogy_columns : forall x y i, length x = length y ->
  nth i (pl_xlogy x y) None = match nth i x None, nth i y None with Some a, Some b => Some (xlogy a b) | _, _ => None end.
Proof. exact xlogy_cols. Qed.
Print Assumptions C96_xlogy_columns.
(** Except fract on integer columns: a null becomes 0. *)
Theorem C96_fract_null_refuted : exists x : list (option Z), In None x /\ ~ In None (pl_fract (Ints x)).
Proof. exact fract_ints. Qed.
Print Assumptions C96_fract_null_refuted.
