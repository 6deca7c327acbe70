(** Model of src/stats_utils/beta.rs:51-157: the regularised incomplete beta function and the survival function of
    the F distribution.  The survival function of Student's t (beta.rs:24-37) and the p-values of the t tests are
    those of TtestModel, applied to this function.

    Simplification: arithmetic is exact (real numbers), [ln] and [exp] are the real functions, a decimal literal is
    the rational number it writes; an Err is [Err].  Degrees of freedom are finite. *)
From Coq Require Import List QArith Reals ZArith.
From Verif Require Import GamModel TtestModel.
Local Open Scope R_scope.

(** beta.rs:82  fpmin; f64::MIN_POSITIVE is 2^-1022 *)
Definition fpmin : R := / IZR (2 ^ 1022) / PREC_ACC.

(** beta.rs:101-103, 114-116, 119-121, 128-130, 134-136 *)
Definition lift (d : R) : R := if Rlt_dec (Rabs d) fpmin then fpmin else d.

(** beta.rs:108-149  the loop; the flag says whether it was left by its test *)
Fixpoint lentz (fuel : nat) (m a b x c d h : R) : R * bool :=
  match fuel with
  | O => (h, false)
  | S fuel' =>
      let m2 := m * 2 in
      let aa := m * (b - m) * x / ((a - 1 + m2) * (a + m2)) in
      let d := lift (1 + aa * d) in
      let c := lift (1 + aa / c) in
      let d := 1 / d in
      let h := h * d * c in
      let aa := - (a + m) * (a + b + m) * x / ((a + m2) * (a + 1 + m2)) in
      let d := lift (1 + aa * d) in
      let c := lift (1 + aa / c) in
      let d := 1 / d in
      let del := d * c in
      let h := h * del in
      if Rle_dec (Rabs (del - 1)) PREC_ACC then (h, true) else lentz fuel' (m + 1) a b x c d h
  end.

(** beta.rs:95-149 *)
Definition beta_cf (a b x : R) : R * bool :=
  let d := lift (1 - (a + b) * x / (a + 1)) in
  let d := 1 / d in
  lentz 140 1 a b x 1 d d.

(** beta.rs:72-79 *)
Definition beta_bt (a b x : R) : R :=
  if Req_EM_T x 0 then 0 else if Req_EM_T x 1 then 0
  else exp (ln_gamma (a + b) - ln_gamma a - ln_gamma b + a * ln x + b * ln (1 - x)).

(** beta.rs:80 *)
Definition symm (a b x : R) : Prop := (a + 1) / (a + b + 2) <= x.

(** beta.rs:72-156  the value for accepted arguments *)
Definition beta_reg (a b x : R) : R :=
  if Rle_dec ((a + 1) / (a + b + 2)) x then 1 - beta_bt a b x * fst (beta_cf b a (1 - x)) / b
  else beta_bt a b x * fst (beta_cf a b x) / a.

(** the loop ended because two convergents agreed, not because its 140 rounds were used up *)
Definition settled (a b x : R) : bool :=
  if Rle_dec ((a + 1) / (a + b + 2)) x then snd (beta_cf b a (1 - x)) else snd (beta_cf a b x).

(** beta.rs:51-60  fisher_snedecor_sf, for a finite statistic *)
Definition fisher_snedecor_sf (x freedom_1 freedom_2 : R) : res R :=
  if Rlt_dec x 0 then Err
  else let t := freedom_1 * x in
       checked_beta_reg beta_reg (freedom_2 / 2) (freedom_1 / 2) (1 - t / (t + freedom_2)).

(** not a value of the code: whether the call of [fisher_snedecor_sf] uses up its 140 rounds *)
Definition exhausted (x d1 d2 : R) : Prop := settled (d2 / 2) (d1 / 2) (d2 / (d1 * x + d2)) = false.
