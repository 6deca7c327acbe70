(** Model of digamma (src/stats_utils/gamma.rs 235-274) at every argument, and of the column function
    (src/num_ext/float_extras.rs 59-61, 283-304). *)
From Coq Require Import List Reals.
From Verif Require Import NormModel DigammaModel.
Local Open Scope R_scope.

(** gamma.rs 235-274.  [near x] is the outcome of [approx::ulps_eq!(x.floor(), x)] (gamma.rs 249), a test on the
    bits of the two doubles that the real numbers cannot express; what is assumed of it is that it accepts
    integers.  Simplification: exact arithmetic; [PI] and [tan] are the real ones.  Where cos vanishes Coq's
    quotient PI / tan is 0, which is what dividing by the huge double tangent gives up to rounding.
    At plus infinity the loop is skipped and the result is inf - 0 - 0. *)
Definition digamma_full (near : R -> bool) (x : xr) : xr :=
  match x with
  | NInf => NaN
  | NaN => NaN
  | PInf => PInf
  | Fin x =>
      if andb (if Rle_dec x 0 then true else false) (near x) then NInf
      else if Rlt_dec x 0 then Fin (digamma (1 - x) + PI / tan (- PI * x))
      else Fin (digamma x)
  end.

(** float_extras.rs 59-61, 283-304  pl_diagamma on a numeric column after the cast to f64: each value on its own,
    nulls stay (polars' [apply_values] and [cast_and_apply_in_place]) *)
Definition digamma_col (near : R -> bool) (c : list (option xr)) : list (option xr) :=
  map (option_map (digamma_full near)) c.
