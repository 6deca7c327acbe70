(** Model of src/num_ext/float_extras.rs (logit, expit, xlogy, exp2, trunc, fract) and of sinc (num.py 890-896), in exact
    real arithmetic with infinities and NaN; the sign of zero is not modelled. *)
From Coq Require Import Reals List ZArith.
From Verif Require Import MetricSpec FloatxSpec.
Import ListNotations.
Open Scope R_scope.

(** float_extras.rs 11-21 logit. *)
Definition logit (x : xnum) : xnum :=
  match x with
  | Fin r => if Req_EM_T r 0 then NInf else if Req_EM_T r 1 then PInf
             else if Rlt_dec r 0 then NaN else if Rlt_dec 1 r then NaN else Fin (ln (r / (1 - r)))
  | PInf | NInf => NaN  (* < 0 or > 1 *)
  | NaN => NaN          (* no test holds; the arithmetic gives NaN *)
  end.
(** float_extras.rs 31-33 expit. *)
Definition expit (x : xnum) : xnum :=
  match x with
  | Fin r => Fin (1 / (1 + exp (- r)))
  | PInf => Fin (1 / (1 + 0))
  | NInf => Fin 0  (* 1 / inf *)
  | NaN => NaN
  end.
(** f64::ln. *)
Definition xln (x : xnum) : xnum :=
  match x with
  | Fin r => if Rlt_dec 0 r then Fin (ln r) else if Req_EM_T r 0 then NInf else NaN
  | PInf => PInf | NInf => NaN | NaN => NaN
  end.
(** Multiplication. *)
Definition xmul (x y : xnum) : xnum :=
  let scale r (pos neg : xnum) := if Rlt_dec 0 r then pos else if Rlt_dec r 0 then neg else NaN in
  match x, y with
  | Fin a, Fin b => Fin (a * b)
  | NaN, _ | _, NaN => NaN
  | Fin a, PInf => scale a PInf NInf
  | Fin a, NInf => scale a NInf PInf
  | PInf, Fin b => scale b PInf NInf
  | NInf, Fin b => scale b NInf PInf
  | PInf, PInf | NInf, NInf => PInf
  | PInf, NInf | NInf, PInf => NInf
  end.
Definition is_nan (x : xnum) : bool := match x with NaN => true | _ => false end.
Definition is_zero (x : xnum) : bool := match x with Fin r => if Req_EM_T r 0 then true else false | _ => false end.
(** float_extras.rs 23-29 xlogy. *)
Definition xlogy (x y : xnum) : xnum := if andb (is_zero x) (negb (is_nan y)) then Fin 0 else xmul x (xln y).
(** f64::exp2. *)
Definition exp2 (x : xnum) : xnum := match x with Fin r => Fin (Rpower 2 r) | PInf => PInf | NInf => Fin 0 | NaN => NaN end.
(** f64::trunc and f64::fract (x - trunc x). *)
Definition truncR (r : R) : R := if Rlt_dec r 0 then - IZR (Int_part (- r)) else IZR (Int_part r).
Definition trunc (x : xnum) : xnum := match x with Fin r => Fin (truncR r) | _ => x end.
Definition fract (x : xnum) : xnum := match x with Fin r => Fin (r - truncR r) | _ => NaN end.
(** [apply_values] keeps nulls. *)
Definition apply_values {A B} (f : A -> B) (x : list (option A)) : list (option B) := map (option_map f) x.
(** Integer columns are cast to f32 first; the rounding of the cast is not modelled. *)
Inductive column := Floats (x : list (option xnum)) | Ints (x : list (option Z)).
Definition pl_map (f : xnum -> xnum) (c : column) : list (option xnum) :=
  match c with Floats x => apply_values f x | Ints x => apply_values (fun z => f (Fin (IZR z))) x end.
(** float_extras.rs 67-170: pl_logit, pl_expit, pl_exp2. *)
Definition pl_logit := pl_map logit.
Definition pl_expit := pl_map expit.
Definition pl_exp2 := pl_map exp2.
(** float_extras.rs 172-196 pl_trunc: integers are returned as they are. *)
Definition pl_trunc (c : column) : column := match c with Floats x => Floats (apply_values trunc x) | Ints x => Ints x end.
(** float_extras.rs 198-217 pl_fract: integers give a column of zeros. *)
Definition pl_fract (c : column) : list (option xnum) :=
  match c with Floats x => apply_values fract x | Ints x => repeat (Some (Fin 0)) (length x) end.
(** float_extras.rs 273-281 pl_xlogy on columns of equal length. *)
Definition pl_xlogy (x y : list (option xnum)) : list (option xnum) :=
  map (fun p => match p with (Some a, Some b) => Some (xlogy a b) | _ => None end) (combine x y).
(** num.py 890-896 sinc. *)
Definition sinc (x : R) : R := let y := PI * (if Req_EM_T x 0 then / 10 ^ 20 else x) in sin y / y.
