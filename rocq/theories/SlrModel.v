(** Model of simple_lin_reg: python/polars_ds/exprs/expr_linear.py:45-103.
    Simplifications: numbers are the elements of an ordered field (exact arithmetic). *)
From mathcomp Require Import all_ssreflect all_algebra.
Set Implicit Arguments.
Unset Strict Implicit.
Import GRing.Theory Num.Theory.
Local Open Scope ring_scope.

(** A value of a polars expression: null, a number, or [Bad], a float that is not finite (the result of a
    division by zero).  [Bad] absorbs numbers; what a finite number divided by an infinity gives is not
    followed, it is [Bad] here. *)
Inductive val (T : Type) := Null | Bad | Val (x : T).
Arguments Null {T}.
Arguments Bad {T}.

Section Slr.
Variable R : realFieldType.
Notation v := (val R).

(** polars: arithmetic of two values; null if either is null. *)
Definition op2 (f : R -> R -> v) (a b : v) : v :=
  match a, b with
  | Null, _ | _, Null => Null
  | Bad, _ | _, Bad => Bad
  | Val x, Val y => f x y
  end.
Definition vadd := op2 (fun x y => Val (x + y)).
Definition vsub := op2 (fun x y => Val (x - y)).
Definition vmul := op2 (fun x y => Val (x * y)).
Definition vdiv := op2 (fun x y => if y == 0 then Bad else Val (x / y)).

(** polars: sum (nulls are left out, 0 when nothing is left), mean (null when nothing is left), dot. *)
Definition vsum (c : seq v) : v := foldr (fun a s => if a is Null then s else vadd a s) (Val 0) c.
Definition known (a : v) : bool := if a is Null then false else true.
Definition vmean (c : seq v) : v := if has known c then vdiv (vsum c) (Val (count known c)%:R) else Null.
Definition zipw (f : v -> v -> v) (a b : seq v) : seq v := map (fun p => f p.1 p.2) (zip a b).
Definition dot (a b : seq v) : v := vsum (zipw vmul a b).
(** column minus scalar, and pow(2) *)
Definition minus (a : seq v) (m : v) : seq v := map (fun x => vsub x m) a.
Definition square (a : seq v) : seq v := map (fun x => vmul x x) a.

(** expr_linear.py:70-81 and 90-95: beta and alpha; without a bias alpha is not returned. *)
Definition slope_intercept (xx yy : seq v) (w : option (seq v)) : v * v :=
  match w with
  | None =>
      let x_mean := vmean xx in
      let y_mean := vmean yy in
      let beta := vdiv (dot (minus xx x_mean) (minus yy y_mean)) (dot (minus xx x_mean) (minus xx x_mean)) in
      (beta, vsub y_mean (vmul beta x_mean))
  | Some w =>
      let w_sum := vsum w in
      let x_wmean := vdiv (dot w xx) w_sum in
      let y_wmean := vdiv (dot w yy) w_sum in
      let beta := vdiv (dot w (zipw vmul (minus xx x_wmean) (minus yy y_wmean))) (dot w (square (minus xx x_wmean))) in
      (beta, vsub y_wmean (vmul beta x_wmean))
  end.
Definition slope (xx yy : seq v) (w : option (seq v)) : v :=
  match w with
  | None => vdiv (dot xx yy) (dot xx xx)
  | Some w => vdiv (dot w (zipw vmul xx yy)) (dot w (square xx))
  end.

(** expr_linear.py:45-103  simple_lin_reg: the list of coefficients, and with return_pred the predictions and
    residuals. *)
Definition coeffs (bias : bool) (xx yy : seq v) (w : option (seq v)) : seq v :=
  if bias then let ba := slope_intercept xx yy w in [:: ba.1; ba.2] else [:: slope xx yy w].
Definition pred_resid (bias : bool) (xx yy : seq v) (w : option (seq v)) : seq (v * v) :=
  let pred := if bias then let ba := slope_intercept xx yy w in map (fun x => vadd (vmul ba.1 x) ba.2) xx
              else let beta := slope xx yy w in map (fun x => vmul beta x) xx in
  zip pred (zipw vsub yy pred).
End Slr.
