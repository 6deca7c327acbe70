(** Specification for the regression classes: the prediction of a list of coefficients and a bias, the rows
    of a frame, and the history of an object. *)
From mathcomp Require Import all_ssreflect all_algebra.
From Verif Require Import LinModel LinSpec LinExprSpec ClsModel.
Set Implicit Arguments.
Unset Strict Implicit.
Import GRing.Theory Num.Theory.
Local Open Scope ring_scope.

Section Spec.
Variable R : realFieldType.
Variable name : eqType.

(** Bias plus the sum of coefficient times feature. *)
Definition line (cs : seq R) (b : R) (x : seq R) : R := \sum_(i < size cs) cs`_i * x`_i + b.

(** The coefficients and the bias (zero when there is none) held in a vector that ends with the bias. *)
Definition coeffs_part p (b : bool) (w : 'cV[R]_(p + b)) : seq R := [seq w (lshift b j) 0 | j <- enum 'I_p].
Definition bias_part p (b : bool) (w : 'cV[R]_(p + b)) : R := \sum_(j < b) w (rshift p j) 0.

(** An object that has learned [w]: what it reports, and that the line it reports is the prediction of [w]. *)
Definition learned p (b : bool) (w : 'cV[R]_(p + b)) (m : model R name) : Prop :=
  is_fit m = Ok true /\ coeffs m = Ok (map Some (coeffs_part w)) /\ bias m = Ok (Some (bias_part w)) /\
  forall x : 'rV[R]_p,
    line (coeffs_part w) (bias_part w) [seq x 0 j | j <- enum 'I_p] = LinSpec.predict (features b x) w.

(** [rows] are the rows of the frame: row [i] has the [i]-th cells of the target and of the features. *)
Definition table (df : frame R name) (features : seq name) (target : name) (rows : seq (lrow R (size features))) : Prop :=
  size rows = height df /\
  (exists y, col_of df target = Some y /\
     forall i r, List.nth_error rows i = Some r -> tgt r = nth None y i) /\
  (forall j : 'I_(size features), exists c, col_of df (nth target features j) = Some c /\
     forall i r, List.nth_error rows i = Some r -> feat r 0 j = nth None c i).

(** The calls that fit. *)
Definition fits (c : call R name) : bool := if c is CallSetNames _ then false else true.
Definition succeeds (S : solver R) (m : model R name) (c : call R name) : Prop := fits c /\ (step S m c).1 = Done.
(** No fit among the calls succeeds, starting from [m]. *)
Definition no_success (S : solver R) (m : model R name) (cs : seq (call R name)) : Prop :=
  forall c1 c c2, cs = c1 ++ c :: c2 -> ~ succeeds S (run S m c1) c.

(** Updates of an OnlineLR one after the other; [None] once there is a NaN. *)
Definition o_run p (o : omodel R) (cs : seq (nrow R p * R)) : res (option (omodel R)) :=
  foldl (fun acc c => match acc with Ok (Some o) => o_update o c.1 c.2 | _ => acc end) (Ok (Some o)) cs.
End Spec.
Arguments line {R} cs b x.
Arguments coeffs_part {R p b} w.
Arguments bias_part {R p b} w.
Arguments learned {R name p b} w m.
Arguments table {R name} df features target rows.
