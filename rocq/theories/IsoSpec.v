(** Specification vocabulary for isotonic regression: monotone sequences and the weighted sum of
    squared errors.  Does not mention the algorithm. *)
From Coq Require Import List QArith.
Import ListNotations.
Open Scope Q_scope.

(** Non-decreasing ([inc = true]) or non-increasing sequence. *)
Definition monotone (inc : bool) (z : list Q) : Prop :=
  forall i j a b, (i <= j)%nat -> nth_error z i = Some a -> nth_error z j = Some b ->
                  if inc then a <= b else b <= a.

(** Weighted squared error of the fit [z] to the data [y]. *)
Fixpoint wsse (y w z : list Q) : Q :=
  match y, w, z with
  | y0 :: y', w0 :: w', z0 :: z' => w0 * ((y0 - z0) * (y0 - z0)) + wsse y' w' z'
  | _, _, _ => 0
  end.

(** [x] is the weighted least-squares monotone fit of [y], and the only one. *)
Definition isotonic_fit (inc : bool) (y w x : list Q) : Prop :=
  length x = length y /\ monotone inc x /\
  forall z, length z = length y -> monotone inc z ->
    wsse y w x <= wsse y w z /\
    (wsse y w z <= wsse y w x -> Forall2 Qeq z x).

(** The same notion of monotonicity for binary64 values, with the IEEE comparison. *)
From Verif Require Import Num F64.
Definition fmonotone (inc : bool) (z : list f64) : Prop :=
  forall i j (a b : f64), (i <= j)%nat -> nth_error z i = Some a -> nth_error z j = Some b ->
    if inc then nle f64_ops a b = true else nle f64_ops b a = true.
Definition no_nan (z : list f64) : Prop := Forall (fun x : f64 => nnan f64_ops x = false) z.
