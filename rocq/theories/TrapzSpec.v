(** The trapezoidal rule, stated directly: the sum over consecutive points of
    (x2 - x1) * (y1 + y2) / 2. *)
From Coq Require Import List QArith.
Import ListNotations.
Open Scope Q_scope.

Fixpoint trapezoids (pts : list (Q * Q)) : Q :=
  match pts with
  | p :: ((q :: _) as rest) => (fst q - fst p) * (snd p + snd q) / (2 # 1) + trapezoids rest
  | _ => 0
  end.
(** Equally spaced abscissas 0, dx, 2dx, ... *)
Definition grid (dx : Q) (n : nat) : list Q := map (fun i => inject_Z (Z.of_nat i) * dx) (seq 0 n).
