(** Specification: the leading decimal digit. *)
From Coq Require Import Bool List ZArith QArith Ascii.
Import ListNotations.
Open Scope Z_scope.

(** [d] is the leading digit of the integer [v]. *)
Definition leading (d v : Z) : Prop := 1 <= d <= 9 /\ exists k, 0 <= k /\ d * 10 ^ k <= Z.abs v < (d + 1) * 10 ^ k.
(** [d] is the leading digit of the rational [q > 0] (the power of ten may be negative). *)
Definition leading_q (d : Z) (q : Q) : Prop :=
  1 <= d <= 9 /\ exists k : Z, (inject_Z d * Qpower 10 k <= q)%Q /\ (q < inject_Z (d + 1) * Qpower 10 k)%Q.

(** Plain decimal text: digits, optionally a point followed by digits; and the rational it denotes. *)
Definition digit_of (c : ascii) : option Z :=
  match Z.of_nat (nat_of_ascii c) - 48 with
  | 0 => Some 0 | 1 => Some 1 | 2 => Some 2 | 3 => Some 3 | 4 => Some 4 | 5 => Some 5 | 6 => Some 6 | 7 => Some 7 | 8 => Some 8 | 9 => Some 9
  | _ => None
  end.
Fixpoint digits (t : list ascii) (acc : Z) : option Z :=
  match t with [] => Some acc | c :: t' => match digit_of c with Some d => digits t' (10 * acc + d) | None => None end end.
Definition denotes (t : list ascii) (q : Q) : Prop :=
  exists i f n, (t = i /\ f = [] \/ t = i ++ "."%char :: f) /\ digits (i ++ f) 0 = Some n /\
    q = (inject_Z n * Qpower 10 (- Z.of_nat (length f)))%Q.
