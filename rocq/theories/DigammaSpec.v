(** Specification: harmonic differences. *)
From Coq Require Import Reals List.
Import ListNotations.
Open Scope R_scope.
(** 1/k + 1/(k+1) + ... + 1/(n-1): the difference of the digamma function at the integers n and k. *)
Definition harmonic (k n : nat) : R := fold_right Rplus 0 (map (fun i => / INR i) (seq k (n - k))).
(** The first term of the asymptotic series that the code leaves out. *)
Definition next (z : R) : R := 691 / 32760 * / z ^ 12.
