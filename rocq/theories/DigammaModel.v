(** Model of digamma (src/stats_utils/gamma.rs 235-274) for positive arguments, in exact real arithmetic.
    Not modelled: arguments that are not positive or not finite (lines 246-254). *)
From Coq Require Import Reals.
Open Scope R_scope.

(** gamma.rs 261-264: [while z < c { result -= 1 / z; z += 1 }] with c = 12; at most 12 rounds for z > 0 ([digamma_fuel]
    in DigammaProofs.v shows that the fuel is never used up). *)
Fixpoint climb (fuel : nat) (result z : R) : R * R :=
  match fuel with
  | O => (result, z)
  | S f => if Rlt_dec z 12 then climb f (result - 1 / z) (z + 1) else (result, z)
  end.
(** gamma.rs 266-272: the asymptotic series at z. *)
Definition tail (z : R) : R :=
  let r := 1 / z in
  let r2 := r * r in
  ln z - 1 / 2 * r - r2 * (1 / 12 - r2 * (1 / 120 - r2 * (1 / 252 - r2 * (1 / 240 - r2 * (1 / 132))))).
(** gamma.rs 255-273. *)
Definition digamma (x : R) : R :=
  if Rle_dec x (1 / 1000000) then - (57721566490153286 / 100000000000000000) - 1 / x + 16449340668482264365 / 10000000000000000000 * x
  else let '(result, z) := climb 13 0 x in result + tail z.
