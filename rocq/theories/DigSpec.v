(** The digamma function, stated without reference to the code. *)
From Coq Require Import Reals.
From Verif Require Import GamSpec.
Local Open Scope R_scope.

(** [v] is the digamma function at the positive number [x]: the slope at [x] of the logarithm of Gamma *)
Definition is_digamma (x v : R) : Prop :=
  exists g : R -> R, (forall a, 0 < a -> is_Gamma a (exp (g a))) /\ derivable_pt_lim g x v.

(** 1/x + 1/(x+1) + ... + 1/(x+n-1) *)
Fixpoint inv_sum (n : nat) (x : R) : R :=
  match n with O => 0 | S m => inv_sum m x + / (x + INR m) end.

(** [v] is the digamma function at [x], which may be negative but no integer: the recurrence
    psi(x+1) = psi(x) + 1/x, taken up to a positive number *)
Definition is_digamma_ext (x v : R) : Prop :=
  exists n w, 0 < x + INR n /\ (forall i, (i < n)%nat -> x + INR i <> 0) /\ is_digamma (x + INR n) w /\ v = w - inv_sum n x.
