(** Specification vocabulary for regression and classification metrics. *)
From Coq Require Import Reals List.
From Verif Require Import WStatsSpec.
Import ListNotations.
Open Scope R_scope.

(** A 64-bit result read as a number: finite, infinite or NaN. *)
Inductive xnum := Fin (r : R) | PInf | NInf | NaN.

(** The rows in which both the actual and the predicted value are known. *)
Fixpoint complete (a p : list (option R)) : list (R * R) :=
  match a, p with
  | Some x :: a', Some y :: p' => (x, y) :: complete a' p'
  | _ :: a', _ :: p' => complete a' p'
  | _, _ => []
  end.
(** The predictions are known wherever the actual values are. *)
Definition pred_known (a p : list (option R)) : Prop :=
  length a = length p /\ forall i x, nth_error a i = Some (Some x) -> exists y, nth_error p i = Some (Some y).

(** Average of [f] over the rows. *)
Definition avg {A} (f : A -> R) (l : list A) : R := mean_of (map f l).
Definition total {A} (f : A -> R) (l : list A) : R := Rsum (map f l).
Definition actuals (l : list (R * R)) : list R := map fst l.
Definition err (r : R * R) : R := fst r - snd r.
Definition all_equal (l : list (R * R)) : Prop := forall a p, In (a, p) l -> a = p.
Definition constant (l : list R) : Prop := forall a b, In a l -> In b l -> a = b.
(** Residual and total sum of squares. *)
Definition ss_res (l : list (R * R)) : R := total (fun r => err r ^ 2) l.
Definition ss_tot (l : list (R * R)) : R := total (fun a => (a - mean_of (actuals l)) ^ 2) (actuals l).
(** Huber's loss of one error. *)
Definition huber_of (delta e : R) : R := if Rle_dec (Rabs e) delta then e ^ 2 / 2 else delta * (Rabs e - delta / 2).
(** Relative error used by sMAPE. *)
Definition srel (r : R * R) : R := Rabs (err r) / (Rabs (fst r) + Rabs (snd r)).
(** [m] is the largest element of [l]. *)
Definition greatest (l : list R) (m : R) : Prop := In m l /\ forall x, In x l -> x <= m.
(** The probability a prediction [p] gives to the true label [a] in {0, 1}. *)
Definition prob_true (r : R * R) : R := if Req_EM_T (fst r) 1 then snd r else 1 - snd r.
(** The known predictions of the rows whose sensitive condition is known to be [b]. *)
Definition cond_values (p : list (option R)) (c : list (option bool)) (b : bool) : list R :=
  flat_map (fun r => match r with (Some v, Some b') => if Bool.eqb b' b then [v] else [] | _ => [] end) (combine p c).
(** Absolute changes over [freq] steps. *)
Definition changes (freq : nat) (t : list R) : list R :=
  map (fun r => Rabs (err r)) (combine (skipn freq t) t).
(** Labels 0 or 1 and predicted probabilities. *)
Definition binary (l : list (R * R)) : Prop := forall r, In r l -> (fst r = 0 \/ fst r = 1) /\ 0 <= snd r <= 1.
(** The predicted probabilities of the classes 0 and 1. *)
Definition two (r : nat * R) : list R := [1 - snd r; snd r].
