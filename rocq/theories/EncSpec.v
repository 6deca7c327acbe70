(** Specification of target encoding, weight of evidence and information value. *)
From Coq Require Import Reals List.
From Verif Require Import WStatsSpec.
Import ListNotations.
Open Scope R_scope.

Section Enc.
Context {A : Type} (dec : forall a b : A, {a = b} + {a <> b}).
(** A row: the category and the target, each possibly null. *)
Definition row := (option A * option R)%type.
(** The known target values, and those of one category. *)
Definition targets (rows : list row) : list R := flat_map (fun r => match snd r with Some t => [t] | None => [] end) rows.
Definition targets_of (k : A) (rows : list row) : list R :=
  flat_map (fun r => match r with (Some k', Some t) => if dec k' k then [t] else [] | _ => [] end) rows.
(** [k] occurs in a row with a known target. *)
Definition occurs (k : A) (rows : list row) : Prop := exists t, In (Some k, Some t) rows.
(** [out] is a table with exactly one row per occurring category, holding [f] of it. *)
Definition is_table (rows : list row) {B} (f : A -> B) (out : list (A * B)) : Prop :=
  NoDup (map fst out) /\ forall k v, In (k, v) out <-> occurs k rows /\ v = f k.
(** The target is 0 or 1 wherever the row is complete. *)
Definition zero_one (rows : list row) : Prop := forall k t, In (Some k, Some t) rows -> t = 0 \/ t = 1.
(** Number of complete rows with target [b] (of category k). *)
Definition hits (b : R) (rows : list row) : nat :=
  length (filter (fun r => match r with (Some _, Some t) => if Req_EM_T t b then true else false | _ => false end) rows).
Definition hits_of (b : R) (k : A) (rows : list row) : nat :=
  length (filter (fun r => match r with (Some k', Some t) => if dec k' k then (if Req_EM_T t b then true else false) else false | _ => false end) rows).
End Enc.
(** The weight given to a category seen [n] times. *)
Definition weight (n : nat) (min_samples smoothing : R) : R := 1 / (1 + exp (- ((INR n - min_samples) / smoothing))).
(** Smoothed share: one is added to every count. *)
Definition share (n total : nat) : R := (INR n + 1) / (INR total + 2).
