(** C122.  [digamma] is the digamma function, the slope of the logarithm of Gamma. *)
From Coq Require Import List Reals Lra.
From Verif Require Import NormModel GamSpec DigSpec DigModel DigPsi DigProofs.
Local Open Scope R_scope.

(** C122.  The digamma function exists and is unique at every positive number, and satisfies the recurrence. *)
Theorem C122_defined : forall x, 0 < x -> exists v, is_digamma x v /\ forall w, is_digamma x w -> w = v.
Proof. exact defined. Qed.
Print Assumptions C122_defined.

Theorem C122_recurrence : forall x v, 0 < x -> is_digamma x v -> is_digamma (x + 1) (v + / x).
Proof. exact recurrence. Qed.
Print Assumptions C122_recurrence.

(** C122.  At a positive argument the code is right to 1.25e-12, and to 2.4e-15 above a millionth. *)
Theorem C122_positive : forall near x v, 0 < x -> is_digamma x v ->
  exists q, digamma_full near (Fin x) = Fin q /\ Rabs (q - v) <= 1.25e-12 /\ (1e-6 < x -> Rabs (q - v) <= 2.4e-15).
Proof. exact full_pos. Qed.
Print Assumptions C122_positive.
Example C122_positive_case : 0 < 3 / 2 /\ is_digamma (3 / 2) (psi (3 / 2)).
Proof. split; [lra|]. apply psi_is. lra. Qed.

(** C122.  The continuation to negative arguments is unique, agrees with the function itself where that is defined,
    and exists off the integers. *)
Theorem C122_continuation : (forall x v w, is_digamma_ext x v -> is_digamma_ext x w -> v = w) /\
  (forall x v, 0 < x -> (is_digamma_ext x v <-> is_digamma x v)) /\
  (forall x, x < 0 -> (forall i, x + INR i <> 0) -> exists v, is_digamma_ext x v).
Proof. exact continuation. Qed.
Print Assumptions C122_continuation.

(** C122.  At a negative argument that the code does not take for an integer it is right to 2.4e-15.
    ([near] accepts integers; see the model.) *)
Theorem C122_negative : forall near, (forall n, near (- INR n) = true) ->
  forall x v, x < 0 -> near x = false -> is_digamma_ext x v ->
  exists q, digamma_full near (Fin x) = Fin q /\ Rabs (q - v) <= 2.4e-15.
Proof. exact full_neg. Qed.
Print Assumptions C122_negative.
Example C122_negative_case : exists near, (forall n, near (- INR n) = true) /\
  near (-1 / 2) = false /\ -1 / 2 < 0 /\ exists v, is_digamma_ext (-1 / 2) v.
Proof. exact negative_case. Qed.

(** C122.  At zero, at negative integers and at what is not a number. *)
Theorem C122_edges : forall near, (forall n, near (- INR n) = true) ->
  (forall n, digamma_full near (Fin (- INR n)) = NInf) /\ digamma_full near NInf = NaN /\
  digamma_full near NaN = NaN /\ digamma_full near PInf = PInf.
Proof. exact full_edges. Qed.
Print Assumptions C122_edges.

(** C122.  On a column each row depends on its own value only, and nulls stay. *)
Theorem C122_columns : forall near c i,
  nth_error (digamma_col near c) i = option_map (option_map (digamma_full near)) (nth_error c i).
Proof. exact col_rows. Qed.
Print Assumptions C122_columns.
