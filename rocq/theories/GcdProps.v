(** C94: row-wise gcd and lcm. *)
From Coq Require Import ZArith List.
From Verif Require Import GcdSpec GcdModel GcdProofs.
Import ListNotations.
Open Scope Z_scope.

(** Two columns: row by row the greatest common divisor, null where an input is null. *)
Theorem C94_gcd_columns : forall x y : zcol, col32 x -> col32 y -> length x = length y ->
  (length x = 1%nat -> ~ In None y) -> ~ In (Some i32_min) x -> ~ In (Some i32_min) y ->
  exists out, gcd x (Col y) = Ok out /\ rowwise is_gcd x y out.
Proof. exact gcd_col. Qed.
Print Assumptions C94_gcd_columns.
(** A column and an integer. *)
Theorem C94_gcd_integer : forall (x : zcol) b, col32 x -> fits32 b -> b <> i32_min -> (b = 0 -> ~ In (Some i32_min) x) ->
  exists out, gcd x (Lit b) = Ok out /\ rowwise is_gcd x (repeat (Some b) (length x)) out.
Proof. exact gcd_lit. Qed.
Print Assumptions C94_gcd_integer.
(** The least common multiple, as long as it fits into 32 bits. *)
Theorem C94_lcm_columns : forall x y : zcol, col32 x -> col32 y -> length x = length y -> (length x = 1%nat -> ~ In None y) ->
  (forall i a b, nth i x None = Some a -> nth i y None = Some b -> exists m, is_lcm a b m /\ m <= i32_max) ->
  exists out, lcm x (Col y) = Ok out /\ rowwise is_lcm x y out.
Proof. exact lcm_col. Qed.
Print Assumptions C94_lcm_columns.
Theorem C94_lcm_integer : forall (x : zcol) b, col32 x -> fits32 b ->
  (forall a, In (Some a) x -> exists m, is_lcm a b m /\ m <= i32_max) ->
  exists out, lcm x (Lit b) = Ok out /\ rowwise is_lcm x (repeat (Some b) (length x)) out.
Proof. exact lcm_lit. Qed.
Print Assumptions C94_lcm_integer.
Example C94_case : col32 [Some 12; None; Some (-9)] /\ col32 [Some 18; Some 4; Some 0] /\ is_gcd 12 18 6 /\ is_lcm 12 18 36 /\ 36 <= i32_max.
Proof. exact gcd_case. Qed.
(** Values that do not fit into 32 bits and columns of different lengths are refused. *)
Theorem C94_refused : forall f x, (forall y, ~ col32 x \/ (exists c, y = Col c /\ ~ col32 c) -> call f x y = Err) /\
  (forall y, col32 x -> col32 y -> length y <> 1%nat -> length x <> length y -> call f x (Col y) = Err).
Proof. exact (fun f x => conj (too_large f x) (shape f x)). Qed.
Print Assumptions C94_refused.
(** A frame of one row panics when the second column is null there. *)
Theorem C94_one_row_refuted : forall f a, fits32 a -> call f [Some a] (Col [None]) = Panic.
Proof. exact one_row_null. Qed.
Print Assumptions C94_one_row_refuted.
(** An lcm beyond 32 bits wraps around silently: lcm(65536, 65537) = 65536. *)
Theorem C94_lcm_overflow_refuted : exists a b v, fits32 a /\ fits32 b /\ lcm [Some a] (Lit b) = Ok [Some v] /\ ~ (b | v).
Proof. exact lcm_wraps. Qed.
Print Assumptions C94_lcm_overflow_refuted.
(** The gcd of i32::MIN and 0 is negative. *)
Theorem C94_gcd_min_refuted : exists a b v, fits32 a /\ fits32 b /\ gcd [Some a] (Lit b) = Ok [Some v] /\ v < 0.
Proof. exact gcd_negative. Qed.
Print Assumptions C94_gcd_min_refuted.
