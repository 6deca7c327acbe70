(** C99: winsorizing. *)
From Coq Require Import Reals List.
From Verif Require Import WStatsModel LagSpec WinsSpec WinsModel WinsProofs.
Import ListNotations.
Open Scope R_scope.

(** Every known value goes to the nearest point between the two quantiles; nulls, rows and the order of values stay. *)
Theorem C99_winsorize : forall x a b m, 0 < a /\ a < b /\ b < 1 -> values x <> [] -> exists lo hi y,
  quantile (values x) a m = Some lo /\ quantile (values x) b m = Some hi /\ lo <= hi /\ winsorize x a b m = Some y /\ length y = length x /\
  (forall i, match get x i with Some v => exists w, get y i = Some w /\ nearest_in lo hi v w /\ (lo <= v <= hi -> w = v) | None => get y i = None end) /\
  (forall i j u v u' v', get x i = Some u -> get x j = Some v -> get y i = Some u' -> get y j = Some v' -> u <= v -> u' <= v').
Proof. exact wins_thm. Qed.
Print Assumptions C99_winsorize.
Theorem C99_counts : forall x a b m y, 0 < a /\ a < b /\ b < 1 -> values x <> [] -> winsorize x a b m = Some y ->
  INR (raised x y) < (INR (length (values x)) - 1) * a + 1 /\ INR (lowered x y) < (INR (length (values x)) - 1) * (1 - b) + 1.
Proof. exact wins_count. Qed.
Print Assumptions C99_counts.
(** Winsorizing twice is winsorizing once, when the quantiles are values of the column. *)
Theorem C99_idempotent : forall x a b m y, m = Nearest \/ m = Lower \/ m = Higher -> winsorize x a b m = Some y -> winsorize y a b m = Some y.
Proof. exact wins_idem. Qed.
Print Assumptions C99_idempotent.
Theorem C99_linear_refuted : exists x y z, winsorize x (1 / 4) (3 / 4) Linear = Some y /\ winsorize y (1 / 4) (3 / 4) Linear = Some z /\ y <> z.
Proof. exact wins_linear_ex. Qed.
Print Assumptions C99_linear_refuted.
Theorem C99_affine : forall x a b m s t y, 0 < s -> winsorize x a b m = Some y ->
  winsorize (lift1 (fun v => s * v + t) x) a b m = Some (lift1 (fun v => s * v + t) y).
Proof. exact wins_affine. Qed.
Print Assumptions C99_affine.
Theorem C99_no_values : forall x a b m, 0 < a /\ a < b /\ b < 1 -> values x = [] -> winsorize x a b m = Some x.
Proof. exact wins_empty. Qed.
Print Assumptions C99_no_values.
Theorem C99_refused : forall x a b m, winsorize x a b m = None <-> ~ (0 < a /\ a < b /\ b < 1).
Proof. exact wins_reject. Qed.
Print Assumptions C99_refused.
Example C99_case : (0 < 1 / 20 /\ 1 / 20 < 19 / 20 /\ 19 / 20 < 1) /\ values [Some 1; None; Some 7] <> [].
Proof. exact wins_case. Qed.
(** The quantile is a value of the column (or between two of them) and grows with the level. *)
Theorem C99_quantile : forall l q m, l <> [] -> 0 < q < 1 -> exists v, quantile l q m = Some v /\ (m = Nearest \/ m = Lower \/ m = Higher -> In v l) /\
  (exists u w, In u l /\ In w l /\ u <= v <= w /\ (m = Midpoint -> v = (u + w) / 2)) /\
  (forall q', q <= q' < 1 -> exists v', quantile l q' m = Some v' /\ v <= v').
Proof. exact quant_in. Qed.
Print Assumptions C99_quantile.
