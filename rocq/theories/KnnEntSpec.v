(** Specification: distances to the k-th nearest other row and the volume of balls. *)
From Coq Require Import Bool List Arith ZArith Reals.
From Flocq Require Import IEEE754.BinarySingleNaN.
From Verif Require Import Num F64 KdSpec PyKdModel KnnExprModel KnnExprSpec MetricSpec.
Import ListNotations.
Open Scope nat_scope.

Notation pt := (list (carrier f64_ops)).
(** The distance of two points as a real number. *)
Definition rdist (m : metric) (p q : pt) : R := B2R (spec_dist f64_ops m p q).
(** How many of the other rows lie at a distance satisfying P. *)
Definition others (m : metric) (rows : list pt) (i : nat) (P : R -> bool) : nat :=
  length (filter (fun j => negb (j =? i) && P (rdist m (nth j rows []) (nth i rows []))) (seq 0 (length rows))).
Definition Rltb (a b : R) : bool := if Rlt_dec a b then true else false.
Definition Rleb (a b : R) : bool := if Rle_dec a b then true else false.
(** [r] is the distance from row i to its k-th nearest other row: fewer than k others are nearer, at least k are as near. *)
Definition kth_nearest (m : metric) (rows : list pt) (k i : nat) (r : R) : Prop :=
  others m rows i (fun x => Rltb x r) < k /\ k <= others m rows i (fun x => Rleb x r).
(** Twice any distance is a finite number. *)
Definition moderate (m : metric) (rows : list pt) : Prop :=
  forall p q, In p rows -> In q rows ->
    nfinite f64_ops (nmul f64_ops (nadd f64_ops (none f64_ops) (none f64_ops)) (spec_dist f64_ops m p q)) = true.

(** Volume of the d-dimensional ball of diameter 1 in the given norm. *)
Fixpoint round_ball (d : nat) : R :=
  match d with 0 => 1 | 1 => 1 | S (S d') => round_ball d' * PI / (2 * INR d) end%R.
Definition ball_volume (m : metric) (d : nat) : R := match m with ML2 => round_ball d | _ => 1%R end.
(** The gamma function at the half integers. *)
Definition gamma_half_ok (gamma : R -> R) : Prop :=
  gamma 1%R = 1%R /\ gamma (1 / 2)%R = sqrt PI /\ forall x, (0 < x)%R -> gamma (1 + x)%R = (x * gamma x)%R.

(** Rows of a table given as nullable columns (a null reads as NaN). *)
Definition rows_of (h : nat) (cols : list (column (carrier f64_ops))) : list pt := map (row_at f64_ops cols) (seq 0 h).
(** The rows without null, NaN or infinity. *)
Definition finite_rows (rows : list pt) : list pt := filter (finite_row f64_ops) rows.
(** The Kozachenko-Leonenko sum over [rows] in [dim] dimensions, with constant [g] and divided by [total]: minus infinity as soon
    as some row has k copies of itself among the others. *)
Definition kl_sum (m : metric) (rows : list pt) (dim k total : nat) (g : R) (v : xnum) : Prop :=
  exists rho : nat -> R,
    (forall i, i < length rows -> (0 <= rho i)%R /\ kth_nearest m rows k i (rho i)) /\
    v = if forallb (fun i => Rltb 0 (rho i)) (seq 0 (length rows))
        then Fin (g + ln (ball_volume m dim)
                  + INR dim / INR total * fold_right Rplus 0 (map (fun i => ln (2 * rho i)) (seq 0 (length rows))))%R
        else NInf.
(** The estimate of the entropy of [rows]. *)
Definition kl_estimate (m : metric) (rows : list pt) (dim k : nat) (g : R) (v : xnum) : Prop :=
  kl_sum m rows dim k (length rows) g v.
