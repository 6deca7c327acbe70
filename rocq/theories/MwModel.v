(** Model of src/stats/mann_whitney_u.rs and its front-end python/polars_ds/exprs/stats.py:293-334.
    Simplifications: average ranks are kept doubled, as integers (2 x rank), and the arithmetic on
    ranks, counts and their sums is exact (they are multiples of 1/2, exact in f64 below 2^52). *)
From Coq Require Import Bool List ZArith QArith Qabs Qminmax.
From Verif Require Import Num F64 KsModel PairSums.
Import ListNotations.
Open Scope Z_scope.

(** Polars [rank] (method "average"), doubled: 2 * #(smaller) + #(equal) + 1. *)
Definition feq (a b : f64) : bool := nle f64_ops a b && nle f64_ops b a.
Definition rank2 (l : list f64) (v : f64) : Z :=
  2 * zlen (filter (fun w : f64 => nlt f64_ops w v) l) + zlen (filter (fun w : f64 => feq w v) l) + 1.

(** mann_whitney_u.rs:7-22  mann_whitney_tie_sum over the sorted ranks;
    [rank_number] starts as NaN (equal to nothing): [None]. *)
Fixpoint tie_sum_loop (rank_number : option Z) (cnt acc : Z) (ranks : list Z) : Z :=
  match ranks with
  | [] => acc
  | v :: ranks' =>
      if (match rank_number with Some r => v =? r | None => false end)
      then tie_sum_loop rank_number (cnt + 1) acc ranks'
      else tie_sum_loop (Some v) 1 (acc + cnt * (cnt + 1) * (cnt - 1)) ranks'
  end.
Definition mann_whitney_tie_sum (ranks : list Z) : Z := tie_sum_loop None 0 0 ranks.

(** src/stats/mod.rs:20-36 *)
Inductive alternative := TwoSided | Less | Greater.

Definition qclamp01 (x : Q) : Q := if Qlt_le_dec x 0 then 0%Q else if Qlt_le_dec 1 x then 1%Q else x.
(** mann_whitney_u.rs:24-61.  [sf u m v]: upper tail of the normal law with mean [m] and variance [v]
    ([normal::sf_unchecked(u, m, sqrt v)]). *)
Definition mw_variance (mean : Q) (n tie : Z) : Q :=
  ((mean / 6) * ((inject_Z n + 1) - inject_Z tie / (inject_Z n * (inject_Z n - 1))))%Q.
Definition pl_mann_whitney_u (sf : Q -> Q -> Q -> Q) (u1 u2 mean : Q) (sorted_ranks : list Z) (alt : alternative) : Q * Q :=
  let n := zlen sorted_ranks in
  let var_ := mw_variance mean n (mann_whitney_tie_sum sorted_ranks) in
  let '(u, factor) := match alt with
                      | TwoSided => (Qmax u1 u2, 2%Q)
                      | Less => (u2, 1%Q)
                      | Greater => (u1, 1%Q)
                      end in
  let p := if Qeq_dec var_ 0 then 0%Q else qclamp01 (factor * sf u (mean + (1#2)) var_)%Q in
  (u1, p).

(** stats.py:317-334.  [sort]: ascending sort of the ranks. *)
Definition mw_u1 (xx yy : list f64) : Q :=
  let ranks := map (rank2 (xx ++ yy)) (xx ++ yy) in
  (inject_Z (zsum (fun r => r) (firstn (length xx) ranks)) / 2
   - (inject_Z (zlen xx) * (inject_Z (zlen xx) + 1)) / 2)%Q.
Definition mann_whitney_u (sort : list Z -> list Z) (sf : Q -> Q -> Q -> Q) (x y : list (option f64))
    (alt : alternative) : Q * Q :=
  let xx := keep_finite x in
  let yy := keep_finite y in
  let n1 := inject_Z (zlen xx) in
  let n2 := inject_Z (zlen yy) in
  let ranks := map (rank2 (xx ++ yy)) (xx ++ yy) in
  let u1 := mw_u1 xx yy in
  let u2 := (n1 * n2 - u1)%Q in
  let mean := (n1 * n2 / 2)%Q in
  pl_mann_whitney_u sf u1 u2 mean (sort ranks) alt.
