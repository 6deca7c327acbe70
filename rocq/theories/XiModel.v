(** Model of src/stats/xi_corr.rs 6-24 and stats.py 987-1025 (xi_corr), in exact arithmetic. *)
From Coq Require Import Reals List ZArith.
Import ListNotations.
Open Scope Z_scope.

Fixpoint zsum (l : list Z) : Z := match l with [] => 0 | a :: l' => a + zsum l' end.
(** [y.rank(method="max")]: how many values are at most this one; [(-y).rank(method="max")]: at least this one. *)
Definition rank_max (ys : list R) (y : R) : Z := Z.of_nat (length (filter (fun v => if Rle_dec v y then true else false) ys)).
Definition rank_max_neg (ys : list R) (y : R) : Z := Z.of_nat (length (filter (fun v => if Rle_dec y v then true else false) ys)).
(** [col("r").diff(1).abs().sum()]. *)
Fixpoint abs_diffs (r : list Z) : list Z := match r with a :: ((b :: _) as r') => Z.abs (b - a) :: abs_diffs r' | _ => [] end.
(** xi_corr.rs 11-24: [order] sorts the rows by the random-tie rank of x; [ys] is the y column. *)
Definition xi_parts (order : list (R * R) -> list (R * R)) (rows : list (R * R)) : Z * Z :=
  let ys := map snd rows in
  let s := map snd (order rows) in
  (zsum (abs_diffs (map (rank_max ys) s)),
   zsum (map (fun l => l * (Z.of_nat (length rows) - l)) (map (rank_max_neg ys) s))).
Definition xi_corr (order : list (R * R) -> list (R * R)) (rows : list (R * R)) : R :=
  let n := INR (length rows) in
  (1 - (n / 2 * IZR (fst (xi_parts order rows))) / IZR (snd (xi_parts order rows)))%R.
