(** Model of src/num_ext/entrophies.rs [pl_sample_entropy], [pl_approximate_entropy] and of their Python
    front-ends (ts_features.py 518-620).  The final logarithms are taken over the real numbers. *)
From Coq Require Import Bool List Arith ZArith Reals.
From Verif Require Import Num KdModel PyKdModel KnnExprModel RocModel.
Import ListNotations.
Open Scope nat_scope.

Section E.
Context (N : NumOps).
Notation T := (carrier N).

(** ts_features.py 551-557 / 603-608: the columns t, t.shift(-1), .., t.shift(-m), cut to [len - m + 1] rows (for
    [len + 1 < m] the u32 difference wraps and all [len] rows are kept; there are too few rows either way).
    Each column is one chunk: by C11 chunking does not matter. *)
Definition shifted (ts : list (option T)) (rows i : nat) : column T := [map (fun k => nth (k + i) ts None) (seq 0 rows)].
Definition lag_columns (ts : list (option T)) (m : nat) : list (column T) :=
  map (shifted ts (length ts + 1 - m)) (seq 0 (m + 1)).

(** [KDT::from_leaves_unchecked(.., DIST::LINF)] over [rows], then [within_count(q, r).unwrap_or(0)] for each query. *)
Definition empty_leaf (v : list T) : leaf N unit := {| item := tt; row_vec := v |}.
Definition counts (lib : SplitLib N unit) (rows : list (list T)) (r : T) (queries : list (list T)) : option (list Z) :=
  match from_leaves_unchecked N unit lib MIDPOINT (map empty_leaf rows) with
  | None => None
  | Some (dim, t) =>
      traverse (fun q => match within_count N unit dim LINF t q r with
                         | Some (Some c) => Some (Z.of_nat c)
                         | Some None => Some 0%Z
                         | None => None
                         end) queries
  end.
(** [sum::<u32>()] / the u32 fold: wraps in release builds. *)
Definition u32_sum (l : list Z) : Z := fold_left (fun acc c => u32 (acc + c)) l 0%Z.

(** The guard shared by both functions. *)
Definition degenerate (nrows ncols : nat) (r : T) : bool := (nrows <? ncols) || nle N r (nzero N) || negb (nfinite N r).

(** entrophies.rs 106-179 pl_sample_entropy: [Ok None] is NaN, [Ok (Some (b, a))] is [ln(b / a)].
    [order]: the order in which the rows are processed (any permutation in the parallel case).  A null radius is
    replaced by -1. *)
Definition sample_entropy (lib : SplitLib N unit) (order : list (list T) -> list (list T)) (ts : list (option T)) (m : nat)
    (r : option T) (trace : list (nat * T)) : pyres (option (Z * Z)) :=
  let cols := lag_columns ts m in
  let ncols := length cols in
  match series_to_row_major_slice N cols trace with
  | Err => Err | Panic => Panic
  | Ok data =>
      let nrows := length data / ncols in
      match r with
      | None => Ok None
      | Some r =>
          if degenerate nrows ncols r then Ok None
          else
            let rows := chunks_exact N ncols data in
            let short := map (firstn (ncols - 1)) rows in
            let long := firstn (nrows - 1) rows in
            match counts lib short r (order short), counts lib long r (order long) with
            | Some cb, Some ca => Ok (Some (u32_sum cb - Z.of_nat nrows, u32_sum ca - Z.of_nat (nrows - 1))%Z)
            | _, _ => Panic
            end
      end
  end.

(** entrophies.rs 17-104 pl_approximate_entropy: the two lists of counts, and below the value computed from them.
    A null radius panics ([unwrap]). *)
Definition approx_counts (lib : SplitLib N unit) (order : list (list T) -> list (list T)) (ts : list (option T)) (m : nat)
    (r : option T) (trace : list (nat * T)) : pyres (option (list Z * list Z)) :=
  let cols := lag_columns ts m in
  let ncols := length cols in
  match r with
  | None => Panic
  | Some r =>
      match series_to_row_major_slice N cols trace with
      | Err => Err | Panic => Panic
      | Ok data =>
          let nrows := length data / ncols in
          if degenerate nrows ncols r then Ok None
          else
            let rows := chunks_exact N ncols data in
            let short := map (firstn (ncols - 1)) rows in
            let long := firstn (nrows - 1) rows in
            match counts lib short r (order short), counts lib long r (order long) with
            | Some cb, Some ca => Ok (Some (cb, ca))
            | _, _ => Panic
            end
      end
  end.
End E.

(** phi: mean of [ln(count / nrows)] with [nrows] the number of queries. *)
Definition rtotal (l : list R) : R := fold_left Rplus l 0%R.
Definition phi (l : list Z) : R :=
  (rtotal (map (fun c => ln (IZR c * / INR (length l))) l) * / INR (length l))%R.
Definition approx_value (p : list Z * list Z) : R := Rabs (phi (snd p) - phi (fst p)).
