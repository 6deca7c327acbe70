(** Model of src/num_ext/entrophies.rs 176-257 (pl_knn_entropy) and of python/polars_ds/exprs/ts_features.py 635-678
    (query_knn_entropy).
    Distances are bit-exact f64; logarithms, their sum and the constants are taken over the real numbers (xnum: with
    infinities and NaN). *)
From Coq Require Import Bool List Arith ZArith Reals.
From Flocq Require Import IEEE754.BinarySingleNaN.
From Verif Require Import Num F64 KdModel PyKdModel KnnExprModel MetricSpec DigammaModel.
Import ListNotations.
Open Scope nat_scope.

Notation f64t := (carrier f64_ops).
Notation N := f64_ops.

(** f64 addition and scaling by a positive number, without rounding. *)
Definition xplus (a b : xnum) : xnum :=
  match a, b with
  | Fin x, Fin y => Fin (x + y)
  | NaN, _ | _, NaN => NaN
  | PInf, NInf | NInf, PInf => NaN
  | PInf, _ | _, PInf => PInf
  | NInf, _ | _, NInf => NInf
  end.
Definition xscale (c : R) (a : xnum) : xnum := match a with Fin x => Fin (x * c) | _ => a end.
(** [f64::ln]. *)
Definition xln (x : f64t) : xnum :=
  match x with
  | B754_zero _ => NInf
  | B754_infinity false => PInf
  | B754_finite false _ _ _ => Fin (ln (B2R x))
  | _ => NaN
  end.

(** entrophies.rs 186-197 / 200-209: what one row does to the accumulator ([None]: panic).  [knn] gives nothing for a row with
    a value that is not finite. *)
Inductive step := Keep | Poison | Dist (d : f64t).
Definition row_step (dim : nat) (d : DIST N) (t : kdt N unit) (k : nat) (row : list f64t) : option step :=
  match knn N unit dim d t (k + 1) row (nzero N) with
  | None => None
  | Some None => Some Keep
  | Some (Some v) =>
      match last_dist N unit v with                                                        (* v.pop() *)
      | None => Some Poison                                                                (* unwrap_or(NAN) *)
      | Some x => Some (Dist (nmul N (nadd N (none N) (none N)) x))                        (* 2.0 * nb.to_dist() *)
      end
  end.
Definition apply_step (acc : xnum) (s : step) : xnum :=
  match s with Keep => acc | Poison => NaN | Dist d => xplus acc (xln d) end.
Definition fold_rows (cell : list f64t -> option step) (rows : list (list f64t)) : option xnum :=
  match traverse cell rows with None => None | Some l => Some (fold_left apply_step l (Fin 0)) end.
(** entrophies.rs 177-212 _knn_entropy_helper: in parallel one partial sum per thread; rayon's [sum] adds them in any order
    (here in the order of [sched]). *)
Definition entropy_helper (cell : list f64t -> option step) (ncols : nat) (data : list f64t) (par : parallelism) : option xnum :=
  match par with
  | None => fold_rows cell (chunks_exact N ncols data)
  | Some (n_threads, sched) =>
      match split_offsets (length data / ncols) n_threads with
      | None => None
      | Some splits =>
          match par_map sched (fun ol => match slice data (fst ol * ncols) ((fst ol + snd ol) * ncols) with
                                         | None => None
                                         | Some sub => fold_rows cell (chunks_exact N ncols sub)
                                         end) splits with
          | None => None
          | Some partials => Some (fold_left xplus (map (fun i => nth i partials NaN) sched) (Fin 0))
          end
      end
  end.

Section Gamma.
(** [f64::gamma] of the platform. *)
Variable gamma : R -> R.
(** entrophies.rs 243, 248. *)
Definition ball_constant (metric : dname) (d : R) : R :=
  match metric with
  | Dl2 => Rpower PI (d / 2) / Rpower 2 d / gamma (1 + d / 2)
  | _ => 1
  end.
(** entrophies.rs 214-257 pl_knn_entropy; [Ok NaN] when there are at most k rows. *)
Definition pl_knn_entropy (lib : SplitLib N unit) (metric : dname) (cols : list (column f64t)) (trace : list (nat * f64t)) (k : nat)
    (par : parallelism) : pyres xnum :=
  let ncols := length cols in
  match series_to_row_major_slice N cols trace with
  | Err => Err | Panic => Panic
  | Ok data =>
      let nrows := length data / ncols in
      if nrows <=? k then Ok NaN
      else
        let n := INR nrows in
        let d := INR ncols in
        let g1 := (digamma n - digamma (INR k))%R in
        let run (dist : DIST N) :=
          match from_leaves_unchecked N unit lib MIDPOINT (slice_to_empty_leaves N data ncols) with
          | None => Panic
          | Some (dim, t) =>
              match entropy_helper (row_step dim dist t k) dim data par with
              | None => Panic
              | Some log_d => Ok (xplus (Fin (g1 + ln (ball_constant metric d))) (xscale (d / n) log_d))
              end
          end in
        match metric with Dl2 => run L2 | Dinf => run LINF | _ => Err end
  end.

(** ts_features.py 635-678 query_knn_entropy: the checks in Python. *)
Definition query_knn_entropy (lib : SplitLib N unit) (metric : dname) (cols : list (column f64t)) (trace : list (nat * f64t)) (k : Z)
    (par : parallelism) : pyres xnum :=
  if (k <=? 0)%Z then Err
  else match metric with
       | Dl2 | Dinf => pl_knn_entropy lib metric cols trace (Z.to_nat k) par
       | _ => Err
       end.
End Gamma.
