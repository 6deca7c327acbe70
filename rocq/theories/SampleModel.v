(** Model of src/stats/sample.rs and its front-ends in python/polars_ds/exprs/stats.py:368-700.
    The random generator is an oracle: for every seed it is some stream of draws. *)
From Coq Require Import Bool List Arith ZArith.
From Verif Require Import Num F64 KdDemo.
Import ListNotations.

(** An error value: a raised exception, a Polars error or a Rust panic. *)
Inductive err := ValueError | SchemaMismatch | UniformPanic.
Inductive res (A : Type) := Ok (a : A) | Err (e : err).
Arguments Ok {A}. Arguments Err {A}.

(** First [n] draws of a stream. *)
Definition take {A} (stream : nat -> A) (n : nat) : list A := map stream (seq 0 n).

(** [rand::distributions::Uniform<i32>]: [Uniform::new] panics unless low < high; otherwise the
    generator yields the [i]-th draw [gen low high i]. *)
Definition sample_uniform_i32 (gen : Z -> Z -> nat -> Z) (low high : Z) (n : nat) : res (list Z) :=
  if (low <? high)%Z then Ok (take (gen low high) n) else Err UniformPanic.
(** sample.rs:19-39  pl_rand_int *)
Definition pl_rand_int (gen : Z -> Z -> nat -> Z) (n : nat) (low high : Z) : res (list Z) :=
  if (low =? high)%Z then Ok (repeat low n)
  else let '(low, high) := if (high <? low)%Z then (high, low) else (low, high) in
       sample_uniform_i32 gen low high n.
(** stats.py:539-575 with integer bounds. *)
Definition random_int (gen : Z -> Z -> nat -> Z) (lower upper : Z) (length : nat) : res (list Z) :=
  if (lower =? upper)%Z then Err ValueError else pl_rand_int gen length lower upper.

(** [Uniform<f64>::new]: panics unless both bounds are finite and low < high. *)
Definition uniform_f64_ok (low high : f64) : bool :=
  nfinite f64_ops low && nfinite f64_ops high && nlt f64_ops low high.
(** sample.rs:75-88  pl_random *)
Definition pl_random (gen : f64 -> f64 -> nat -> f64) (len : nat) (low high : f64) : res (list f64) :=
  if uniform_f64_ok low high then Ok (take (gen low high) len) else Err UniformPanic.

(** [apply_nonnull_values_generic]: one draw per non-null value, nulls stay null. *)
Fixpoint add_draws (draw : nat -> f64) (i : nat) (col : list (option f64)) : list (option f64) :=
  match col with
  | [] => []
  | None :: col' => None :: add_draws draw i col'
  | Some x :: col' => Some (nadd f64_ops x (draw i)) :: add_draws draw (S i) col'
  end.
(** sample.rs:92-124  pl_perturb, Float64 branch *)
Definition pl_perturb (gen : f64 -> f64 -> nat -> f64) (col : list (option f64)) (low high : f64) : res (list (option f64)) :=
  if uniform_f64_ok low high then Ok (add_draws (gen low high) 0 col) else Err UniformPanic.
(** stats.py:368-402 *)
Definition fneg (x : f64) : f64 := nsub f64_ops (nzero f64_ops) x.
Definition perturb (gen : f64 -> f64 -> nat -> f64) (col : list (option f64)) (epsilon : f64) (positive : bool) : res (list (option f64)) :=
  if negb (nfinite f64_ops epsilon) then Err ValueError
  else
    let ep := nabs f64_ops epsilon in
    if positive then pl_perturb gen col (nzero f64_ops) ep
    else let half := ndiv f64_ops ep (fi 2) in
         pl_perturb gen col (fneg half) half.

(** stats.py:517-536  random_null: [pl.when(random(0, 1) < pct).then(None).otherwise(x)] *)
Definition random_null {A} (gen : f64 -> f64 -> nat -> f64) (col : list (option A)) (pct : f64) : res (list (option A)) :=
  if nle f64_ops pct (nzero f64_ops) || nle f64_ops (fi 1) pct then Err ValueError
  else match pl_random gen (length col) (nzero f64_ops) (fi 1) with
       | Err e => Err e
       | Ok us => Ok (map (fun p => if nlt f64_ops (fst p) pct then None else snd p) (combine us col))
       end.

(** sample.rs:197-217  pl_rand_str ([Uniform::new_inclusive] panics when min > max); stats.py:577-611.
    [chars n i]: the [n] characters drawn for the [i]-th string. *)
Definition random_str (gen : nat -> nat -> nat -> nat) (chars : nat -> nat -> list Z) (min_size max_size len : nat) : res (list (list Z)) :=
  let '(mi, ma) := if max_size <? min_size then (max_size, min_size) else (min_size, max_size) in
  if mi <=? ma then Ok (map (fun i => chars (gen mi ma i) i) (seq 0 len)) else Err UniformPanic.

(** Literals with their Polars data type, as passed to the plugin. *)
Inductive lit := LU32 (n : nat) | LI32 (z : Z) | LF64 (x : f64).
(** [Series::u32()?]: a schema-mismatch error on any other data type. *)
Definition as_u32 (l : lit) : res nat := match l with LU32 n => Ok n | _ => Err SchemaMismatch end.
Definition as_f64 (l : lit) : res f64 := match l with LF64 x => Ok x | _ => Err SchemaMismatch end.
(** sample.rs:41-54  pl_rand_binomial; [gen n p i]: the [i]-th draw. *)
Definition pl_rand_binomial (gen : nat -> f64 -> nat -> nat) (a0 a1 a2 : lit) : res (list nat) :=
  match as_u32 a0 with
  | Err e => Err e
  | Ok len => match as_u32 a1 with
              | Err e => Err e
              | Ok n => match as_f64 a2 with
                        | Err e => Err e
                        | Ok p => Ok (take (gen n p) len)
                        end
              end
  end.
(** stats.py:614-643: [n] is passed as [pl.lit(n, pl.Int32)]. *)
Definition random_binomial (gen : nat -> f64 -> nat -> nat) (n : Z) (p : f64) (length : nat) : res (list nat) :=
  if (n <? 1)%Z then Err ValueError else pl_rand_binomial gen (LU32 length) (LI32 n) (LF64 p).
