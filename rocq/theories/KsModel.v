(** Model of src/stats/ks.rs and of its front-end python/polars_ds/exprs/stats.py:192-239. *)
From Coq Require Import Bool List Arith ZArith.
From Verif Require Import Num F64 KdDemo.
Import ListNotations.
Notation F := f64.

(** ks.rs:8-22  binary_search_right.  [OrderedFloat::cmp] is [Greater] iff arr[mid] > t (no NaN here).
    [None]: index out of range, or fuel exhausted. *)
Fixpoint bsr_loop (fuel : nat) (arr : list F) (t : F) (left right : nat) : option nat :=
  if left <? right then
    match fuel with
    | O => None
    | S fuel' =>
        let mid := left + (right - left) / 2 in
        match nth_error arr mid with
        | None => None
        | Some a => if nlt f64_ops t a then bsr_loop fuel' arr t left mid
                    else bsr_loop fuel' arr t (mid + 1) right
        end
    end
  else Some left.
Definition binary_search_right (arr : list F) (t : F) : option nat :=
  bsr_loop (length arr) arr t 0 (length arr).

(** [n as f64] *)
Definition as_f64 (n : nat) : F := fi (Z.of_nat n).

(** ks.rs:42-51: one step of the [map]. *)
Definition cdf_gap (v1 v2 : list F) (x : F) : option F :=
  match binary_search_right v1 x, binary_search_right v2 x with
  | Some c1, Some c2 =>
      Some (nabs f64_ops (nsub f64_ops (ndiv f64_ops (as_f64 c1) (as_f64 (length v1)))
                                       (ndiv f64_ops (as_f64 c2) (as_f64 (length v2)))))
  | _, _ => None
  end.
Fixpoint fold_gap (v1 v2 : list F) (xs : list F) (acc : F) : option F :=
  match xs with
  | [] => Some acc
  | x :: xs' => match cdf_gap v1 v2 x with
                | Some g => fold_gap v1 v2 xs' (nmax f64_ops acc g)
                | None => None
                end
  end.

(** ks.rs:29-58  ks_2samp.  [ln]: the platform's natural logarithm. *)
Definition half : F := fz 1 (-1).
Definition ks_2samp (ln : F -> F) (v1 v2 : list F) (alpha : F) : option (F * F) :=
  let n1 := as_f64 (length v1) in
  let n2 := as_f64 (length v2) in
  match fold_gap v1 v2 (v1 ++ v2) (nminv f64_ops) with
  | None => None
  | Some stats =>
      let c_alpha := nabs f64_ops (nmul f64_ops (nsub f64_ops (nzero f64_ops) half) (ln (ndiv f64_ops alpha (fi 2)))) in
      let p := nsqrt f64_ops (ndiv f64_ops (nmul f64_ops c_alpha (nadd f64_ops n1 n2)) (nmul f64_ops n1 n2)) in
      Some (stats, p)
  end.

(** ks.rs:60-74  pl_ks_2samp *)
Definition pl_ks_2samp (ln : F -> F) (v1 v2 : list F) (alpha : F) : option (F * F) :=
  if (length v1 <=? 30) || (length v2 <=? 30) then Some (nzero f64_ops, nnanv f64_ops)
  else ks_2samp ln v1 v2 alpha.

(** [x.filter(x.is_finite())]: nulls and non-finite values go. *)
Definition keep_finite (col : list (option F)) : list F :=
  flat_map (fun o => match o with Some x => if nfinite f64_ops x then [x] else [] | None => [] end) col.
(** [y2.filter(y1 == v)] *)
Definition where_eq (y1 : list (option Z)) (v : Z) (y2 : list (option F)) : list (option F) :=
  map snd (filter (fun p => match fst p with Some a => (a =? v)%Z | None => false end) (combine y1 y2)).

(** stats.py:192-239, is_binary=False / is_binary=True.  [sort]: Polars' ascending sort. *)
Definition py_ks_2samp (sort : list F -> list F) (ln : F -> F) (var1 var2 : list (option F)) (alpha : F) :=
  pl_ks_2samp ln (sort (keep_finite var1)) (sort (keep_finite var2)) alpha.
Definition py_ks_2samp_binary (sort : list F -> list F) (ln : F -> F) (var1 : list (option Z))
    (var2 : list (option F)) (alpha : F) :=
  pl_ks_2samp ln (sort (keep_finite (where_eq var1 1 var2))) (sort (keep_finite (where_eq var1 0 var2))) alpha.
