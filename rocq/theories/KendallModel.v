(** Model of src/stats/kendall_tau.rs and of its front-end python/polars_ds/exprs/stats.py:926-946. *)
From Coq Require Import Bool List ZArith Arith.
From Verif Require Import Num F64 KdDemo.
Import ListNotations.
Open Scope Z_scope.

(** stats.py:944  [rank(method="min")]: nulls stay null, otherwise 1 + number of smaller values.  Values
    stand for non-NaN floats (NaN was mapped to null by [fill_nan]); only their order matters, so they are
    integers here. *)
Definition rank_min (col : list (option Z)) : list (option Z) :=
  map (option_map (fun v => 1 + Z.of_nat (length (filter (fun o => match o with Some w => w <? v | None => false end) col)))) col.

(** kendall_tau.rs:12-14: the rows where both are not null. *)
Fixpoint complete {X Y} (xs : list (option X)) (ys : list (option Y)) : list (X * Y) :=
  match xs, ys with
  | Some x :: xs', Some y :: ys' => (x, y) :: complete xs' ys'
  | _ :: xs', _ :: ys' => complete xs' ys'
  | _, _ => []
  end.

(** [(c * (c - 1)) >> 1] *)
Definition tie2 (c : Z) : Z := Z.shiftr (c * (c - 1)) 1.

(** kendall_tau.rs:33-59: the loop over consecutive rows.  Arithmetic is exact: every counter is at most
    n (n-1) / 2 < 2^63 for a frame of at most 2^32 rows (Polars' limit). *)
Fixpoint tie_loop (rest : list (Z * Z)) (xj yj tied_x tied_xy cx cxy : Z) : Z * Z :=
  match rest with
  | [] => (tied_x + tie2 cx, tied_xy + tie2 cxy)
  | (xi, yi) :: rest' =>
      if xi =? xj then
        if yi =? yj then tie_loop rest' xi yi tied_x tied_xy (cx + 1) (cxy + 1)
        else tie_loop rest' xi yi tied_x (tied_xy + tie2 cxy) (cx + 1) 1
      else tie_loop rest' xi yi (tied_x + tie2 cx) (tied_xy + tie2 cxy) 1 1
  end.

(** kendall_tau.rs:78-103: merging [i, i_end) and [j, j_end) of [yy].  [out] is the part of [y_copy] written
    so far ([copy_loc] = its length); [xx] / [x_copy] are moved in parallel and never read again, so they
    are left out.  [None]: index out of range, or fuel exhausted. *)
Fixpoint merge_loop (fuel : nat) (yy : list Z) (i i_end j j_end : nat) (out : list Z) (swaps : nat)
  : option (list Z * nat) :=
  if ((i <? i_end) || (j <? j_end))%nat then
    match fuel with
    | O => None
    | S fuel' =>
        if (i <? i_end)%nat then
          if (j <? j_end)%nat then
            match nth_error yy i, nth_error yy j with
            | Some a, Some b =>
                if a <=? b then merge_loop fuel' yy (S i) i_end j j_end (out ++ [a]) swaps
                else merge_loop fuel' yy i i_end (S j) j_end (out ++ [b]) (swaps + (i_end - i))%nat
            | _, _ => None
            end
          else match nth_error yy i with
               | Some a => merge_loop fuel' yy (S i) i_end j j_end (out ++ [a]) swaps
               | None => None
               end
        else match nth_error yy j with
             | Some b => merge_loop fuel' yy i i_end (S j) j_end (out ++ [b]) swaps
             | None => None
             end
    end
  else Some (out, swaps).

(** kendall_tau.rs:70-105: one pass, [while offset < n]. *)
Fixpoint pass_loop (fuel n seg_size offset : nat) (yy out : list Z) (swaps : nat) : option (list Z * nat) :=
  if (offset <? n)%nat then
    match fuel with
    | O => None
    | S fuel' =>
        let i_end := Nat.min (offset + seg_size) n in
        let j_end := Nat.min (i_end + seg_size) n in
        match merge_loop n yy offset i_end i_end j_end out swaps with
        | Some (out', swaps') => pass_loop fuel' n seg_size (offset + 2 * seg_size) yy out' swaps'
        | None => None
        end
    end
  else Some (out, swaps).

(** kendall_tau.rs:68-109: [while seg_size < n]; the swap of [yy] and [y_copy] is the renaming of [out]. *)
Fixpoint sort_loop (fuel n seg_size : nat) (yy : list Z) (swaps : nat) : option (list Z * nat) :=
  if (seg_size <? n)%nat then
    match fuel with
    | O => None
    | S fuel' =>
        match pass_loop n n seg_size 0 yy [] swaps with
        | Some (out, swaps') => sort_loop fuel' n (2 * seg_size) out swaps'
        | None => None
        end
    end
  else Some (yy, swaps).

(** kendall_tau.rs:111-123 *)
Fixpoint tie_y_loop (rest : list Z) (prev tied c : Z) : Z :=
  match rest with
  | [] => tied + tie2 c
  | y :: rest' =>
      if y =? prev then tie_y_loop rest' y tied (c + 1)
      else tie_y_loop rest' y (tied + tie2 c) 1
  end.

(** The three integers the last lines divide: nc_m_nd, n_pairs - tied_x, n_pairs - tied_y.
    [None] = panic; [Some None] = fewer than two rows. *)
Definition kendall_ints (sorted : list (Z * Z)) : option (option (Z * Z * Z)) :=
  match sorted with
  | [] | [_] => Some None
  | (x0, y0) :: rest =>
      let n := length sorted in
      let n_pairs := Z.shiftr (Z.of_nat n * (Z.of_nat n - 1)) 1 in
      let '(tied_x, tied_xy) := tie_loop rest x0 y0 0 0 1 1 in
      match sort_loop n n 1 (map snd sorted) 0 with
      | None => None
      | Some (yy, swaps) =>
          match yy with
          | [] => None
          | prev :: yrest =>
              let tied_y := tie_y_loop yrest prev 0 1 in
              Some (Some (n_pairs - tied_x - tied_y + tied_xy - Z.shiftl (Z.of_nat swaps) 1,
                          n_pairs - tied_x, n_pairs - tied_y))
          end
      end
  end.

(** kendall_tau.rs:125-128: the f64 result. *)
Definition kendall_float (r : Z * Z * Z) : f64 :=
  let '(num, dx, dy) := r in
  ndiv f64_ops (fi num) (nsqrt f64_ops (nmul f64_ops (fi dx) (fi dy))).

(** stats.py:926-946 with kendall_tau.rs:9-129.  [sort]: Polars' sort by (x, y).  [None] = panic. *)
Definition kendall_tau (sort : list (Z * Z) -> list (Z * Z)) (x y : list (option Z)) : option f64 :=
  match kendall_ints (sort (complete (rank_min x) (rank_min y))) with
  | None => None
  | Some None => Some (nnanv f64_ops)
  | Some (Some r) => Some (kendall_float r)
  end.
