(** Model of python/polars_ds/exprs/expr_knn.py: warn_len_compare (27-50), query_knn_freq_cnt (203-262), within_dist_from (337-401),
    is_knn_from (404-468), query_radius_freq_cnt (528-560).  The arithmetic of the point distances is Polars' own and exact here. *)
From Coq Require Import Reals List Bool Arith Permutation.
From Verif Require Import HavSpec HavModel NearSpec Num KdModel PyKdModel KnnExprModel.
Import ListNotations.
Open Scope R_scope.

(** sum_horizontal counts null as 0, max_horizontal skips it. *)
Definition hsum (l : list (option R)) : R := fold_right (fun o s => match o with Some x => x + s | None => s end) 0 l.
Definition hmax (l : list (option R)) : option R :=
  fold_right (fun o s => match o, s with Some x, Some y => Some (Rmax x y) | Some x, None => Some x | None, _ => s end) None l.
(** zip(pt, oth): stops at the shorter one. *)
Definition zipped (f : R -> R -> R) (pt : list R) (row : list (option R)) : list (option R) :=
  map (fun xe => option_map (f (fst xe)) (snd xe)) (combine pt row).
(** expr_knn.py 362-399 and 429-466: the distance column, one row.  "l2" and "sql2" share a branch.  0 / 0 is NaN (the dot product is 0 whenever a norm is). *)
Definition point_dist (d : near_dist) (pt : list R) (row : list (option R)) : cell :=
  match d with
  | NL1 => Num (hsum (zipped (fun x e => Rabs (e - x)) pt row))
  | NL2 | NSQL2 => Num (hsum (zipped (fun x e => (e - x) ^ 2) pt row))
  | NINF => match hmax (zipped (fun x e => Rabs (e - x)) pt row) with Some m => Num m | None => Null end
  | NCOS =>
    let x_norm := fold_right (fun z s => z * z + s) 0 pt in
    let oth_norm := hsum (map (option_map (fun e => e * e)) row) in
    if Req_EM_T (x_norm * oth_norm) 0 then NaNv
    else Num (1 - hsum (zipped Rmult pt row) / sqrt (x_norm * oth_norm))
  | NHAV => cell_of (nth 0 row None) (nth 1 row None) (nth_error pt 0) (nth_error pt 1)
  end.
(** Polars' <=: null if either is null; NaN equals NaN and is above every number. *)
Definition cell_leb (a b : cell) : option bool :=
  match a, b with
  | Null, _ | _, Null => None
  | _, NaNv => Some true
  | NaNv, Num _ => Some false
  | Num x, Num y => Some (if Rle_dec x y then true else false)
  end.
(** expr_knn.py 27-49 and 359-360: [has_len]: the point is a sequence; then its length is checked, otherwise only a warning is given.
    Haversine (387-394): the point must have two coordinates and there must be two features. *)
Definition accepted (has_len : bool) (d : near_dist) (pt : list R) (n_features : nat) : bool :=
  (if has_len then Nat.eqb (length pt) n_features else true) &&
  match d with NHAV => Nat.eqb (length pt) 2 && (2 <=? n_features)%nat | _ => true end.
(** The radius: a number or a column. *)
Inductive radius_arg := RNum (r : R) | RCol (l : list cell).
Definition radii (r : radius_arg) (h : nat) : list cell := match r with RNum r => repeat (Num r) h | RCol l => l end.
(** [None]: ValueError. *)
Definition within_dist_from (has_len : bool) (d : near_dist) (pt : list R) (n_features : nat) (rows : list (list (option R))) (r : radius_arg)
  : option (list (option bool)) :=
  if accepted has_len d pt n_features then
    Some (map (fun rr => cell_leb (point_dist d pt (fst rr)) (snd rr)) (combine rows (radii r (length rows))))
  else None.
(** Series.max: skips nulls, and NaN unless there is nothing else. *)
Definition cell_max (l : list cell) : cell :=
  fold_right (fun c s => match c, s with
    | Num x, Num y => Num (Rmax x y) | Num x, _ => Num x | _, Num y => Num y | NaNv, _ => NaNv | _, NaNv => NaNv | Null, Null => Null end) Null l.
(** Series.bottom_k(k): k of the smallest values, NaN after the numbers, null last. *)
Definition before (a b : cell) : Prop :=
  match a, b with Num x, Num y => x <= y | Num _, _ => True | NaNv, Num _ => False | NaNv, _ => True | Null, Null => True | Null, _ => False end.
Definition bottom_ok (bottom_k : nat -> list cell -> list cell) : Prop := forall k l, exists rest,
  Permutation l (bottom_k k l ++ rest) /\ length (bottom_k k l) = Nat.min k (length l) /\
  forall x y, In x (bottom_k k l) -> In y rest -> before x y.
Definition is_knn_from (bottom_k : nat -> list cell -> list cell) (has_len : bool) (d : near_dist) (pt : list R) (n_features : nat)
    (rows : list (list (option R))) (k : nat) : option (list (option bool)) :=
  if accepted has_len d pt n_features then
    let dist_out := map (point_dist d pt) rows in
    Some (map (fun c => cell_leb c (cell_max (bottom_k k dist_out))) dist_out)
  else None.

(** explode: a null or empty list becomes one null row. *)
Definition explode {A} (l : list (option (list A))) : list (option A) :=
  flat_map (fun o => match o with Some (x :: r) => map Some (x :: r) | _ => [None] end) l.
Definition drop_nulls {A} (l : list (option A)) : list A := flat_map (fun o => match o with Some x => [x] | None => [] end) l.
(** value_counts(sort=True): the order of equal counts is not specified. *)
Definition value_counts_ok {A} (dec : forall a b : A, {a = b} + {a <> b}) (vc : list A -> list (A * nat)) : Prop := forall l, tally (count_occ dec l) (vc l).
Section Freq.
Context (N : NumOps).
Notation T := (carrier N).
Definition query_knn_freq_cnt {A} (vc : list A -> list (A * nat)) (lib : SplitLib N A) simd (metric : dname) (ids : list A)
    (data_mask eval_mask : option (list (option bool))) (cols : list (column T)) (trace : list (nat * T))
    (k : nat) (epsilon maxb : T) (par : parallelism) : pyres (list (A * nat)) :=
  match query_knn_ptwise_ids N lib simd metric ids data_mask eval_mask cols trace k epsilon maxb par with
  | PyKdModel.Ok out => PyKdModel.Ok (vc (drop_nulls (explode out))) | PyKdModel.Err => PyKdModel.Err | PyKdModel.Panic => PyKdModel.Panic end.
Definition query_radius_freq_cnt {A} (vc : list A -> list (A * nat)) (lib : SplitLib N A) sort_nb simd (metric : dname) (ids : list A)
    (cols : list (column T)) (trace : list (nat * T)) (r : T) (par : parallelism) : pyres (list (A * nat)) :=
  match query_radius_ptwise N lib sort_nb simd metric ids cols trace r false par with
  | PyKdModel.Ok out => PyKdModel.Ok (vc (drop_nulls (explode out))) | PyKdModel.Err => PyKdModel.Err | PyKdModel.Panic => PyKdModel.Panic end.
End Freq.
