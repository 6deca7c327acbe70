(** Specification vocabulary for the nearest-neighbour expressions: tables of nullable columns,
    interleavings of concurrent tasks, and which rows are candidates / evaluated. *)
From Coq Require Import Bool List Arith NArith Permutation Sorted.
From Verif Require Import Num KdModel KdSpec PyKdModel KnnExprModel.
Import ListNotations.

(** All the ways of interleaving several sequential tasks, one action at a time. *)
Inductive interleaving {X} : list (list X) -> list X -> Prop :=
| il_done : forall tasks, Forall (fun t => t = []) tasks -> interleaving tasks []
| il_step : forall before x t after trace,
    interleaving (before ++ t :: after) trace ->
    interleaving (before ++ (x :: t) :: after) (x :: trace).

Section Spec.
Context (N : NumOps).
Notation T := (carrier N).

(** A table of [h] rows with at least one column. *)
Definition table (h : nat) (cols : list (column T)) : Prop :=
  cols <> [] /\ Forall (fun c => length (cells c) = h) cols.

(** Row [i] of a table; nulls read as NaN. *)
Definition cell (i : nat) (c : column T) : T :=
  match nth i (cells c) None with Some x => x | None => nnanv N end.
Definition row_at (cols : list (column T)) (i : nat) : list T := map (cell i) cols.
Definition has_null (cols : list (column T)) (i : nat) : bool :=
  existsb (fun c => match nth i (cells c) None with None => true | Some _ => false end) cols.

(** [mask[i]] is true; a null counts as false, an absent mask as all true. *)
Definition mask_on (mask : option (list (option bool))) (i : nat) : bool :=
  match mask with
  | None => true
  | Some m => match nth i m None with Some b => b | None => false end
  end.
Definition mask_fits (h : nat) (mask : option (list (option bool))) : Prop :=
  match mask with None => True | Some m => length m = h end.

(** Positions paired with elements. *)
Definition numbered {X} (l : list X) : list (nat * X) := combine (seq 0 (length l)) l.
(** The rows that may be neighbours (mask on, no null feature), with their ids, in row order. *)
Definition candidates {A} (ids : list A) (data_mask : option (list (option bool))) (cols : list (column T))
  : list (A * list T) :=
  map (fun ia => (snd ia, row_at cols (fst ia)))
      (filter (fun ia => mask_on data_mask (fst ia) && negb (has_null cols (fst ia))) (numbered ids)).
(** All rows with their ids. *)
Definition id_rows {A} (ids : list A) (cols : list (column T)) : list (A * list T) :=
  map (fun ia => (snd ia, row_at cols (fst ia))) (numbered ids).

Definition finite_row (p : list T) : bool := forallb (nfinite N) p.

(** What row [i] of [query_knn_ptwise] must hold: null when the row is not evaluated, has a
    non-finite feature, or the bound is at most f64::EPSILON; otherwise the k+1 nearest candidates. *)
Definition knn_cell_spec {A} (m : metric) (cands : list (A * list T)) (eval_mask : option (list (option bool)))
    (cols : list (column T)) (k : nat) (maxb : T) (i : nat) (o : option (list (A * T))) : Prop :=
  if mask_on eval_mask i && finite_row (row_at cols i) && negb (nle N maxb (neps N))
  then exists l, o = Some l /\ knn_exact N A m cands (k + 1) (row_at cols i) maxb l
  else o = None.

(** Row [i] of [query_radius_ptwise]. *)
Definition radius_cell_spec {A} (m : metric) (rows : list (A * list T)) (cols : list (column T)) (r : T)
    (sort : bool) (i : nat) (o : option (list A)) : Prop :=
  if finite_row (row_at cols i) && negb (nle N r (nadd N (nzero N) (neps N)))
  then exists l, o = Some (map fst l) /\
         Permutation l (brute_within N A m rows (row_at cols i) r) /\
         (sort = true -> Sorted.StronglySorted (fun a b => nle N (snd a) (snd b) = true) l)
  else o = None.

(** Row [i] of [query_nb_cnt] with radius [r] (null or a number). *)
Definition cnt_cell_spec (m : metric) (h : nat) (cols : list (column T)) (r : option T) (i : nat)
    (o : option BinNums.N) : Prop :=
  match r with
  | None => o = None
  | Some r =>
      if finite_row (row_at cols i) && negb (nle N r (nadd N (nzero N) (neps N)))
      then o = Some (BinNat.N.of_nat (length (filter (fun j => nle N (spec_dist N m (row_at cols j) (row_at cols i)) r)
                                                     (seq 0 h))))
      else o = None
  end.

(** Row [i] of [query_dist_from_kth_nb]: the largest distance among the k+1 nearest rows. *)
Definition kth_cell_spec (m : metric) (h : nat) (cols : list (column T)) (k : nat) (maxb : T) (i : nat)
    (o : option T) : Prop :=
  if finite_row (row_at cols i) && negb (nle N maxb (neps N))
  then exists l, knn_exact N unit m (map (fun j => (tt, row_at cols j)) (seq 0 h)) (k + 1) (row_at cols i) maxb l /\
         o = nth_error (map snd l) (length l - 1)
  else o = None.

(** Weighted mean of (value, distance) pairs, every operation rounded. *)
Definition total (f : T * T -> T) (l : list (T * T)) : T := fold_left (fun acc x => nadd N acc (f x)) l (nzero N).
Definition knn_mean (weighted : bool) (minb : T) (near : list (T * T)) : T :=
  let w x := if nle N minb (neps N) then ndiv N (none N) (nadd N (none N) (snd x)) else ndiv N (none N) (snd x) in
  if weighted then ndiv N (total (fun x => nmul N (w x) (fst x)) near) (total w near)
  else ndiv N (total fst near) (num_of_nat N (length near)).
(** Row [i] of [query_knn_avg]: over the k+1 nearest rows without nulls, dropping those closer than [minb]. *)
Definition avg_cell_spec (m : metric) (targets : list T) (cols : list (column T)) (k : nat) (weighted : bool)
    (minb maxb : T) (i : nat) (o : option T) : Prop :=
  if finite_row (row_at cols i) && negb (nle N maxb (neps N))
  then exists l, knn_exact N T m (candidates targets None cols) (k + 1) (row_at cols i) maxb l /\
         let near := filter (fun x => nle N minb (snd x)) l in
         o = match near with [] => None | _ => Some (knn_mean weighted minb near) end
  else o = None.

(** [sort_unstable] on neighbours. *)
Definition sort_nb_ok {A} (sort_nb : list (NB N A) -> list (NB N A)) : Prop :=
  forall l, Permutation (sort_nb l) l /\
    (Forall (fun nb => nnan N (nb_dist nb) = false) l ->
     Sorted.StronglySorted (fun a b => nle N (nb_dist a) (nb_dist b) = true) (sort_nb l)).

(** The schedules of a chunked parallel loop: at least one thread, every chunk processed once. *)
Definition par_ok (par : parallelism) : Prop :=
  match par with None => True | Some (n, sched) => 1 <= n /\ Permutation sched (seq 0 n) end.
End Spec.
