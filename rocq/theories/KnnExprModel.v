(** Model of the nearest-neighbour expressions: src/num_ext/knn.rs, the helpers
    [series_to_row_major_slice] and [split_offsets] of src/utils/mod.rs, [KNNRegressor] of
    src/arkadia/mod.rs, and their Python front-ends in python/polars_ds/exprs/expr_knn.py. *)
From Coq Require Import Bool List Arith NArith ZArith.
From Verif Require Import Num KdModel PyKdModel.
Import ListNotations.

(** A Polars column: its chunks, each a list of nullable values. *)
Definition column (X : Type) := list (list (option X)).
Definition cells {X} (c : column X) : list (option X) := concat c.

(** utils/mod.rs:124-141  split_offsets.  [None]: [len / n] with n = 0 panics.
    ([len - offset] cannot underflow: offset = (n-1) * (len/n) <= len.) *)
Definition split_offsets (len n : nat) : option (list (nat * nat)) :=
  if n =? 1 then Some [(0, len)]
  else if n =? 0 then None
  else let chunk_size := len / n in
       Some (map (fun partition =>
                    let offset := partition * chunk_size in
                    (partition * chunk_size, if partition =? n - 1 then len - offset else chunk_size))
                 (seq 0 n)).

(** [&v[a..b]]; out of range panics. *)
Definition slice {X} (v : list X) (a b : nat) : option (list X) :=
  if (a <=? b) && (b <=? length v) then Some (firstn (b - a) (skipn a v)) else None.

(** The pattern shared by all chunked expressions (e.g. knn.rs:125-141, 168-195, 240-262, 512-533,
    597-610, 635-653): split the rows into one range per thread, process the ranges in any order
    [sched], write the resulting chunks to their slots, concatenate the chunks. *)
Definition chunked {Y} (n_threads : nat) (sched : list nat) (nrows : nat)
    (work : nat -> nat -> option (list Y)) : option (list Y) :=
  match split_offsets nrows n_threads with
  | None => None
  | Some splits =>
      match par_map sched (fun ol => work (fst ol) (snd ol)) splits with
      | None => None
      | Some chunks => Some (concat chunks)
      end
  end.

(** [can_parallel]: thread count of the pool and the order in which the chunks are processed. *)
Definition parallelism := option (nat * list nat).

Section Model.
Context (N : NumOps).
Notation T := (carrier N).

(** utils/mod.rs:88-114: the writes of the task of column [j] of [m], in order: chunk by chunk,
    nulls replaced by NaN ([none_to_nan]). *)
Definition nan_of (o : option T) : T := match o with Some x => x | None => nnanv N end.
Fixpoint chunk_writes (m j start : nat) (vals : list (option T)) : list (nat * T) :=
  match vals with
  | [] => []
  | v :: vals' => (j + start * m, nan_of v) :: chunk_writes m j (S start) vals'
  end.
Fixpoint col_writes (m j chunk_offset : nat) (c : column T) : list (nat * T) :=
  match c with
  | [] => []
  | vals :: c' => chunk_writes m j chunk_offset vals ++ col_writes m j (chunk_offset + length vals) c'
  end.
Fixpoint all_writes (m j : nat) (cols : list (column T)) : list (list (nat * T)) :=
  match cols with
  | [] => []
  | c :: cols' => col_writes m j 0 c :: all_writes m (S j) cols'
  end.

(** Raw writes into the uninitialised buffer; [None] = a write outside the allocation. *)
Fixpoint run_writes (mem : list (option T)) (trace : list (nat * T)) : option (list (option T)) :=
  match trace with
  | [] => Some mem
  | (i, v) :: trace' =>
      match set_nth mem i (Some v) with
      | Some mem' => run_writes mem' trace'
      | None => None
      end
  end.

(** utils/mod.rs:55-121  series_to_row_major_slice.  [trace]: the writes in the order in which the
    threads performed them.  [Panic] stands for undefined behaviour (a write out of the buffer, or
    [set_len] over an unwritten cell).  The initial [cast] to f64 is not modelled: columns are f64. *)
Definition series_to_row_major_slice (cols : list (column T)) (trace : list (nat * T)) : pyres (list T) :=
  match cols with
  | [] => Err
  | c0 :: rest =>
      let height := length (cells c0) in
      if forallb (fun c => length (cells c) =? height) rest then
        match run_writes (repeat None (height * length cols)) trace with
        | None => Panic
        | Some mem => match traverse (fun o => o) mem with Some v => Ok v | None => Panic end
        end
      else Err
  end.

(** knn.rs:71-83  row_major_slice_to_leaves_filtered *)
Definition leaves_filtered {A} (data : list T) (row_len : nat) (values : list A)
    (filter_ : list (option bool)) : list (leaf N A) :=
  map (fun p => {| item := fst (snd p); row_vec := snd (snd p) |})
      (filter (fun p => match fst p with Some b => b | None => false end)
              (combine filter_ (combine values (chunks_exact N row_len data)))).

(** arkadia/utils.rs:35-46 slice_to_leaves, 61-69 slice_to_empty_leaves *)
Definition slice_to_leaves {A} (data : list T) (row_len : nat) (values : list A) : list (leaf N A) :=
  map (fun p => {| item := fst p; row_vec := snd p |}) (combine values (chunks_exact N row_len data)).
Definition slice_to_empty_leaves (data : list T) (row_len : nat) : list (leaf N unit) :=
  map (fun r => {| item := tt; row_vec := r |}) (chunks_exact N row_len data).

(** A KDT: dimension, metric, nodes.  [KDT::from_leaves_unchecked] splits at the midpoint. *)
Definition tree_of {A} (lib : SplitLib N A) (simd : list T -> list T -> T) (metric : dname) (ncols : nat)
    (leaves : list (leaf N A)) : option (nat * DIST N * kdt N A) :=
  match from_leaves_unchecked N A lib MIDPOINT leaves with
  | Some (dim, t) => Some (dim, new_from_str_informed N simd metric ncols, t)
  | None => None
  end.

(** One loop body [if *b { match tree.knn_bounded(..) { Some => values, None => null } } else null]
    (knn.rs:179-189, 205-213, 366-388). *)
Definition knn_cell {A} (tr : nat * DIST N * kdt N A) (k : nat) (maxb eps : T) (bp : bool * list T)
  : option (option (list (A * T))) :=
  let '(dim, d, t) := tr in
  if fst bp then
    match knn_bounded N A dim d t (k + 1) (snd bp) maxb eps with
    | None => None
    | Some None => Some None
    | Some (Some nbs) => Some (Some (map (fun nb => (nb_item nb, nb_dist nb)) nbs))
    end
  else Some None.

(** knn.rs:328-440  knn_ptwise_w_dist. The two list builders are kept as one list of pairs. *)
Definition knn_ptwise_w_dist {A} (tr : nat * DIST N * kdt N A) (eval_mask : list bool) (data : list T)
    (k : nat) (par : parallelism) (maxb eps : T) : option (list (option (list (A * T)))) :=
  let ncols := fst (fst tr) in
  let nrows := length data / ncols in
  match par with
  | Some (n_threads, sched) =>
      chunked n_threads sched nrows (fun offset len =>
        match slice data (offset * ncols) ((offset + len) * ncols), slice eval_mask offset (offset + len) with
        | Some sub, Some mask => traverse (knn_cell tr k maxb eps) (combine mask (chunks_exact N ncols sub))
        | _, _ => None
        end)
  | None => traverse (knn_cell tr k maxb eps) (combine eval_mask (chunks_exact N ncols data))
  end.

(** knn.rs:179-186, 203-209: the loop body of knn_ptwise, which keeps only the ids. *)
Definition knn_cell_ids {A} (tr : nat * DIST N * kdt N A) (k : nat) (maxb eps : T) (bp : bool * list T)
  : option (option (list A)) :=
  let '(dim, d, t) := tr in
  if fst bp then
    match knn_bounded N A dim d t (k + 1) (snd bp) maxb eps with
    | None => None
    | Some None => Some None
    | Some (Some nbs) => Some (Some (map (fun nb => nb_item nb) nbs))
    end
  else Some None.
(** knn.rs:150-214  knn_ptwise *)
Definition knn_ptwise {A} (tr : nat * DIST N * kdt N A) (eval_mask : list bool) (data : list T)
    (k : nat) (par : parallelism) (maxb eps : T) : option (list (option (list A))) :=
  let ncols := fst (fst tr) in
  let nrows := length data / ncols in
  match par with
  | Some (n_threads, sched) =>
      chunked n_threads sched nrows (fun offset len =>
        match slice data (offset * ncols) ((offset + len) * ncols), slice eval_mask offset (offset + len) with
        | Some sub, Some mask => traverse (knn_cell_ids tr k maxb eps) (combine mask (chunks_exact N ncols sub))
        | _, _ => None
        end)
  | None => traverse (knn_cell_ids tr k maxb eps) (combine eval_mask (chunks_exact N ncols data))
  end.

(** knn.rs:442-497 pl_knn_ptwise_w_dist.  [eval_mask = None]: skip_eval is
    false and the mask is all true.  [ids]: [cont_slice] of the id column, which has no nulls. *)
Definition pl_knn_ptwise_w_dist {A} (lib : SplitLib N A) simd (metric : dname) (ids : list A)
    (keep_mask : list (option bool)) (eval_mask : option (list (option bool))) (cols : list (column T))
    (trace : list (nat * T)) (k : nat) (maxb eps : T) (par : parallelism)
  : pyres (list (option (list (A * T)))) :=
  let mask := match eval_mask with
              | Some m => map (fun b => match b with Some b => b | None => false end) m
              | None => repeat true (length ids)
              end in
  let ncols := length cols in
  match series_to_row_major_slice cols trace with
  | Err => Err | Panic => Panic
  | Ok data =>
      match tree_of lib simd metric ncols (leaves_filtered data ncols ids keep_mask) with
      | None => Panic
      | Some tr => match knn_ptwise_w_dist tr mask data k par maxb eps with Some o => Ok o | None => Panic end
      end
  end.
(** knn.rs:276-326 pl_knn_ptwise *)
Definition pl_knn_ptwise {A} (lib : SplitLib N A) simd (metric : dname) (ids : list A)
    (keep_mask : list (option bool)) (eval_mask : option (list (option bool))) (cols : list (column T))
    (trace : list (nat * T)) (k : nat) (maxb eps : T) (par : parallelism)
  : pyres (list (option (list A))) :=
  let mask := match eval_mask with
              | Some m => map (fun b => match b with Some b => b | None => false end) m
              | None => repeat true (length ids)
              end in
  let ncols := length cols in
  match series_to_row_major_slice cols trace with
  | Err => Err | Panic => Panic
  | Ok data =>
      match tree_of lib simd metric ncols (leaves_filtered data ncols ids keep_mask) with
      | None => Panic
      | Some tr => match knn_ptwise tr mask data k par maxb eps with Some o => Ok o | None => Panic end
      end
  end.

(** [pl.all_horizontal]: Kleene conjunction. *)
Definition kleene_all (bs : list (option bool)) : option bool :=
  if existsb (fun b => match b with Some false => true | _ => false end) bs then Some false
  else if existsb (fun b => match b with None => true | _ => false end) bs then None
  else Some true.
Definition is_not_null {X} (o : option X) : bool := match o with Some _ => true | None => false end.

(** expr_knn.py:159-165 (and 322 with [~any_horizontal(is_null)]): row [i] of the keep mask. *)
Definition keep_row (data_mask : option (list (option bool))) (cols : list (column T)) (i : nat)
  : option bool :=
  kleene_all ((match data_mask with Some m => [nth i m None] | None => [] end)
              ++ map (fun c => Some (is_not_null (nth i (cells c) None))) cols).
Definition height (cols : list (column T)) : nat :=
  match cols with [] => 0 | c :: _ => length (cells c) end.

(** expr_knn.py:97-197  query_knn_ptwise with [return_dist=True]: [k < 1] raises; the plugin always receives epsilon 0.0. *)
Definition query_knn_ptwise {A} (lib : SplitLib N A) simd (metric : dname) (ids : list A)
    (data_mask eval_mask : option (list (option bool))) (cols : list (column T)) (trace : list (nat * T))
    (k : nat) (epsilon maxb : T) (par : parallelism) : pyres (list (option (list (A * T)))) :=
  if k <? 1 then Err
  else pl_knn_ptwise_w_dist lib simd metric ids (map (keep_row data_mask cols) (seq 0 (height cols)))
         eval_mask cols trace k maxb (nzero N) par.

(** The same with [return_dist=False] (the default). *)
Definition query_knn_ptwise_ids {A} (lib : SplitLib N A) simd (metric : dname) (ids : list A)
    (data_mask eval_mask : option (list (option bool))) (cols : list (column T)) (trace : list (nat * T))
    (k : nat) (epsilon maxb : T) (par : parallelism) : pyres (list (option (list A))) :=
  if k <? 1 then Err
  else pl_knn_ptwise lib simd metric ids (map (keep_row data_mask cols) (seq 0 (height cols)))
         eval_mask cols trace k maxb (nzero N) par.

(** knn.rs:216-273  pl_dist_from_kth_nb *)
Definition kth_cell {A} (tr : nat * DIST N * kdt N A) (k : nat) (maxb eps : T) (p : list T)
  : option (option T) :=
  let '(dim, d, t) := tr in
  match knn_bounded N A dim d t (k + 1) p maxb eps with
  | None => None
  | Some None => Some None
  | Some (Some nbs) => Some (last_dist N A nbs)                                    (* nbs.pop() *)
  end.
(** The row loop without a zipped mask: sequential, or over [chunks_exact] of one subslice per chunk. *)
Definition rows_loop {Y} (f : list T -> option Y) (ncols : nat) (data : list T) (par : parallelism)
  : option (list Y) :=
  match par with
  | Some (n_threads, sched) =>
      chunked n_threads sched (length data / ncols) (fun offset len =>
        match slice data (offset * ncols) ((offset + len) * ncols) with
        | Some sub => traverse f (chunks_exact N ncols sub)
        | None => None
        end)
  | None => traverse f (chunks_exact N ncols data)
  end.
Definition pl_dist_from_kth_nb (lib : SplitLib N unit) simd (metric : dname) (cols : list (column T))
    (trace : list (nat * T)) (k : nat) (maxb eps : T) (par : parallelism) : pyres (list (option T)) :=
  let ncols := length cols in
  match series_to_row_major_slice cols trace with
  | Err => Err | Panic => Panic
  | Ok data =>
      match tree_of lib simd metric ncols (slice_to_empty_leaves data ncols) with
      | None => Panic
      | Some tr => match rows_loop (kth_cell tr k maxb eps) ncols data par with Some o => Ok o | None => Panic end
      end
  end.

(** knn.rs:499-581  query_radius_ptwise and pl_query_radius_ptwise.  [r <= 0] raises in Python
    (expr_knn.py:549-550). *)
Definition radius_cell {A} (sort_nb : list (NB N A) -> list (NB N A)) (tr : nat * DIST N * kdt N A)
    (r : T) (sort : bool) (p : list T) : option (option (list A)) :=
  let '(dim, d, t) := tr in
  match within N A sort_nb dim d t p r sort with
  | None => None
  | Some None => Some None
  | Some (Some nbs) => Some (Some (map (fun nb => nb_item nb) nbs))
  end.
Definition query_radius_ptwise {A} (lib : SplitLib N A) sort_nb simd (metric : dname) (ids : list A)
    (cols : list (column T)) (trace : list (nat * T)) (r : T) (sort : bool) (par : parallelism)
  : pyres (list (option (list A))) :=
  if nle N r (nzero N) then Err
  else
  let ncols := length cols in
  match series_to_row_major_slice cols trace with
  | Err => Err | Panic => Panic
  | Ok data =>
      match tree_of lib simd metric ncols (slice_to_leaves data ncols ids) with
      | None => Panic
      | Some tr => match rows_loop (radius_cell sort_nb tr r sort) ncols data par with
                   | Some o => Ok o | None => Panic end
      end
  end.

(** knn.rs:583-703  query_nb_cnt, query_nb_cnt_w_radius, pl_nb_cnt.  The u32 count wraps. *)
Definition cnt_cell (tr : nat * DIST N * kdt N unit) (p : list T) (r : T) : option (option BinNums.N) :=
  let '(dim, d, t) := tr in
  match within_count N unit dim d t p r with
  | None => None
  | Some None => Some None
  | Some (Some c) => Some (Some (u32_of c))
  end.
Definition cnt_cell_r (tr : nat * DIST N * kdt N unit) (pr : list T * option T) : option (option BinNums.N) :=
  match snd pr with Some r => cnt_cell tr (fst pr) r | None => Some None end.
Definition nb_cnt_w_radius (tr : nat * DIST N * kdt N unit) (data : list T) (radius : list (option T))
    (par : parallelism) : option (list (option BinNums.N)) :=
  let ncols := fst (fst tr) in
  match par with
  | Some (n_threads, sched) =>
      chunked n_threads sched (length data / ncols) (fun offset len =>
        match slice data (offset * ncols) ((offset + len) * ncols), slice radius offset (offset + len) with
        | Some sub, Some rad => traverse (cnt_cell_r tr) (combine (chunks_exact N ncols sub) rad)
        | _, _ => None
        end)
  | None => traverse (cnt_cell_r tr) (combine (chunks_exact N ncols data) radius)
  end.
Definition pl_nb_cnt (lib : SplitLib N unit) simd (metric : dname) (radius : list (option T))
    (cols : list (column T)) (trace : list (nat * T)) (par : parallelism)
  : pyres (list (option BinNums.N)) :=
  let ncols := length cols in
  match series_to_row_major_slice cols trace with
  | Err => Err | Panic => Panic
  | Ok data =>
      let nrows := length data / ncols in
      match radius with
      | [r] =>
          match r with
          | None => Panic                                             (* radius.get(0).unwrap() *)
          | Some r =>
              match tree_of lib simd metric ncols (slice_to_empty_leaves data ncols) with
              | None => Panic
              | Some tr => match rows_loop (fun p => cnt_cell tr p r) ncols data par with
                           | Some o => Ok o | None => Panic end
              end
          end
      | _ =>
          if length radius =? nrows then
            match tree_of lib simd metric ncols (slice_to_empty_leaves data ncols) with
            | None => Panic
            | Some tr => match nb_cnt_w_radius tr data radius par with Some o => Ok o | None => Panic end
            end
          else Err
      end
  end.

(** arkadia/mod.rs:33-53  KNNMethod::new *)
Inductive KNNMethod := P1Weighted | Weighted | NotWeighted.
Definition method_new (weighted : bool) (min_dist : T) : KNNMethod :=
  if weighted then if nle N min_dist (neps N) then P1Weighted else Weighted else NotWeighted.

(** [n as f64] *)
Fixpoint num_of_nat (n : nat) : T := match n with 0 => nzero N | S n' => nadd N (num_of_nat n') (none N) end.

(** arkadia/mod.rs:171-240  KNNRegressor::knn_regress, the part after the neighbours are found.
    [iter().sum()] starts from -0.0 in current Rust and from 0.0 before; both give the same sum of
    positive weights, 0.0 is used here.  [recip()] is 1/x.  The length is exact as f64 up to 2^53. *)
Definition weighted_mean (w : T -> T) (nn : list (T * T)) : T :=
  let weights := map (fun nb => w (snd nb)) nn in
  let sum := fold_left (nadd N) weights (nzero N) in
  ndiv N (fold_left (fun acc nw => nadd N acc (nmul N (snd nw) (fst (fst nw)))) (combine nn weights) (nzero N)) sum.
Definition regress_of (how : KNNMethod) (min_dist : T) (nbs : list (T * T)) : option T :=
  let nn := filter (fun nb => nle N min_dist (snd nb)) nbs in
  match nn with
  | [] => None
  | _ :: _ =>
      match how with
      | P1Weighted => Some (weighted_mean (fun dist => ndiv N (none N) (nadd N (none N) dist)) nn)
      | Weighted => Some (weighted_mean (fun dist => ndiv N (none N) dist) nn)
      | NotWeighted =>
          Some (ndiv N (fold_left (fun acc nb => nadd N acc (fst nb)) nn (nzero N)) (num_of_nat (length nn)))
      end
  end.
Definition regress_cell (tr : nat * DIST N * kdt N T) (k : nat) (minb maxb : T) (how : KNNMethod) (p : list T)
  : option (option T) :=
  let '(dim, d, t) := tr in
  match knn_bounded N T dim d t (k + 1) p maxb (nzero N) with
  | None => None
  | Some None => Some None
  | Some (Some nbs) => Some (regress_of how minb (map (fun nb => (nb_item nb, nb_dist nb)) nbs))
  end.

(** knn.rs:89-144 pl_knn_avg and expr_knn.py:264-340 query_knn_avg.  [targets]: the f64 target column,
    without nulls ([cont_slice]). *)
Definition query_knn_avg (lib : SplitLib N T) simd (metric : dname) (targets : list T)
    (cols : list (column T)) (trace : list (nat * T)) (k : nat) (weighted : bool) (minb maxb : T)
    (par : parallelism) : pyres (list (option T)) :=
  if k <? 1 then Err
  else
  let ncols := length cols in
  match series_to_row_major_slice cols trace with
  | Err => Err | Panic => Panic
  | Ok data =>
      match tree_of lib simd metric ncols
              (leaves_filtered data ncols targets (map (keep_row None cols) (seq 0 (height cols)))) with
      | None => Panic
      | Some tr => match rows_loop (regress_cell tr k minb maxb (method_new weighted minb)) ncols data par with
                   | Some o => Ok o | None => Panic end
      end
  end.
End Model.
