(** Model of the Python-facing KD-tree: src/pymodels/py_kdt.rs (PyKDT) and
    python/polars_ds/spatial.py (KDTree). *)
From Coq Require Import Bool List Arith NArith ZArith.
From Verif Require Import Num KdModel.
Import ListNotations.

(** What a call does: returns a value, raises a Python exception, or panics (a PanicException). *)
Inductive pyres (X : Type) := Ok (x : X) | Err | Panic.
Arguments Ok {X} x. Arguments Err {X}. Arguments Panic {X}.

(** Python's [None] returned by a method that falls off its end. *)
Inductive pyval (X : Type) := Value (x : X) | PyNone.
Arguments Value {X} x. Arguments PyNone {X}.

Section Model.
Context (N : NumOps).
Notation T := (carrier N).
Notation leaf := (leaf N nat).
Notation NB := (NB N nat).

(** A NumPy matrix: shape, flat buffer in row-major order, and the C-contiguity flag. *)
Record mat := { m_rows : nat; m_cols : nat; m_data : list T; m_contig : bool }.

(** [slice::chunks_exact(n)]; n > 0 at every call (the matrix is non-empty). *)
Fixpoint chunks (n k : nat) (l : list T) : list (list T) :=
  match k with 0 => [] | S k' => firstn n l :: chunks n k' (skipn n l) end.
Definition chunks_exact (n : nat) (l : list T) : list (list T) := chunks n (length l / n) l.

(** [.enumerate().map(|pair| pair.into())], ids starting at [start] (py_kdt.rs:21-26, 66-68). *)
Fixpoint enum_leaves (start : nat) (rows : list (list T)) : list leaf :=
  match rows with
  | [] => []
  | r :: rows' => {| item := start; row_vec := r |} :: enum_leaves (S start) rows'
  end.

(** [X.is_c_contiguous() && !X.is_empty()] *)
Definition usable (X : mat) : bool := m_contig X && negb (m_rows X * m_cols X =? 0).

(** spatial.py:44: the distance names the class accepts. *)
Inductive dname := Dl1 | Dl2 | Dsql2 | Dinf.
(** utils/mod.rs:277-299  new_from_str_informed, for those names *)
Definition new_from_str_informed (simd : list T -> list T -> T) (n : dname) (dim : nat) : DIST N :=
  match n with
  | Dl1 => L1
  | Dl2 => if dim <? 16 then L2 else L2SIMD simd
  | Dsql2 => if dim <? 16 then SQL2 else SQL2SIMD simd
  | Dinf => LINF
  end.

Record PyKDT := { k_dim : nat; k_sm : SplitMethod; k_d : DIST N; k_tree : kdt N nat }.

(** arkadia/utils.rs:11-19 *)
Definition split_of_bool (balanced : bool) : SplitMethod := if balanced then MEDIAN else MIDPOINT.

(** py_kdt.rs:36-50  PyKDT::new *)
Definition py_new (lib : SplitLib N nat) (simd : list T -> list T -> T) (X : mat) (balanced : bool)
    (distance : dname) : pyres PyKDT :=
  let d := new_from_str_informed simd distance (m_cols X) in
  if usable X then
    match from_leaves_unchecked N nat lib (split_of_bool balanced)
            (enum_leaves 0 (chunks_exact (m_cols X) (m_data X))) with
    | None => Panic
    | Some (dim, t) => Ok {| k_dim := dim; k_sm := split_of_bool balanced; k_d := d; k_tree := t |}
    end
  else Err.

(** py_kdt.rs:52-54  PyKDT::count *)
Definition py_count (s : PyKDT) : pyres nat :=
  match count_all N nat (k_tree s) with Some c => Ok c | None => Panic end.

(** py_kdt.rs:60-77  PyKDT::add *)
Definition py_add (lib : SplitLib N nat) (s : PyKDT) (X : mat) : pyres PyKDT :=
  if usable X then
    if negb (m_cols X =? k_dim s) then Err
    else match count_all N nat (k_tree s) with
         | None => Panic
         | Some cur =>
             match add_all N nat lib (k_sm s) (k_dim s) (suggest_capacity (k_dim s)) (k_tree s)
                     (enum_leaves cur (chunks_exact (m_cols X) (m_data X))) with
             | None => Panic
             | Some t => Ok {| k_dim := k_dim s; k_sm := k_sm s; k_d := k_d s; k_tree := t |}
             end
         end
  else Err.

(** A sequential [.map(f).collect()]; [None] = some call panicked. *)
Fixpoint traverse {X Y} (f : X -> option Y) (xs : list X) : option (list Y) :=
  match xs with
  | [] => Some []
  | x :: xs' =>
      match f x, traverse f xs' with Some y, Some ys => Some (y :: ys) | _, _ => None end
  end.

(** [into_par_iter().map(f).collect_into_vec(..)]: the items are processed in an arbitrary order
    [sched] (by any number of threads; [f] only reads shared data), item [i]'s result being written
    to slot [i] of the output.  [None]: a call panicked, or a slot was never written. *)
Fixpoint par_slots {X Y} (f : X -> option Y) (xs : list X) (sched : list nat)
    (slots : list (option Y)) : option (list (option Y)) :=
  match sched with
  | [] => Some slots
  | i :: sched' =>
      match nth_error xs i with
      | None => None
      | Some x =>
          match f x with
          | None => None
          | Some y =>
              match set_nth slots i (Some y) with
              | None => None
              | Some slots' => par_slots f xs sched' slots'
              end
          end
      end
  end.
Definition par_map {X Y} (sched : list nat) (f : X -> option Y) (xs : list X) : option (list Y) :=
  match par_slots f xs sched (repeat None (length xs)) with
  | None => None
  | Some slots => traverse (fun o => o) slots
  end.

(** [par = None]: [parallel] was false; [par = Some sched]: it was true and rayon ran [sched].
    [big] is the size test guarding the parallel branch. *)
Definition run {X Y} (par : option (list nat)) (big : bool) (f : X -> option Y) (xs : list X)
  : option (list Y) :=
  match par with
  | Some sched => if big then par_map sched f xs else traverse f xs
  | None => traverse f xs
  end.

Definition u32_of (i : nat) : BinNums.N := (BinNat.N.of_nat i mod 2 ^ 32)%N.        (* [id as u32] *)
Definition u32_max : BinNums.N := (2 ^ 32 - 1)%N.

(** py_kdt.rs:96-135: flatten, padding every query to [k] entries with (inf, u32::MAX). *)
Definition pad (k : nat) (nbs : list NB) : list (T * BinNums.N) :=
  map (fun nb => (nb_dist nb, u32_of (nb_item nb))) nbs
  ++ repeat (ninf N, u32_max) (k - length nbs + (length nbs - k)).          (* k.abs_diff(n_found) *)

(** [reshape((nrows, k))] of a flat vector: fails unless the sizes agree. *)
Definition reshape {X} (nrows k : nat) (v : list X) : option (list (list X)) :=
  if length v =? nrows * k then
    Some ((fix go n l := match n with 0 => [] | S n' => firstn k l :: go n' (skipn k l) end) nrows v)
  else None.

(** py_kdt.rs:79-143  PyKDT::knn: (distances, ids) *)
Definition py_knn (s : PyKDT) (X : mat) (k : nat) (epsilon max_dist_bound : T)
    (par : option (list nat)) : pyres (list (list T) * list (list BinNums.N)) :=
  if usable X then
    if (k <? 1) || negb (m_cols X =? k_dim s) then Err
    else
      match run par (16 <=? m_rows X)
              (fun pt => knn_bounded_unchecked N nat (k_dim s) (k_d s) (k_tree s) k pt max_dist_bound epsilon)
              (chunks_exact (m_cols X) (m_data X)) with
      | None => Panic
      | Some neighbors =>
          let flat := flat_map (pad k) neighbors in
          match reshape (m_rows X) k (map fst flat), reshape (m_rows X) k (map snd flat) with
          | Some dm, Some im => Ok (dm, im)
          | _, _ => Err
          end
      end
  else Err.

(** py_kdt.rs: [within(..).unwrap_or(vec![])] *)
Definition within_or_empty (sort_nb : list NB -> list NB) (s : PyKDT) (sort : bool) (pr : list T * T)
  : option (list NB) :=
  match within N nat sort_nb (k_dim s) (k_d s) (k_tree s) (fst pr) (snd pr) sort with
  | None => None
  | Some None => Some []
  | Some (Some nbs) => Some nbs
  end.

(** spatial.py:146-160: radius given as a scalar, or as an array raveled to 1-d *)
Inductive radius := Scalar (r : T) | Vec (rs : list T).

(** py_kdt.rs:145-371  the four PyKDT::within_* methods.  [within_idx_only*] drops the distances of
    the same list.  Scalar and vector radius differ only in the zip with the radii. *)
Definition py_within (sort_nb : list NB -> list NB) (s : PyKDT) (X : mat) (r : radius) (sort : bool)
    (par : option (list nat)) : pyres (list (list (BinNums.N * T))) :=
  if usable X then
    let pts := chunks_exact (m_cols X) (m_data X) in
    let go prs :=
      match run par (16 <? m_rows X) (within_or_empty sort_nb s sort) prs with
      | None => Panic
      | Some outs => Ok (map (map (fun nb => (u32_of (nb_item nb), nb_dist nb))) outs)
      end in
    match r with
    | Scalar r => go (map (fun p => (p, r)) pts)
    | Vec rs => if negb (length rs =? m_rows X) then Err else go (combine pts rs)
    end
  else Err.
Definition py_within_idx (sort_nb : list NB -> list NB) (s : PyKDT) (X : mat) (r : radius) (sort : bool)
    (par : option (list nat)) : pyres (list (list BinNums.N)) :=
  match py_within sort_nb s X r sort par with
  | Ok outs => Ok (map (map fst) outs) | Err => Err | Panic => Panic
  end.

(** [c as i32] for a u32 counter; the counter itself is summed in u32 (wrapping in release). *)
Definition i32_of_u32 (c : nat) : Z :=
  let u := (Z.of_nat c mod 2 ^ 32)%Z in if (u <? 2 ^ 31)%Z then u else (u - 2 ^ 32)%Z.

(** py_kdt.rs:373-437  PyKDT::within_count, within_count_vec_r *)
Definition py_within_count (s : PyKDT) (X : mat) (r : radius) (par : option (list nat))
  : pyres (list Z) :=
  if usable X then
    let pts := chunks_exact (m_cols X) (m_data X) in
    let one pr := match within_count N nat (k_dim s) (k_d s) (k_tree s) (fst pr) (snd pr) with
                  | None => None
                  | Some None => Some (i32_of_u32 0)
                  | Some (Some c) => Some (i32_of_u32 c)
                  end in
    let go prs := match run par (32 <? m_rows X) one prs with None => Panic | Some o => Ok o end in
    match r with
    | Scalar r => go (map (fun p => (p, r)) pts)
    | Vec rs => if negb (length rs =? m_rows X) then Err else go (combine pts rs)
    end
  else Err.

(** spatial.py:116-162  KDTree.within and 164-192 KDTree.within_count: a raveled array of length 1
    recurses without [return]. *)
Definition kdtree_within (sort_nb : list NB -> list NB) (s : PyKDT) (X : mat) (r : radius) (sort : bool)
    (par : option (list nat)) : pyres (pyval (list (list (BinNums.N * T)))) :=
  match r with
  | Vec [r0] =>
      match py_within sort_nb s X (Scalar r0) sort par with Panic => Panic | Err => Err | Ok _ => Ok PyNone end
  | _ => match py_within sort_nb s X r sort par with Panic => Panic | Err => Err | Ok v => Ok (Value v) end
  end.

Definition kdtree_within_count (s : PyKDT) (X : mat) (r : radius) (par : option (list nat))
  : pyres (pyval (list Z)) :=
  match r with
  | Vec [r0] =>
      match py_within_count s X (Scalar r0) par with Panic => Panic | Err => Err | Ok _ => Ok PyNone end
  | _ => match py_within_count s X r par with Panic => Panic | Err => Err | Ok v => Ok (Value v) end
  end.

(** spatial.py:78-114  KDTree.knn passes [abs(epsilon)] and [abs(max_dist_bound)]. *)
Definition kdtree_knn (s : PyKDT) (X : mat) (k : nat) (epsilon max_dist_bound : T)
    (par : option (list nat)) :=
  py_knn s X k (nabs N epsilon) (nabs N max_dist_bound) par.

(** A tree built from [X0] and then extended by [adds], one [add] call after the other. *)
Definition py_history (lib : SplitLib N nat) (simd : list T -> list T -> T) (balanced : bool)
    (distance : dname) (X0 : mat) (adds : list mat) : pyres PyKDT :=
  fold_left (fun s X => match s with Ok s => py_add lib s X | Err => Err | Panic => Panic end)
            adds (py_new lib simd X0 balanced distance).
End Model.
