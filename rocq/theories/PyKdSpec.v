(** Specification vocabulary for the Python-facing KD-tree: matrices as lists of rows, the rows a
    history has inserted, and what a schedule of a parallel loop may be. *)
From Coq Require Import Bool List Arith NArith Permutation.
From Verif Require Import Num KdModel KdSpec PyKdModel.
Import ListNotations.

Section Spec.
Context (N : NumOps).
Notation T := (carrier N).

(** Row [i] of a row-major matrix, and all rows. *)
Definition mat_row (X : mat N) (i : nat) : list T :=
  firstn (m_cols N X) (skipn (i * m_cols N X) (m_data N X)).
Definition mat_rows (X : mat N) : list (list T) := map (mat_row X) (seq 0 (m_rows N X)).

(** A non-empty C-contiguous matrix with [dim] columns. *)
Definition good_mat (dim : nat) (X : mat N) : Prop :=
  m_contig N X = true /\ m_cols N X = dim /\ 0 < dim /\ 0 < m_rows N X /\
  length (m_data N X) = m_rows N X * m_cols N X.

(** All rows inserted by a history, with the ids 0, 1, 2, ... in order of insertion. *)
Definition all_rows (Xs : list (mat N)) : list (list T) := flat_map mat_rows Xs.
Definition indexed {X} (l : list X) : list (nat * X) := combine (seq 0 (length l)) l.
Definition stored (Xs : list (mat N)) : list (nat * list T) := indexed (all_rows Xs).

(** The documented metric of each distance name. *)
Definition metric_of (n : dname) : metric :=
  match n with Dl1 => ML1 | Dl2 => ML2 | Dsql2 => MSQL2 | Dinf => MLINF end.
(** The scalar distance code is used (l2 and sql2 switch to SIMD code at dimension 16). *)
Definition scalar_metric (n : dname) (dim : nat) : Prop := n = Dl1 \/ n = Dinf \/ dim < 16.

(** Data without NaN; required by the balanced (median) split and by the inf metric. *)
Definition clean (balanced : bool) (n : dname) (Xs : list (mat N)) : Prop :=
  balanced = true \/ n = Dinf -> Forall (fun X => no_nan N (m_data N X)) Xs.

(** A schedule processes each of the [n] items once, in any order. *)
Definition sched_ok (n : nat) (par : option (list nat)) : Prop :=
  match par with None => True | Some sched => Permutation sched (seq 0 n) end.

(** The radius of each query row. *)
Definition radii (n : nat) (r : radius N) : list T :=
  match r with Scalar _ r => repeat r n | Vec _ rs => rs end.
End Spec.
