(** Specification of discrete entropies and of order patterns. *)
From Coq Require Import Reals List Permutation Arith.
From Verif Require Import WStatsSpec MetricSpec.
Import ListNotations.
Open Scope R_scope.

Section E.
Context {A : Type} (dec : forall a b : A, {a = b} + {a <> b}).
(** The share of the rows of [l] that hold [v]. *)
Definition freq (l : list A) (v : A) : R := INR (count_occ dec l v) / INR (length l).
(** Shannon entropy (in nats) of the values of a column. *)
Definition shannon (l : list A) : R := total (fun v => - (freq l v * ln (freq l v))) (nodup dec l).
(** Every value that occurs occurs equally often. *)
Definition uniform (l : list A) : Prop := forall v w, In v l -> In w l -> count_occ dec l v = count_occ dec l w.
End E.

Section C.
Context {A B : Type} (da : forall a b : A, {a = b} + {a <> b}) (db : forall a b : B, {a = b} + {a <> b}).
Definition dpair (p q : A * B) : {p = q} + {p <> q}.
Proof. decide equality. Defined.
(** Conditional entropy of the first on the second component: - sum p(x,y) ln p(x|y). *)
Definition cond_entropy (rows : list (A * B)) : R :=
  total (fun r => - (freq dpair rows r * ln (freq dpair rows r / freq db (map snd rows) (snd r)))) (nodup dpair rows).
(** The second column determines the first. *)
Definition determines (rows : list (A * B)) : Prop := forall x x' y, In (x, y) rows -> In (x', y) rows -> x = x'.
Definition independent (rows : list (A * B)) : Prop :=
  forall x y, freq dpair rows (x, y) = freq da (map fst rows) x * freq db (map snd rows) y.
End C.

(** [p] lists the positions of [w] by increasing value. *)
Definition order_pattern (w : list R) (p : list nat) : Prop :=
  Permutation p (seq 0 (length w)) /\
  forall i j, (i < j < length w)%nat -> nth (nth i p 0%nat) w 0 <= nth (nth j p 0%nat) w 0.
(** No window of [d] consecutive values holds a value twice. *)
Definition tie_free (l : list R) (d : nat) : Prop := forall r, NoDup (firstn d (skipn r l)).
