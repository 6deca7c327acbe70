(** Specification vocabulary for sampling, splitting and partitioning a frame.  From the model only the
    type of a sample size is used. *)
From Coq Require Import String Ascii.
From Coq Require Import Bool List Arith ZArith Reals Permutation.
From Flocq Require Import IEEE754.BinarySingleNaN.
From Verif Require Import Num F64 KdDemo SplitModel.
Import ListNotations.
Open Scope nat_scope.

(** Rows kept in their original order, none repeated. *)
Inductive subseq {A : Type} : list A -> list A -> Prop :=
  | sub_nil : subseq [] []
  | sub_skip a s l : subseq s l -> subseq s (a :: l)
  | sub_take a s l : subseq s l -> subseq (a :: s) (a :: l).

(** Every row goes to exactly one of the two sides; both keep the original order. *)
Inductive merge {A : Type} : list A -> list A -> list A -> Prop :=
  | merge_nil : merge [] [] []
  | merge_left a s t l : merge s t l -> merge (a :: s) t (a :: l)
  | merge_right a s t l : merge s t l -> merge s (a :: t) (a :: l).

(** What is assumed of Polars' [shuffle] on an index column: it yields the same numbers in some order. *)
Definition shuffles (sh : nat -> list nat) : Prop := forall n, Permutation (sh n) (seq 0 n).
Definition group_shuffles {G : Type} (sh : G -> nat -> list nat) : Prop := forall g, shuffles (sh g).
(** What is assumed of [random.randrange(0, m)]. *)
Definition draws (draw : nat -> nat) : Prop := forall m, 0 < m -> draw m < m.

(** Number of rows with a property. *)
Definition count {A : Type} (p : A -> bool) (l : list A) : nat := length (filter p l).

(** [k] of [n] rows is a share [x] of them: [n x] rounded down, up to the rounding of one binary64 product (which
    matters only when [n x] is within 2^-20 of the next integer). *)
Definition share (n k : nat) (x : R) : Prop :=
  k <= n /\ (INR n * x - 1 < INR k <= INR n * x + / 1048576)%R.

(** [m] is the least element of a set. *)
Definition least (P : Z -> Prop) (m : Z) : Prop := P m /\ forall x, P x -> (m <= x)%Z.

(** A frame whose length fits Polars' 32-bit row count. *)
Definition small (n : nat) : Prop := (Z.of_nat n <= 2 ^ 32)%Z.
(** A binary64 number between 0 and 1, both included. *)
Definition ratio_in (v : f64) : Prop := is_finite v = true /\ (0 <= B2R v <= 1)%R.
(** The exact sum of binary64 numbers. *)
Fixpoint rsum (l : list f64) : R := match l with [] => 0%R | v :: l' => (B2R v + rsum l')%R end.

(** Sample sizes that make sense, and those that do not. *)
Definition valid_rate (r : rate) : Prop := match r with Count k => (0 < k)%Z | Frac v => is_finite v = true /\ (0 < B2R v < 1)%R end.
Definition invalid_rate (r : rate) : Prop := match r with Count k => (k <= 0)%Z | Frac v => is_finite v = true /\ (B2R v <= 0 \/ 1 <= B2R v)%R end.
(** [k] of [m] rows, as asked by a sample size. *)
Definition sized (r : rate) (m k : nat) : Prop := match r with Count z => k = Nat.min (Z.to_nat z) m | Frac v => share m k (B2R v) end.

(** The row [a] has control value [c] and segment [b]. *)
Definition seg {A C B : Type} (cdec : forall x y : C, {x = y} + {x <> y}) (bdec : forall x y : B, {x = y} + {x <> y})
    (ctrl : A -> C) (by_ : A -> B) (c : C) (b : B) (a : A) : bool :=
  (if cdec (ctrl a) c then true else false) && (if bdec (by_ a) b then true else false).
(** Equality of three-valued Booleans. *)
Definition eq3 (x y : option bool) : bool :=
  match x, y with None, None => true | Some a, Some b => Bool.eqb a b | _, _ => false end.

(** A character occurs in a string. *)
Fixpoint has (c : ascii) (s : string) : Prop :=
  match s with EmptyString => False | String d s' => d = c \/ has c s' end.
