(** Model of query_entropy, query_cond_entropy and query_permute_entropy, in exact real arithmetic. *)
From Coq Require Import Reals List ZArith Permutation.
From Verif Require Import WStatsSpec WStatsModel LagSpec LagModel.
Import ListNotations.
Open Scope R_scope.

(** Polars' [Expr.entropy(base, normalize)] on a column of counts. *)
Definition pl_entropy (base : R) (normalize : bool) (counts : list nat) : R :=
  let pk := map INR counts in
  let s := Rsum pk in
  let pk := if normalize then map (fun p => p / s) pk else pk in
  - Rsum (map (fun p => p * (ln p / ln base)) pk).
(** Oracle for [unique_counts] and the counts of [value_counts]: one count per different value (null included), in
    an order that is not specified. *)
Definition counts_ok {A} (dec : forall a b : A, {a = b} + {a <> b}) (uc : list A -> list nat) : Prop :=
  forall l, Permutation (uc l) (map (count_occ dec l) (nodup dec l)).
(** Oracle for a [group_by] of whole rows with [len()]: one row per different key, in any order. *)
Definition groups_ok {A} (dec : forall a b : A, {a = b} + {a <> b}) (gb : list A -> list (A * nat)) : Prop :=
  forall l, Permutation (gb l) (map (fun v => (v, count_occ dec l v)) (nodup dec l)).
(** ts_features.py 484-497 query_entropy. *)
Definition query_entropy {A} (uc : list A -> list nat) (x : list A) (base : R) (normalize : bool) : R :=
  pl_entropy base normalize (uc x).
(** src/num_ext/cond_entropy.rs 4-30 pl_conditional_entropy: [cnt.sum().over(y) / cnt.sum()] and [cnt / cnt.sum()]. *)
Definition pl_conditional_entropy {A B} (db : forall a b : B, {a = b} + {a <> b}) (gb : list (A * B) -> list ((A * B) * nat)) (rows : list (A * B)) : R :=
  let g := gb rows in
  let cnt (r : (A * B) * nat) := INR (snd r) in
  let tot := Rsum (map cnt g) in
  let py r := Rsum (map cnt (filter (fun r' => if db (snd (fst r')) (snd (fst r)) then true else false) g)) / tot in
  let pxy r := cnt r / tot in
  -1 * Rsum (map (fun r => ln (pxy r / py r) * pxy r) g).

(** [pl.concat_list]: row i holds the i-th cells of the columns. *)
Definition concat_list (cols : list rcol) : list rcol :=
  match cols with [] => [] | c :: _ => map (fun i => map (fun c => get c i) cols) (seq 0 (length c)) end.
(** [gather_every(tau)]: rows 0, tau, 2 tau, ... *)
Definition gather_every (tau : nat) (c : rcol) : rcol := map (fun r => get c (r * tau)) (seq 0 ((length c + tau - 1) / tau)).
(** [head(k)] / [slice(0, k)] with a u32 length: a negative difference has wrapped around. *)
Definition head_u32 {A} (k : Z) (l : list A) : list A := firstn (Z.to_nat (Z.min (k mod 2 ^ 32) (Z.of_nat (length l)))) l.
(** ts_features.py 734-780 query_permute_entropy: the embedded windows ([None]: ValueError). *)
Definition windows (t : rcol) (tau n_dims : nat) : option (list rcol) :=
  let n := Z.of_nat (length t) in
  if (n_dims <=? 1)%nat then None
  else if (tau <? 1)%nat then None
  else if (tau =? 1)%nat then
    Some (head_u32 (n - Z.of_nat n_dims + 1) (concat_list (t :: map (fun i => shift_up i t) (seq 1 (n_dims - 1)))))
  else
    Some (head_u32 (n / Z.of_nat tau + 1 - Z.of_nat (n_dims / tau))
           (concat_list (gather_every tau t :: map (fun i => gather_every tau (shift_up i t)) (seq 1 (n_dims - 1))))).
(** [arg_sort()]: positions by increasing value, nulls first; the order of equal values is not specified. *)
Definition nth_opt (w : rcol) (i : nat) : option R := nth i w None.
Definition ole (a b : option R) : Prop := match a, b with None, _ => True | Some _, None => False | Some x, Some y => x <= y end.
Definition argsort_ok (argsort : rcol -> list nat) : Prop :=
  forall w, Permutation (argsort w) (seq 0 (length w)) /\
    forall i j, (i < j < length w)%nat -> ole (nth_opt w (nth i (argsort w) 0%nat)) (nth_opt w (nth j (argsort w) 0%nat)).
Definition query_permute_entropy (argsort : rcol -> list nat) (uc : list (list nat) -> list nat) (t : rcol) (tau n_dims : nat) (base : R) : option R :=
  option_map (fun ws => pl_entropy base true (uc (map argsort ws))) (windows t tau n_dims).
