(** Model of python/polars_ds/exprs/metrics.py 660-883 calculate_ndcg in exact real arithmetic.
    Simplifications: relevances, scores and group keys are not null; [sort] is any permutation whose rows are, within
    each group, in descending order of the sort column (Polars' sort is not stable); window and group operations are
    written per group. *)
From Coq Require Import String.
From Coq Require Import Reals List Bool ZArith Arith.
From Verif Require Import WStatsSpec.
Import ListNotations.
Open Scope R_scope.

Section Frame.
Context {row : Type} (columns : list string) (key : string -> row -> Z) (rel score : row -> R).
(** [df.sort([group_col, c], descending=True)] for the sort column [c] (given by its values). *)
Context (sort : (row -> R) -> list row -> list row).

(** metrics.py 773-816 _get_rank_discount_at_k: the discount of rank [i]; [if k:] treats 0 like None. *)
Definition mask (k : option Z) (i : nat) : R :=
  match k with
  | Some z => if Z.eqb z 0 then 1 else if Z.leb (Z.of_nat i) z then 1 else 0
  | None => 1
  end.
Definition log2R (x : R) : R := ln x / ln 2.
Definition discount (k : option Z) (i : nat) : R := 1 / log2R (INR i + 1) * mask k i.
Definition discounts (k : option Z) (n : nat) : list R := map (discount k) (seq 1 n).

Definition of_group (col : string) (g : Z) (l : list row) : list row := filter (fun r => Z.eqb (key col r) g) l.

(** metrics.py 751-771 _get_dcg_score_ignore_ties, one group. *)
Definition dcg_plain (k : option Z) (sorted : list row) : R :=
  Rsum (map (fun p => rel (fst p) * snd p) (combine sorted (discounts k (length sorted)))).

(** metrics.py 818-883 _get_dcg_score_with_ties, one group: [rank(method='min', descending=True)], then per rank the
    last cumulative discount, the sum of the relevances and the number of rows. *)
Definition rank_min (l : list row) (r : row) : nat :=
  S (length (filter (fun x => if Rlt_dec (score r) (score x) then true else false) l)).
Fixpoint cumsum (s : R) (l : list R) : list R := match l with [] => [] | a :: l' => (s + a) :: cumsum (s + a) l' end.
Record block := mkblock { b_rank : nat; b_cum : R; b_rel : R; b_rows : nat }.
Definition block_at (l : list row) (cums : list R) (rho : nat) : block :=
  let sel := filter (fun p => Nat.eqb (rank_min l (fst p)) rho) (combine l cums) in
  mkblock rho (last (map snd sel) 0) (Rsum (map (fun p => rel (fst p)) sel)) (length sel).
Definition blocks (k : option Z) (l : list row) : list block :=
  let cums := cumsum 0 (discounts k (length l)) in
  map (block_at l cums) (filter (fun rho => existsb (fun r => Nat.eqb (rank_min l r) rho) l) (seq 1 (length l))).
(** The discounted relevance of every block: [diff()], [diff(-1)] and the two special cases for the first and the last
    block. *)
Fixpoint block_terms (prev : option R) (bs : list block) : list R :=
  match bs with
  | [] => []
  | b :: bs' =>
      let discount_diff := if Nat.eqb (b_rank b) 1 then b_cum b else match prev with Some c => b_cum b - c | None => 0 end in
      let num_repetitions := match bs' with
                             | b' :: _ => INR (b_rank b) - INR (b_rank b')
                             | [] => -1 * INR (b_rows b)
                             end in
      (b_rel b / num_repetitions * -1 * discount_diff) :: block_terms (Some (b_cum b)) bs'
  end.
Definition dcg_ties (k : option Z) (sorted : list row) : R := Rsum (block_terms None (blocks k sorted)).

Inductive ndcg_result := ColumnNotFound | MeanNdcg (v : option R).
Definition member (c : string) (l : list string) : bool := existsb (String.eqb c) l.
(** The group keys in order of first appearance. *)
Fixpoint nub (l : list Z) : list Z :=
  match l with [] => [] | a :: l' => a :: filter (fun b => negb (Z.eqb a b)) (nub l') end.
(** metrics.py 742-744: the quotient, with NaN (0 / 0) replaced by 0. *)
Definition ratio (d i : R) : R := if Req_EM_T i 0 then 0 else d / i.

(** metrics.py 660-747 calculate_ndcg: rows are grouped by "example_id" and joined on it, whatever [group_col] is. *)
Definition group_ndcg (group_col : string) (k : option Z) (ignore_ties : bool) (df : list row) (g : Z) : R :=
  let by_score := of_group group_col g (sort score df) in
  let by_rel := of_group group_col g (sort rel df) in
  ratio (if ignore_ties then dcg_ties k by_score else dcg_plain k by_score) (dcg_plain k by_rel).
Definition calculate_ndcg (group_col : string) (k : option Z) (ignore_ties : bool) (df : list row) : ndcg_result :=
  if negb (member "example_id" columns) then ColumnNotFound          (* df.group_by("example_id") *)
  else if negb (member group_col columns) then ColumnNotFound        (* df.sort([group_col, ..]) *)
  else if negb (String.eqb group_col "example_id") then ColumnNotFound (* join on 'example_id' *)
  else
    let groups := filter (fun g => negb (Nat.eqb (length (of_group "example_id" g df)) 1)) (nub (map (key "example_id") df)) in
    MeanNdcg (match map (group_ndcg group_col k ignore_ties df) groups with
              | [] => None
              | l => Some (mean_of l)
              end).
End Frame.
