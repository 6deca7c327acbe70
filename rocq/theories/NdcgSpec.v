(** Specification of (normalised) discounted cumulative gain. *)
From Coq Require Import Reals List Permutation Sorted.
From Verif Require Import WStatsSpec.
Import ListNotations.
Open Scope R_scope.

(** Gain of the item ranked [i] (counting from 1): relevance over log2 (i + 1), only the first [top] ranks counting. *)
Definition gain_weight (top : option nat) (i : nat) : R :=
  match top with
  | Some k => if (i <=? k)%nat then ln 2 / ln (INR (i + 1)) else 0
  | None => ln 2 / ln (INR (i + 1))
  end.
Fixpoint dcg_from (top : option nat) (i : nat) (rels : list R) : R :=
  match rels with [] => 0 | r :: rels' => r * gain_weight top i + dcg_from top (S i) rels' end.
(** Discounted cumulative gain of relevances listed from the first to the last rank. *)
Definition dcg_of (top : option nat) (rels : list R) : R := dcg_from top 1 rels.
Definition descending (l : list R) : Prop := StronglySorted (fun a b => b <= a) l.
(** Total weight of the ranks lo + 1 .. lo + m. *)
Fixpoint weight_sum (top : option nat) (lo m : nat) : R :=
  match m with O => 0 | S m' => gain_weight top (S lo) + weight_sum top (S lo) m' end.
(** Items (relevance, score): those scored above [s], and those scored exactly [s]. *)
Definition above (s : R) (items : list (R * R)) : list (R * R) := filter (fun x => if Rlt_dec s (snd x) then true else false) items.
Definition at_score (s : R) (items : list (R * R)) : list (R * R) := filter (fun x => if Req_EM_T (snd x) s then true else false) items.
(** Items with equal scores share the ranks they occupy: each rank of a tie contributes the average relevance of the
    tie.  [scores] lists the distinct scores. *)
Definition tied_dcg (top : option nat) (items : list (R * R)) (scores : list R) : R :=
  Rsum (map (fun s => mean_of (map fst (at_score s items)) *
                      weight_sum top (length (above s items)) (length (at_score s items))) scores).
Definition distinct_scores (items : list (R * R)) (scores : list R) : Prop :=
  NoDup scores /\ forall s, In s scores <-> In s (map snd items).
(** The rows of group [g]. *)
Definition in_group {row} (group : row -> BinNums.Z) (g : BinNums.Z) (df : list row) : list row :=
  filter (fun r => BinInt.Z.eqb (group r) g) df.
(** What is assumed of the sort by group and column: a permutation that lists every group in descending order of the
    column. *)
Definition sorts_desc {row} (group : row -> BinNums.Z) (sort : (row -> R) -> list row -> list row) : Prop :=
  forall c df, Permutation (sort c df) df /\
    forall g, descending (map c (filter (fun r => BinInt.Z.eqb (group r) g) (sort c df))).
(** [best] is the largest gain any order of the relevances can have. *)
Definition best_gain (top : option nat) (rels : list R) (best : R) : Prop :=
  (exists o, Permutation o rels /\ dcg_of top o = best) /\ forall o, Permutation o rels -> dcg_of top o <= best.
