(** Properties of the Gini coefficient and the multiclass AUC (C84). *)
From Coq Require Import Bool List Arith ZArith QArith Lia.
From Verif Require Import PairSums QSum RocModel RocSpec MultiAucModel MultiAucSpec MultiAucProofs.
Import ListNotations.
Open Scope Z_scope.

(** Restricted, like C25, to rows in which no positive and negative share the largest score. *)
Theorem C84_gini_partial {K} (leb : K -> K -> bool) (TO : total_order leb) rows : zlen rows < 2 ^ 32 -> 0 < npos rows -> 0 < nneg rows -> pure_top leb rows ->
  exists g, query_gini leb (labels rows) (scores rows) = OVal g /\ (g == somers_d leb rows)%Q /\ (-1 <= g <= 1)%Q /\
    ((g == 1)%Q <-> forall p n, In (p, true) rows -> In (n, false) rows -> leb p n = false).
Proof. exact (gini_thm leb TO rows). Qed.
Print Assumptions C84_gini_partial.

Theorem C84_gini_one_class {K} (leb : K -> K -> bool) (TO : total_order leb) rows : zlen rows < 2 ^ 32 ->
  npos rows = 0 \/ 0 < npos rows /\ nneg rows = 0 -> query_gini leb (labels rows) (scores rows) = ONan.
Proof. exact (gini_nan leb TO rows). Qed.
Print Assumptions C84_gini_one_class.

Theorem C84_macro_partial {K} (leb : K -> K -> bool) (TO : total_order leb) n rows : zlen rows < 2 ^ 32 -> (0 < n)%nat -> good_classes leb n rows ->
  exists q, query_multi_roc_auc leb (label_col rows) (score_col n rows) n Macro = OVal q /\
    (q == qmean (map (fun i => rank_probability leb (one_vs_rest i rows)) (seq 0 n)))%Q.
Proof. exact (macro_thm leb TO n rows). Qed.
Print Assumptions C84_macro_partial.

Theorem C84_weighted_partial {K} (leb : K -> K -> bool) (TO : total_order leb) n rows : zlen rows < 2 ^ 32 -> (0 < n)%nat -> good_classes leb n rows ->
  exists q, query_multi_roc_auc leb (label_col rows) (score_col n rows) n Weighted = OVal q /\
    (q == qsum (fun i => inject_Z (rows_of_class i rows) / inject_Z (zlen rows) * rank_probability leb (one_vs_rest i rows)) (seq 0 n))%Q.
Proof. exact (weighted_thm leb TO n rows). Qed.
Print Assumptions C84_weighted_partial.

Definition demo (l : Z) (a b c : Z) : Z * (nat -> Z) := (l, fun i => match i with O => a | S O => b | _ => c end).
Definition demo_rows := [demo 0 7 1 2; demo 1 3 5 2; demo 2 1 2 7; demo 0 2 3 5; demo 2 3 6 1].
Example C84_case : good_classes Z.leb 3 (firstn 4 demo_rows) /\
  match query_multi_roc_auc Z.leb (label_col demo_rows) (score_col 3 demo_rows) 3 Macro with OVal q => Qeq_bool q (23 # 36) | _ => false end = true.
Proof.
  split; [|vm_compute; reflexivity].
  intros i H. destruct i as [|[|[|i]]]; [| | |lia]; (split; [vm_compute; split; reflexivity|right; right; vm_compute; reflexivity]).
Qed.

Theorem C84_absent_class {K} (leb : K -> K -> bool) (TO : total_order leb) n rows i s : zlen rows < 2 ^ 32 -> (i < n)%nat -> rows_of_class i rows = 0 ->
  query_multi_roc_auc leb (label_col rows) (score_col n rows) n s = ONan.
Proof. exact (absent_thm leb TO n rows i s). Qed.
Print Assumptions C84_absent_class.
