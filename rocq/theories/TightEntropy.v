(** When sample and approximate entropy answer NaN. *)
From Coq Require Import Bool List Arith ZArith Lia Permutation.
From Verif Require Import Num F64 F64Facts KdModel KdSpec KdProofs PyKdModel PyKdSpec KnnExprModel KnnExprSpec KnnExprProofs EntropyModel EntropySpec EntropyProofs.
Import ListNotations.

Lemma degenerate_data (ts : list (option f64)) m trace :
  interleaving (all_writes f64_ops (length (lag_columns f64_ops ts m)) 0 (lag_columns f64_ops ts m)) trace ->
  exists data, series_to_row_major_slice f64_ops (lag_columns f64_ops ts m) trace = Ok data /\
    length data / length (lag_columns f64_ops ts m) = length ts + 1 - m.
Proof.
  intro IL. rewrite (row_major_ok f64_ops _ _ trace (lag_table f64_ops ts m) IL). eexists. split; [reflexivity|].
  rewrite (flat_map_len (row_at f64_ops _) _ (row_at_length f64_ops _)), ?seq_length.
  apply Nat.div_mul. rewrite lag_length. lia.
Qed.
Lemma entropy_degenerate (lib : SplitLib f64_ops unit) order (ts : list (option f64)) m r trace :
  interleaving (all_writes f64_ops (length (lag_columns f64_ops ts m)) 0 (lag_columns f64_ops ts m)) trace ->
  length ts + 1 - m < m + 1 \/ nle f64_ops r (nzero f64_ops) = true \/ nfinite f64_ops r = false ->
  sample_entropy f64_ops lib order ts m (Some r) trace = Ok None /\
  approx_counts f64_ops lib order ts m (Some r) trace = Ok None.
Proof.
  intros IL H. destruct (degenerate_data ts m trace IL) as (data & E & L).
  assert (D : degenerate f64_ops (length data / length (lag_columns f64_ops ts m)) (length (lag_columns f64_ops ts m)) r = true).
  { rewrite L, lag_length. unfold degenerate. destruct H as [H|[->| ->]]; [|now rewrite orb_true_r|now rewrite orb_true_r].
    apply Nat.ltb_lt in H. now rewrite H. }
  unfold sample_entropy, approx_counts. rewrite E, D. split; reflexivity.
Qed.
Lemma entropy_null_radius (lib : SplitLib f64_ops unit) order (ts : list (option f64)) m trace :
  interleaving (all_writes f64_ops (length (lag_columns f64_ops ts m)) 0 (lag_columns f64_ops ts m)) trace ->
  sample_entropy f64_ops lib order ts m None trace = Ok None.
Proof.
  intro IL. destruct (degenerate_data ts m trace IL) as (data & E & L). unfold sample_entropy. now rewrite E.
Qed.
