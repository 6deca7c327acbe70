(** Property C116: edit distances, their filters and similar_to_vocab.  Vocabulary: EditSpec.v.
    [rapidfuzz_ok]: what the crate rapidfuzz computes; [par_ok]: rayon's schedules (KnnExprSpec.v). *)
From Coq Require Import String Bool List Arith ZArith Reals Lra Lia.
From Verif Require Import KnnExprModel KnnExprSpec StrSpec StrModel StrProofs StrPropsLemmas EditSpec EditModel EditProofs EditProofs2 EditProofs3.
Import ListNotations.
Open Scope nat_scope.
Open Scope list_scope.

(** The Levenshtein and the Damerau-Levenshtein distance are metrics, at most the longer length. *)
Theorem C116_metrics : forall z, rapidfuzz_ok z -> metric (lev z) /\ metric (dlev z) /\ metric hamming_padded /\
  (forall a b, lev z a b <= Nat.max (length a) (length b)) /\
  (forall a b, length a <= dlev z a b + length b).
Proof.
  intros z OK. exact (conj (lev_metric z OK) (conj (dlev_metric z OK) (conj pad_metric (conj (lev_max z OK) (fun a b => proj1 (dlev_len z OK a b)))))).
Qed.
Print Assumptions C116_metrics.
(** Hamming without padding: null exactly on different lengths, else equal to the padded one. *)
Theorem C116_hamming : forall a b, (hamming a b = None <-> length a <> length b) /\ (forall n, hamming a b = Some n -> hamming_padded a b = n).
Proof. exact (fun a b => conj (ham_none a b) (ham_pad a b)). Qed.
Print Assumptions C116_hamming.
(** How the distances compare. *)
Theorem C116_order : forall z, rapidfuzz_ok z -> forall a b,
  dlev z a b <= osa z a b /\ osa z a b <= lev z a b /\ lev z a b <= hamming_padded a b /\
  lcs_dist z a b <= lev z a b /\ lev z a b <= indel z a b.
Proof.
  intros z OK a b. exact (conj (dlev_le_osa z OK a b) (conj (osa_le_lev z OK a b) (conj (lev_le z OK _ a b (pad_lal a b)) (conj (lcs_lev z OK a b) (lev_indel z OK a b))))).
Qed.
Print Assumptions C116_order.
(** The optimal string alignment distance is symmetric and zero on equal words only, but no metric. *)
Theorem C116_osa : forall z, rapidfuzz_ok z -> (forall a b, osa z a b = 0 <-> a = b) /\ (forall a b, osa z a b = osa z b a).
Proof. exact osa_facts. Qed.
Print Assumptions C116_osa.
Theorem C116_osa_metric_refuted : forall z, rapidfuzz_ok z -> exists a b c, osa z a b = 1 /\ osa z b c = 1 /\ osa z a c = 3.
Proof. intros z OK. exact (ex_intro _ _ (ex_intro _ _ (ex_intro _ _ (osa_ca_abc z OK)))). Qed.
Print Assumptions C116_osa_metric_refuted.
(** All normalised similarities lie in [0, 1], are 1 on equal words only and symmetric. *)
Theorem C116_similarities : forall z, rapidfuzz_ok z ->
  similarity (lev_sim z) /\ similarity (dlev_sim z) /\ similarity (osa_sim z) /\ similarity (lcs_sim z) /\ similarity (fuzz_ratio z).
Proof.
  intros z OK. exact (conj (lev_similarity z OK) (conj (dlev_similarity z OK) (conj (osa_similarity z OK) (conj (lcs_similarity z OK) (fuzz_similarity z OK))))).
Qed.
Print Assumptions C116_similarities.
(** ... in terms of the longest common subword. *)
Theorem C116_lcs : forall z, rapidfuzz_ok z -> forall a b, (a <> [] \/ b <> []) ->
  lcs_sim z a b = (INR (lcs z a b) / INR (Nat.max (length a) (length b)))%R /\
  fuzz_ratio z a b = (2 * INR (lcs z a b) / INR (length a + length b))%R.
Proof. exact lcs_sim_ratio. Qed.
Print Assumptions C116_lcs.
(** filter_by_levenshtein: for every row whether the distance is at most the bound; null where a word is null. *)
Theorem C116_filter_levenshtein : forall z bound c other par, (0 <= bound <= u32_max)%Z -> par_ok par ->
  (length (cells other) = length (cells c) /\ length (cells other) <> 1 \/ exists r, cells other = [Some r]) ->
  exists out, filter_by_levenshtein z bound c other par = Some (Ok out) /\ length out = length (cells c) /\
    forall i a, nth_error (cells c) i = Some a ->
      exists b, (nth_error (cells other) i = Some b \/ cells other = [b]) /\
        nth_error out i = Some (match a, b with Some x, Some y => Some (Z.of_nat (lev z x y) <=? bound)%Z | _, _ => None end).
Proof. exact filter_lev_rows. Qed.
Print Assumptions C116_filter_levenshtein.
(** A negative bound is taken without its sign, so words at a distance pass. *)
Theorem C116_negative_bound_refuted : forall z, rapidfuzz_ok z -> forall bound c other par,
  filter_by_levenshtein z (- bound) c other par = filter_by_levenshtein z bound c other par.
Proof. exact (fun z _ => filter_lev_negative z). Qed.
Print Assumptions C116_negative_bound_refuted.
(** filter_by_hamming: the same for the Hamming distance; different lengths give false. *)
Theorem C116_filter_hamming_partial : forall bound pad c other par, (0 <= bound <= u32_max)%Z -> par_ok par ->
  (length (cells other) = length (cells c) /\ length (cells other) <> 1 \/ exists r, cells other = [Some r]) ->
  exists out, filter_by_hamming bound pad c other par = Some (Ok out) /\ length out = length (cells c) /\
    forall i a, nth_error (cells c) i = Some a ->
      exists b, (nth_error (cells other) i = Some b \/ cells other = [b]) /\
        nth_error out i = Some (match a, b with Some x, Some y => Some (match hamming x y with Some d => (Z.of_nat d <=? bound)%Z | None => false end) | _, _ => None end).
Proof. exact filter_ham_rows. Qed.
Print Assumptions C116_filter_hamming_partial.
(** pad=True has no effect: a word at a padded distance within the bound does not pass. *)
Theorem C116_pad_refuted : exists a b, hamming_padded a b = 1 /\
  filter_by_hamming 1 true [[Some a]] [[Some b]] None = Some (Ok [Some false]) /\
  str_hamming true [[Some a]] [[Some b]] None = Ok [Some 1].
Proof. exists [97]%Z, [97; 98]%Z. repeat split; reflexivity. Qed.
Print Assumptions C116_pad_refuted.
(** similar_to_vocab on a word: "any" and "all" say so, "avg" compares the mean similarity; never null; all implies avg implies any. *)
Theorem C116_vocab : forall (sim : chars -> chars -> R) vocab thr s, vocab <> [] ->
  (row_similar sim vocab thr Any (Some s) = Some true <-> exists w, In w vocab /\ (thr <= sim s w)%R) /\
  (row_similar sim vocab thr All (Some s) = Some true <-> forall w, In w vocab -> (thr <= sim s w)%R) /\
  (row_similar sim vocab thr Avg (Some s) = Some true <-> (thr <= total (map (sim s) vocab) / INR (length vocab))%R) /\
  (forall st, exists b, row_similar sim vocab thr st (Some s) = Some b) /\
  (row_similar sim vocab thr All (Some s) = Some true -> row_similar sim vocab thr Avg (Some s) = Some true) /\
  (row_similar sim vocab thr Avg (Some s) = Some true -> row_similar sim vocab thr Any (Some s) = Some true).
Proof.
  intros sim vocab thr s N. exact (conj (any_row sim vocab thr s) (conj (all_row sim vocab thr s) (conj (avg_row sim vocab thr s)
    (conj (never_null sim vocab thr s) (all_avg_any sim vocab thr s N))))).
Qed.
Print Assumptions C116_vocab.
(** ... for the three metrics, row by row. *)
Theorem C116_vocab_rows : forall z vocab thr st c,
  similar_to_vocab z vocab thr LV st c = Some (map (row_similar (lev_sim z) vocab thr st) c) /\
  similar_to_vocab z vocab thr DLV st c = Some (map (row_similar (dlev_sim z) vocab thr st) c) /\
  similar_to_vocab z vocab thr OSA st c = Some (map (row_similar (osa_sim z) vocab thr st) c).
Proof. exact (fun z vocab thr st c => conj eq_refl (conj eq_refl eq_refl)). Qed.
Print Assumptions C116_vocab_rows.
(** The fourth documented metric raises; a null word is null for "any" and "all", but is compared as similarity 0 for "avg". *)
Theorem C116_vocab_refuted : forall z vocab thr, vocab <> [] -> (0 < thr)%R ->
  (forall st c, similar_to_vocab z vocab thr JW st c = None) /\
  similar_to_vocab z vocab thr LV Any [None] = Some [None] /\ similar_to_vocab z vocab thr LV All [None] = Some [None] /\
  similar_to_vocab z vocab thr LV Avg [None] = Some [Some false].
Proof.
  intros z vocab thr N P. split; [reflexivity|]. destruct (null_any_all (lev_sim z) vocab thr N) as [A B].
  cbn [similar_to_vocab map]. rewrite A, B, null_avg. split; [reflexivity|]. split; [reflexivity|]. unfold geb. destruct (Rle_dec thr 0); [lra|reflexivity].
Qed.
Print Assumptions C116_vocab_refuted.
(** str_lcs_seq: the default (return_sim=True) asks for a function that the plugin does not export; the distance is there. *)
Theorem C116_lcs_missing_refuted : ~ In (lcs_symbol true) lcs_exported /\ In (lcs_symbol false) lcs_exported.
Proof. split; [intros [H|[H|[]]]; discriminate H|now left]. Qed.
Print Assumptions C116_lcs_missing_refuted.

Example C116_case : rapidfuzz_ok some_rapidfuzz /\ lev some_rapidfuzz [107;105;116]%Z [115;105;116;115]%Z = 2.
Proof.
  split; [exact some_rapidfuzz_ok|]. apply Nat.le_antisymm.
  - apply (lev_le _ some_rapidfuzz_ok). apply l_sub, l_keep, l_keep, l_ins, l_nil.
  - assert (L := lev_lal some_rapidfuzz some_rapidfuzz_ok [107;105;116]%Z [115;105;116;115]%Z). revert L. generalize (lev some_rapidfuzz [107;105;116]%Z [115;105;116;115]%Z). intros n L.
    repeat match goal with H : lal _ (_ :: _) _ |- _ => inversion H; clear H; subst | H : lal _ _ (_ :: _) |- _ => inversion H; clear H; subst end; lia.
Qed.
