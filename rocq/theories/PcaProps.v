(** C106: singular values and principal components. *)
From mathcomp Require Import all_ssreflect all_algebra.
From Verif Require Import PcaModel PcaSpec PcaProofs PcaDemo.
Set Implicit Arguments.
Import Order.TTheory GRing.Theory Num.Theory.
Local Open Scope ring_scope.

(** min(rows, features) values, descending, not negative, whose squares add up to the squares of all entries. *)
Theorem C106_values : forall (R : realFieldType) p (L : svd_lib R), svd_ok L -> forall (f : seq (cells R p)) center out,
  singular_values L f center false false = Val out ->
  exists s, [/\ out = [seq Some x | x <- s], size s = minn (size (analysed center f)) p, sorted >=%R s, all (>= 0) s & \sum_(x <- s) x ^+ 2 = energy (analysed center f)].
Proof. exact sv_thm. Qed.
Print Assumptions C106_values.
(** Without nulls, the entries are the deviations from the means. *)
Theorem C106_centering_partial : forall (R : realFieldType) p (L : svd_lib R), svd_ok L -> forall (f : seq (cells R p)) out, full f ->
  singular_values L f true false false = Val out ->
  (forall j, f != [::] -> \sum_(x <- analysed true f) x 0 j = 0) /\
  exists s, out = [seq Some x | x <- s] /\ \sum_(x <- s) x ^+ 2 = energy (moved (mean_rows (complete_rows f)) (complete_rows f)).
Proof. exact center_thm. Qed.
Print Assumptions C106_centering_partial.
(** With nulls they are not: the means are taken before the rows with nulls are dropped. *)
Theorem C106_centering_refuted : exists (f : seq (cells rat_realFieldType 2)) (L : svd_lib rat_realFieldType) s, svd_ok L /\
  singular_values L f true false false = Val [seq Some x | x <- s] /\
  \sum_(x <- s) x ^+ 2 != energy (moved (mean_rows (complete_rows f)) (complete_rows f)).
Proof. exact holed_refuted. Qed.
Print Assumptions C106_centering_refuted.
(** as_ratio: shares of the sum. *)
Theorem C106_ratio : forall (R : realFieldType) p (L : svd_lib R), svd_ok L -> forall (f : seq (cells R p)) center s,
  singular_values L f center false false = Val [seq Some x | x <- s] -> energy (analysed center f) != 0 ->
  exists q, [/\ singular_values L f center false true = Val [seq Some x | x <- q], q = [seq x / \sum_(y <- s) y | x <- s], \sum_(x <- q) x = 1, all (fun x => 0 <= x <= 1) q & sorted >=%R q].
Proof. exact ratio_thm. Qed.
Print Assumptions C106_ratio.
(** Both flags: shares of the variance. *)
Theorem C106_variance_ratio : forall (R : realFieldType) p (L : svd_lib R), svd_ok L -> forall (f : seq (cells R p)) center s,
  singular_values L f center false false = Val [seq Some x | x <- s] -> energy (analysed center f) != 0 -> (1 < size s)%N ->
  exists q, [/\ singular_values L f center true true = Val [seq Some x | x <- q], q = [seq x ^+ 2 / energy (analysed center f) | x <- s], \sum_(x <- q) x = 1, all (fun x => 0 <= x <= 1) q & sorted >=%R q].
Proof. exact both_thm. Qed.
Print Assumptions C106_variance_ratio.
(** as_explained_var divides by the number of values minus one, and fails when there is one value. *)
Theorem C106_explained : forall (R : realFieldType) p (L : svd_lib R), forall (f : seq (cells R p)) center s,
  singular_values L f center false false = Val [seq Some x | x <- s] ->
  singular_values L f center true false = Val (if size s == 1%N then [:: None] else [seq Some (x ^+ 2 / ((size s)%:R - 1)) | x <- s]).
Proof. exact explained_thm. Qed.
Print Assumptions C106_explained.
(** That is the number of rows minus one, as documented, when there are no more rows than features... *)
Theorem C106_explained_partial : forall (R : realFieldType) p (L : svd_lib R), svd_ok L -> forall (f : seq (cells R p)) out, full f ->
  (1 < size f)%N -> (size f <= p)%N -> singular_values L f true true false = Val out ->
  exists s, singular_values L f true false false = Val [seq Some x | x <- s] /\ out = [seq Some (x ^+ 2 / ((size f)%:R - 1)) | x <- s] /\
    \sum_(x <- s) x ^+ 2 / ((size f)%:R - 1) = total_variance (complete_rows f).
Proof. exact explained_right. Qed.
Print Assumptions C106_explained_partial.
(** ... and otherwise the explained variances exceed the total variance. *)
Theorem C106_explained_refuted : forall (R : realFieldType) p (L : svd_lib R), svd_ok L -> forall (f : seq (cells R p)) out, full f ->
  (1 < p)%N -> (p < size f)%N -> total_variance (complete_rows f) != 0 -> singular_values L f true true false = Val out ->
  exists q, out = [seq Some x | x <- q] /\ total_variance (complete_rows f) < \sum_(x <- q) x.
Proof. exact explained_wrong. Qed.
Print Assumptions C106_explained_refuted.
(** pca: orthonormal directions; the i-th has spread s_i^2, the largest among the directions orthogonal to the earlier
    ones; coordinates along different directions are uncorrelated. *)
Theorem C106_pca : forall (R : realFieldType) p (L : svd_lib R), svd_ok L -> forall (f : seq (cells R p)) center out,
  pca L f center = Val out -> let l := analysed center f in
  exists (s : 'I_p -> R) (v : 'I_p -> 'cV[R]_p), [/\ out = [seq (s i, v i) | i : 'I_p <- enum 'I_p],
    (forall i j, inner (v i) (v j) = (i == j)%:R), (forall i, 0 <= s i) & (forall i j : 'I_p, (i <= j)%N -> s j <= s i)] /\
  [/\ (forall i, spread l (v i) = s i ^+ 2), (forall i j, i != j -> \sum_(x <- l) along x (v i) * along x (v j) = 0) &
    (forall (i : 'I_p) w, inner w w = 1 -> (forall j : 'I_p, (j < i)%N -> inner w (v j) = 0) -> spread l w <= s i ^+ 2)].
Proof. exact pca_thm. Qed.
Print Assumptions C106_pca.
(** Fewer complete rows than features panic. *)
Theorem C106_few_rows_refuted : forall (R : realFieldType) p (L : svd_lib R) (f : seq (cells R p)) center,
  (size (analysed center f) < p)%N -> pca L f center = Panic.
Proof. exact pca_panics. Qed.
Print Assumptions C106_few_rows_refuted.
(** principal_components: the coordinates of every row along the first k directions of pca. *)
Theorem C106_components : forall (R : realFieldType) p (L : svd_lib R) (f : seq (cells R p)) k center out,
  full f -> (0 < k <= p)%N -> pca L f center = Val out ->
  principal_components L f k%:Z center = Val [seq [seq Some (along x d.2) | x <- analysed center f] | d <- take k out].
Proof. exact pc_thm. Qed.
Print Assumptions C106_components.
(** NaN in every row when there are fewer rows than k; k out of range and nulls are refused; otherwise fewer rows than features panic. *)
Theorem C106_components_other : forall (R : realFieldType) p (L : svd_lib R) (f : seq (cells R p)) center,
  (forall k, full f -> (0 < k <= p)%N -> (size f < k)%N -> principal_components L f k%:Z center = Val (nseq k (nseq (size f) None))) /\
  (forall k, k <= 0 \/ p%:Z < k -> principal_components L f k center = ValueError) /\
  (forall k r j, r \in f -> r j = None -> (0 < k <= p)%N -> principal_components L f k%:Z center = ComputeError) /\
  (forall k, full f -> (0 < k <= p)%N -> (k <= size f)%N -> (size f < p)%N -> principal_components L f k%:Z center = Panic).
Proof. exact (fun R p L f c => conj (fun k => @pc_short R p L f k c) (conj (fun k => @pc_refused R p L f k c) (conj (fun k r j => @pc_null R p L f k c r j) (fun k => @pc_panics R p L f k c)))). Qed.
Print Assumptions C106_components_other.

Example C106_case : forall c, svd_ok demo /\ full square /\ size square = 4%N /\ energy (analysed c square) = 8%:R /\ total_variance (complete_rows square) = 8%:R / 3%:R /\
  singular_values demo square c false false = Val [:: Some 2%:R; Some 2%:R] /\
  exists out, pca demo square c = Val out.
Proof. exact square_case. Qed.
