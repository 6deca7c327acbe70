(** Property C115: numeric profile, special values and null correlation.  Vocabulary: ProfSpec.v (and [table] of DepSpec.v).
    [sort_key_ok]: what polars' sort guarantees. *)
From Coq Require Import String Bool List Arith ZArith Reals Lra Lia Permutation Sorted.
From Verif Require Import MetricSpec DiaModel DepModel DepSpec DepProofs2 ProfModel ProfSpec ProfProofs ProfProofs2 ProfProofs3 ProfProofs4.
Import ListNotations.
Open Scope string_scope.
Open Scope nat_scope.
Open Scope list_scope.

(** null_corr: one row for every two columns that are both partly null, in the order of the frame, with the phi coefficient of
    their null patterns; sorted by decreasing absolute value; no row twice. *)
Theorem C115_null_corr : forall (V : Type) sort h (f : frame V),
  sort_key_ok (fun r => (- Rabs (snd r))%R) sort -> table h f ->
  StronglySorted (fun r s => (Rabs (snd s) <= Rabs (snd r))%R) (null_corr sort f) /\
  NoDup (map fst (null_corr sort f)) /\
  (forall a b v, In (a, b, v) (null_corr sort f) <->
     exists l x m y r, f = l ++ x :: m ++ y :: r /\ name x = a /\ name y = b /\ partly x /\ partly y /\ v = null_phi x y).
Proof. intros V sort h f S T. exact (conj (corr_sorted sort f S) (conj (corr_names sort h f S T) (corr_rows sort h f S T))). Qed.
Print Assumptions C115_null_corr.
(** What the value says: it is between -1 and 1; 1 for equal null patterns only, -1 for complementary ones only, 0 exactly when
    as many rows have both nulls as independence predicts. *)
Theorem C115_phi : forall (V : Type) (x y : column V), length (vals x) = length (vals y) -> partly x -> partly y ->
  (-1 <= null_phi x y <= 1)%R /\
  (null_phi x y = 1%R <-> map missing (vals x) = map missing (vals y)) /\
  (null_phi x y = (-1)%R <-> map missing (vals x) = map negb (map missing (vals y))) /\
  (null_phi x y = 0%R <-> rows_where true true x y * length (vals x) = how_many missing (vals x) * how_many missing (vals y)).
Proof. intros V x y. exact (phi_meaning x y). Qed.
Print Assumptions C115_phi.
(** numeric_profile histogram: the entries are positive and add up to the number of finite values. *)
Theorem C115_histogram : forall n c, 0 < n ->
  exists h, histogram n c = Some h /\ list_sum h = length (fin_values c) /\ Forall (fun k => 0 < k) h.
Proof. exact hist_total. Qed.
Print Assumptions C115_histogram.
(** Without infinities: the non-zero counts of the n bins between the smallest and the largest value, in order. *)
Theorem C115_bins_partial : forall n c lo hi, 0 < n -> ~ In (Some PInf) c -> ~ In (Some NInf) c ->
  least (fin_values c) lo -> greatest (fin_values c) hi -> (lo < hi)%R ->
  histogram n c = Some (filter (fun k => Nat.ltb 0 k) (map (fun j => how_many (in_bin lo hi n j) (fin_values c)) (seq 0 n))).
Proof. exact hist_bins. Qed.
Print Assumptions C115_bins_partial.
(** An infinite value, or a constant column, puts all finite values into one entry, however many bins are asked for. *)
Theorem C115_one_bin_refuted : (forall n c, 0 < n -> fin_values c <> [] ->
  In (Some PInf) c \/ In (Some NInf) c \/ (exists a, least (fin_values c) a /\ greatest (fin_values c) a) ->
  histogram n c = Some [length (fin_values c)]) /\
  exists c, In (Some PInf) c /\ fin_values c = [0%R; 1%R; 2%R].
Proof.
  split; [intros n c H NE; exact (hist_one c NE n H)|]. exists [Some (Fin 0); Some (Fin 1); Some PInf; Some (Fin 2)]. split; [right; right; now left|reflexivity].
Qed.
Print Assumptions C115_one_bin_refuted.
(** Empty bins leave no entry, so an entry's position does not say which bin it is. *)
Theorem C115_empty_bins_refuted : exists c, histogram 4 c = Some [2; 1] /\ fin_values c = [0%R; 0%R; 1%R].
Proof. exact (ex_intro _ _ (conj sample_empty eq_refl)). Qed.
Print Assumptions C115_empty_bins_refuted.
(** The bins are closed on the left, but a value at the start of the last bin is counted in the bin before. *)
Theorem C115_last_edge_refuted : exists c, histogram 2 c = Some [2; 1] /\ fin_values c = [0%R; (1 / 2)%R; 1%R].
Proof. exact (ex_intro _ _ (conj sample_half eq_refl)). Qed.
Print Assumptions C115_last_edge_refuted.
(** No bins at all: an exception. *)
Theorem C115_no_bins_refuted : forall c, histogram 0 c = None.
Proof. reflexivity. Qed.
Print Assumptions C115_no_bins_refuted.
(** outlier_cnt: for the sorted numbers s of the column, exactly the cells beyond the two fences around the chosen quartiles; at
    most the ranks outside of the quartiles; fewer for a larger multiplier; unchanged by a change of units. *)
Theorem C115_outliers : forall sort k1 k3 m c, sort_key_ok (fun x => x) sort -> let n := length (numbers c) in
  (forall s, Permutation s (numbers c) -> StronglySorted Rle s ->
     exactly (outlier_cnt sort k1 k3 m c) (far (nth (k1 (length s)) s 0%R) (nth (k3 (length s)) s 0%R) m) c) /\
  (k1 n <= k3 n -> k3 n < n -> (0 <= m)%R -> outlier_cnt sort k1 k3 m c <= k1 n + (n - 1 - k3 n)) /\
  (k1 n <= k3 n -> k3 n < n -> forall m', (m <= m')%R -> outlier_cnt sort k1 k3 m' c <= outlier_cnt sort k1 k3 m c) /\
  (forall a b, (0 < a)%R -> (n = 0 \/ k1 n < n /\ k3 n < n) ->
     outlier_cnt sort k1 k3 m (map (option_map (fun x => a * x + b)%R) c) = outlier_cnt sort k1 k3 m c).
Proof.
  intros sort k1 k3 m c S n.
  exact (conj (out_exact sort k1 k3 m c S) (conj (out_bound sort k1 k3 m c S)
    (conj (fun H K m' => out_wider sort k1 k3 m c S m' H K) (fun a b H => out_affine sort k1 k3 m c S a b H)))).
Qed.
Print Assumptions C115_outliers.
(** special_values_report: the three counts, which together with the finite cells are all rows. *)
Theorem C115_special : forall c, exists a b d, special_values c = (a, b, d) /\ a + b + d + how_many is_fin c = length c /\
  exactly a (fun o => o = None) c /\ exactly b (fun o => o = Some NaN) c /\ exactly d (fun o => o = Some PInf \/ o = Some NInf) c.
Proof. intro c. exact (ex_intro _ _ (ex_intro _ _ (ex_intro _ _ (conj eq_refl (special_sum c))))). Qed.
Print Assumptions C115_special.

Definition col_a := Build_column "a" DInt [Some 1; None; None; Some 2].
Definition col_b := Build_column "b" DInt [None; Some 3; Some 3; None].
Example C115_case : table 4 [col_a; Build_column "full" DInt [Some 1; Some 1; Some 1; Some 1]; col_b] /\ partly col_a /\ partly col_b /\
  null_phi col_a col_b = (-1)%R /\
  sort_key_ok (fun r : string * string * R => (- Rabs (snd r))%R) (ksort (fun r => (- Rabs (snd r))%R)) /\
  sort_key_ok (fun x : R => x) (ksort (fun x => x)) /\
  least [3; 1; 2]%R 1 /\ greatest [3; 1; 2]%R 3.
Proof.
  assert (PA : partly col_a) by (split; [exists None; split; [right; now left|reflexivity]|exists (Some 1); split; [now left|reflexivity]]).
  assert (PB : partly col_b) by (split; [exists None; split; [now left|reflexivity]|exists (Some 3); split; [right; now left|reflexivity]]).
  split; [split; [repeat constructor; cbn; intuition discriminate|repeat constructor]|]. split; [exact PA|]. split; [exact PB|].
  split; [apply (phi_meaning col_a col_b eq_refl PA PB); reflexivity|]. split; [apply ksort_ok|]. split; [apply ksort_ok|].
  apply sample_least; [right; now left|now left|repeat constructor; lra].
Qed.
