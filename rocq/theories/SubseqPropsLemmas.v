From Coq Require Import Reals List Arith Lra Lia Psatz Permutation.
From Verif Require Import WStatsSpec WStatsModel WStatsProofs MetricSpec MetricProofs LagProofs LagPropsLemmas KnnExprModel KnnExprProofs SubseqSpec SubseqModel SubseqProofs.
Import ListNotations.
Open Scope R_scope.

Lemma min_var_pos : 0 < min_var.
Proof. unfold min_var. apply Rinv_0_lt_compat. lra. Qed.
Lemma skipn_map {A B} (f : A -> B) l : forall i, skipn i (map f l) = map f (skipn i l).
Proof. induction l as [|a l IH]; intros [|i]; cbn; auto. Qed.
Lemma window_map f l w i : window (map f l) w i = map f (window l w i).
Proof. unfold window. now rewrite skipn_map, firstn_map. Qed.
Lemma window_len l w i : (i + w <= length l)%nat -> length (window l w i) = w.
Proof. intro H. unfold window. rewrite firstn_length, skipn_length. lia. Qed.
Lemma nonempty_len {A} (l : list A) : (1 <= length l)%nat -> l <> [].
Proof. intros H ->. cbn in H. lia. Qed.
Lemma zscore_affine s t q : 0 < s -> q <> [] -> 0 < var_of q -> zscore (map (fun x => s * x + t) q) = zscore q.
Proof.
  intros S N V. unfold zscore. rewrite map_map, mean_affine by exact N. rewrite var_affine by exact N.
  apply map_ext. intro x. rewrite sqrt_mult, sqrt_pow2; [|lra|nra|lra].
  assert (0 < sqrt (var_of q)) by (apply sqrt_lt_R0; lra). field. lra.
Qed.
Lemma znormed_affine s t q : 0 < s -> q <> [] -> znormed_query (map (fun x => s * x + t) q) = znormed_query q.
Proof.
  intros S N. unfold znormed_query. rewrite (var_affine s t q N). destruct (Req_EM_T (var_of q) 0) as [E|E].
  - rewrite E, Rmult_0_r. destruct (Req_EM_T 0 0); [easy|lra].
  - destruct (Req_EM_T (s ^ 2 * var_of q) 0) as [E'|E']; [exfalso; apply Rmult_integral in E'; destruct E' as [E'|E']; [nra|easy]|].
    f_equal. rewrite map_map, mean_affine by exact N. apply map_ext. intro x. destruct (Rle_lt_dec 0 (var_of q)) as [V|V].
    + rewrite sqrt_mult, sqrt_pow2; [|lra|nra|lra]. assert (0 < sqrt (var_of q)) by (apply sqrt_lt_R0; lra). field. lra.
    + exfalso. unfold var_of in V. destruct q as [|a [|b q]]; [easy| |].
      * apply E. unfold var_of. cbn. replace (1 - 1) with 0 by ring. unfold Rdiv. rewrite Rinv_0. ring.
      * assert (G : 0 <= Rsum (map (fun a0 => (a0 - mean_of (a :: b :: q)) ^ 2) (a :: b :: q))).
        { generalize (mean_of (a :: b :: q)). intro m. generalize (a :: b :: q). induction l as [|y l IH]; cbn [map Rsum]; [lra|]. pose proof (pow2_ge_0 (y - m)). lra. }
        assert (P : 0 < INR (length (a :: b :: q)) - 1) by (cbn [length]; rewrite !S_INR; pose proof (pos_INR (length q)); lra).
        apply (Rmult_lt_compat_r _ _ _ P) in V. unfold Rdiv in V. rewrite Rmult_assoc, Rinv_l in V by lra. lra.
Qed.
Lemma affine_series s t (q l : list R) thr par : (2 <= length q <= length l)%nat -> (forall n, par = Some n -> (1 <= n)%nat) -> 0 < s ->
  (forall i, (i + length q <= length l)%nat -> min_var <= var_of (window l (length q) i) /\ min_var <= s ^ 2 * var_of (window l (length q) i)) ->
  query_similar_count q (map Some (map (fun x => s * x + t) l)) thr Sqzl2 par = query_similar_count q (map Some l) thr Sqzl2 par.
Proof.
  intros [Q L] T S V. rewrite !zl2_count by (rewrite ?map_length; try assumption; lia). rewrite map_length. f_equal. apply filter_ext_len. intros i I. apply in_seq in I.
  unfold test. destruct (znormed_query q); [|easy]. rewrite window_map. destruct (V i ltac:(lia)) as [V1 V2]. rewrite znorm_affine; try assumption; [easy|]. apply nonempty_len. rewrite window_len; lia.
Qed.
Lemma affine_query s t (q l : list R) thr par : (2 <= length q <= length l)%nat -> (forall n, par = Some n -> (1 <= n)%nat) -> 0 < s ->
  query_similar_count (map (fun x => s * x + t) q) (map Some l) thr Sqzl2 par = query_similar_count q (map Some l) thr Sqzl2 par.
Proof.
  intros [Q L] T S. rewrite !zl2_count by (rewrite ?map_length; try assumption; lia). rewrite map_length, znormed_affine; [easy|assumption|]. apply nonempty_len. lia.
Qed.
Lemma sqdist_self a : sqdist a a = 0.
Proof. unfold sqdist, total. induction a as [|x a IH]; [easy|]. cbn [combine map fst snd]. change ((x - x) ^ 2 + Rsum (map (fun p => (fst p - snd p) ^ 2) (combine a a)) = 0). rewrite IH. ring. Qed.
Lemma planted_dist s t q : 0 < s -> q <> [] -> min_var <= var_of q -> min_var <= s ^ 2 * var_of q -> sqdist (zscore q) (znorm (map (fun x => s * x + t) q)) = 0.
Proof.
  intros S N V1 V2. rewrite znorm_affine by assumption. unfold znorm, zscore. rewrite Rmax_left by lra. apply sqdist_self.
Qed.
Lemma planted s t (q l : list R) thr par i : (2 <= length q <= length l)%nat -> (forall n, par = Some n -> (1 <= n)%nat) -> 0 < s -> 0 < thr ->
  (i + length q <= length l)%nat -> window l (length q) i = map (fun x => s * x + t) q -> min_var <= var_of q -> min_var <= s ^ 2 * var_of q ->
  exists n, query_similar_count q (map Some l) thr Sqzl2 par = Count n /\ (1 <= n)%nat.
Proof.
  intros [Q L] T S TH I W V1 V2. destruct (zl2_thm q l thr par) as [n [E [idx [ND [LN H]]]]]; try assumption; [pose proof min_var_pos; lra|]. exists n. split; [exact E|].
  assert (J : In i idx). { apply H. split; [exact I|]. rewrite W, planted_dist; try assumption. apply nonempty_len. lia. }
  destruct idx; [easy|]. cbn in LN. lia.
Qed.
Lemma counts_le l w good n : counts_windows l w good n -> (w <= length l)%nat -> (n <= length l - w + 1)%nat.
Proof.
  intros [idx [ND [LN H]]] W. rewrite <- LN. rewrite <- (seq_length (length l - w + 1) 0). apply NoDup_incl_length; [exact ND|]. intros i I. apply H in I. apply in_seq. lia.
Qed.
Lemma counts_fun l w good n n' : counts_windows l w good n -> counts_windows l w good n' -> n = n'.
Proof.
  intros [a [N1 [L1 H1]]] [b [N2 [L2 H2]]]. rewrite <- L1, <- L2. apply Permutation_length, NoDup_Permutation; [assumption..|]. intro i. now rewrite H1, H2.
Qed.
Lemma filter_length_le' {A} (f : A -> bool) l : (length (filter f l) <= length l)%nat.
Proof. induction l as [|a l IH]; cbn; [lia|]. destruct (f a); cbn; lia. Qed.
Lemma ratio_range (q l : list R) thr m par : (2 <= length q <= length l)%nat -> (forall n, par = Some n -> (1 <= n)%nat) ->
  exists n, query_similar_count q (map Some l) thr m par = Count n /\ query_similar_ratio q (map Some l) thr m par = Some (INR n / INR (length l - length q + 1)) /\
    0 <= INR n / INR (length l - length q + 1) <= 1.
Proof.
  intros [Q L] T. assert (exists n, query_similar_count q (map Some l) thr m par = Count n /\ (n <= length l - length q + 1)%nat) as [n [E LE]].
  { destruct m.
    - destruct (l2_thm q l thr par Q L) as [n [E C]]. exists n. split; [exact E|]. exact (counts_le _ _ _ _ C L).
    - rewrite zl2_count by (try assumption; lia). eexists. split; [reflexivity|]. etransitivity; [apply (filter_length_le' (test (znormed_query q) l (length q) thr))|]. rewrite seq_length. lia. }
  exists n. split; [exact E|]. unfold query_similar_ratio. rewrite E, map_length. split.
  - do 3 f_equal. rewrite plus_INR, minus_INR by lia. cbn. ring.
  - apply le_INR in LE. assert (0 < INR (length l - length q + 1)) by (apply lt_0_INR; lia). pose proof (pos_INR n). split.
    + apply Rmult_le_pos; [lra|]. left. now apply Rinv_0_lt_compat.
    + apply Rmult_le_reg_r with (INR (length l - length q + 1)); [easy|]. unfold Rdiv. rewrite Rmult_assoc, Rinv_l; lra.
Qed.
Lemma constant_refuted : exists q : list R, (2 <= length q)%nat /\ forall thr par, (forall n, par = Some n -> (1 <= n)%nat) ->
  query_similar_count q (map Some q) thr Sqzl2 par = Count 0 /\ (0 < thr -> query_similar_count q (map Some q) thr Sql2 par = Count 1).
Proof.
  exists [1; 1]. split; [cbn; lia|]. intros thr par T. split.
  - rewrite zl2_count by (try assumption; cbn; lia). unfold test, znormed_query. destruct (Req_EM_T (var_of [1; 1]) 0) as [E|E]; [reflexivity|]. exfalso. apply E. unfold var_of, mean_of. cbn. field.
  - intro TH. destruct (l2_thm [1; 1] [1; 1] thr par) as [n [E C]]; [cbn; lia..|]. rewrite E. f_equal. eapply counts_fun; [exact C|]. exists [0%nat]. split; [repeat constructor; easy|]. split; [easy|].
    intro i. cbn [length]. split.
    + intros [<-|[]]. split; [lia|]. change (window [1; 1] 2 0) with [1; 1]. now rewrite sqdist_self.
    + intros [I _]. left. lia.
Qed.
Lemma longer_query (q l : list R) thr : (length l + 1 < length q)%nat -> (2 <= length q)%nat ->
  query_similar_count q (map Some l) thr Sqzl2 None = Count 0 /\ (forall n, query_similar_count q (map Some l) thr Sqzl2 (Some n) = Panics) /\ (forall par, query_similar_count q (map Some l) thr Sql2 par = Raises).
Proof.
  intros L Q. repeat split.
  - unfold query_similar_count, subseq_zl2. destruct (Nat.leb_spec (length q) 1); [lia|]. rewrite cont_some. unfold slice_windows. now replace (length l + 1 - length q)%nat with 0%nat by lia.
  - intro n. unfold query_similar_count, subseq_zl2. destruct (Nat.leb_spec (length q) 1); [lia|]. rewrite cont_some. destruct (Nat.ltb_spec (length l + 1) (length q)); [easy|lia].
  - intro par. apply l2_short; lia.
Qed.
Lemma null_target (q : list R) (x : rcol) thr m par : (2 <= length q)%nat -> In None x -> query_similar_count q x thr m par = Panics.
Proof.
  intros Q I. unfold query_similar_count. destruct (Nat.leb_spec (length q) 1); [lia|]. destruct m; unfold subseq_l2, subseq_zl2; now rewrite (cont_null x I).
Qed.
Lemma short_query (q : list R) (x : rcol) thr m par : (length q <= 1)%nat -> query_similar_count q x thr m par = Raises.
Proof. intro Q. unfold query_similar_count. destruct (Nat.leb_spec (length q) 1); [easy|lia]. Qed.
Lemma subseq_case : min_var <= var_of [1; 3] /\ 0 < var_of [1; 3] /\ window [5; 4; 8; 0] 2 1 = map (fun x => 2 * x + 2) [1; 3] /\ min_var <= 2 ^ 2 * var_of [1; 3] /\
  (forall i, (i + 2 <= length [1; 4; 1])%nat -> min_var <= var_of (window [1; 4; 1] 2 i) /\ min_var <= 2 ^ 2 * var_of (window [1; 4; 1] 2 i)).
Proof.
  assert (M : min_var <= 1). { unfold min_var. rewrite <- Rinv_1. apply Rinv_le_contravar; lra. }
  assert (V : var_of [1; 3] = 2) by (unfold var_of, mean_of; cbn; field). rewrite V. repeat split; try lra.
  - unfold window. cbn. repeat f_equal; ring.
  - destruct i as [|[|i]]; cbn in H; [| |lia]; unfold window, var_of, mean_of; cbn; lra.
  - destruct i as [|[|i]]; cbn in H; [| |lia]; unfold window, var_of, mean_of; cbn; lra.
Qed.
