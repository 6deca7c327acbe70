From Coq Require Import Bool List Arith NArith ZArith Lia Permutation Reals Lra.
From Verif Require Import Num KdModel KdSpec KdProofs KdSound PyKdModel PyKdSpec PyKdProofs KnnExprModel KnnExprSpec KnnExprProofs KnnExprSem
  PairSums MwProofs RocModel RocProofs EntropyModel EntropySpec.
Import ListNotations.
Open Scope nat_scope.

Section E.
Context (N : NumOps) (laws : NumLaws N).
Notation T := (carrier N).
Hypothesis self_zero : forall x, nfinite N x = true -> nle N (nabs N (nsub N x x)) (nzero N) = true.

(** Columns and rows. *)
Lemma lag_length ts m : length (lag_columns N ts m) = m + 1.
Proof. unfold lag_columns. now rewrite map_length, seq_length. Qed.
Lemma lag_table ts m : table N (length ts + 1 - m) (lag_columns N ts m).
Proof.
  split.
  - intros E. apply (f_equal (@length _)) in E. rewrite lag_length in E. cbn in E. lia.
  - apply Forall_forall. intros c Hc. unfold lag_columns in Hc. apply in_map_iff in Hc. destruct Hc as (i & <- & _).
    unfold shifted, cells. cbn. now rewrite app_nil_r, map_length, seq_length.
Qed.
Lemma nth_map_some (ts : list T) k : nth k (map Some ts) None = nth_error ts k.
Proof. revert k. induction ts as [|a ts IH]; intros [|k]; cbn; auto. Qed.
Lemma firstn_skipn_nth (ts : list T) : forall l i, (i + l <= length ts) ->
  map Some (firstn l (skipn i ts)) = map (fun j => nth_error ts (i + j)) (seq 0 l).
Proof.
  induction l as [|l IH]; intros i L; [reflexivity|].
  destruct (skipn i ts) as [|a s] eqn:E; [apply (f_equal (@length _)) in E; rewrite skipn_length in E; cbn in E; lia|].
  assert (Ea : nth_error ts i = Some a).
  { clear - E. revert ts E. induction i as [|i IHi]; intros [|b ts] E; cbn in *; try discriminate; [congruence|now apply IHi]. }
  assert (Es : skipn (S i) ts = s).
  { clear - E. revert ts E. induction i as [|i IHi]; intros [|b ts] E; cbn in *; try discriminate; [now injection E|]. apply (IHi ts E). }
  cbn [firstn map seq]. rewrite Nat.add_0_r, Ea. f_equal. rewrite <- Es, (IH (S i)) by lia. rewrite <- seq_shift, map_map.
  apply map_ext. intros j. f_equal. lia.
Qed.
Lemma row_prefix ts m l i : (l <= m + 1) -> (i + l <= length ts) -> (i < length ts + 1 - m) ->
  firstn l (row_at N (lag_columns N (map Some ts) m) i) = template N ts l i.
Proof.
  intros L I H. unfold template. assert (Inj : forall a b : list T, map Some a = map Some b -> a = b).
  { induction a as [|x a IHa]; intros [|y b] E; cbn in E; try discriminate; [reflexivity|]. injection E as -> E. f_equal. now apply IHa. }
  apply Inj. rewrite firstn_skipn_nth by exact I. unfold row_at, lag_columns.
  rewrite map_map, (firstn_map_seq _ l (m + 1) 0 L), map_map.
  apply map_ext_in. intros j Hj. apply in_seq in Hj. unfold cell, shifted, cells. cbn [concat]. rewrite app_nil_r, map_length.
  rewrite (nth_indep _ None (nth (0 + j) (map Some ts) None)) by (now rewrite map_length, seq_length).
  rewrite map_nth with (f := fun k => nth (k + j) (map Some ts) None), seq_nth by exact H. rewrite nth_map_some. cbn [Nat.add].
  destruct (nth_error ts (i + j)) eqn:E; [reflexivity|]. apply nth_error_None in E. lia.
Qed.

(** Counting with the tree. *)
Lemma self_dist p acc : all_finite N p -> nle N acc (nzero N) = true -> nle N (nzero N) acc = true ->
  nle N (fold_left (fun a xy => nmax N a (nabs N (nsub N (fst xy) (snd xy)))) (combine p p) acc) (nzero N) = true.
Proof.
  revert acc. induction p as [|x p IH]; intros acc F H1 H2; [exact H1|]. inversion F; subst. cbn [combine fold_left fst snd].
  apply IH; [assumption| |]; unfold nmax; rewrite (le_nan_l N laws _ _ H1), (le_nan_l N laws _ _ (self_zero x H3));
    destruct (nlt N acc (nabs N (nsub N x x))); auto.
  apply (abs_nonneg N laws). exact (le_nan_l N laws _ _ (self_zero x H3)).
Qed.
Lemma counts_ok lib rows r queries d : lib_ok N unit lib -> rows <> [] -> 0 < d ->
  Forall (fun v => length v = d /\ all_finite N v) rows -> Forall (fun v => length v = d /\ all_finite N v) queries ->
  nle N r (nadd N (nzero N) (neps N)) = false ->
  counts N lib rows r queries =
  Some (map (fun q => zlen (filter (fun p => nle N (spec_dist N MLINF p q) r) rows)) queries).
Proof.
  intros LO NE Hd FR FQ Hr. unfold counts.
  assert (FL : Forall (fun l : leaf N unit => length (row_vec l) = d) (map (empty_leaf N) rows)).
  { apply Forall_map. eapply Forall_impl; [|exact FR]. intros v [H _]. exact H. }
  assert (NE' : map (empty_leaf N) rows <> []) by (destruct rows; [congruence|discriminate]).
  destruct (tree_of_ok N laws lib (fun _ _ => nzero N) Dinf d (map (empty_leaf N) rows) LO Hd NE' FL) as (t & E & W & P).
  unfold tree_of in E. destruct (from_leaves_unchecked N unit lib MIDPOINT (map (empty_leaf N) rows)) as [[dim t']|]; [|discriminate].
  injection E as -> ->.
  assert (C : rows_clean N Dinf (map (prA N (A:=unit)) (map (empty_leaf N) rows))).
  { intros _. rewrite map_map. apply Forall_map. eapply Forall_impl; [|exact FR]. intros v [_ H]. cbn. eapply Forall_impl; [|exact H].
    intros x Hx. now apply (finite_nan N laws). }
  induction queries as [|q queries IH]; [reflexivity|]. inversion FQ as [|? ? [Lq Fq] FQ']; subst. cbn [traverse map].
  pose proof (tree_count N laws Dinf (length q) (map (empty_leaf N) rows) t q r W P FL C eq_refl Fq Hr) as TC.
  cbn [to_DIST metric_of] in TC. rewrite TC, (IH FQ').
  do 2 f_equal. unfold zlen. f_equal. rewrite map_map. cbn [prA empty_leaf row_vec item]. now rewrite filter_map_len.
Qed.

Lemma u32_mod a b : u32 (u32 a + b) = u32 (a + b).
Proof. unfold u32. now rewrite Zplus_mod_idemp_l. Qed.
Lemma u32_sum_mod l : u32_sum l = u32 (zsum (fun c => c) l).
Proof.
  unfold u32_sum. assert (G : forall l a, fold_left (fun acc c => u32 (acc + c)) l (u32 a) = u32 (a + zsum (fun c => c) l)).
  { induction l0 as [|c l0 IH]; intros a; cbn; [now rewrite Z.add_0_r|]. rewrite u32_mod, IH. f_equal. fold (zsum (fun c => c) l0). ring. }
  change (zsum (fun c => c) l) with (0 + zsum (fun c => c) l)%Z. rewrite <- (G l 0%Z). reflexivity.
Qed.
Lemma zsum_mapc {A} (g : A -> Z) l : zsum (fun c => c) (map g l) = zsum g l.
Proof. induction l as [|a l IH]; cbn; [reflexivity|]. fold (zsum g l). rewrite <- IH. reflexivity. Qed.

(** The two template families. *)
Section Run.
Variable lib : SplitLib N unit.
Hypothesis LO : lib_ok N unit lib.
Variable order : list (list T) -> list (list T).
Hypothesis Ord : forall l, Permutation (order l) l.
Variables (ts : list T) (m : nat) (r : T).
Hypothesis Fin : all_finite N ts.
Hypothesis M1 : 1 <= m.
Hypothesis Len : 2 * m <= length ts.
Hypothesis Rpos : nle N r (nadd N (nzero N) (neps N)) = false.
Hypothesis Rfin : nfinite N r = true.
Hypothesis Rzero : nle N r (nzero N) = false.
Notation k := (length ts + 1 - m).
Notation cols := (lag_columns N (map Some ts) m).

Lemma template_fin l i : all_finite N (template N ts l i).
Proof.
  clear - Fin.
  unfold template, all_finite in *. rewrite Forall_forall in *. intros x Hx. apply Fin.
  apply firstn_In in Hx || idtac. 
  assert (H : In x (skipn i ts)) by (revert Hx; generalize (skipn i ts); clear; intros u; revert l; induction u as [|a u IH]; intros [|l] H; cbn in *; try tauto; destruct H as [->|H]; [now left|right; eauto]).
  revert H. clear. revert i. induction ts as [|a u IH]; intros [|i] H; cbn in *; auto. right. eauto.
Qed.
Lemma template_len l i : i + l <= length ts -> length (template N ts l i) = l.
Proof. clear. intros H. unfold template. rewrite firstn_length, skipn_length. lia. Qed.
Lemma family l n queries : 0 < l -> 0 < n -> n + l <= length ts + 1 ->
  Permutation queries (map (template N ts l) (seq 0 n)) ->
  exists c, counts N lib (map (template N ts l) (seq 0 n)) r queries = Some c /\
    Permutation c (map (near N ts l n r) (seq 0 n)) /\ (queries = map (template N ts l) (seq 0 n) -> c = map (near N ts l n r) (seq 0 n)).
Proof.
  intros Hl Hn L P.
  assert (F : Forall (fun v => length v = l /\ all_finite N v) (map (template N ts l) (seq 0 n))).
  { apply Forall_map, Forall_forall. intros i Hi. apply in_seq in Hi. split; [apply template_len; lia|apply template_fin]. }
  rewrite (counts_ok lib _ r queries l LO).
  - eexists. split; [reflexivity|].
    assert (E : map (fun q => zlen (filter (fun p => nle N (spec_dist N MLINF p q) r) (map (template N ts l) (seq 0 n)))) (map (template N ts l) (seq 0 n))
      = map (near N ts l n r) (seq 0 n)).
    { rewrite map_map. apply map_ext. intros j. unfold near, close. unfold zlen. now rewrite filter_map_len. }
    split; [rewrite <- E; now apply Permutation_map|]. intros ->. exact E.
  - destruct n; [lia|discriminate].
  - exact Hl.
  - exact F.
  - eapply Forall_perm; [symmetry; exact P|exact F].
  - exact Rpos.
Qed.
Lemma close_self l i : close N ts l r i i = true.
Proof.
  clear - Fin Rfin Rzero self_zero laws.
  unfold close. cbn [spec_dist]. apply (le_trans N laws _ (nzero N)).
  - apply self_dist; [apply template_fin|apply (le_refl N laws), (finite_nan N laws), (zero_finite N laws)..].
  - destruct (le_total N laws (nzero N) r) as [H|H]; [apply (finite_nan N laws), (zero_finite N laws)|now apply (finite_nan N laws)|exact H|congruence].
Qed.
(** Summing the counts and removing the self matches leaves the pairs of distinct templates. *)
Lemma near_matches l n : zsum (near N ts l n r) (seq 0 n) = (matches N ts l n r + Z.of_nat n)%Z.
Proof.
  clear - Fin Rfin Rzero self_zero laws. unfold matches. set (c := close N ts l r).
  assert (E : forall (p : nat * nat -> bool) (u v : list nat), zlen (filter p (list_prod u v)) = zsum (fun i => zsum (fun j => b2z (p (i, j))) v) u).
  { intros p u v. induction u as [|a u IH]; [reflexivity|]. cbn [list_prod]. rewrite filter_app, zlen_app, IH. cbn [zsum fold_right].
    fold (zsum (fun i => zsum (fun j => b2z (p (i, j))) v) u). f_equal. rewrite zlen_filter. clear. induction v as [|b v IH]; cbn; [reflexivity|].
    unfold zsum in *. cbn. rewrite IH. reflexivity. }
  rewrite E. cbn [fst snd].
  assert (S1 : zsum (near N ts l n r) (seq 0 n) = zsum (fun i => zsum (fun j => b2z (c i j)) (seq 0 n)) (seq 0 n)).
  { rewrite (zsum_ext (near N ts l n r) (fun j => zsum (fun i => b2z (c i j)) (seq 0 n))) by (intros j _; unfold near; now rewrite zlen_filter).
    rewrite zsum_swap2. reflexivity. }
  rewrite S1.
  assert (S2 : forall i, In i (seq 0 n) -> zsum (fun j => b2z (c i j)) (seq 0 n) = (zsum (fun j => b2z (negb (Nat.eqb i j) && c i j)) (seq 0 n) + 1)%Z).
  { intros i Hi. assert (Cs : c i i = true) by apply close_self.
    assert (G : forall u, NoDup u -> zsum (fun j => b2z (c i j)) u = (zsum (fun j => b2z (negb (Nat.eqb i j) && c i j)) u + b2z (existsb (Nat.eqb i) u))%Z).
    { induction 1 as [|a u Nu NDu IHu]; [reflexivity|]. unfold zsum in *. cbn [fold_right existsb]. rewrite IHu.
      destruct (Nat.eqb_spec i a) as [->|Ne]; cbn [negb andb orb]; [|destruct (c i a); cbn [b2z]; lia]. rewrite Cs.
      assert (X : existsb (Nat.eqb a) u = false).
      { destruct (existsb (Nat.eqb a) u) eqn:E2; [|reflexivity]. apply existsb_exists in E2. destruct E2 as (y & Hy & E2). apply Nat.eqb_eq in E2. now subst y. }
      rewrite X. cbn [b2z]. lia. }
    rewrite (G _ (seq_NoDup n 0)). f_equal.
    assert (X : existsb (Nat.eqb i) (seq 0 n) = true) by (apply existsb_exists; exists i; split; [exact Hi|apply Nat.eqb_refl]). now rewrite X. }
  rewrite (zsum_ext _ _ _ S2), zsum_add. f_equal. rewrite <- (seq_length n 0) at 2. generalize (seq 0 n). clear. induction l as [|a l IH]; [reflexivity|].
  unfold zsum in *. cbn [fold_right length]. rewrite IH. lia.
Qed.

Lemma the_rows : chunks_exact N (m + 1) (flat_map (row_at N cols) (seq 0 k)) = map (row_at N cols) (seq 0 k).
Proof. rewrite <- (lag_length (map Some ts) m) at 1. apply chunks_table. apply (lag_table (map Some ts) m). Qed.
Lemma short_rows : map (firstn (m + 1 - 1)) (map (row_at N cols) (seq 0 k)) = map (template N ts m) (seq 0 k).
Proof.
  clear - M1 Len. rewrite map_map. apply map_ext_in. intros i Hi. apply in_seq in Hi. replace (m + 1 - 1) with m by lia. apply row_prefix; lia.
Qed.
Lemma long_rows : firstn (k - 1) (map (row_at N cols) (seq 0 k)) = map (template N ts (m + 1)) (seq 0 (k - 1)).
Proof.
  clear - M1 Len. rewrite firstn_map_seq by lia. apply map_ext_in. intros i Hi. apply in_seq in Hi.
  rewrite <- (row_prefix ts m (m + 1) i) by lia. rewrite firstn_all2; [reflexivity|]. rewrite row_at_length, lag_length. lia.
Qed.
Lemma not_degenerate : degenerate N k (m + 1) r = false.
Proof. clear - M1 Len Rfin Rzero. unfold degenerate. rewrite Rzero, Rfin. rewrite (proj2 (Nat.ltb_ge k (m + 1))) by lia. reflexivity. Qed.

Theorem sample_entropy_mod trace : interleaving (all_writes N (length cols) 0 cols) trace ->
  sample_entropy N lib order (map Some ts) m (Some r) trace =
  Ok (Some (u32 (matches N ts m k r + Z.of_nat k) - Z.of_nat k,
            u32 (matches N ts (m + 1) (k - 1) r + Z.of_nat (k - 1)) - Z.of_nat (k - 1))%Z).
Proof.
  intros IL. unfold sample_entropy. pose proof (row_major_ok N _ _ trace (lag_table (map Some ts) m) IL) as E. rewrite map_length in E. rewrite E.
  assert (D0 : length (flat_map (row_at N cols) (seq 0 k)) / length cols = k).
  { rewrite (flat_map_len (row_at N cols) _ (row_at_length N cols)), seq_length || rewrite (flat_map_len (row_at N cols) _ (row_at_length N cols)).
    apply Nat.div_mul. rewrite lag_length. lia. }
  rewrite D0, lag_length, not_degenerate, the_rows, short_rows, long_rows.
  destruct (family m k (order (map (template N ts m) (seq 0 k)))) as (cb & -> & Pb & _); [lia|lia|lia|apply Ord|].
  destruct (family (m + 1) (k - 1) (order (map (template N ts (m + 1)) (seq 0 (k - 1))))) as (ca & -> & Pa & _); [lia|lia|lia|apply Ord|].
  rewrite !u32_sum_mod, (zsum_perm _ _ _ Pb), (zsum_perm _ _ _ Pa), !zsum_mapc, !near_matches. reflexivity.
Qed.
Lemma filter_le {A} (f : A -> bool) u : length (filter f u) <= length u.
Proof. induction u as [|a u IH]; cbn; [lia|]. destruct (f a); cbn; lia. Qed.
Lemma matches_bound l n : (0 <= matches N ts l n r /\ matches N ts l n r + Z.of_nat n <= Z.of_nat n * Z.of_nat n)%Z.
Proof.
  split; [unfold matches, zlen; lia|]. rewrite <- near_matches.
  assert (G : forall u, (zsum (near N ts l n r) u <= Z.of_nat (length u) * Z.of_nat n)%Z).
  { induction u as [|a u IH]; [reflexivity|]. unfold zsum in *. cbn [fold_right length].
    assert (near N ts l n r a <= Z.of_nat n)%Z by (unfold near, zlen; pose proof (filter_le (fun i => close N ts l r i a) (seq 0 n)) as H; rewrite seq_length in H; lia). nia. }
  specialize (G (seq 0 n)). rewrite seq_length in G. exact G.
Qed.
Theorem sample_entropy_ok trace : interleaving (all_writes N (length cols) 0 cols) trace ->
  (Z.of_nat (length ts) < 2 ^ 16)%Z ->
  sample_entropy N lib order (map Some ts) m (Some r) trace = Ok (Some (matches N ts m k r, matches N ts (m + 1) (k - 1) r)).
Proof.
  intros IL B. rewrite (sample_entropy_mod trace IL).
  pose proof (matches_bound m k) as [B1 B2]. pose proof (matches_bound (m + 1) (k - 1)) as [B3 B4].
  assert (H1 : (Z.of_nat k <= Z.of_nat (length ts))%Z) by lia. assert (H2 : (Z.of_nat (k - 1) <= Z.of_nat (length ts))%Z) by lia.
  assert (Q1 : (Z.of_nat k * Z.of_nat k < 2 ^ 32)%Z) by (change (2 ^ 32)%Z with (2 ^ 16 * 2 ^ 16)%Z; nia).
  assert (Q2 : (Z.of_nat (k - 1) * Z.of_nat (k - 1) < 2 ^ 32)%Z) by (change (2 ^ 32)%Z with (2 ^ 16 * 2 ^ 16)%Z; nia).
  rewrite !u32_small by lia. do 3 f_equal; lia.
Qed.
Theorem approx_counts_ok trace : interleaving (all_writes N (length cols) 0 cols) trace ->
  exists cb ca, approx_counts N lib order (map Some ts) m (Some r) trace = Ok (Some (cb, ca)) /\
    Permutation cb (map (near N ts m k r) (seq 0 k)) /\ Permutation ca (map (near N ts (m + 1) (k - 1) r) (seq 0 (k - 1))).
Proof.
  intros IL. unfold approx_counts. pose proof (row_major_ok N _ _ trace (lag_table (map Some ts) m) IL) as E. rewrite map_length in E. rewrite E.
  assert (D0 : length (flat_map (row_at N cols) (seq 0 k)) / length cols = k).
  { rewrite (flat_map_len (row_at N cols) _ (row_at_length N cols)), seq_length || rewrite (flat_map_len (row_at N cols) _ (row_at_length N cols)).
    apply Nat.div_mul. rewrite lag_length. lia. }
  rewrite D0, lag_length, not_degenerate, the_rows, short_rows, long_rows.
  destruct (family m k (order (map (template N ts m) (seq 0 k)))) as (cb & -> & Pb & _); [lia|lia|lia|apply Ord|].
  destruct (family (m + 1) (k - 1) (order (map (template N ts (m + 1)) (seq 0 (k - 1))))) as (ca & -> & Pa & _); [lia|lia|lia|apply Ord|].
  eauto.
Qed.
End Run.

(** A radius that is positive but at most the machine epsilon: every count is lost. *)
Lemma counts_tiny lib rows r queries d : lib_ok N unit lib -> rows <> [] -> 0 < d ->
  Forall (fun v => length v = d /\ all_finite N v) rows -> nle N r (nadd N (nzero N) (neps N)) = true ->
  counts N lib rows r queries = Some (map (fun _ => 0%Z) queries).
Proof.
  intros LO NE Hd FR Hr. unfold counts.
  assert (FL : Forall (fun l : leaf N unit => length (row_vec l) = d) (map (empty_leaf N) rows)).
  { apply Forall_map. eapply Forall_impl; [|exact FR]. intros v [H _]. exact H. }
  assert (NE' : map (empty_leaf N) rows <> []) by (destruct rows; [congruence|discriminate]).
  destruct (tree_of_ok N laws lib (fun _ _ => nzero N) Dinf d (map (empty_leaf N) rows) LO Hd NE' FL) as (t & E & W & P).
  unfold tree_of in E. destruct (from_leaves_unchecked N unit lib MIDPOINT (map (empty_leaf N) rows)) as [[dim t']|]; [|discriminate].
  induction queries as [|q queries IH]; [reflexivity|]. cbn [traverse map]. rewrite IH. unfold within_count. rewrite Hr. reflexivity.
Qed.
Theorem sample_entropy_tiny lib order ts m r trace : lib_ok N unit lib -> (forall l, Permutation (order l) l) ->
  all_finite N ts -> 1 <= m -> 2 * m <= length ts -> nfinite N r = true -> nle N r (nzero N) = false ->
  nle N r (nadd N (nzero N) (neps N)) = true ->
  interleaving (all_writes N (length (lag_columns N (map Some ts) m)) 0 (lag_columns N (map Some ts) m)) trace ->
  sample_entropy N lib order (map Some ts) m (Some r) trace =
  Ok (Some (- Z.of_nat (length ts + 1 - m), - Z.of_nat (length ts - m)))%Z.
Proof.
  intros LO Ord Fin M1 Len Rfin Rzero Tiny IL. unfold sample_entropy.
  pose proof (row_major_ok N _ _ trace (lag_table (map Some ts) m) IL) as E. rewrite map_length in E. rewrite E.
  assert (D0 : length (flat_map (row_at N (lag_columns N (map Some ts) m)) (seq 0 (length ts + 1 - m))) / length (lag_columns N (map Some ts) m) = length ts + 1 - m).
  { rewrite (flat_map_len (row_at N (lag_columns N (map Some ts) m)) _ (row_at_length N (lag_columns N (map Some ts) m))), seq_length
      || rewrite (flat_map_len (row_at N (lag_columns N (map Some ts) m)) _ (row_at_length N (lag_columns N (map Some ts) m))).
    apply Nat.div_mul. rewrite lag_length. lia. }
  rewrite D0, lag_length, (not_degenerate ts m r M1 Len Rfin Rzero), the_rows, (short_rows ts m M1 Len), (long_rows ts m M1 Len).
  assert (FF : forall l n, n + l <= length ts + 1 -> Forall (fun v => length v = l /\ all_finite N v) (map (template N ts l) (seq 0 n))).
  { intros l n L. apply Forall_map, Forall_forall. intros i Hi. apply in_seq in Hi. split; [apply template_len; lia|now apply template_fin]. }
  assert (NE : forall l n, 0 < n -> map (template N ts l) (seq 0 n) <> []) by (intros l [|n] L; [lia|discriminate]).
  rewrite (counts_tiny lib _ r _ m LO), (counts_tiny lib _ r _ (m + 1) LO); try (apply NE; lia); try (apply FF; lia); try lia; try exact Tiny.
  rewrite !u32_sum_mod, !zsum_mapc.
  assert (Z0 : forall l : list (list T), zsum (fun _ => 0%Z) l = 0%Z) by (induction l as [|a l IH]; [reflexivity|unfold zsum in *; cbn [fold_right]; exact IH]).
  rewrite !Z0. change (u32 0) with 0%Z. do 3 f_equal; lia.
Qed.

(** A constant series: all templates are close. *)
Lemma template_repeat (x : T) n l i : i + l <= n -> template N (repeat x n) l i = repeat x l.
Proof.
  intros H. unfold template. replace n with (i + (l + (n - i - l))) by lia. rewrite repeat_app, skipn_app, repeat_length, skipn_all2 by (rewrite repeat_length; lia).
  rewrite Nat.sub_diag. cbn [app skipn]. rewrite repeat_app, firstn_app, repeat_length, Nat.sub_diag, firstn_O, app_nil_r, firstn_all2; [reflexivity|]. now rewrite repeat_length.
Qed.
Lemma matches_constant x n l k r : nfinite N x = true -> nfinite N r = true -> nle N r (nzero N) = false -> k + l <= n + 1 ->
  matches N (repeat x n) l k r = (Z.of_nat k * Z.of_nat k - Z.of_nat k)%Z.
Proof.
  intros Fx Rfin Rzero H. assert (Fin : all_finite N (repeat x n)) by (apply Forall_forall; intros y Hy; apply repeat_spec in Hy; now subst).
  pose proof (near_matches (repeat x n) r Fin Rfin Rzero l k) as E.
  assert (G : zsum (near N (repeat x n) l k r) (seq 0 k) = (Z.of_nat k * Z.of_nat k)%Z).
  { rewrite (zsum_ext _ (fun _ => Z.of_nat k)).
    - rewrite <- (seq_length k 0) at 2. generalize (seq 0 k). intros u. induction u as [|a u IH]; [reflexivity|]. unfold zsum in *. cbn [fold_right length]. rewrite IH. lia.
    - intros j Hj. apply in_seq in Hj. unfold near. rewrite filter_all.
      + unfold zlen. now rewrite seq_length.
      + intros i Hi. apply in_seq in Hi. unfold close. rewrite !template_repeat by lia.
        pose proof (close_self (repeat x n) r Fin Rfin Rzero l i) as C. unfold close in C. rewrite template_repeat in C by lia. exact C. }
  lia.
Qed.
End E.

(** phi over the reals. *)
Lemma rtotal_acc l : forall a, fold_left Rplus l a = (a + rtotal l)%R.
Proof.
  unfold rtotal. induction l as [|x l IH]; intros a; cbn [fold_left]; [ring|]. rewrite IH, (IH (0 + x)%R). ring.
Qed.
Lemma rtotal_cons x l : rtotal (x :: l) = (x + rtotal l)%R.
Proof. unfold rtotal at 1. cbn [fold_left]. rewrite rtotal_acc. ring. Qed.
Lemma rtotal_perm l l' : Permutation l l' -> rtotal l = rtotal l'.
Proof. induction 1 as [|x l l' _ IH|x y l|l l' l'' _ IH1 _ IH2]; rewrite ?rtotal_cons; lra. Qed.
Lemma rtotal_app l l' : rtotal (l ++ l') = (rtotal l + rtotal l')%R.
Proof. induction l as [|x l IH]; cbn [app]; rewrite ?rtotal_cons, ?IH; unfold rtotal; cbn [fold_left]; try ring. Qed.
Lemma phi_ok l (c : nat -> Z) n : Permutation l (map c (seq 0 n)) -> phi l = phi_spec c n.
Proof.
  intros P. unfold phi, phi_spec. assert (L : length l = n) by (rewrite (Permutation_length P), map_length, seq_length; reflexivity). rewrite L.
  unfold Rdiv. f_equal. rewrite (rtotal_perm _ _ (Permutation_map _ P)), map_map. generalize (/ INR n)%R as w. intros w. clear.
  induction n as [|n IH]; [reflexivity|]. rewrite seq_S, map_app, rtotal_app, IH. cbn [map Nat.add rsum_upto]. rewrite rtotal_cons. unfold rtotal. cbn [fold_left]. ring.
Qed.
