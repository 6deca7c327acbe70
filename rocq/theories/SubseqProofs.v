From Coq Require Import Reals List Arith Lra Lia Psatz Permutation.
From Verif Require Import WStatsSpec WStatsModel WStatsProofs MetricSpec MetricProofs LagProofs LagPropsLemmas KnnExprModel KnnExprProofs SubseqSpec SubseqModel.
Import ListNotations.
Open Scope R_scope.

Lemma cont_some l : cont_slice (map Some l) = Some l.
Proof. induction l as [|a l IH]; cbn; [easy|]. now rewrite IH. Qed.
Lemma cont_null x : In None x -> cont_slice x = None.
Proof. induction x as [|[a|] x IH]; cbn; intro H; [easy| |easy]. destruct H as [H|H]; [easy|]. now rewrite IH. Qed.
Lemma values_some l : values (map Some l) = l.
Proof. induction l as [|a l IH]; [easy|]. change (a :: values (map Some l) = a :: l). now rewrite IH. Qed.
Lemma lt_b_iff a b : lt_b a b = true <-> a < b.
Proof. unfold lt_b. destruct (Rlt_dec a b); split; easy. Qed.
Lemma fold_count {A} (f : A -> bool) l : forall n, fold_left (fun acc w => if f w then acc + 1 else acc)%nat l n = (n + length (filter f l))%nat.
Proof. induction l as [|a l IH]; intro n; cbn; [lia|]. rewrite IH. destruct (f a); cbn; lia. Qed.
Lemma sum_count {A} (f : A -> bool) l : list_sum (map (fun w => if f w then 1 else 0)%nat l) = length (filter f l).
Proof. unfold list_sum. induction l as [|a l IH]; cbn; [easy|]. rewrite IH. destruct (f a); reflexivity. Qed.
Lemma filter_map_len {A B} (f : B -> bool) (g : A -> B) l : length (filter f (map g l)) = length (filter (fun x => f (g x)) l).
Proof. induction l as [|a l IH]; cbn; [easy|]. destruct (f (g a)); cbn; now rewrite IH. Qed.
Lemma filter_ext_len {A} (f g : A -> bool) l : (forall x, In x l -> f x = g x) -> length (filter f l) = length (filter g l).
Proof. induction l as [|a l IH]; intro H; cbn; [easy|]. rewrite (H a) by now left. rewrite <- (filter_ext_in f g l) by auto with datatypes. now destruct (g a). Qed.
Lemma count_filter (l : list R) w (f : nat -> bool) (good : list R -> Prop) : (1 <= w)%nat -> (forall i, (i + w <= length l)%nat -> (f i = true <-> good (window l w i))) ->
  counts_windows l w good (length (filter f (seq 0 (length l + 1 - w)))).
Proof.
  intros W H. exists (filter f (seq 0 (length l + 1 - w))). split; [apply NoDup_filter, seq_NoDup|]. split; [easy|]. intro i. rewrite filter_In, in_seq. split.
  - intros [I F]. split; [lia|]. apply H; [lia|exact F].
  - intros [I G]. split; [lia|]. apply H; assumption.
Qed.
Lemma sqdist_sym a b : sqdist a b = sqdist b a.
Proof.
  unfold sqdist, total. revert b. induction a as [|x a IH]; intros [|y b]; try easy. cbn [combine map fst snd].
  change (Rsum ((x - y) ^ 2 :: map (fun p => (fst p - snd p) ^ 2) (combine a b)) = Rsum ((y - x) ^ 2 :: map (fun p => (fst p - snd p) ^ 2) (combine b a))).
  cbn [Rsum fold_right]. specialize (IH b). unfold Rsum in IH |- *. rewrite IH. ring.
Qed.
Lemma slice_windows_len w l : length (slice_windows w l) = (length l + 1 - w)%nat.
Proof. unfold slice_windows. now rewrite map_length, seq_length. Qed.
Lemma l2_thm (q l : list R) thr par : (2 <= length q)%nat ->
  (length q <= length l)%nat -> exists n, query_similar_count q (map Some l) thr Sql2 par = Count n /\ counts_windows l (length q) (fun v => sqdist v q < thr) n.
Proof.
  intros Q L. unfold query_similar_count, subseq_l2. destruct (Nat.leb_spec (length q) 1); [lia|]. rewrite cont_some. destruct (Nat.ltb_spec (length l) (length q)); [lia|].
  eexists. split; [reflexivity|]. destruct par as [t|].
  - rewrite (sum_count (fun w => lt_b (sqdist q w) thr)). unfold slice_windows. rewrite filter_map_len. apply count_filter; [lia|]. intros i I. rewrite lt_b_iff, sqdist_sym. reflexivity.
  - rewrite (fold_count (fun w => lt_b (sqdist w q) thr)). cbn [plus]. unfold slice_windows. rewrite filter_map_len. apply count_filter; [lia|]. intros i I. now rewrite lt_b_iff.
Qed.
Lemma l2_short (q l : list R) thr par : (2 <= length q)%nat -> (length l < length q)%nat -> query_similar_count q (map Some l) thr Sql2 par = Raises.
Proof. intros Q L. unfold query_similar_count, subseq_l2. destruct (Nat.leb_spec (length q) 1); [easy|]. rewrite cont_some. destruct (Nat.ltb_spec (length l) (length q)); [easy|lia]. Qed.

(** z-normalised. *)
Lemma combine_seq {A} (l : list A) (d : A) : combine (seq 0 (length l)) l = map (fun i => (i, nth i l d)) (seq 0 (length l)).
Proof.
  induction l as [|a l IH]; [easy|]. cbn [length seq combine map nth]. f_equal. rewrite <- seq_shift, map_map.
  assert (G : forall (s : list nat) (m : list A), combine (map S s) m = map (fun p => (S (fst p), snd p)) (combine s m)) by (induction s as [|b s IH']; intros [|x m]; cbn; [easy..|now rewrite IH']).
  rewrite G, IH, map_map. reflexivity.
Qed.
Lemma nth_windows w l i : (i < length l + 1 - w)%nat -> nth i (slice_windows w l) [] = window l w i.
Proof.
  intro H. unfold slice_windows. rewrite (nth_indep _ [] (window l w 0)) by (rewrite map_length, seq_length; exact H). rewrite (map_nth (fun i => firstn w (skipn i l)) _ 0%nat).
  now rewrite seq_nth.
Qed.
Lemma fold_map {A B C} (f : C -> B -> C) (g : A -> B) l : forall c, fold_left f (map g l) c = fold_left (fun c a => f c (g a)) l c.
Proof. induction l as [|a l IH]; intro c; cbn; [easy|apply IH]. Qed.
Lemma fold_ext {A C} (f g : C -> A -> C) l : (forall a c, In a l -> f c a = g c a) -> forall c, fold_left f l c = fold_left g l c.
Proof. induction l as [|a l IH]; intros H c; cbn; [easy|]. rewrite H by now left. apply IH. auto with datatypes. Qed.
Lemma nth_slice {A} (l : list A) a b c i d : slice l a b = Some c -> (i < length c)%nat -> nth i c d = nth (a + i) l d.
Proof.
  unfold slice. destruct (andb _ _); [|easy]. intros E L. injection E as <-. rewrite firstn_length, skipn_length in L.
  assert (F : forall (l : list A) k i, (i < k)%nat -> nth i (firstn k l) d = nth i l d) by (induction l0 as [|x l0 IH]; intros [|k] [|j] H; cbn; auto; try lia; apply IH; lia).
  assert (G : forall (l : list A) k i, nth i (skipn k l) d = nth (k + i) l d) by (induction l0 as [|x l0 IH]; intros [|k] j; cbn; auto; now destruct j).
  now rewrite F, G by lia.
Qed.
Definition test (q : option (list R)) (l : list R) (w : nat) (thr : R) (i : nat) : bool :=
  match q with None => false | Some q => lt_b (sqdist q (znorm (window l w i))) thr end.
Lemma zl2_count (q : list R) (l : list R) thr par : (2 <= length q)%nat -> (length q <= length l + 1)%nat -> (forall t, par = Some t -> (1 <= t)%nat) ->
  query_similar_count q (map Some l) thr Sqzl2 par = Count (length (filter (test (znormed_query q) l (length q) thr) (seq 0 (length l + 1 - length q)))).
Proof.
  intros Q L T. unfold query_similar_count, subseq_zl2. destruct (Nat.leb_spec (length q) 1); [lia|]. rewrite cont_some, values_some. set (w := length q) in *. set (zq := znormed_query q).
  set (similar := fun i v => match zq with Some q0 => lt_b (sqdist q0 (map (fun x => (x - nth i (rolling_mean w l) 0) / sqrt (nth i (rolling_var w l) 0)) v)) thr | None => false end).
  assert (SIM : forall i, (i < length l + 1 - w)%nat -> similar i (nth i (slice_windows w l) []) = test zq l w thr i).
  { intros i I. unfold similar, test. destruct zq; [|easy]. rewrite nth_windows by exact I. unfold znorm. 
    assert (M : nth i (rolling_mean w l) 0 = mean_of (window l w i)).
    { unfold rolling_mean. rewrite (nth_indep _ 0 (mean_of [])) by (rewrite map_length, slice_windows_len; exact I). rewrite map_nth. now rewrite nth_windows. }
    assert (V : nth i (rolling_var w l) 0 = Rmax (var_of (window l w i)) min_var).
    { unfold rolling_var. rewrite (nth_indep _ 0 (Rmax (var_of []) (/ 10 ^ 10))) by (rewrite map_length, slice_windows_len; exact I). rewrite (map_nth (fun v => Rmax (var_of v) (/ 10 ^ 10))). now rewrite nth_windows. }
    now rewrite M, V. }
  destruct par as [t|].
  - destruct (Nat.ltb_spec (length l + 1) w); [lia|]. destruct (split_offsets_cover (length l + 1 - w) t (T t eq_refl)) as [s [ES [_ CV]]]. rewrite ES.
    assert (BD : forall o k, In (o, k) s -> (o + k <= length l + 1 - w)%nat) by (intros o k I; eapply split_offsets_bound; [exact (T t eq_refl)|exact ES|exact I]).
    rewrite <- CV. clear CV ES.
    match goal with |- fold_left ?f s _ = Count ?r => assert (GEN : forall n, fold_left f s (Count n) = Count (n + r)%nat); [|exact (GEN 0%nat)] end.
    induction s as [|[o k] s IH]; intro n; [cbn; f_equal; lia|]. cbn [fold_left map concat fst snd].
    assert (SL : slice (slice_windows w l) o (o + k) = Some (firstn (o + k - o) (skipn o (slice_windows w l)))) by (apply slice_some; rewrite slice_windows_len; specialize (BD o k (or_introl eq_refl)); lia).
    destruct (slice (slice_windows w l) o (o + k)) as [c|] eqn:EC; [|easy]. assert (LC : length c = k).
    { injection SL as ->. rewrite firstn_length, skipn_length, slice_windows_len. specialize (BD o k (or_introl eq_refl)). lia. }
    rewrite (IH (fun o' k' I => BD o' k' (or_intror I))). f_equal. rewrite filter_app, app_length. rewrite (fold_count (fun iw => similar (fst iw + o)%nat (snd iw))). cbn [plus].
    rewrite (combine_seq c []). rewrite filter_map_len. cbn [fst snd]. rewrite LC.
    assert (E : length (filter (fun x => similar (x + o)%nat (nth x c [])) (seq 0 k)) = length (filter (test zq l w thr) (seq o k))); [|lia].
    assert (SQ : seq o k = map (fun i => (i + o)%nat) (seq 0 k)). { clear. revert o. induction k as [|k IH]; intro o; [easy|]. cbn. f_equal. rewrite <- (seq_shift k 0), map_map, (IH (S o)). apply map_ext. intro; lia. }
    rewrite SQ, filter_map_len. apply filter_ext_len. intros i I. apply in_seq in I. rewrite (nth_slice _ _ _ _ i [] EC) by lia. rewrite <- SIM by (specialize (BD o k (or_introl eq_refl)); lia). now rewrite (Nat.add_comm i o).
  - rewrite (fold_count (fun iw => similar (fst iw) (snd iw))). cbn [plus]. f_equal. rewrite (combine_seq _ []). rewrite filter_map_len. cbn [fst snd]. rewrite slice_windows_len. apply filter_ext_len. intros i I. apply in_seq in I. apply SIM. lia.
Qed.
Lemma zl2_thm (q l : list R) thr par : (2 <= length q)%nat -> (length q <= length l)%nat -> (forall t, par = Some t -> (1 <= t)%nat) -> 0 < var_of q ->
  exists n, query_similar_count q (map Some l) thr Sqzl2 par = Count n /\ counts_windows l (length q) (fun v => sqdist (zscore q) (znorm v) < thr) n.
Proof.
  intros Q L T V. rewrite zl2_count by (try assumption; lia). eexists. split; [reflexivity|]. apply count_filter; [lia|]. intros i _. unfold test, znormed_query.
  destruct (Req_EM_T (var_of q) 0); [lra|]. apply lt_b_iff.
Qed.
Lemma mean_map_affine s t l : l <> [] -> mean_of (map (fun x => s * x + t) l) = s * mean_of l + t.
Proof. apply mean_affine. Qed.
Lemma znorm_affine s t w : 0 < s -> w <> [] -> min_var <= var_of w -> min_var <= s ^ 2 * var_of w -> znorm (map (fun x => s * x + t) w) = znorm w.
Proof.
  intros S N V1 V2. unfold znorm. rewrite map_map, mean_affine by exact N. rewrite var_affine by exact N. rewrite !Rmax_left by lra.
  apply map_ext. intro x. rewrite sqrt_mult, sqrt_pow2; [|lra|nra|assert (0 < min_var) by (unfold min_var; apply Rinv_0_lt_compat; lra); lra].
  assert (0 < min_var) by (unfold min_var; apply Rinv_0_lt_compat; lra). assert (0 < sqrt (var_of w)) by (apply sqrt_lt_R0; lra). field. lra.
Qed.
