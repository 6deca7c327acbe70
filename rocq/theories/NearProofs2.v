(** Proofs for the frequency counts. *)
From Coq Require Import List Bool Arith Permutation Lia.
From Verif Require Import NearSpec NearModel Num KdModel KdSpec KdProofs PyKdModel PyKdSpec PyKdProofs KnnExprModel KnnExprSpec KnnExprProofs KnnExprSem KnnIds.
Import ListNotations.
Open Scope nat_scope.
Open Scope list_scope.

Definition flat {A} (out : list (option (list A))) : list A := flat_map (fun o => match o with Some l => l | None => [] end) out.
Lemma drop_app {A} (a b : list (option A)) : drop_nulls (a ++ b) = drop_nulls a ++ drop_nulls b.
Proof. unfold drop_nulls. apply flat_map_app. Qed.
Lemma drop_some {A} (l : list A) : drop_nulls (map Some l) = l.
Proof. induction l as [|x l IH]; [reflexivity|]. unfold drop_nulls in *. cbn [map flat_map app]. now rewrite IH. Qed.
Lemma drop_explode {A} (out : list (option (list A))) : drop_nulls (explode out) = flat out.
Proof.
  induction out as [|o out IH]; [reflexivity|]. unfold explode, flat in *. cbn [flat_map]. rewrite drop_app, IH. f_equal.
  destruct o as [[|x r]|]; [reflexivity| |reflexivity]. apply drop_some.
Qed.
Section Count.
Context {A : Type} (dec : forall a b : A, {a = b} + {a <> b}).
Definition holds (a : A) (o : option (list A)) : bool := match o with Some l => if in_dec dec a l then true else false | None => false end.
Lemma count_nodup l a : NoDup l -> count_occ dec l a = if in_dec dec a l then 1 else 0.
Proof.
  intros N. destruct (in_dec dec a l) as [I|I]; [|now apply count_occ_not_In].
  assert (H := proj1 (NoDup_count_occ dec l) N a). apply (count_occ_In dec) in I. lia.
Qed.
Lemma count_flat (out : list (option (list A))) a : (forall l, In (Some l) out -> NoDup l) -> count_occ dec (flat out) a = length (filter (holds a) out).
Proof.
  induction out as [|o out IH]; intros N; [reflexivity|]. unfold flat in *. cbn [flat_map filter]. rewrite count_occ_app, IH by (intros l I; apply N; now right).
  destruct o as [l|]; cbn [holds]; [|reflexivity]. rewrite count_nodup by (apply N; now left). destruct (in_dec dec a l); reflexivity.
Qed.
Lemma filter_seq {X} (P : X -> bool) (f : nat -> bool) (out : list X) : (forall i o, nth_error out i = Some o -> P o = f i) ->
  length (filter P out) = length (filter f (seq 0 (length out))).
Proof.
  assert (G : forall out s, (forall i o, nth_error out i = Some o -> P o = f (s + i)) -> length (filter P out) = length (filter f (seq s (length out)))).
  { clear out. induction out as [|o out IH]; intros s H; [reflexivity|]. cbn [filter length seq]. assert (H0 := H 0 o eq_refl). rewrite Nat.add_0_r in H0. rewrite H0.
    assert (E : length (filter P out) = length (filter f (seq (S s) (length out)))) by (apply IH; intros i o' I; rewrite (H (S i) o' I); f_equal; lia).
    destruct (f s); cbn [length]; now rewrite E. }
  intros H. apply (G out 0). exact H.
Qed.
End Count.

Section Rows.
Context (N : NumOps) (LAWS : NumLaws N).
Notation T := (carrier N).
Context {A : Type} (dec : forall a b : A, {a = b} + {a <> b}).

Lemma numbered_nth {X} (l : list X) j a : In (j, a) (numbered l) <-> nth_error l j = Some a.
Proof.
  assert (G : forall l s, In (j, a) (combine (seq s (length l)) l) <-> s <= j /\ nth_error l (j - s) = Some a).
  { clear l. induction l as [|x l IH]; intros s; cbn [length seq combine].
    - split; [easy|]. intros [_ H]. now destruct (j - s).
    - cbn [In]. rewrite IH. split.
      + intros [H|[H1 H2]]; [injection H as -> ->; split; [lia|]; now rewrite Nat.sub_diag|]. split; [lia|]. replace (j - s) with (S (j - S s)) by lia. exact H2.
      + intros [H1 H2]. destruct (Nat.eq_dec s j) as [->|D]; [left; rewrite Nat.sub_diag in H2; cbn in H2; congruence|right]. split; [lia|]. replace (j - s) with (S (j - S s)) in H2 by lia. exact H2. }
  unfold numbered. rewrite G. rewrite Nat.sub_0_r. intuition lia.
Qed.
Lemma numbered_snd {X} (l : list X) : map snd (numbered l) = l.
Proof.
  unfold numbered. assert (G : forall s, map snd (combine (seq s (length l)) l) = l); [|apply G].
  induction l as [|x l IH]; intros s; [reflexivity|]. cbn [length seq combine map snd]. now rewrite IH.
Qed.
Lemma nodup_filter_snd {X Y} (f : X * Y -> bool) l : NoDup (map snd l) -> NoDup (map snd (filter f l)).
Proof.
  induction l as [|x l IH]; intros H; [constructor|]. cbn [map] in H. inversion H as [|? ? H1 H2]; subst. cbn [filter].
  destruct (f x); [|now apply IH]. cbn [map]. constructor; [|now apply IH]. intros I. apply H1. apply in_map_iff in I. destruct I as (y & <- & I). apply filter_In in I. now apply in_map, I.
Qed.
Lemma nodup_filter_fst {X Y} (f : X * Y -> bool) l : NoDup (map fst l) -> NoDup (map fst (filter f l)).
Proof.
  induction l as [|x l IH]; intros H; [constructor|]. cbn [map] in H. inversion H as [|? ? H1 H2]; subst. cbn [filter].
  destruct (f x); [|now apply IH]. cbn [map]. constructor; [|now apply IH]. intros I. apply H1. apply in_map_iff in I. destruct I as (y & <- & I). apply filter_In in I. now apply in_map, I.
Qed.
Lemma idrows_fst (ids : list A) cols : map fst (id_rows N ids cols) = ids.
Proof. unfold id_rows. rewrite map_map. cbn [fst]. apply numbered_snd. Qed.
Lemma brute_fst m (rows : list (A * list T)) q r : map fst (brute_within N A m rows q r) = map fst (filter (fun p => nle N (spec_dist N m (snd p) q) r) rows).
Proof. unfold brute_within. rewrite map_map. reflexivity. Qed.
Lemma brute_nodup m (ids : list A) cols q r : NoDup ids -> NoDup (map fst (brute_within N A m (id_rows N ids cols) q r)).
Proof. intros H. rewrite brute_fst. apply nodup_filter_fst. now rewrite idrows_fst. Qed.
Lemma brute_in m (ids : list A) cols q r j a : NoDup ids -> nth_error ids j = Some a ->
  (In a (map fst (brute_within N A m (id_rows N ids cols) q r)) <-> nle N (spec_dist N m (row_at N cols j) q) r = true).
Proof.
  intros ND J. rewrite brute_fst. split.
  - intros I. apply in_map_iff in I. destruct I as ([a' p] & E & I). cbn [fst] in E. subst a'. apply filter_In in I. destruct I as [I L]. cbn [snd] in L.
    unfold id_rows in I. apply in_map_iff in I. destruct I as ([j' a'] & E & I). cbn [fst snd] in E. injection E as -> <-. apply numbered_nth in I.
    assert (j' = j) by (apply (proj1 (NoDup_nth_error ids) ND); [apply nth_error_Some; congruence|congruence]). now subst.
  - intros L. apply in_map_iff. exists (a, row_at N cols j). split; [reflexivity|]. apply filter_In. split; [|exact L].
    unfold id_rows. apply in_map_iff. exists (j, a). split; [reflexivity|]. now apply numbered_nth.
Qed.
Lemma brute_notin m (ids : list A) cols q r a : ~ In a ids -> ~ In a (map fst (brute_within N A m (id_rows N ids cols) q r)).
Proof. intros H I. apply H. rewrite brute_fst in I. apply in_map_iff in I. destruct I as (x & <- & I). apply filter_In in I. rewrite <- (idrows_fst ids cols). now apply in_map, I. Qed.

(** query_radius_freq_cnt. *)
Lemma radius_freq vc (lib : SplitLib N A) sort_nb simd n ids cols trace h r par :
  value_counts_ok dec vc -> lib_ok N A lib -> sort_nb_ok N sort_nb ->
  table N h cols -> interleaving (all_writes N (length cols) 0 cols) trace ->
  length ids = h -> NoDup ids -> 0 < h -> scalar_metric n (length cols) -> nle N r (nzero N) = false ->
  (n = Dinf -> Forall (fun p => no_nan N (snd p)) (id_rows N ids cols)) -> par_ok par ->
  exists times res, query_radius_freq_cnt N vc lib sort_nb simd n ids cols trace r par = Ok res /\ tally times res /\
    (forall a, ~ In a ids -> times a = 0) /\
    forall j a, nth_error ids j = Some a -> times a = length (filter (fun i =>
      (finite_row N (row_at N cols i) && negb (nle N r (nadd N (nzero N) (neps N)))) && nle N (spec_dist N (metric_of n) (row_at N cols j) (row_at N cols i)) r) (seq 0 h)).
Proof.
  intros VC LO SO TB IL Li ND Hh SM Hr C PO.
  destruct (@radius_expr_ok N LAWS A lib sort_nb simd n ids cols trace h r false par LO SO TB IL Li Hh SM Hr C PO) as (out & E & L & K).
  unfold query_radius_freq_cnt. rewrite E. exists (count_occ dec (flat out)), (vc (flat out)). rewrite drop_explode. split; [reflexivity|]. split; [apply VC|].
  assert (X : forall i o, nth_error out i = Some o -> i < h /\ radius_cell_spec N (metric_of n) (id_rows N ids cols) cols r false i o).
  { intros i o I. assert (i < h) by (rewrite <- L; apply nth_error_Some; congruence). split; [assumption|]. destruct (K i H) as (o' & E' & S). rewrite I in E'. now injection E' as ->. }
  assert (ND' : forall l, In (Some l) out -> NoDup l).
  { intros l I. apply In_nth_error in I. destruct I as [i I]. destruct (X i _ I) as [_ S]. unfold radius_cell_spec in S.
    destruct (finite_row N (row_at N cols i) && _) in S; [|discriminate S]. destruct S as (l' & S & P & _). injection S as ->.
    eapply Permutation_NoDup; [apply Permutation_map, Permutation_sym, P|]. now apply brute_nodup. }
  split.
  - intros a Ha. rewrite count_flat by exact ND'. rewrite (filter_seq (holds dec a) (fun _ => false)).
    + clear. generalize (seq 0 (length out)). induction l; cbn; auto.
    + intros i o I. destruct (X i o I) as [_ S]. unfold radius_cell_spec in S. destruct (finite_row N (row_at N cols i) && _) in S; [|now subst].
      destruct S as (l' & -> & P & _). cbn [holds]. destruct (in_dec dec a (map fst l')) as [J|J]; [|reflexivity]. exfalso.
      apply (brute_notin (metric_of n) ids cols (row_at N cols i) r a Ha). eapply Permutation_in; [apply Permutation_map, P|exact J].
  - intros j a J. rewrite count_flat by exact ND'. rewrite <- L. apply filter_seq. intros i o I. destruct (X i o I) as [_ S]. unfold radius_cell_spec in S.
    destruct (finite_row N (row_at N cols i) && _) in S |- *; [|now subst]. destruct S as (l' & -> & P & _). cbn [holds andb].
    assert (B := brute_in (metric_of n) ids cols (row_at N cols i) r j a ND J).
    destruct (in_dec dec a (map fst l')) as [J'|J'].
    + symmetry. apply B. eapply Permutation_in; [apply Permutation_map, P|exact J'].
    + destruct (nle N (spec_dist N (metric_of n) (row_at N cols j) (row_at N cols i)) r) eqn:D; [|reflexivity]. exfalso. apply J'.
      eapply Permutation_in; [apply Permutation_map, Permutation_sym, P|]. now apply B.
Qed.

(** query_knn_freq_cnt. *)
Lemma nodup_app_l {X} (l m : list X) : NoDup (l ++ m) -> NoDup l.
Proof. induction l as [|x l IH]; intros H; [constructor|]. cbn [app] in H. inversion H as [|? ? D1 D2]; subst. constructor; [intros I; apply D1, in_app_iff; now left|now apply IH]. Qed.
Lemma cands_nodup (ids : list A) dm cols : NoDup ids -> NoDup (map fst (candidates N ids dm cols)).
Proof. intros H. unfold candidates. rewrite map_map. cbn [fst]. apply nodup_filter_snd. now rewrite numbered_snd. Qed.
Lemma knn_freq vc (lib : SplitLib N A) simd n ids dm em cols trace h k eps maxb par :
  value_counts_ok dec vc -> lib_ok N A lib -> table N h cols -> interleaving (all_writes N (length cols) 0 cols) trace ->
  length ids = h -> NoDup ids -> mask_fits h em -> scalar_metric n (length cols) -> 1 <= k ->
  (n = Dinf -> Forall (fun p => no_nan N (snd p)) (candidates N ids dm cols)) -> candidates N ids dm cols <> [] -> par_ok par ->
  exists near res, query_knn_freq_cnt N vc lib simd n ids dm em cols trace k eps maxb par = Ok res /\
    length near = h /\ (forall i o, nth_error near i = Some o -> knn_cell_spec N (metric_of n) (candidates N ids dm cols) em cols k maxb i o) /\
    tally (fun a => length (filter (fun o => holds dec a (option_map (map fst) o)) near)) res.
Proof.
  intros VC LO TB IL Li ND MF SM K1 C NE PO.
  destruct (@knn_expr_ok N LAWS A lib simd n ids dm em cols trace h k eps maxb par LO TB IL Li MF SM K1 C NE PO) as (out & E & L & K).
  exists out, (vc (flat (map (option_map (map fst)) out))). unfold query_knn_freq_cnt. rewrite query_ids_eq, E. cbn. rewrite drop_explode. split; [reflexivity|]. split; [exact L|].
  assert (X : forall i o, nth_error out i = Some o -> knn_cell_spec N (metric_of n) (candidates N ids dm cols) em cols k maxb i o).
  { intros i o I. assert (H : i < h) by (rewrite <- L; apply nth_error_Some; congruence). destruct (K i H) as (o' & E' & S). rewrite I in E'. now injection E' as ->. }
  split; [exact X|].
  assert (ND' : forall l, In (Some l) (map (option_map (map fst)) out) -> NoDup l).
  { intros l I. apply in_map_iff in I. destruct I as ([l'|] & E' & I); [|discriminate E']. injection E' as <-. apply In_nth_error in I. destruct I as [i I].
    assert (S := X i _ I). unfold knn_cell_spec in S. destruct (mask_on em i && _ && _) in S; [|discriminate S]. destruct S as (l & S & (chosen & rest & P & Q & _)). injection S as ->. subst l.
    rewrite map_map. cbn [fst]. assert (D := cands_nodup ids dm cols ND). assert (D' := Permutation_NoDup (Permutation_map fst P) D). rewrite map_app in D'.
    change (map (fun x : A * list T => fst x) chosen) with (map fst chosen) in *. exact (nodup_app_l _ _ D'). }
  destruct (VC (flat (map (option_map (map fst)) out))) as (V1 & V2 & V3). split; [exact V1|]. split; [|exact V3].
  intros a m. rewrite V2, count_flat by exact ND'. assert (Q : length (filter (holds dec a) (map (option_map (map fst)) out)) = length (filter (fun o => holds dec a (option_map (map fst) o)) out)).
  { clear. induction out as [|o out IH]; [reflexivity|]. cbn [map filter]. destruct (holds dec a (option_map (map fst) o)); cbn [length]; now rewrite IH. }
  now rewrite Q.
Qed.

(** Symmetry of the rounded distances of finite points, up to comparison. *)
Lemma ab_sym p q : nfinite N p = true -> nfinite N q = true -> nle N (nabs N (nsub N p q)) (nabs N (nsub N q p)) = true.
Proof.
  intros P Q. assert (Pn := finite_nan N LAWS p P). assert (Qn := finite_nan N LAWS q Q).
  destruct (le_total N LAWS p q Pn Qn) as [H|H].
  - apply (absdiff_lo N LAWS q p q); [exact P|apply (le_refl N LAWS), Qn|exact H].
  - apply (absdiff_hi N LAWS q p q); [exact P|apply (le_refl N LAWS), Qn|exact H].
Qed.
Lemma sq_sym p q : nfinite N p = true -> nfinite N q = true -> nle N (nmul N (nsub N p q) (nsub N p q)) (nmul N (nsub N q p) (nsub N q p)) = true.
Proof.
  intros P Q. assert (Pn := finite_nan N LAWS p P). assert (Qn := finite_nan N LAWS q Q).
  destruct (le_total N LAWS p q Pn Qn) as [H|H].
  - apply (sqdiff_lo N LAWS q p q); [exact P|apply (le_refl N LAWS), Qn|exact H].
  - apply (sqdiff_hi N LAWS q p q); [exact P|apply (le_refl N LAWS), Qn|exact H].
Qed.
Lemma zero_nonnan : nnan N (nzero N) = false.
Proof. apply (finite_nan N LAWS), (zero_finite N LAWS). Qed.
Lemma add_nonneg a b : nle N (nzero N) a = true -> nle N (nzero N) b = true -> nle N (nzero N) (nadd N a b) = true.
Proof.
  intros A0 B0. apply (le_trans N LAWS _ (nadd N (nzero N) (nzero N))); [apply (add_zero N LAWS), (le_refl N LAWS), zero_nonnan|].
  apply (add_mono N LAWS); try assumption; apply (le_refl N LAWS), zero_nonnan.
Qed.
Lemma sum_sym (f : T -> T -> T) : (forall p q, nfinite N p = true -> nfinite N q = true -> nle N (f p q) (f q p) = true /\ nle N (nzero N) (f p q) = true) ->
  forall p q, all_finite N p -> all_finite N q -> forall acc acc', nle N (nzero N) acc = true -> nle N acc acc' = true ->
  nle N (nzero N) (fold_left (fun s xy => nadd N s (f (fst xy) (snd xy))) (combine p q) acc) = true /\
  nle N (fold_left (fun s xy => nadd N s (f (fst xy) (snd xy))) (combine p q) acc) (fold_left (fun s xy => nadd N s (f (fst xy) (snd xy))) (combine q p) acc') = true.
Proof.
  intros F. induction p as [|x p IH]; intros [|y q] P Q acc acc' Z H; cbn [combine fold_left]; try (now split).
  inversion P; subst. inversion Q; subst. cbn [fst snd]. destruct (F x y) as [G Z']; try assumption.
  apply IH; try assumption; [apply add_nonneg; assumption|apply (add_mono N LAWS); assumption].
Qed.
Lemma max_sym (f : T -> T -> T) : (forall p q, nfinite N p = true -> nfinite N q = true -> nle N (f p q) (f q p) = true) ->
  forall p q, all_finite N p -> all_finite N q -> forall acc acc', nle N acc acc' = true ->
  nle N (fold_left (fun s xy => nmax N s (f (fst xy) (snd xy))) (combine p q) acc) (fold_left (fun s xy => nmax N s (f (fst xy) (snd xy))) (combine q p) acc') = true.
Proof.
  intros F. induction p as [|x p IH]; intros [|y q] P Q acc acc' H; cbn [combine fold_left]; try assumption.
  inversion P; subst. inversion Q; subst. cbn [fst snd]. apply IH; try assumption.
  assert (G : nle N (f x y) (f y x) = true) by (apply F; assumption).
  destruct (nmax_spec N LAWS acc' (f y x) (le_nan_r N LAWS _ _ H)) as (_ & M1 & M2).
  apply (nmax_lub N LAWS); [exact (le_trans N LAWS _ _ _ H M1)|]. apply (le_trans N LAWS _ _ _ G), M2. exact (le_nan_r N LAWS _ _ G).
Qed.
Lemma dist_sym_le m p q : all_finite N p -> all_finite N q -> nle N (spec_dist N m p q) (spec_dist N m q p) = true.
Proof.
  intros P Q. assert (Z := le_refl N LAWS _ zero_nonnan).
  assert (A1 := fun p q P Q => conj (ab_sym p q P Q) (absdiff_nonneg N LAWS p q (finite_nan N LAWS p P) Q)).
  assert (A2 := fun p q P Q => conj (sq_sym p q P Q) (sqdiff_nonneg N LAWS p q (finite_nan N LAWS p P) Q)).
  destruct m; unfold spec_dist, sum_of; cbn [fst snd].
  all: try exact (proj2 (sum_sym (fun x y => nabs N (nsub N x y)) A1 p q P Q _ _ Z Z)).
  all: try exact (proj2 (sum_sym (fun x y => nmul N (nsub N x y) (nsub N x y)) A2 p q P Q _ _ Z Z)).
  all: try exact (max_sym (fun x y => nabs N (nsub N x y)) (fun p q P Q => ab_sym p q P Q) p q P Q _ _ Z).
  destruct (sum_sym (fun x y => nmul N (nsub N x y) (nsub N x y)) A2 p q P Q _ _ Z Z) as [U V]. now apply (sqrt_mono N LAWS).
Qed.
Lemma dist_sym m p q r : all_finite N p -> all_finite N q -> nle N (spec_dist N m p q) r = nle N (spec_dist N m q p) r.
Proof.
  intros P Q. destruct (nle N (spec_dist N m p q) r) eqn:E; symmetry.
  - exact (le_trans N LAWS _ _ _ (dist_sym_le m q p Q P) E).
  - destruct (nle N (spec_dist N m q p) r) eqn:F; [|reflexivity]. rewrite <- E. symmetry. exact (le_trans N LAWS _ _ _ (dist_sym_le m p q P Q) F).
Qed.
End Rows.
