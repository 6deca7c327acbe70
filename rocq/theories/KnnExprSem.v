(** What the nearest-neighbour expressions return, row by row. *)
From Coq Require Import Bool List Arith Lia Permutation Sorted ZArith NArith.
From Verif Require Import Num KdModel KdSpec KdProofs KdSound KnnUnique PyKdModel PyKdSpec PyKdProofs
  KnnExprModel KnnExprSpec KnnExprProofs.
Import ListNotations.

Section P.
Context (N : NumOps) (laws : NumLaws N).
Notation T := (carrier N).

Lemma chunks_flat (f : nat -> list T) m : (forall i, length (f i) = m) -> forall h s,
  chunks N m h (flat_map f (seq s h)) = map f (seq s h).
Proof.
  intros L. induction h as [|h IH]; intros s; [reflexivity|]. cbn [seq flat_map chunks map].
  rewrite firstn_app, L, Nat.sub_diag, firstn_O, app_nil_r. rewrite <- (L s) at 1. rewrite firstn_all. f_equal.
  rewrite skipn_app, L, Nat.sub_diag. rewrite skipn_all2 by (rewrite L; lia). apply IH.
Qed.
Lemma chunks_table h cols : cols <> [] ->
  chunks_exact N (length cols) (flat_map (row_at N cols) (seq 0 h)) = map (row_at N cols) (seq 0 h).
Proof.
  intros NE. unfold chunks_exact. rewrite (flat_map_len (row_at N cols) _ (row_at_length N cols)).
  rewrite Nat.div_mul by (destruct cols; [congruence|discriminate]).
  apply chunks_flat, row_at_length.
Qed.

Definition prA {A} (l : leaf N A) : A * list T := (item l, row_vec l).
Definition nbA {A} (nb : NB N A) : A * T := (nb_item nb, nb_dist nb).

Lemma tree_of_ok {A} (lib : SplitLib N A) simd n m leaves : lib_ok N A lib -> 0 < m -> leaves <> [] ->
  Forall (fun l => length (row_vec l) = m) leaves ->
  exists t, tree_of N lib simd n m leaves = Some (m, new_from_str_informed N simd n m, t) /\
    twf N A m t /\ Permutation (elems N A t) leaves.
Proof.
  intros LO Hm NE F. destruct leaves as [|l0 ls]; [congruence|].
  unfold tree_of, from_leaves_unchecked. pose proof (Forall_inv F) as L0. cbn beta in L0. rewrite L0.
  destruct (add_all_ok N laws A lib MIDPOINT m (suggest_capacity m) LO Hm (l0 :: ls) (new_empty N A m)
              (new_empty_wf N laws A m) (Forall_nil _)) as (t & E & W & P).
  { eapply Forall_impl; [|exact F]. intros l Hl. split; [exact Hl|exact I]. }
  rewrite E. exists t. split; [reflexivity|]. split; [exact W|]. exact P.
Qed.

Definition rows_clean {A} (n : dname) (rows : list (A * list T)) : Prop :=
  n = Dinf -> Forall (fun p => no_nan N (snd p)) rows.

Lemma good_leaves {A} n m (leaves : list (leaf N A)) t : Forall (fun l => length (row_vec l) = m) leaves ->
  rows_clean n (map prA leaves) -> Permutation (elems N A t) leaves ->
  Forall (good N A (metric_of n) m) (elems N A t).
Proof.
  intros F C P. eapply Forall_perm; [symmetry; exact P|]. rewrite Forall_forall in F |- *.
  intros l Hl. split; [now apply F|]. intros E. assert (n = Dinf) by (destruct n; simpl in E; congruence).
  specialize (C H). rewrite Forall_forall in C. apply (C (prA l)). now apply in_map.
Qed.

Lemma tree_knn {A} n m (leaves : list (leaf N A)) t k q maxb eps :
  twf N A m t -> Permutation (elems N A t) leaves -> Forall (fun l => length (row_vec l) = m) leaves ->
  rows_clean n (map prA leaves) -> length q = m -> all_finite N q -> 0 < k -> nle N (nzero N) eps = true ->
  exists nbs, knn_bounded_unchecked N A m (to_DIST N (metric_of n)) t k q maxb eps = Some nbs /\
    knn_answer N A (metric_of n) (map prA leaves) k q maxb eps (map nbA nbs).
Proof.
  intros W P F C Lq Fq Hk He. pose proof (good_leaves n m leaves t F C P) as G.
  destruct (knn_unchecked_ok N laws A (metric_of n) m k q maxb eps Lq Fq Hk He t W G)
    as (ch & E & S & Len & Mx & rest & P' & Ex).
  set (mm := metric_of n) in *.
  exists (map (mkNB N A (to_DIST N mm) q) ch). split; [exact E|].
  assert (EQ : map nbA (map (mkNB N A (to_DIST N mm) q) ch)
               = map (fun p => (fst p, spec_dist N mm (snd p) q)) (map prA ch)).
  { rewrite !map_map. apply map_ext. intros l. unfold nbA, mkNB, prA. simpl. now rewrite dist_spec. }
  rewrite EQ. exists (map prA ch), (map prA rest).
  split; [rewrite <- map_app, <- (Permutation_map prA P'); symmetry; now apply Permutation_map|].
  split; [reflexivity|]. rewrite map_map. cbn [fst snd].
  split; [|split; [now rewrite map_length|split]].
  - clear - S. unfold sorted_leaves in S. induction S as [|a l S IH F]; simpl; constructor; [exact IH|].
    clear - F. induction F as [|b l Hb F IH]; simpl; constructor; auto. simpl.
    unfold D in Hb. rewrite !dist_spec in Hb. exact Hb.
  - clear - Mx. induction Mx as [|b l Hb F IH]; simpl; constructor; auto. simpl.
    unfold D in Hb. rewrite !dist_spec in Hb. exact Hb.
  - intros p Hp Hx. apply in_map_iff in Hp. destruct Hp as (l & <- & Hl). unfold prA in Hx. cbn [snd] in *.
    rewrite Forall_forall in Ex. specialize (Ex l Hl). unfold excl, D in Ex. rewrite dist_spec in Ex.
    destruct (Ex Hx) as [E1 E2]. rewrite map_length. split; [exact E1|].
    unfold prA. cbn [snd fst]. clear - E2. induction E2 as [|b l0 Hb F IH]; simpl; constructor; auto. simpl.
    rewrite dist_spec in Hb. exact Hb.
Qed.

Lemma dist_nonneg {A} n m (leaves : list (leaf N A)) q p :
  Forall (fun l => length (row_vec l) = m) leaves -> rows_clean n (map prA leaves) ->
  length q = m -> all_finite N q -> In p (map prA leaves) ->
  nnan N (spec_dist N (metric_of n) (snd p) q) = false -> nle N (nzero N) (spec_dist N (metric_of n) (snd p) q) = true.
Proof.
  intros F C Lq Fq Hp Hn. apply in_map_iff in Hp. destruct Hp as (l & <- & Hl). cbn [prA snd] in *.
  assert (G : good N A (metric_of n) m l).
  { rewrite Forall_forall in F. split; [now apply F|]. intros E.
    assert (n = Dinf) by (destruct n; simpl in E; congruence).
    specialize (C H). rewrite Forall_forall in C. apply (C (prA l)). now apply in_map. }
  destruct (D_nonneg N laws A (metric_of n) m q l Lq Fq G) as [H|H];
    unfold D in H; rewrite dist_spec in H; [congruence|exact H].
Qed.

Lemma tree_knn_exact {A} n m (leaves : list (leaf N A)) t k q maxb :
  twf N A m t -> Permutation (elems N A t) leaves -> Forall (fun l => length (row_vec l) = m) leaves ->
  rows_clean n (map prA leaves) -> length q = m -> all_finite N q -> 0 < k ->
  exists nbs, knn_bounded_unchecked N A m (to_DIST N (metric_of n)) t k q maxb (nzero N) = Some nbs /\
    knn_exact N A (metric_of n) (map prA leaves) k q maxb (map nbA nbs).
Proof.
  intros W P F C Lq Fq Hk.
  destruct (tree_knn n m leaves t k q maxb (nzero N) W P F C Lq Fq Hk) as (nbs & E & K).
  { apply (le_refl N laws), (finite_nan N laws), (zero_finite N laws). }
  exists nbs. split; [exact E|]. apply (answer_exact N laws A _ _ _ _ _ (nzero N)); [|reflexivity|exact K].
  intros p Hp Hn. eapply dist_nonneg; eassumption.
Qed.

Lemma tree_within {A} n m (leaves : list (leaf N A)) t (sort_nb : list (NB N A) -> list (NB N A)) q r sort :
  twf N A m t -> Permutation (elems N A t) leaves -> Forall (fun l => length (row_vec l) = m) leaves ->
  rows_clean n (map prA leaves) -> sort_nb_ok N sort_nb -> length q = m -> all_finite N q ->
  nle N r (nadd N (nzero N) (neps N)) = false ->
  exists nbs, within N A sort_nb m (to_DIST N (metric_of n)) t q r sort = Some (Some nbs) /\
    Permutation (map nbA nbs) (brute_within N A (metric_of n) (map prA leaves) q r) /\
    (sort = true -> StronglySorted (fun a b => nle N (snd a) (snd b) = true) (map nbA nbs)).
Proof.
  intros W P F C SO Lq Fq Hr. unfold within. rewrite Hr, (existsb_nonfinite N q Fq). cbn [orb].
  pose proof (good_leaves n m leaves t F C P) as G.
  destruct (within_loop_ok N laws A (metric_of n) m q r Lq Fq (size N A t) [(nminv N, t)] []) as (out & E & P').
  { simpl. lia. }
  { constructor; [|constructor]. now apply root_ok. }
  rewrite E. simpl in P'. rewrite app_nil_r in P'.
  assert (PB : Permutation (map nbA out) (brute_within N A (metric_of n) (map prA leaves) q r)).
  { rewrite (Permutation_map nbA P'). transitivity (brute_within N A (metric_of n) (map prA (elems N A t)) q r).
    - unfold brute_within, hits. clear. induction (elems N A t) as [|l ls IH]; simpl; [constructor|].
      unfold D. rewrite dist_spec. destruct (nle N (spec_dist N (metric_of n) (row_vec l) q) r); simpl; [|exact IH].
      unfold nbA, mkNB at 1. simpl. rewrite dist_spec. now constructor.
    - unfold brute_within. apply Permutation_map, filter_perm, Permutation_map, P. }
  destruct sort.
  - destruct (SO out) as [S1 S2]. exists (sort_nb out). split; [reflexivity|]. split.
    + rewrite (Permutation_map nbA S1). exact PB.
    + intros _. apply SS_map. cbn [nbA snd]. apply S2. eapply Forall_perm; [symmetry; exact P'|].
      apply Forall_forall. intros nb Hnb. apply in_map_iff in Hnb. destruct Hnb as (l & <- & Hl).
      apply filter_In in Hl. destruct Hl as [_ Hl]. exact (le_nan_l N laws _ _ Hl).
  - exists out. split; [reflexivity|]. split; [exact PB|discriminate].
Qed.

Lemma tree_count {A} n m (leaves : list (leaf N A)) t q r :
  twf N A m t -> Permutation (elems N A t) leaves -> Forall (fun l => length (row_vec l) = m) leaves ->
  rows_clean n (map prA leaves) -> length q = m -> all_finite N q ->
  nle N r (nadd N (nzero N) (neps N)) = false ->
  within_count N A m (to_DIST N (metric_of n)) t q r
  = Some (Some (length (filter (fun p => nle N (spec_dist N (metric_of n) (snd p) q) r) (map prA leaves)))).
Proof.
  intros W P F C Lq Fq Hr. unfold within_count. rewrite Hr, (existsb_nonfinite N q Fq). cbn [orb].
  pose proof (good_leaves n m leaves t F C P) as G.
  rewrite (count_within_loop_ok N laws A (metric_of n) m q r Lq Fq (size N A t) [(nminv N, t)] 0).
  2:{ simpl. lia. }
  2:{ constructor; [|constructor]. now apply root_ok. }
  simpl. rewrite app_nil_r. do 2 f_equal. unfold hits.
  rewrite (Permutation_length (filter_perm (fun l => nle N (D N A (metric_of n) q l) r) _ _ P)).
  clear. induction leaves as [|l ls IH]; simpl; [reflexivity|]. unfold D at 1. rewrite dist_spec.
  destruct (nle N (spec_dist N (metric_of n) (row_vec l) q) r); simpl; congruence.
Qed.

(** ** Masks and leaves *)
Lemma kleene_true bs : match kleene_all bs with Some b => b | None => false end
  = forallb (fun b => match b with Some b => b | None => false end) bs.
Proof.
  unfold kleene_all. induction bs as [|[[]|] bs IH]; simpl; try reflexivity; [exact IH|].
  destruct (existsb _ bs); reflexivity.
Qed.
Lemma keep_row_true dm cols i :
  match keep_row N dm cols i with Some b => b | None => false end = mask_on dm i && negb (has_null N cols i).
Proof.
  unfold keep_row. rewrite kleene_true, forallb_app. f_equal.
  - destruct dm; simpl; [apply andb_true_r|reflexivity].
  - unfold has_null. induction cols as [|c cols IH]; simpl; [reflexivity|]. rewrite IH.
    destruct (nth i (cells c) None); reflexivity.
Qed.

Lemma filtered_candidates {A} dm cols (ids : list A) h : cols <> [] -> length ids = h ->
  map prA (leaves_filtered N (flat_map (row_at N cols) (seq 0 h)) (length cols) ids (map (keep_row N dm cols) (seq 0 h)))
  = candidates N ids dm cols.
Proof.
  intros NE L. unfold leaves_filtered, candidates, numbered. rewrite chunks_table by exact NE. rewrite <- L. clear L h.
  generalize 0. induction ids as [|a ids IH]; intros s; [reflexivity|].
  cbn [length seq map combine filter fst]. rewrite keep_row_true.
  destruct (mask_on dm s && negb (has_null N cols s)); cbn [map]; [f_equal|]; apply IH.
Qed.

Lemma filtered_length {A} dm cols (ids : list A) h : cols <> [] ->
  Forall (fun l => length (row_vec l) = length cols)
    (leaves_filtered N (flat_map (row_at N cols) (seq 0 h)) (length cols) ids (map (keep_row N dm cols) (seq 0 h))).
Proof.
  intros NE. apply Forall_forall. intros l Hl. unfold leaves_filtered in Hl. apply in_map_iff in Hl.
  destruct Hl as ([b [a r]] & <- & Hl). apply filter_In in Hl. destruct Hl as [Hl _].
  apply in_combine_r in Hl. apply in_combine_r in Hl. rewrite chunks_table in Hl by exact NE.
  apply in_map_iff in Hl. destruct Hl as (i & <- & _). apply row_at_length.
Qed.

Lemma slice_leaves_rows {A} cols (ids : list A) h : cols <> [] -> length ids = h ->
  map prA (slice_to_leaves N (flat_map (row_at N cols) (seq 0 h)) (length cols) ids) = id_rows N ids cols.
Proof.
  intros NE L. unfold slice_to_leaves, id_rows, numbered. rewrite chunks_table by exact NE. rewrite <- L. clear L h.
  generalize 0. induction ids as [|a ids IH]; intros s; [reflexivity|]. cbn [length seq map combine]. f_equal. apply IH.
Qed.
Lemma slice_leaves_length {A} cols (ids : list A) h : cols <> [] ->
  Forall (fun l => length (row_vec l) = length cols)
    (slice_to_leaves N (flat_map (row_at N cols) (seq 0 h)) (length cols) ids).
Proof.
  intros NE. apply Forall_forall. intros l Hl. unfold slice_to_leaves in Hl. apply in_map_iff in Hl.
  destruct Hl as ([a r] & <- & Hl).
  apply in_combine_r in Hl. rewrite chunks_table in Hl by exact NE.
  apply in_map_iff in Hl. destruct Hl as (i & <- & _). apply row_at_length.
Qed.
Lemma empty_leaves_rows cols h : cols <> [] ->
  map prA (slice_to_empty_leaves N (flat_map (row_at N cols) (seq 0 h)) (length cols))
  = map (fun j => (tt, row_at N cols j)) (seq 0 h).
Proof. intros NE. unfold slice_to_empty_leaves. rewrite chunks_table by exact NE. now rewrite !map_map. Qed.
Lemma empty_leaves_length cols h : cols <> [] ->
  Forall (fun l => length (row_vec l) = length cols)
    (slice_to_empty_leaves N (flat_map (row_at N cols) (seq 0 h)) (length cols)).
Proof.
  intros NE. unfold slice_to_empty_leaves. rewrite chunks_table by exact NE. apply Forall_forall. intros l Hl.
  apply in_map_iff in Hl. destruct Hl as (r & <- & Hl). apply in_map_iff in Hl. destruct Hl as (i & <- & _).
  apply row_at_length.
Qed.

(** ** Row by row *)
Lemma finite_row_spec p : finite_row N p = true <-> all_finite N p.
Proof. unfold finite_row, all_finite. rewrite forallb_forall, Forall_forall. reflexivity. Qed.
Lemma not_finite_row p : finite_row N p = false -> existsb (fun x => negb (nfinite N x)) p = true.
Proof.
  unfold finite_row. induction p as [|x p IH]; simpl; [discriminate|]. destruct (nfinite N x); simpl; auto.
Qed.

Lemma knn_bounded_cell {A} simd n m (leaves : list (leaf N A)) t k q maxb :
  twf N A m t -> Permutation (elems N A t) leaves -> Forall (fun l => length (row_vec l) = m) leaves ->
  rows_clean n (map prA leaves) -> scalar_metric n m -> length q = m ->
  if finite_row N q && negb (nle N maxb (neps N))
  then exists nbs, knn_bounded N A m (new_from_str_informed N simd n m) t (k + 1) q maxb (nzero N) = Some (Some nbs) /\
       knn_exact N A (metric_of n) (map prA leaves) (k + 1) q maxb (map nbA nbs)
  else knn_bounded N A m (new_from_str_informed N simd n m) t (k + 1) q maxb (nzero N) = Some None.
Proof.
  intros W P F C SM Lq. unfold knn_bounded. rewrite (scalar_to_DIST N simd n m SM), Lq, Nat.eqb_refl.
  replace (k + 1 =? 0) with false by (symmetry; apply Nat.eqb_neq; lia). cbn [negb orb].
  destruct (finite_row N q) eqn:Ef.
  - apply finite_row_spec in Ef. rewrite (existsb_nonfinite N q Ef). destruct (nle N maxb (neps N)); cbn [andb negb orb]; [reflexivity|].
    destruct (tree_knn_exact n m leaves t (k + 1) q maxb W P F C Lq Ef ltac:(lia)) as (nbs & -> & K). eauto.
  - rewrite (not_finite_row q Ef). reflexivity.
Qed.

Lemma seq_nth' s n i : i < n -> nth_error (seq s n) i = Some (s + i).
Proof. revert s i. induction n as [|n IH]; intros s [|i] H; simpl; try lia; [f_equal; lia|]. rewrite IH by lia. f_equal. lia. Qed.

Lemma rows_traverse {Y} (f : list T -> option Y) (R : nat -> Y -> Prop) cols h :
  (forall i, i < h -> exists y, f (row_at N cols i) = Some y /\ R i y) ->
  exists out, traverse f (map (row_at N cols) (seq 0 h)) = Some out /\ length out = h /\
    forall i, i < h -> exists y, nth_error out i = Some y /\ R i y.
Proof.
  intros H. rewrite traverse_map.
  destruct (traverse_forall2 (fun i => f (row_at N cols i)) R (seq 0 h)) as (ys & E & F).
  { intros i Hi. apply in_seq in Hi. apply H. lia. }
  exists ys. split; [exact E|]. split; [rewrite <- (Forall2_len _ _ _ F); apply seq_length|].
  intros i Hi. destruct (Forall2_nth_l _ _ _ i i F) as (y & Hy & Ry); [now apply seq_nth'|]. eauto.
Qed.

Lemma zip_traverse {Y Z} (f : Z * list T -> option Y) (R : nat -> Y -> Prop) (d : Z) cols (zs : list Z) h :
  length zs = h -> (forall i, i < h -> exists y, f (nth i zs d, row_at N cols i) = Some y /\ R i y) ->
  exists out, traverse f (combine zs (map (row_at N cols) (seq 0 h))) = Some out /\ length out = h /\
    forall i, i < h -> exists y, nth_error out i = Some y /\ R i y.
Proof.
  intros L H.
  assert (E : combine zs (map (row_at N cols) (seq 0 h)) = map (fun i => (nth i zs d, row_at N cols i)) (seq 0 h)).
  { rewrite <- L. clear. change zs with (skipn 0 zs) at 1. replace (length zs) with (length (skipn 0 zs)) by reflexivity.
    assert (G : forall k s, k = length (skipn s zs) ->
      combine (skipn s zs) (map (row_at N cols) (seq s k)) = map (fun i => (nth i zs d, row_at N cols i)) (seq s k)).
    { induction k as [|k IH]; intros s Hk.
      - destruct (skipn s zs); [reflexivity|discriminate].
      - destruct (skipn s zs) as [|z r] eqn:Es; [discriminate|]. cbn [seq map combine].
        assert (Hz : nth s zs d = z /\ skipn (S s) zs = r).
        { clear - Es. revert zs Es. induction s as [|s IH]; intros [|x zs] Es; simpl in *; try discriminate.
          - injection Es as -> ->. auto.
          - now apply IH. }
        destruct Hz as [-> Hr]. f_equal. rewrite <- Hr. apply IH. rewrite Hr. simpl in Hk. lia. }
    apply G. reflexivity. }
  rewrite E, traverse_map.
  destruct (traverse_forall2 (fun i => f (nth i zs d, row_at N cols i)) R (seq 0 h)) as (ys & E' & F).
  { intros i Hi. apply in_seq in Hi. apply H. lia. }
  exists ys. split; [exact E'|]. split; [rewrite <- (Forall2_len _ _ _ F); apply seq_length|].
  intros i Hi. destruct (Forall2_nth_l _ _ _ i i F) as (y & Hy & Ry); [now apply seq_nth'|]. eauto.
Qed.

Definition eval_bools (ids_len : nat) (eval_mask : option (list (option bool))) : list bool :=
  match eval_mask with
  | Some m => map (fun b => match b with Some b => b | None => false end) m
  | None => repeat true ids_len
  end.
Lemma eval_bools_nth h em i : mask_fits h em -> i < h -> nth i (eval_bools h em) false = mask_on em i.
Proof.
  intros M Hi. destruct em as [m|]; simpl.
  - change false with ((fun b : option bool => match b with Some b => b | None => false end) None).
    apply map_nth.
  - clear M. revert i Hi. induction h as [|h IH]; intros [|i] Hi; try lia; simpl; [reflexivity|apply IH; lia].
Qed.
Lemma eval_bools_len h em : mask_fits h em -> length (eval_bools h em) = h.
Proof. destruct em; simpl; intros M; [rewrite map_length; exact M|apply repeat_length]. Qed.

Lemma knn_expr_ok {A} (lib : SplitLib N A) simd n ids dm em cols trace h k eps maxb par :
  lib_ok N A lib -> table N h cols -> interleaving (all_writes N (length cols) 0 cols) trace ->
  length ids = h -> mask_fits h em -> scalar_metric n (length cols) -> 1 <= k ->
  rows_clean n (candidates N ids dm cols) -> candidates N ids dm cols <> [] -> par_ok par ->
  exists out, query_knn_ptwise N lib simd n ids dm em cols trace k eps maxb par = Ok out /\ length out = h /\
    forall i, i < h -> exists o, nth_error out i = Some o /\
      knn_cell_spec N (metric_of n) (candidates N ids dm cols) em cols k maxb i o.
Proof.
  intros LO TB IL Li ME SM Hk C NEc PO. unfold query_knn_ptwise.
  replace (k <? 1) with false by (symmetry; apply Nat.ltb_ge; lia).
  assert (Hh : height N cols = h).
  { destruct TB as [NE F]. destruct cols; [congruence|]. apply Forall_inv in F. exact F. }
  rewrite Hh. unfold pl_knn_ptwise_w_dist. rewrite (row_major_ok N h cols trace TB IL).
  destruct TB as [NE F]. assert (Hm : 0 < length cols) by (destruct cols; [congruence|simpl; lia]).
  set (data := flat_map (row_at N cols) (seq 0 h)) in *.
  set (leaves := leaves_filtered N data (length cols) ids _).
  assert (EL : map prA leaves = candidates N ids dm cols) by now apply filtered_candidates.
  assert (FL : Forall (fun l => length (row_vec l) = length cols) leaves) by now apply filtered_length.
  destruct (tree_of_ok lib simd n (length cols) leaves LO Hm) as (t & E & W & P); [|exact FL|].
  { intros Z. apply NEc. rewrite <- EL, Z. reflexivity. }
  rewrite E. fold (eval_bools (length ids) em). rewrite Li.
  assert (Ld : length data = h * length cols) by apply (flat_map_len _ _ (row_at_length N cols)).
  rewrite (knn_loop_par N (length cols, _, t) (eval_bools h em) data k h par maxb (nzero N) Hm Ld
             (eval_bools_len h em ME) PO).
  cbn [fst]. unfold data. rewrite chunks_table by exact NE.
  rewrite <- EL in C |- *.
  destruct (zip_traverse (knn_cell N (length cols, new_from_str_informed N simd n (length cols), t) k maxb (nzero N))
              (knn_cell_spec N (metric_of n) (map prA leaves) em cols k maxb) false cols (eval_bools h em) h
              (eval_bools_len h em ME)) as (out & -> & Lo & Ho).
  { intros i Hi. rewrite (eval_bools_nth h em i ME Hi). unfold knn_cell, knn_cell_spec. cbn [fst snd].
    destruct (mask_on em i); cbn [andb]; [|eauto].
    pose proof (knn_bounded_cell simd n (length cols) leaves t k (row_at N cols i) maxb W P FL C SM
                  (row_at_length N cols i)) as KB.
    destruct (finite_row N (row_at N cols i) && negb (nle N maxb (neps N))).
    - destruct KB as (nbs & -> & K). eauto.
    - rewrite KB. eauto. }
  exists out. auto.
Qed.

Lemma radius_expr_ok {A} (lib : SplitLib N A) sort_nb simd n ids cols trace h r sort par :
  lib_ok N A lib -> sort_nb_ok N sort_nb ->
  table N h cols -> interleaving (all_writes N (length cols) 0 cols) trace ->
  length ids = h -> 0 < h -> scalar_metric n (length cols) -> nle N r (nzero N) = false ->
  rows_clean n (id_rows N ids cols) -> par_ok par ->
  exists out, query_radius_ptwise N lib sort_nb simd n ids cols trace r sort par = Ok out /\ length out = h /\
    forall i, i < h -> exists o, nth_error out i = Some o /\
      radius_cell_spec N (metric_of n) (id_rows N ids cols) cols r sort i o.
Proof.
  intros LO SO TB IL Li Hh SM Hr C PO. unfold query_radius_ptwise. rewrite Hr.
  rewrite (row_major_ok N h cols trace TB IL).
  destruct TB as [NE F]. assert (Hm : 0 < length cols) by (destruct cols; [congruence|simpl; lia]).
  set (data := flat_map (row_at N cols) (seq 0 h)) in *.
  set (leaves := slice_to_leaves N data (length cols) ids).
  assert (EL : map prA leaves = id_rows N ids cols) by now apply slice_leaves_rows.
  assert (FL : Forall (fun l => length (row_vec l) = length cols) leaves) by now apply slice_leaves_length.
  destruct (tree_of_ok lib simd n (length cols) leaves LO Hm) as (t & E & W & P); [|exact FL|].
  { intros Z. assert (id_rows N ids cols = []) by (rewrite <- EL, Z; reflexivity).
    unfold id_rows, numbered in H. destruct ids; simpl in Li, H; [lia|discriminate]. }
  rewrite E. assert (Ld : length data = h * length cols) by apply (flat_map_len _ _ (row_at_length N cols)).
  rewrite (rows_loop_par N _ (length cols) data h par Hm Ld PO).
  unfold data. rewrite chunks_table by exact NE. rewrite <- EL in C |- *.
  destruct (rows_traverse (radius_cell N sort_nb (length cols, new_from_str_informed N simd n (length cols), t) r sort)
              (radius_cell_spec N (metric_of n) (map prA leaves) cols r sort) cols h) as (out & -> & Lo & Ho).
  { intros i Hi. unfold radius_cell, radius_cell_spec. rewrite (scalar_to_DIST N simd n _ SM).
    destruct (finite_row N (row_at N cols i)) eqn:Ef; cbn [andb].
    - destruct (nle N r (nadd N (nzero N) (neps N))) eqn:Er; cbn [negb].
      + unfold within. rewrite Er. exists None. split; reflexivity.
      + apply finite_row_spec in Ef.
        destruct (tree_within n (length cols) leaves t sort_nb (row_at N cols i) r sort W P FL C SO
                    (row_at_length N cols i) Ef Er) as (nbs & -> & P1 & P2).
        eexists. split; [reflexivity|]. exists (map nbA nbs). rewrite map_map. auto.
    - unfold within. rewrite (not_finite_row _ Ef), orb_true_r. exists None. split; reflexivity. }
  exists out. auto.
Qed.

Lemma filter_map_len {X Y} (p : Y -> bool) (g : X -> Y) l : length (filter p (map g l)) = length (filter (fun x => p (g x)) l).
Proof. induction l as [|x l IH]; simpl; [reflexivity|]. destruct (p (g x)); simpl; congruence. Qed.

Lemma cnt_cell_ok simd n cols h t r i :
  cols <> [] -> (BinNat.N.of_nat h < 2 ^ 32)%N -> scalar_metric n (length cols) ->
  rows_clean n (map (fun j => (tt, row_at N cols j)) (seq 0 h)) ->
  twf N unit (length cols) t ->
  Permutation (elems N unit t) (slice_to_empty_leaves N (flat_map (row_at N cols) (seq 0 h)) (length cols)) ->
  exists o, cnt_cell N (length cols, new_from_str_informed N simd n (length cols), t) (row_at N cols i) r = Some o /\
    cnt_cell_spec N (metric_of n) h cols (Some r) i o.
Proof.
  intros NE Hh SM C W P. unfold cnt_cell, cnt_cell_spec. rewrite (scalar_to_DIST N simd n _ SM).
  rewrite <- empty_leaves_rows in C by exact NE.
  destruct (finite_row N (row_at N cols i)) eqn:Ef; cbn [andb].
  - destruct (nle N r (nadd N (nzero N) (neps N))) eqn:Er; cbn [negb].
    + unfold within_count. rewrite Er. exists None. split; reflexivity.
    + apply finite_row_spec in Ef.
      rewrite (tree_count n (length cols) _ t (row_at N cols i) r W P (empty_leaves_length cols h NE) C
                 (row_at_length N cols i) Ef Er).
      eexists. split; [reflexivity|]. rewrite empty_leaves_rows by exact NE. rewrite filter_map_len. cbn [snd].
      f_equal. apply u32_small.
      pose proof (filter_len (fun x => nle N (spec_dist N (metric_of n) (row_at N cols x) (row_at N cols i)) r) (seq 0 h)).
      rewrite seq_length in H. lia.
  - unfold within_count. rewrite (not_finite_row _ Ef), orb_true_r. exists None. split; reflexivity.
Qed.

Lemma traverse_combine_swap {X Y Z} (f : X * Y -> option Z) : forall a b,
  traverse f (combine a b) = traverse (fun p => f (snd p, fst p)) (combine b a).
Proof. induction a as [|x a IH]; intros [|y b]; try reflexivity. cbn [combine traverse fst snd]. now rewrite IH. Qed.

Lemma nb_cnt_ok (lib : SplitLib N unit) simd n radius cols trace h par :
  lib_ok N unit lib -> table N h cols -> interleaving (all_writes N (length cols) 0 cols) trace ->
  0 < h -> (BinNat.N.of_nat h < 2 ^ 32)%N -> scalar_metric n (length cols) ->
  rows_clean n (map (fun j => (tt, row_at N cols j)) (seq 0 h)) -> par_ok par ->
  radius <> [None] -> (length radius = 1 \/ length radius = h) ->
  exists out, pl_nb_cnt N lib simd n radius cols trace par = Ok out /\ length out = h /\
    forall i, i < h -> exists o, nth_error out i = Some o /\
      cnt_cell_spec N (metric_of n) h cols (nth (if length radius =? 1 then 0 else i) radius None) i o.
Proof.
  intros LO TB IL Hh Hh32 SM C PO RN RL. unfold pl_nb_cnt.
  rewrite (row_major_ok N h cols trace TB IL).
  destruct TB as [NE F]. assert (Hm : 0 < length cols) by (destruct cols; [congruence|simpl; lia]).
  set (data := flat_map (row_at N cols) (seq 0 h)) in *.
  assert (Ld : length data = h * length cols) by apply (flat_map_len _ _ (row_at_length N cols)).
  set (leaves := slice_to_empty_leaves N data (length cols)).
  destruct (tree_of_ok lib simd n (length cols) leaves LO Hm) as (t & E & W & P); [|now apply empty_leaves_length|].
  { intros Z. pose proof (empty_leaves_rows cols h NE) as EL. fold data leaves in EL. rewrite Z in EL.
    destruct h; [lia|discriminate]. }
  rewrite E. rewrite Ld, Nat.div_mul by lia.
  assert (MULTI : length radius = h ->
    exists out, match nb_cnt_w_radius N (length cols, new_from_str_informed N simd n (length cols), t) data radius par with
                | Some o => Ok o | None => Panic end = Ok out /\ length out = h /\
      forall i, i < h -> exists o, nth_error out i = Some o /\
        cnt_cell_spec N (metric_of n) h cols (nth i radius None) i o).
  { intros RH. rewrite (cnt_loop_par N (length cols, _, t) radius data h par Hm Ld RH PO).
    cbn [fst]. unfold data. rewrite chunks_table by exact NE. rewrite traverse_combine_swap.
    destruct (zip_traverse (fun p => cnt_cell_r N (length cols, new_from_str_informed N simd n (length cols), t) (snd p, fst p))
              (fun i => cnt_cell_spec N (metric_of n) h cols (nth i radius None) i) None cols radius h RH) as (out & -> & Lo & Ho).
    { intros i Hi. unfold cnt_cell_r. cbn [fst snd]. destruct (nth i radius None) as [r|]; [|cbn; eauto].
      now apply cnt_cell_ok. }
    exists out. auto. }
  destruct radius as [|[r|] [|r2 radius]].
  - simpl in RL. lia.
  - rewrite (rows_loop_par N _ (length cols) data h par Hm Ld PO).
    unfold data. rewrite chunks_table by exact NE. cbn [length Nat.eqb nth].
    destruct (rows_traverse (fun p => cnt_cell N (length cols, new_from_str_informed N simd n (length cols), t) p r)
              (cnt_cell_spec N (metric_of n) h cols (Some r)) cols h) as (out & -> & Lo & Ho).
    { intros i Hi. now apply cnt_cell_ok. }
    exists out. auto.
  - destruct RL as [RL|RL]; [simpl in RL; lia|]. rewrite (proj2 (Nat.eqb_eq _ _) RL). simpl Nat.eqb at 1.
    now apply MULTI.
  - congruence.
  - destruct RL as [RL|RL]; [simpl in RL; lia|]. rewrite (proj2 (Nat.eqb_eq _ _) RL). simpl Nat.eqb at 1.
    now apply MULTI.
Qed.

Lemma rev_hd_last {X} (l : list X) : match rev l with [] => None | x :: _ => Some x end = nth_error l (length l - 1).
Proof.
  destruct l as [|y l] using rev_ind; [reflexivity|]. rewrite rev_app_distr, app_length. cbn [rev app length].
  rewrite nth_error_app2 by lia. replace (length l + 1 - 1 - length l) with 0 by lia. reflexivity.
Qed.
Lemma last_dist_nth {A} (nbs : list (NB N A)) : last_dist N A nbs = nth_error (map snd (map nbA nbs)) (length (map nbA nbs) - 1).
Proof.
  unfold last_dist. rewrite map_length, map_map. cbn [nbA snd].
  assert (E : match rev nbs with [] => None | nb :: _ => Some (nb_dist nb) end
              = option_map (fun nb => nb_dist nb) (nth_error nbs (length nbs - 1))).
  { rewrite <- rev_hd_last. destruct (rev nbs); reflexivity. }
  rewrite E. generalize (length nbs - 1). clear. induction nbs as [|b nbs IH]; intros [|i]; try reflexivity. apply IH.
Qed.

Lemma kth_expr_ok (lib : SplitLib N unit) simd n cols trace h k maxb par :
  lib_ok N unit lib -> table N h cols -> interleaving (all_writes N (length cols) 0 cols) trace ->
  0 < h -> scalar_metric n (length cols) ->
  rows_clean n (map (fun j => (tt, row_at N cols j)) (seq 0 h)) -> par_ok par ->
  exists out, pl_dist_from_kth_nb N lib simd n cols trace k maxb (nzero N) par = Ok out /\ length out = h /\
    forall i, i < h -> exists o, nth_error out i = Some o /\ kth_cell_spec N (metric_of n) h cols k maxb i o.
Proof.
  intros LO TB IL Hh SM C PO. unfold pl_dist_from_kth_nb.
  rewrite (row_major_ok N h cols trace TB IL).
  destruct TB as [NE F]. assert (Hm : 0 < length cols) by (destruct cols; [congruence|simpl; lia]).
  set (data := flat_map (row_at N cols) (seq 0 h)) in *.
  assert (Ld : length data = h * length cols) by apply (flat_map_len _ _ (row_at_length N cols)).
  set (leaves := slice_to_empty_leaves N data (length cols)).
  assert (EL : map prA leaves = map (fun j => (tt, row_at N cols j)) (seq 0 h)) by now apply empty_leaves_rows.
  assert (FL : Forall (fun l => length (row_vec l) = length cols) leaves) by now apply empty_leaves_length.
  destruct (tree_of_ok lib simd n (length cols) leaves LO Hm) as (t & E & W & P); [|exact FL|].
  { intros Z. rewrite Z in EL. destruct h; [lia|discriminate]. }
  rewrite E, (rows_loop_par N _ (length cols) data h par Hm Ld PO).
  unfold data. rewrite chunks_table by exact NE. rewrite <- EL in C.
  destruct (rows_traverse (kth_cell N (length cols, new_from_str_informed N simd n (length cols), t) k maxb (nzero N))
              (kth_cell_spec N (metric_of n) h cols k maxb) cols h) as (out & -> & Lo & Ho).
  { intros i Hi. unfold kth_cell, kth_cell_spec. rewrite <- EL.
    pose proof (knn_bounded_cell simd n (length cols) leaves t k (row_at N cols i) maxb W P FL C SM
                  (row_at_length N cols i)) as KB.
    destruct (finite_row N (row_at N cols i) && negb (nle N maxb (neps N))).
    - destruct KB as (nbs & -> & K). eexists. split; [reflexivity|]. exists (map nbA nbs). split; [exact K|].
      apply last_dist_nth.
    - rewrite KB. eauto. }
  exists out. auto.
Qed.

Lemma weighted_mean_total w nn :
  weighted_mean N w nn = ndiv N (total N (fun x => nmul N (w (snd x)) (fst x)) nn) (total N (fun x => w (snd x)) nn).
Proof.
  unfold weighted_mean, total. f_equal.
  - generalize (nzero N). induction nn as [|x nn IH]; intros acc; [reflexivity|]. cbn [map combine fold_left fst snd]. apply IH.
  - generalize (nzero N). induction nn as [|x nn IH]; intros acc; [reflexivity|]. cbn [map fold_left]. apply IH.
Qed.

Lemma regress_mean weighted minb nbs :
  regress_of N (method_new N weighted minb) minb nbs
  = match filter (fun x => nle N minb (snd x)) nbs with
    | [] => None | _ => Some (knn_mean N weighted minb (filter (fun x => nle N minb (snd x)) nbs)) end.
Proof.
  unfold regress_of. destruct (filter (fun nb => nle N minb (snd nb)) nbs) as [|x nn]; [reflexivity|].
  unfold method_new, knn_mean. destruct weighted; [|reflexivity].
  destruct (nle N minb (neps N)); now rewrite weighted_mean_total.
Qed.

Lemma avg_expr_ok (lib : SplitLib N T) simd n targets cols trace h k weighted minb maxb par :
  lib_ok N T lib -> table N h cols -> interleaving (all_writes N (length cols) 0 cols) trace ->
  length targets = h -> scalar_metric n (length cols) -> 1 <= k ->
  rows_clean n (candidates N targets None cols) -> candidates N targets None cols <> [] -> par_ok par ->
  exists out, query_knn_avg N lib simd n targets cols trace k weighted minb maxb par = Ok out /\ length out = h /\
    forall i, i < h -> exists o, nth_error out i = Some o /\
      avg_cell_spec N (metric_of n) targets cols k weighted minb maxb i o.
Proof.
  intros LO TB IL Li SM Hk C NEc PO. unfold query_knn_avg.
  replace (k <? 1) with false by (symmetry; apply Nat.ltb_ge; lia).
  assert (Hh : height N cols = h).
  { destruct TB as [NE F]. destruct cols; [congruence|]. apply Forall_inv in F. exact F. }
  rewrite Hh. rewrite (row_major_ok N h cols trace TB IL).
  destruct TB as [NE F]. assert (Hm : 0 < length cols) by (destruct cols; [congruence|simpl; lia]).
  set (data := flat_map (row_at N cols) (seq 0 h)) in *.
  set (leaves := leaves_filtered N data (length cols) targets _).
  assert (EL : map prA leaves = candidates N targets None cols) by now apply filtered_candidates.
  assert (FL : Forall (fun l => length (row_vec l) = length cols) leaves) by now apply filtered_length.
  destruct (tree_of_ok lib simd n (length cols) leaves LO Hm) as (t & E & W & P); [|exact FL|].
  { intros Z. apply NEc. rewrite <- EL, Z. reflexivity. }
  rewrite E.
  assert (Ld : length data = h * length cols) by apply (flat_map_len _ _ (row_at_length N cols)).
  rewrite (rows_loop_par N _ (length cols) data h par Hm Ld PO).
  unfold data. rewrite chunks_table by exact NE. rewrite <- EL in C.
  destruct (rows_traverse (regress_cell N (length cols, new_from_str_informed N simd n (length cols), t) k minb maxb (method_new N weighted minb))
              (avg_cell_spec N (metric_of n) targets cols k weighted minb maxb) cols h) as (out & -> & Lo & Ho).
  { intros i Hi. unfold regress_cell, avg_cell_spec. rewrite <- EL.
    pose proof (knn_bounded_cell simd n (length cols) leaves t k (row_at N cols i) maxb W P FL C SM
                  (row_at_length N cols i)) as KB.
    destruct (finite_row N (row_at N cols i) && negb (nle N maxb (neps N))).
    - destruct KB as (nbs & -> & K). eexists. split; [reflexivity|]. exists (map nbA nbs). split; [exact K|].
      apply regress_mean.
    - rewrite KB. eauto. }
  exists out. auto.
Qed.

(** ** parallel = sequential, whatever the data (also for metrics and data outside the theorems above) *)
Lemma from_leaves_dim {A} lib (leaves : list (leaf N A)) dim t m : Forall (fun l => length (row_vec l) = m) leaves ->
  from_leaves_unchecked N A lib MIDPOINT leaves = Some (dim, t) -> dim = m.
Proof.
  intros F E. destruct leaves as [|l0 ls]; [discriminate|]. cbn [from_leaves_unchecked] in E.
  destruct (add_all _ _ _ _ _ _ _ _); [|discriminate]. injection E as <- _. exact (Forall_inv F).
Qed.

Lemma knn_expr_par {A} (lib : SplitLib N A) simd n ids dm em cols trace trace' h k eps maxb par :
  table N h cols -> interleaving (all_writes N (length cols) 0 cols) trace ->
  interleaving (all_writes N (length cols) 0 cols) trace' ->
  length ids = h -> mask_fits h em -> par_ok par ->
  query_knn_ptwise N lib simd n ids dm em cols trace k eps maxb par
  = query_knn_ptwise N lib simd n ids dm em cols trace' k eps maxb None.
Proof.
  intros TB I1 I2 Li ME PO. unfold query_knn_ptwise. destruct (k <? 1); [reflexivity|].
  assert (Hh : height N cols = h).
  { destruct TB as [NE F]. destruct cols; [congruence|]. apply Forall_inv in F. exact F. }
  rewrite Hh. unfold pl_knn_ptwise_w_dist.
  rewrite (row_major_ok N h cols trace TB I1), (row_major_ok N h cols trace' TB I2).
  destruct TB as [NE F]. assert (Hm : 0 < length cols) by (destruct cols; [congruence|simpl; lia]).
  unfold tree_of. destruct (from_leaves_unchecked _ _ _ _ _) as [[dim t]|] eqn:E; [|reflexivity].
  rewrite (from_leaves_dim _ _ _ _ (length cols) (filtered_length dm cols ids h NE) E).
  fold (eval_bools (length ids) em). rewrite Li.
  rewrite !(knn_loop_par N (length cols, _, t) (eval_bools h em) _ k h _ maxb (nzero N)); try reflexivity; try assumption;
    try (now apply eval_bools_len); apply (flat_map_len _ _ (row_at_length N cols)).
Qed.

Lemma rows_loop_par2 {Y} (f : list T -> option Y) cols h par : cols <> [] -> par_ok par ->
  rows_loop N f (length cols) (flat_map (row_at N cols) (seq 0 h)) par
  = rows_loop N f (length cols) (flat_map (row_at N cols) (seq 0 h)) None.
Proof.
  intros NE PO. assert (Hm : 0 < length cols) by (destruct cols; [congruence|simpl; lia]).
  rewrite !(rows_loop_par N f (length cols) _ h); try assumption; try exact I; try reflexivity;
    apply (flat_map_len _ _ (row_at_length N cols)).
Qed.

Lemma radius_expr_par {A} (lib : SplitLib N A) sort_nb simd n ids cols trace trace' h r sort par :
  table N h cols -> interleaving (all_writes N (length cols) 0 cols) trace ->
  interleaving (all_writes N (length cols) 0 cols) trace' -> par_ok par ->
  query_radius_ptwise N lib sort_nb simd n ids cols trace r sort par
  = query_radius_ptwise N lib sort_nb simd n ids cols trace' r sort None.
Proof.
  intros TB I1 I2 PO. unfold query_radius_ptwise.
  rewrite (row_major_ok N h cols trace TB I1), (row_major_ok N h cols trace' TB I2). destruct TB as [NE F].
  destruct (nle N r (nzero N)); [reflexivity|]. destruct (tree_of _ _ _ _ _ _) as [tr|]; [|reflexivity].
  now rewrite rows_loop_par2.
Qed.
Lemma kth_expr_par (lib : SplitLib N unit) simd n cols trace trace' h k maxb eps par :
  table N h cols -> interleaving (all_writes N (length cols) 0 cols) trace ->
  interleaving (all_writes N (length cols) 0 cols) trace' -> par_ok par ->
  pl_dist_from_kth_nb N lib simd n cols trace k maxb eps par
  = pl_dist_from_kth_nb N lib simd n cols trace' k maxb eps None.
Proof.
  intros TB I1 I2 PO. unfold pl_dist_from_kth_nb.
  rewrite (row_major_ok N h cols trace TB I1), (row_major_ok N h cols trace' TB I2). destruct TB as [NE F].
  destruct (tree_of _ _ _ _ _ _) as [tr|]; [|reflexivity]. now rewrite rows_loop_par2.
Qed.
Lemma avg_expr_par (lib : SplitLib N T) simd n targets cols trace trace' h k weighted minb maxb par :
  table N h cols -> interleaving (all_writes N (length cols) 0 cols) trace ->
  interleaving (all_writes N (length cols) 0 cols) trace' -> par_ok par ->
  query_knn_avg N lib simd n targets cols trace k weighted minb maxb par
  = query_knn_avg N lib simd n targets cols trace' k weighted minb maxb None.
Proof.
  intros TB I1 I2 PO. unfold query_knn_avg. destruct (k <? 1); [reflexivity|].
  rewrite (row_major_ok N h cols trace TB I1), (row_major_ok N h cols trace' TB I2). destruct TB as [NE F].
  destruct (tree_of _ _ _ _ _ _) as [tr|]; [|reflexivity]. now rewrite rows_loop_par2.
Qed.
Lemma cnt_expr_par (lib : SplitLib N unit) simd n radius cols trace trace' h par :
  table N h cols -> interleaving (all_writes N (length cols) 0 cols) trace ->
  interleaving (all_writes N (length cols) 0 cols) trace' -> par_ok par ->
  pl_nb_cnt N lib simd n radius cols trace par = pl_nb_cnt N lib simd n radius cols trace' None.
Proof.
  intros TB I1 I2 PO. unfold pl_nb_cnt.
  rewrite (row_major_ok N h cols trace TB I1), (row_major_ok N h cols trace' TB I2). destruct TB as [NE F].
  assert (Hm : 0 < length cols) by (destruct cols; [congruence|simpl; lia]).
  assert (Ld : length (flat_map (row_at N cols) (seq 0 h)) = h * length cols) by apply (flat_map_len _ _ (row_at_length N cols)).
  rewrite Ld, Nat.div_mul by lia.
  assert (MULTI : forall rad, length rad = h ->
     forall tr, tree_of N lib simd n (length cols) (slice_to_empty_leaves N (flat_map (row_at N cols) (seq 0 h)) (length cols)) = Some tr ->
     nb_cnt_w_radius N tr (flat_map (row_at N cols) (seq 0 h)) rad par
     = nb_cnt_w_radius N tr (flat_map (row_at N cols) (seq 0 h)) rad None).
  { intros rad Hr tr E. unfold tree_of in E. destruct (from_leaves_unchecked _ _ _ _ _) as [[dim t]|] eqn:Ef; [|discriminate].
    pose proof (from_leaves_dim _ _ _ _ (length cols) (empty_leaves_length cols h NE) Ef) as ->. injection E as <-.
    rewrite !(cnt_loop_par N (length cols, _, t) rad _ h); try reflexivity; try assumption; exact I. }
  destruct radius as [|[r|] [|r2 radius]]; try reflexivity.
  - destruct (length (@nil (option T)) =? h) eqn:El; [|reflexivity]. apply Nat.eqb_eq in El.
    destruct (tree_of _ _ _ _ _ _) as [tr|] eqn:E; [|reflexivity]. now rewrite (MULTI [] El tr eq_refl).
  - destruct (tree_of _ _ _ _ _ _) as [tr|]; [|reflexivity]. now rewrite rows_loop_par2.
  - match goal with |- context [length ?l =? h] => destruct (length l =? h) eqn:El end; [|reflexivity]. apply Nat.eqb_eq in El.
    destruct (tree_of _ _ _ _ _ _) as [tr|] eqn:E; [|reflexivity]. now rewrite (MULTI _ El tr eq_refl).
  - match goal with |- context [length ?l =? h] => destruct (length l =? h) eqn:El end; [|reflexivity]. apply Nat.eqb_eq in El.
    destruct (tree_of _ _ _ _ _ _) as [tr|] eqn:E; [|reflexivity]. now rewrite (MULTI _ El tr eq_refl).
Qed.
End P.
