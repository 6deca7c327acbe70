(** Properties C01-C09, C12, C46-C48: the KD-tree behind [KDTree] / [PyKDT].
    Vocabulary: KdSpec.v (brute force), PyKdSpec.v (matrices, histories).  Every theorem is about
    Rust's f64 ([f64_ops]) and holds for all library sorts satisfying [lib_ok] / [sort_ok]. *)
From Coq Require Import Bool List Arith Lia Permutation Sorted NArith ZArith.
From Flocq Require Import IEEE754.BinarySingleNaN.
From Verif Require Import Num F64 KdModel KdSpec KdProofs KnnUnique KdSound PyKdModel PyKdSpec PyKdProofs
  KdDemo KdPropsLemmas.
Import ListNotations.
(** [nle], [nlt]: Rust's [<=] and [<] on f64 (notations of KdPropsLemmas). *)

(** C01.  [KDTree.within(Q, r)] on the tree built by [KDTree(X0).add(X1).add(X2)...] returns, for
    each query row, exactly the stored rows whose distance is at most that query's radius, each as
    often as it is stored, with its id (position in order of insertion) and its distance; ascending
    when [sort=True].  Radii must exceed f64::EPSILON (see C46), a length-1 array is excluded (C47). *)
Theorem C01_within_exact :
  forall (lib : SplitLib f64_ops nat) simd sort_nb balanced n dim X0 Xs Q r sort par,
  lib_ok f64_ops nat lib -> sort_ok f64_ops sort_nb ->
  Forall (good_mat f64_ops dim) (X0 :: Xs) -> clean f64_ops balanced n (X0 :: Xs) -> scalar_metric n dim ->
  (N.of_nat (length (all_rows f64_ops (X0 :: Xs))) <= 2 ^ 32)%N ->
  good_mat f64_ops dim Q -> all_finite f64_ops (m_data f64_ops Q) ->
  length (radii f64_ops (m_rows f64_ops Q) r) = m_rows f64_ops Q -> (forall x, r <> Vec f64_ops [x]) ->
  Forall (fun x => nlt (neps f64_ops) x = true) (radii f64_ops (m_rows f64_ops Q) r) ->
  sched_ok (m_rows f64_ops Q) par ->
  exists s outs,
    py_history f64_ops lib simd balanced n X0 Xs = Ok s /\
    kdtree_within f64_ops sort_nb s Q r sort par = Ok (Value outs) /\
    length outs = m_rows f64_ops Q /\
    forall i q x, nth_error (mat_rows f64_ops Q) i = Some q ->
      nth_error (radii f64_ops (m_rows f64_ops Q) r) i = Some x ->
      exists out, nth_error outs i = Some out /\
        Permutation out
          (map (fun p => (N.of_nat (fst p), snd p))
               (brute_within f64_ops nat (metric_of n) (stored f64_ops (X0 :: Xs)) q x)) /\
        (sort = true -> StronglySorted (fun a b => nle (snd a) (snd b) = true) out).
Proof. exact within_exact. Qed.
Print Assumptions C01_within_exact.
Example C01_case : exists s outs,
    py_history f64_ops demo_lib no_simd true Dl2 demo_X [demo_add] = Ok s /\
    kdtree_within f64_ops demo_sort s demo_Q (Scalar f64_ops (fi 1)) true (Some [1; 0]) = Ok (Value outs) /\
    map (map fst) outs = [[5%N; 12%N; 6%N; 4%N]; []] /\
    Forall (fun x => nlt (neps f64_ops) x = true) (radii f64_ops 2 (Scalar f64_ops (fi 1))) /\
    lib_ok f64_ops nat demo_lib /\ sort_ok f64_ops demo_sort /\
    Forall (good_mat f64_ops 1) [demo_X; demo_add] /\ clean f64_ops true Dl2 [demo_X; demo_add].
Proof. exact within_case. Qed.

(** C02.  [KDTree.within_count] is the number of stored rows at distance <= r (for fewer than 2^31
    stored rows: the result is an i32), hence the length of the corresponding [within] answer. *)
Theorem C02_within_count_exact :
  forall (lib : SplitLib f64_ops nat) simd balanced n dim X0 Xs Q r par,
  lib_ok f64_ops nat lib ->
  Forall (good_mat f64_ops dim) (X0 :: Xs) -> clean f64_ops balanced n (X0 :: Xs) -> scalar_metric n dim ->
  (Z.of_nat (length (all_rows f64_ops (X0 :: Xs))) < 2 ^ 31)%Z ->
  good_mat f64_ops dim Q -> all_finite f64_ops (m_data f64_ops Q) ->
  length (radii f64_ops (m_rows f64_ops Q) r) = m_rows f64_ops Q -> (forall x, r <> Vec f64_ops [x]) ->
  Forall (fun x => nlt (neps f64_ops) x = true) (radii f64_ops (m_rows f64_ops Q) r) ->
  sched_ok (m_rows f64_ops Q) par ->
  exists s, py_history f64_ops lib simd balanced n X0 Xs = Ok s /\
    kdtree_within_count f64_ops s Q r par =
      Ok (Value (map (fun qr => Z.of_nat (length (brute_within f64_ops nat (metric_of n)
                                    (stored f64_ops (X0 :: Xs)) (fst qr) (snd qr))))
                     (combine (mat_rows f64_ops Q) (radii f64_ops (m_rows f64_ops Q) r)))).
Proof. exact within_count_exact. Qed.
Print Assumptions C02_within_count_exact.
Example C02_case : exists s, py_history f64_ops demo_lib no_simd true Dl2 demo_X [demo_add] = Ok s /\
    kdtree_within_count f64_ops s demo_Q (Scalar f64_ops (fi 1)) None = Ok (Value [4; 0]%Z).
Proof. exact within_count_case. Qed.

(** C03.  With epsilon = 0, [KDTree.knn] answers every query with the k nearest stored rows below the
    bound, ascending; [dm] holds distances and [im] ids, both padded to width k. *)
Theorem C03_knn_exact :
  forall (lib : SplitLib f64_ops nat) simd balanced n dim X0 Xs Q k maxb par,
  lib_ok f64_ops nat lib ->
  Forall (good_mat f64_ops dim) (X0 :: Xs) -> clean f64_ops balanced n (X0 :: Xs) -> scalar_metric n dim ->
  (N.of_nat (length (all_rows f64_ops (X0 :: Xs))) <= 2 ^ 32)%N ->
  good_mat f64_ops dim Q -> all_finite f64_ops (m_data f64_ops Q) -> 0 < k ->
  sched_ok (m_rows f64_ops Q) par ->
  exists s dm im, py_history f64_ops lib simd balanced n X0 Xs = Ok s /\
    kdtree_knn f64_ops s Q k (nzero f64_ops) maxb par = Ok (dm, im) /\
    exists answers,
      Forall2 (fun q out => knn_exact f64_ops nat (metric_of n) (stored f64_ops (X0 :: Xs)) k q (nabs f64_ops maxb) out)
              (mat_rows f64_ops Q) answers /\
      dm = map (fun out => map snd out ++ repeat (ninf f64_ops) (k - length out)) answers /\
      im = map (fun out => map (fun p => N.of_nat (fst p)) out ++ repeat (2 ^ 32 - 1)%N (k - length out)) answers.
Proof. exact knn_exact_history. Qed.
Print Assumptions C03_knn_exact.
Example C03_case : exists s dm, py_history f64_ops demo_lib no_simd true Dl2 demo_X [demo_add] = Ok s /\
    kdtree_knn f64_ops s demo_Q 3 (nzero f64_ops) (fi 50) None
      = Ok (dm, [[5; 12; 6]; [4294967295; 4294967295; 4294967295]])%N.
Proof. exact knn_case. Qed.

(** C04 and C12.  For any epsilon (its absolute value is used) the answers satisfy the documented
    approximation guarantee [knn_answer], and both matrices have one row of exactly k entries per query. *)
Theorem C04_knn_epsilon :
  forall (lib : SplitLib f64_ops nat) simd balanced n dim X0 Xs Q k epsilon maxb par,
  lib_ok f64_ops nat lib ->
  Forall (good_mat f64_ops dim) (X0 :: Xs) -> clean f64_ops balanced n (X0 :: Xs) -> scalar_metric n dim ->
  (N.of_nat (length (all_rows f64_ops (X0 :: Xs))) <= 2 ^ 32)%N ->
  good_mat f64_ops dim Q -> all_finite f64_ops (m_data f64_ops Q) -> 0 < k -> is_nan epsilon = false ->
  sched_ok (m_rows f64_ops Q) par ->
  exists s dm im, py_history f64_ops lib simd balanced n X0 Xs = Ok s /\
    kdtree_knn f64_ops s Q k epsilon maxb par = Ok (dm, im) /\
    exists answers,
      Forall2 (fun q out => knn_answer f64_ops nat (metric_of n) (stored f64_ops (X0 :: Xs)) k q
                              (nabs f64_ops maxb) (nabs f64_ops epsilon) out)
              (mat_rows f64_ops Q) answers /\
      dm = map (fun out => map snd out ++ repeat (ninf f64_ops) (k - length out)) answers /\
      im = map (fun out => map (fun p => N.of_nat (fst p)) out ++ repeat (2 ^ 32 - 1)%N (k - length out)) answers.
Proof. exact knn_epsilon_history. Qed.
Print Assumptions C04_knn_epsilon.
Example C04_case : exists s dm, py_history f64_ops demo_lib no_simd true Dl2 demo_X [demo_add] = Ok s /\
    kdtree_knn f64_ops s demo_Q 3 (fi (-2)) (fi (-50)) None
      = Ok (dm, [[5; 12; 6]; [4294967295; 4294967295; 4294967295]])%N.
Proof. exact knn_eps_case. Qed.

(** C12.  Whatever the tree, the metric, and the query values (NaN and infinities included):
    [knn] raises an error for k = 0 or an unusable / wrong-width matrix, and otherwise returns two
    matrices with one row per query and exactly k columns. *)
Theorem C12_knn_shape :
  forall (lib : SplitLib f64_ops nat) simd balanced n dim X0 Xs Q k epsilon maxb par,
  lib_ok f64_ops nat lib ->
  Forall (good_mat f64_ops dim) (X0 :: Xs) ->
  (balanced = true -> Forall (fun X => no_nan f64_ops (m_data f64_ops X)) (X0 :: Xs)) ->
  length (m_data f64_ops Q) = m_rows f64_ops Q * m_cols f64_ops Q -> sched_ok (m_rows f64_ops Q) par ->
  exists s, py_history f64_ops lib simd balanced n X0 Xs = Ok s /\
  ((k = 0 \/ m_contig f64_ops Q = false \/ m_rows f64_ops Q = 0 \/ m_cols f64_ops Q <> dim) ->
     kdtree_knn f64_ops s Q k epsilon maxb par = Err) /\
  ((k <> 0 /\ m_contig f64_ops Q = true /\ m_rows f64_ops Q <> 0 /\ m_cols f64_ops Q = dim) ->
     exists dm im, kdtree_knn f64_ops s Q k epsilon maxb par = Ok (dm, im) /\
       length dm = m_rows f64_ops Q /\ length im = m_rows f64_ops Q /\
       Forall (fun r => length r = k) dm /\ Forall (fun r => length r = k) im).
Proof. exact knn_shape. Qed.
Print Assumptions C12_knn_shape.

(** C05 is false: with points 0..11 on a line, query 5 and bound 1, both 4 and 6 lie exactly on the
    bound and only three rows are within it, yet asking for 3 neighbours returns 5 and 6 only. *)
Theorem C05_bound_inclusive_refuted :
  exists s dm im,
    py_new f64_ops demo_lib no_simd demo_X true Dl2 = Ok s /\
    kdtree_knn f64_ops s (mk 1 1 [fi 5]) 3 (nzero f64_ops) (fi 1) None = Ok (dm, im) /\
    im = [[5; 6; 2 ^ 32 - 1]]%N /\
    map fst (brute_within f64_ops nat ML2 (stored f64_ops [demo_X]) [fi 5] (fi 1)) = [4; 5; 6].
Proof. exact bound_refuted. Qed.
Print Assumptions C05_bound_inclusive_refuted.

(** What does hold for C05: every row strictly inside the bound is returned unless k rows at most as
    far are (part of C03's [knn_exact]); this corollary spells out the case of fewer than k answers. *)
Theorem C05_bound_exclusive_partial :
  forall n rows k q maxb out, knn_exact f64_ops nat n rows k q maxb out -> length out < k ->
  forall p, In p rows -> nlt (spec_dist f64_ops n (snd p) q) maxb = true ->
  In (fst p, spec_dist f64_ops n (snd p) q) out.
Proof. exact bound_partial. Qed.
Print Assumptions C05_bound_exclusive_partial.

(** C06.  Any interleaving of accepted and rejected [add] calls (matrices of any shape, contiguous or
    not): [count()] is the number of rows of the accepted matrices, and the tree's contents are those
    rows with ids 0..n-1 in order of insertion.  [py_session] keeps the old tree on a rejected add. *)
Theorem C06_tree_contents :
  forall (lib : SplitLib f64_ops nat) simd balanced n dim X0 Xs,
  lib_ok f64_ops nat lib -> good_mat f64_ops dim X0 ->
  Forall (fun X => length (m_data f64_ops X) = m_rows f64_ops X * m_cols f64_ops X) Xs ->
  (balanced = true -> Forall (fun X => no_nan f64_ops (m_data f64_ops X)) (X0 :: Xs)) ->
  let kept := filter (fun X => m_contig f64_ops X && negb (m_rows f64_ops X * m_cols f64_ops X =? 0)
                               && (m_cols f64_ops X =? dim)) Xs in
  exists s, py_session f64_ops lib (py_new f64_ops lib simd X0 balanced n) Xs = Ok s /\
    py_count f64_ops s = Ok (length (all_rows f64_ops (X0 :: kept))) /\
    Permutation (map (fun l => (item l, row_vec l)) (elems f64_ops nat (k_tree f64_ops s)))
                (stored f64_ops (X0 :: kept)) /\
    py_history f64_ops lib simd balanced n X0 kept = Ok s.
Proof. exact tree_contents. Qed.
Print Assumptions C06_tree_contents.
Example C06_case : exists s,
    py_session f64_ops demo_lib (py_new f64_ops demo_lib no_simd demo_X true Dl1)
               [mk 1 2 [fi 1; fi 2]; demo_add; mk 0 0 []] = Ok s /\
    py_count f64_ops s = Ok 13 /\
    py_add f64_ops demo_lib s (mk 1 2 [fi 1; fi 2]) = Err.
Proof. exact contents_case. Qed.

(** C07.  Two histories over the same multiset of rows - any batching, order, split method and
    library sorts - give, for every query row, the same multiset of (row, distance) answers to a
    radius query and the same kNN distances below the bound, position by position. *)
Theorem C07_order_independent :
  forall (lib1 lib2 : SplitLib f64_ops nat) simd1 simd2 sort1 sort2 b1 b2 n dim X1 Xs1 X2 Xs2 Q r so1 so2 k maxb par1 par2,
  lib_ok f64_ops nat lib1 -> lib_ok f64_ops nat lib2 -> sort_ok f64_ops sort1 -> sort_ok f64_ops sort2 ->
  Forall (good_mat f64_ops dim) (X1 :: Xs1) -> clean f64_ops b1 n (X1 :: Xs1) ->
  Forall (good_mat f64_ops dim) (X2 :: Xs2) -> clean f64_ops b2 n (X2 :: Xs2) ->
  Permutation (all_rows f64_ops (X1 :: Xs1)) (all_rows f64_ops (X2 :: Xs2)) ->
  scalar_metric n dim -> (N.of_nat (length (all_rows f64_ops (X1 :: Xs1))) <= 2 ^ 32)%N ->
  good_mat f64_ops dim Q -> all_finite f64_ops (m_data f64_ops Q) -> 0 < k ->
  nlt (neps f64_ops) r = true ->
  sched_ok (m_rows f64_ops Q) par1 -> sched_ok (m_rows f64_ops Q) par2 ->
  exists s1 s2 w1 w2 d1 d2 i1 i2,
    py_history f64_ops lib1 simd1 b1 n X1 Xs1 = Ok s1 /\ py_history f64_ops lib2 simd2 b2 n X2 Xs2 = Ok s2 /\
    kdtree_within f64_ops sort1 s1 Q (Scalar f64_ops r) so1 par1 = Ok (Value w1) /\
    kdtree_within f64_ops sort2 s2 Q (Scalar f64_ops r) so2 par2 = Ok (Value w2) /\
    Forall2 (fun a b =>
       Permutation (map (fun p => (nth_error (all_rows f64_ops (X1 :: Xs1)) (N.to_nat (fst p)), snd p)) a)
                   (map (fun p => (nth_error (all_rows f64_ops (X2 :: Xs2)) (N.to_nat (fst p)), snd p)) b)) w1 w2 /\
    kdtree_knn f64_ops s1 Q k (nzero f64_ops) maxb par1 = Ok (d1, i1) /\
    kdtree_knn f64_ops s2 Q k (nzero f64_ops) maxb par2 = Ok (d2, i2) /\
    Forall2 (fun a b => forall j t, nlt t (nabs f64_ops maxb) = true ->
       (nth_error a j = Some t -> exists t', nth_error b j = Some t' /\ same f64_ops t t') /\
       (nth_error b j = Some t -> exists t', nth_error a j = Some t' /\ same f64_ops t t')) d1 d2.
Proof. exact order_independent. Qed.
Print Assumptions C07_order_independent.
Example C07_case : 
    Permutation (all_rows f64_ops [mk 2 1 [fi 1; fi 2]; mk 1 1 [fi 3]]) (all_rows f64_ops [mk 3 1 [fi 3; fi 1; fi 2]]).
Proof. exact order_case. Qed.

(** C08.  Building never panics (NaN-free data if balanced) and no query of the right width panics,
    whatever the metric (also the SIMD ones), the query values, radii, k, epsilon and bound. *)
Theorem C08_no_panic :
  forall (lib : SplitLib f64_ops nat) simd sort_nb balanced n dim X0 Xs Q r sort k epsilon maxb par,
  lib_ok f64_ops nat lib -> sort_ok f64_ops sort_nb ->
  Forall (good_mat f64_ops dim) (X0 :: Xs) ->
  (balanced = true -> Forall (fun X => no_nan f64_ops (m_data f64_ops X)) (X0 :: Xs)) ->
  good_mat f64_ops dim Q -> sched_ok (m_rows f64_ops Q) par ->
  exists s, py_history f64_ops lib simd balanced n X0 Xs = Ok s /\
    py_count f64_ops s <> Panic /\
    kdtree_knn f64_ops s Q k epsilon maxb par <> Panic /\
    kdtree_within f64_ops sort_nb s Q r sort par <> Panic /\
    kdtree_within_count f64_ops s Q r par <> Panic.
Proof. exact no_panic. Qed.
Print Assumptions C08_no_panic.
(** The NaN restriction is real: the default (balanced) tree panics on 11 rows with a NaN. *)
Theorem C08_nan_panics_refuted : exists X,
  good_mat f64_ops 1 X /\ py_new f64_ops demo_lib no_simd X true Dl2 = Panic.
Proof. exact nan_panics. Qed.
Print Assumptions C08_nan_panics_refuted.

(** C01/C03 for every metric, SIMD included: no false positives.  Whatever function computes the
    distance, every reported neighbour is a stored row, reported at most as often as stored, with the
    distance that function gives and within the radius / bound; kNN answers are ascending. *)
Theorem C01_sound_any_metric_partial :
  forall (lib : SplitLib f64_ops nat) simd sort_nb balanced n dim X0 Xs q r sort k epsilon maxb,
  lib_ok f64_ops nat lib -> sort_ok f64_ops sort_nb ->
  Forall (good_mat f64_ops dim) (X0 :: Xs) ->
  (balanced = true -> Forall (fun X => no_nan f64_ops (m_data f64_ops X)) (X0 :: Xs)) ->
  length q = dim -> 0 < k ->
  let d := dist f64_ops (new_from_str_informed f64_ops simd n dim) in
  exists s w nn, py_history f64_ops lib simd balanced n X0 Xs = Ok s /\
    within_or_empty f64_ops sort_nb s sort (q, r) = Some w /\
    (exists chosen rest, Permutation (stored f64_ops (X0 :: Xs)) (chosen ++ rest) /\
       Permutation (map (fun nb => (nb_item nb, nb_dist nb)) w) (map (fun p => (fst p, d (snd p) q)) chosen)) /\
    Forall (fun nb => nle (nb_dist nb) r = true) w /\
    knn_bounded_unchecked f64_ops nat (k_dim f64_ops s) (k_d f64_ops s) (k_tree f64_ops s) k q maxb epsilon = Some nn /\
    length nn <= k /\
    (exists chosen rest, Permutation (stored f64_ops (X0 :: Xs)) (chosen ++ rest) /\
       map (fun nb => (nb_item nb, nb_dist nb)) nn = map (fun p => (fst p, d (snd p) q)) chosen) /\
    Forall (fun nb => nle (nb_dist nb) maxb = true) nn /\
    StronglySorted (fun a b => nle (nb_dist a) (nb_dist b) = true) nn.
Proof. exact sound_any. Qed.
Print Assumptions C01_sound_any_metric_partial.

(** C09 (KDTree part).  With [parallel=True], for every order in which the pool runs the rows, the
    result (including errors and panics) is that of [parallel=False], for every tree state. *)
Theorem C09_kdtree_parallel :
  forall sort_nb s (Q : mat f64_ops) r sort k epsilon maxb sched,
  length (m_data f64_ops Q) = m_rows f64_ops Q * m_cols f64_ops Q ->
  Permutation sched (seq 0 (m_rows f64_ops Q)) ->
  kdtree_knn f64_ops s Q k epsilon maxb (Some sched) = kdtree_knn f64_ops s Q k epsilon maxb None /\
  kdtree_within f64_ops sort_nb s Q r sort (Some sched) = kdtree_within f64_ops sort_nb s Q r sort None /\
  kdtree_within_count f64_ops s Q r (Some sched) = kdtree_within_count f64_ops s Q r None.
Proof. exact kdtree_parallel. Qed.
Print Assumptions C09_kdtree_parallel.
Example C09_case : Permutation [2; 0; 1] (seq 0 3).
Proof. exact parallel_case. Qed.

(** C46 is false: [within(X, 0.0)] does not return the stored row equal to the query point. *)
Theorem C46_radius_zero_refuted :
  exists s outs,
    py_new f64_ops demo_lib no_simd demo_X true Dl2 = Ok s /\
    kdtree_within f64_ops demo_sort s (mk 1 1 [fi 5]) (Scalar f64_ops (nzero f64_ops)) false None = Ok (Value outs) /\
    outs = [[]] /\
    length (brute_within f64_ops nat ML2 (stored f64_ops [demo_X]) [fi 5] (nzero f64_ops)) = 1.
Proof. exact radius_zero_refuted. Qed.
Print Assumptions C46_radius_zero_refuted.
(** Exactly which queries answer the empty list without looking: radius <= f64::EPSILON (or NaN-free
    comparison true) or a non-finite coordinate; any tree, any metric. *)
Theorem C46_rejected_queries_empty :
  forall sort_nb s q r sort,
  (nle r (neps f64_ops) = true \/ Exists (fun x => is_finite x = false) q) ->
  within_or_empty f64_ops sort_nb s sort (q, r) = Some [].
Proof. exact rejected_empty. Qed.
Print Assumptions C46_rejected_queries_empty.

(** C47 is false: a radius array of length one makes [within] and [within_count] return None. *)
Theorem C47_length_one_radius_refuted :
  exists s,
    py_new f64_ops demo_lib no_simd demo_X true Dl2 = Ok s /\
    kdtree_within f64_ops demo_sort s (mk 1 1 [fi 5]) (Vec f64_ops [fi 1]) false None = Ok PyNone /\
    kdtree_within_count f64_ops s (mk 1 1 [fi 5]) (Vec f64_ops [fi 1]) None = Ok PyNone /\
    exists v, kdtree_within f64_ops demo_sort s (mk 1 1 [fi 5]) (Scalar f64_ops (fi 1)) false None = Ok (Value v).
Proof. exact length_one_refuted. Qed.
Print Assumptions C47_length_one_radius_refuted.

(** C48 is false: [within] does not check the width of the query matrix; a 2-column query against a
    1-column tree is answered (the second column is ignored or panics, depending on the tree). *)
Theorem C48_width_unchecked_refuted :
  exists s outs big,
    py_new f64_ops demo_lib no_simd (mk 2 1 [fi 1; fi 2]) true Dl2 = Ok s /\
    kdtree_within f64_ops demo_sort s (mk 1 2 [fi 1; fi 77]) (Scalar f64_ops (fz 1 (-1))) false None = Ok (Value outs) /\
    map (map fst) outs = [[0%N]] /\
    py_new f64_ops demo_lib no_simd demo_X true Dl2 = Ok big /\
    kdtree_within f64_ops demo_sort big (mk 1 2 [fi 1; fi 77]) (Scalar f64_ops (fz 1 (-1))) false None = Panic.
Proof. exact width_refuted. Qed.
Print Assumptions C48_width_unchecked_refuted.
