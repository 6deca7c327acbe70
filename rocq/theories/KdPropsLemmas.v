(** The statements of KdProps.v, derived from the generic results at [f64_ops]. *)
From Coq Require Import Bool List Arith Lia Permutation Sorted NArith ZArith.
From Flocq Require Import IEEE754.BinarySingleNaN.
From Verif Require Import Num F64 PermTac KdModel KdSpec KdProofs KnnUnique KdSound PyKdModel PyKdSpec PyKdProofs
  KdDemo.
Import ListNotations.
Notation T := (carrier f64_ops).
Notation nle := (nle f64_ops). Notation nlt := (nlt f64_ops).

Lemma ex_ok {X Y} (r : pyres X) (f : X -> Y) (y : Y) :
  match r with Ok s => Some (f s) | _ => None end = Some y -> exists s, r = Ok s /\ f s = y.
Proof. destruct r as [s| |]; [|discriminate|discriminate]. intros [= <-]. eauto. Qed.

(** Observations without floats. *)
Definition obs_within (r : pyres (pyval (list (list (BinNums.N * T))))) : option (option (list (list BinNums.N))) :=
  match r with Ok (Value outs) => Some (Some (map (map fst) outs)) | Ok PyNone => Some None | _ => None end.
Definition obs_knn (r : pyres (list (list T) * list (list BinNums.N))) : option (list (list BinNums.N)) :=
  match r with Ok (_, im) => Some im | _ => None end.
Definition is_err {X} (r : pyres X) : bool := match r with Err => true | _ => false end.
Definition is_panic {X} (r : pyres X) : bool := match r with Panic => true | _ => false end.
Lemma is_err_v {X} (r : pyres X) : is_err r = true -> r = Err.
Proof. destruct r; try discriminate. reflexivity. Qed.
Lemma is_panic_v {X} (r : pyres X) : is_panic r = true -> r = Panic.
Proof. destruct r; try discriminate. reflexivity. Qed.
Lemma pair_inj {X Y} (a a' : X) (b b' : Y) : (a, b) = (a', b') -> a = a' /\ b = b'.
Proof. intros H. injection H. auto. Qed.
Lemma obs_within_v r o : obs_within r = Some (Some o) -> exists outs, r = Ok (Value outs) /\ map (map fst) outs = o.
Proof. destruct r as [[v|]| |]; try discriminate. intros [= <-]. eauto. Qed.
Lemma obs_within_n r : obs_within r = Some None -> r = Ok PyNone.
Proof. destruct r as [[v|]| |]; try discriminate. reflexivity. Qed.
Lemma obs_knn_v r im : obs_knn r = Some im -> exists dm, r = Ok (dm, im).
Proof. destruct r as [[dm i]| |]; try discriminate. intros [= <-]. eauto. Qed.

Lemma radii_pos n r : Forall (fun x => nlt (neps f64_ops) x = true) (radii f64_ops n r) ->
  Forall (fun x => nle x (nadd f64_ops (nzero f64_ops) (neps f64_ops)) = false) (radii f64_ops n r).
Proof. intros H. eapply Forall_impl; [|exact H]. intros x. apply eps_zero. Qed.

Lemma kw_value sort_nb s Q r sort par outs : (forall x, r <> Vec f64_ops [x]) ->
  py_within f64_ops sort_nb s Q r sort par = Ok outs ->
  kdtree_within f64_ops sort_nb s Q r sort par = Ok (Value outs).
Proof.
  intros H E. unfold kdtree_within. rewrite E. destruct r as [r|[|x [|y rs]]]; try reflexivity.
  now destruct (H x).
Qed.
Lemma kc_value s Q r par outs : (forall x, r <> Vec f64_ops [x]) ->
  py_within_count f64_ops s Q r par = Ok outs ->
  kdtree_within_count f64_ops s Q r par = Ok (Value outs).
Proof.
  intros H E. unfold kdtree_within_count. rewrite E. destruct r as [r|[|x [|y rs]]]; try reflexivity.
  now destruct (H x).
Qed.

Lemma combine_nth_error {X Y} (xs : list X) (ys : list Y) i x y :
  nth_error xs i = Some x -> nth_error ys i = Some y -> nth_error (combine xs ys) i = Some (x, y).
Proof.
  revert ys i. induction xs as [|a xs IH]; intros [|b ys] [|i]; simpl; try discriminate.
  - intros [= ->] [= ->]. reflexivity.
  - apply IH.
Qed.

Lemma within_exact :
  forall (lib : SplitLib f64_ops nat) simd sort_nb balanced n dim X0 Xs Q r sort par,
  lib_ok f64_ops nat lib -> sort_ok f64_ops sort_nb ->
  Forall (good_mat f64_ops dim) (X0 :: Xs) -> clean f64_ops balanced n (X0 :: Xs) -> scalar_metric n dim ->
  (N.of_nat (length (all_rows f64_ops (X0 :: Xs))) <= 2 ^ 32)%N ->
  good_mat f64_ops dim Q -> all_finite f64_ops (m_data f64_ops Q) ->
  length (radii f64_ops (m_rows f64_ops Q) r) = m_rows f64_ops Q -> (forall x, r <> Vec f64_ops [x]) ->
  Forall (fun x => nlt (neps f64_ops) x = true) (radii f64_ops (m_rows f64_ops Q) r) ->
  sched_ok (m_rows f64_ops Q) par ->
  exists s outs,
    py_history f64_ops lib simd balanced n X0 Xs = Ok s /\
    kdtree_within f64_ops sort_nb s Q r sort par = Ok (Value outs) /\
    length outs = m_rows f64_ops Q /\
    forall i q x, nth_error (mat_rows f64_ops Q) i = Some q ->
      nth_error (radii f64_ops (m_rows f64_ops Q) r) i = Some x ->
      exists out, nth_error outs i = Some out /\
        Permutation out
          (map (fun p => (N.of_nat (fst p), snd p))
               (brute_within f64_ops nat (metric_of n) (stored f64_ops (X0 :: Xs)) q x)) /\
        (sort = true -> StronglySorted (fun a b => nle (snd a) (snd b) = true) out).
Proof.
  intros lib simd sort_nb balanced n dim X0 Xs Q r sort par LO SO G C SM Cap GQ FQ LR R1 RR SC.
  destruct (within_history f64_ops f64_laws lib simd balanced n dim X0 Xs sort_nb Q r sort par LO SO G C SM Cap
              GQ FQ LR (radii_pos _ _ RR) SC) as (s & outs & E & Ew & F).
  exists s, outs. split; [exact E|]. split; [now apply kw_value|]. split.
  - rewrite <- (Forall2_len _ _ _ F). now apply queries_length.
  - intros i q x Hq Hx. pose proof (combine_nth_error _ _ _ _ _ Hq Hx) as Hqx.
    destruct (Forall2_nth_l _ _ _ _ _ F Hqx) as (out & Eo & P). exists out. split; [exact Eo|]. exact P.
Qed.

Lemma within_case : exists s outs,
    py_history f64_ops demo_lib no_simd true Dl2 demo_X [demo_add] = Ok s /\
    kdtree_within f64_ops demo_sort s demo_Q (Scalar f64_ops (fi 1)) true (Some [1; 0]) = Ok (Value outs) /\
    map (map fst) outs = [[5%N; 12%N; 6%N; 4%N]; []] /\
    Forall (fun x => nlt (neps f64_ops) x = true) (radii f64_ops 2 (Scalar f64_ops (fi 1))) /\
    lib_ok f64_ops nat demo_lib /\ sort_ok f64_ops demo_sort /\
    Forall (good_mat f64_ops 1) [demo_X; demo_add] /\ clean f64_ops true Dl2 [demo_X; demo_add].
Proof.
  destruct (ex_ok (py_history f64_ops demo_lib no_simd true Dl2 demo_X [demo_add])
    (fun s => obs_within (kdtree_within f64_ops demo_sort s demo_Q (Scalar f64_ops (fi 1)) true (Some [1; 0])))
    (Some (Some [[5%N; 12%N; 6%N; 4%N]; []]))) as (s & E & O); [vm_compute; reflexivity|].
  apply obs_within_v in O. destruct O as (outs & O1 & O2).
  exists s, outs. split; [exact E|]. split; [exact O1|]. split; [exact O2|].
  split; [repeat constructor|].
  split; [exact demo_lib_ok|]. split; [exact demo_sort_ok|]. split; [exact demo_good|]. apply demo_clean.
Qed.

Lemma within_count_exact :
  forall (lib : SplitLib f64_ops nat) simd balanced n dim X0 Xs Q r par,
  lib_ok f64_ops nat lib ->
  Forall (good_mat f64_ops dim) (X0 :: Xs) -> clean f64_ops balanced n (X0 :: Xs) -> scalar_metric n dim ->
  (Z.of_nat (length (all_rows f64_ops (X0 :: Xs))) < 2 ^ 31)%Z ->
  good_mat f64_ops dim Q -> all_finite f64_ops (m_data f64_ops Q) ->
  length (radii f64_ops (m_rows f64_ops Q) r) = m_rows f64_ops Q -> (forall x, r <> Vec f64_ops [x]) ->
  Forall (fun x => nlt (neps f64_ops) x = true) (radii f64_ops (m_rows f64_ops Q) r) ->
  sched_ok (m_rows f64_ops Q) par ->
  exists s, py_history f64_ops lib simd balanced n X0 Xs = Ok s /\
    kdtree_within_count f64_ops s Q r par =
      Ok (Value (map (fun qr => Z.of_nat (length (brute_within f64_ops nat (metric_of n)
                                    (stored f64_ops (X0 :: Xs)) (fst qr) (snd qr))))
                     (combine (mat_rows f64_ops Q) (radii f64_ops (m_rows f64_ops Q) r)))).
Proof.
  intros lib simd balanced n dim X0 Xs Q r par LO G C SM Cap GQ FQ LR R1 RR SC.
  destruct (count_history f64_ops f64_laws lib simd balanced n dim X0 Xs Q r par LO G C SM Cap
              GQ FQ LR (radii_pos _ _ RR) SC) as (s & E & Ew).
  exists s. split; [exact E|]. now apply kc_value.
Qed.

Lemma within_count_case : exists s, py_history f64_ops demo_lib no_simd true Dl2 demo_X [demo_add] = Ok s /\
    kdtree_within_count f64_ops s demo_Q (Scalar f64_ops (fi 1)) None = Ok (Value [4; 0]%Z).
Proof.
  apply ex_ok. vm_compute. reflexivity.
Qed.

Lemma abs_zero : nabs f64_ops (nzero f64_ops) = nzero f64_ops. Proof. reflexivity. Qed.

Lemma knn_exact_history :
  forall (lib : SplitLib f64_ops nat) simd balanced n dim X0 Xs Q k maxb par,
  lib_ok f64_ops nat lib ->
  Forall (good_mat f64_ops dim) (X0 :: Xs) -> clean f64_ops balanced n (X0 :: Xs) -> scalar_metric n dim ->
  (N.of_nat (length (all_rows f64_ops (X0 :: Xs))) <= 2 ^ 32)%N ->
  good_mat f64_ops dim Q -> all_finite f64_ops (m_data f64_ops Q) -> 0 < k ->
  sched_ok (m_rows f64_ops Q) par ->
  exists s dm im, py_history f64_ops lib simd balanced n X0 Xs = Ok s /\
    kdtree_knn f64_ops s Q k (nzero f64_ops) maxb par = Ok (dm, im) /\
    exists answers,
      Forall2 (fun q out => knn_exact f64_ops nat (metric_of n) (stored f64_ops (X0 :: Xs)) k q (nabs f64_ops maxb) out)
              (mat_rows f64_ops Q) answers /\
      dm = map (fun out => map snd out ++ repeat (ninf f64_ops) (k - length out)) answers /\
      im = map (fun out => map (fun p => N.of_nat (fst p)) out ++ repeat (2 ^ 32 - 1)%N (k - length out)) answers.
Proof.
  intros lib simd balanced n dim X0 Xs Q k maxb par LO G C SM Cap GQ FQ Hk SC.
  exact (knn_history_exact f64_ops f64_laws lib simd balanced n dim X0 Xs Q k (nabs f64_ops maxb) par LO G C SM Cap GQ FQ Hk SC).
Qed.

Lemma knn_case : exists s dm, py_history f64_ops demo_lib no_simd true Dl2 demo_X [demo_add] = Ok s /\
    kdtree_knn f64_ops s demo_Q 3 (nzero f64_ops) (fi 50) None
      = Ok (dm, [[5; 12; 6]; [4294967295; 4294967295; 4294967295]])%N.
Proof.
  destruct (ex_ok (py_history f64_ops demo_lib no_simd true Dl2 demo_X [demo_add])
    (fun s => obs_knn (kdtree_knn f64_ops s demo_Q 3 (nzero f64_ops) (fi 50) None)) (Some [[5; 12; 6]; [4294967295; 4294967295; 4294967295]]%N)) as (s & E & O); [vm_compute; reflexivity|].
  apply obs_knn_v in O. destruct O as (dm & O).
  exists s, dm. auto.
Qed.

Lemma knn_epsilon_history :
  forall (lib : SplitLib f64_ops nat) simd balanced n dim X0 Xs Q k epsilon maxb par,
  lib_ok f64_ops nat lib ->
  Forall (good_mat f64_ops dim) (X0 :: Xs) -> clean f64_ops balanced n (X0 :: Xs) -> scalar_metric n dim ->
  (N.of_nat (length (all_rows f64_ops (X0 :: Xs))) <= 2 ^ 32)%N ->
  good_mat f64_ops dim Q -> all_finite f64_ops (m_data f64_ops Q) -> 0 < k -> is_nan epsilon = false ->
  sched_ok (m_rows f64_ops Q) par ->
  exists s dm im, py_history f64_ops lib simd balanced n X0 Xs = Ok s /\
    kdtree_knn f64_ops s Q k epsilon maxb par = Ok (dm, im) /\
    exists answers,
      Forall2 (fun q out => knn_answer f64_ops nat (metric_of n) (stored f64_ops (X0 :: Xs)) k q
                              (nabs f64_ops maxb) (nabs f64_ops epsilon) out)
              (mat_rows f64_ops Q) answers /\
      dm = map (fun out => map snd out ++ repeat (ninf f64_ops) (k - length out)) answers /\
      im = map (fun out => map (fun p => N.of_nat (fst p)) out ++ repeat (2 ^ 32 - 1)%N (k - length out)) answers.
Proof.
  intros lib simd balanced n dim X0 Xs Q k eps maxb par LO G C SM Cap GQ FQ Hk He SC.
  apply (knn_history f64_ops f64_laws lib simd balanced n dim X0 Xs Q k (nabs f64_ops maxb) (nabs f64_ops eps) par
           LO G C SM Cap GQ FQ Hk); [|exact SC].
  apply (abs_nonneg f64_ops f64_laws). cbn. destruct eps; try discriminate; reflexivity.
Qed.

Lemma knn_eps_case : exists s dm, py_history f64_ops demo_lib no_simd true Dl2 demo_X [demo_add] = Ok s /\
    kdtree_knn f64_ops s demo_Q 3 (fi (-2)) (fi (-50)) None
      = Ok (dm, [[5; 12; 6]; [4294967295; 4294967295; 4294967295]])%N.
Proof.
  destruct (ex_ok (py_history f64_ops demo_lib no_simd true Dl2 demo_X [demo_add])
    (fun s => obs_knn (kdtree_knn f64_ops s demo_Q 3 (fi (-2)) (fi (-50)) None)) (Some [[5; 12; 6]; [4294967295; 4294967295; 4294967295]]%N)) as (s & E & O); [vm_compute; reflexivity|].
  apply obs_knn_v in O. destruct O as (dm & O).
  exists s, dm. auto.
Qed.

Lemma clean_l1 balanced Xs :
  (balanced = true -> Forall (fun X => no_nan f64_ops (m_data f64_ops X)) Xs) -> clean f64_ops balanced Dl1 Xs.
Proof. intros H [E|E]; [now apply H|discriminate]. Qed.

Lemma knn_shape :
  forall (lib : SplitLib f64_ops nat) simd balanced n dim X0 Xs Q k epsilon maxb par,
  lib_ok f64_ops nat lib ->
  Forall (good_mat f64_ops dim) (X0 :: Xs) ->
  (balanced = true -> Forall (fun X => no_nan f64_ops (m_data f64_ops X)) (X0 :: Xs)) ->
  length (m_data f64_ops Q) = m_rows f64_ops Q * m_cols f64_ops Q -> sched_ok (m_rows f64_ops Q) par ->
  exists s, py_history f64_ops lib simd balanced n X0 Xs = Ok s /\
  ((k = 0 \/ m_contig f64_ops Q = false \/ m_rows f64_ops Q = 0 \/ m_cols f64_ops Q <> dim) ->
     kdtree_knn f64_ops s Q k epsilon maxb par = Err) /\
  ((k <> 0 /\ m_contig f64_ops Q = true /\ m_rows f64_ops Q <> 0 /\ m_cols f64_ops Q = dim) ->
     exists dm im, kdtree_knn f64_ops s Q k epsilon maxb par = Ok (dm, im) /\
       length dm = m_rows f64_ops Q /\ length im = m_rows f64_ops Q /\
       Forall (fun r => length r = k) dm /\ Forall (fun r => length r = k) im).
Proof.
  intros lib simd balanced n dim X0 Xs Q k eps maxb par LO G C SQ SC.
  destruct (py_history_ok f64_ops f64_laws lib simd balanced n Dl1 dim X0 Xs LO G (clean_l1 _ _ C)) as (s & E & H).
  exists s. split; [exact E|].
  assert (Hd : 0 < dim) by (inversion G as [|? ? (_ & _ & D & _)]; exact D).
  destruct (knn_no_panic f64_ops f64_laws dim _ _ _ s Q k (nabs f64_ops eps) (nabs f64_ops maxb) par H SQ SC)
    as [(A & K & R)|(A & R)].
  - split.
    + intros B. exfalso. unfold accepted, usable in A. apply andb_prop in A. destruct A as [A1 A2].
      apply andb_prop in A1. destruct A1 as [A1 A3]. apply Nat.eqb_eq in A2.
      destruct B as [B|[B|[B|B]]]; try lia; try congruence. rewrite B in A3. discriminate.
    + intros _. exact R.
  - split; [intros _; exact R|]. intros (K & Ct & Rn & Cn). exfalso.
    destruct A as [A|A]; [|lia]. unfold accepted, usable in A. rewrite Ct, Cn, Nat.eqb_refl in A. cbn [andb] in A.
    rewrite andb_true_r in A. destruct (Nat.eqb_spec (m_rows f64_ops Q * dim) 0); [nia|discriminate].
Qed.

Lemma bound_refuted :
  exists s dm im,
    py_new f64_ops demo_lib no_simd demo_X true Dl2 = Ok s /\
    kdtree_knn f64_ops s (mk 1 1 [fi 5]) 3 (nzero f64_ops) (fi 1) None = Ok (dm, im) /\
    im = [[5; 6; 2 ^ 32 - 1]]%N /\
    map fst (brute_within f64_ops nat ML2 (stored f64_ops [demo_X]) [fi 5] (fi 1)) = [4; 5; 6].
Proof.
  destruct (ex_ok (py_new f64_ops demo_lib no_simd demo_X true Dl2)
    (fun s => obs_knn (kdtree_knn f64_ops s (mk 1 1 [fi 5]) 3 (nzero f64_ops) (fi 1) None)) (Some [[5; 6; 2 ^ 32 - 1]]%N)) as (s & E & O); [vm_compute; reflexivity|].
  apply obs_knn_v in O. destruct O as (dm & O).
  exists s, dm, [[5; 6; 2 ^ 32 - 1]]%N. repeat (split; [assumption || reflexivity|]). vm_compute. reflexivity.
Qed.

Lemma bound_partial :
  forall n rows k q maxb out, knn_exact f64_ops nat n rows k q maxb out -> length out < k ->
  forall p, In p rows -> nlt (spec_dist f64_ops n (snd p) q) maxb = true ->
  In (fst p, spec_dist f64_ops n (snd p) q) out.
Proof.
  intros n rows k q maxb out (ch & rest & P & E & _ & _ & _ & X) L p Hp Hd.
  apply (Permutation_in _ P) in Hp. apply in_app_or in Hp. destruct Hp as [Hp|Hp].
  - rewrite E. exact (in_map (fun p => (fst p, spec_dist f64_ops n (snd p) q)) _ _ Hp).
  - destruct (X p Hp Hd). lia.
Qed.

Lemma tree_contents :
  forall (lib : SplitLib f64_ops nat) simd balanced n dim X0 Xs,
  lib_ok f64_ops nat lib -> good_mat f64_ops dim X0 ->
  Forall (fun X => length (m_data f64_ops X) = m_rows f64_ops X * m_cols f64_ops X) Xs ->
  (balanced = true -> Forall (fun X => no_nan f64_ops (m_data f64_ops X)) (X0 :: Xs)) ->
  let kept := filter (fun X => m_contig f64_ops X && negb (m_rows f64_ops X * m_cols f64_ops X =? 0)
                               && (m_cols f64_ops X =? dim)) Xs in
  exists s, py_session f64_ops lib (py_new f64_ops lib simd X0 balanced n) Xs = Ok s /\
    py_count f64_ops s = Ok (length (all_rows f64_ops (X0 :: kept))) /\
    Permutation (map (fun l => (item l, row_vec l)) (elems f64_ops nat (k_tree f64_ops s)))
                (stored f64_ops (X0 :: kept)) /\
    py_history f64_ops lib simd balanced n X0 kept = Ok s.
Proof.
  intros lib simd balanced n dim X0 Xs LO G0 SH C kept.
  assert (C0 : clean f64_ops balanced Dl1 [X0]).
  { apply clean_l1. intros B. specialize (C B). inversion C; subst. auto. }
  destruct (py_new_ok f64_ops f64_laws lib simd balanced n Dl1 dim X0 LO G0 C0) as (s0 & E0 & H0).
  assert (Hd : 0 < dim) by (destruct G0 as (_ & _ & D & _); exact D).
  assert (KG : Forall (good_mat f64_ops dim) (X0 :: kept)).
  { constructor; [exact G0|]. apply Forall_forall. intros X HX. apply filter_In in HX. destruct HX as [HX A].
    apply andb_prop in A. destruct A as [A1 A2]. apply andb_prop in A1. destruct A1 as [A1 A3].
    apply Nat.eqb_eq in A2. rewrite Forall_forall in SH. specialize (SH X HX).
    destruct (Nat.eqb_spec (m_rows f64_ops X * m_cols f64_ops X) 0) as [|NZ]; [discriminate|].
    repeat split; try assumption. destruct (m_rows f64_ops X); [now destruct NZ|lia]. }
  assert (KC : clean f64_ops balanced Dl1 (X0 :: kept)).
  { apply clean_l1. intros B. specialize (C B). apply Forall_cons_iff in C. destruct C as [Ca Cb]. constructor; [assumption|].
    apply Forall_forall. intros X HX. apply filter_In in HX. rewrite Forall_forall in Cb. apply Cb. tauto. }
  destruct (py_history_ok f64_ops f64_laws lib simd balanced n Dl1 dim X0 kept LO KG KC) as (s & E & H).
  exists s. rewrite E0, py_session_filter.
  assert (FE : filter (accepted f64_ops (k_dim f64_ops s0)) Xs = kept).
  { rewrite (hi_dim _ _ _ _ _ _ H0). reflexivity. }
  rewrite FE. unfold py_history in E. rewrite E0 in E. split; [exact E|].
  split; [eapply hist_count, H|]. split; [eapply (hist_stored f64_ops), H|].
  unfold py_history. rewrite E0. exact E.
Qed.

Lemma contents_case : exists s,
    py_session f64_ops demo_lib (py_new f64_ops demo_lib no_simd demo_X true Dl1)
               [mk 1 2 [fi 1; fi 2]; demo_add; mk 0 0 []] = Ok s /\
    py_count f64_ops s = Ok 13 /\
    py_add f64_ops demo_lib s (mk 1 2 [fi 1; fi 2]) = Err.
Proof.
  destruct (ex_ok (py_session f64_ops demo_lib (py_new f64_ops demo_lib no_simd demo_X true Dl1)
               [mk 1 2 [fi 1; fi 2]; demo_add; mk 0 0 []])
    (fun s => (py_count f64_ops s, is_err (py_add f64_ops demo_lib s (mk 1 2 [fi 1; fi 2]))))
    (Ok 13, true)) as (s & E & O); [vm_compute; reflexivity|].
  apply pair_inj in O. destruct O as [O1 O2]. exists s. split; [exact E|]. split; [exact O1|].
  now apply is_err_v.
Qed.

Lemma ids_rows rows l (out : list (BinNums.N * T)) :
  Permutation out (map (fun p => (N.of_nat (fst p), snd p)) l) ->
  Permutation (map (fun p => (nth_error (A := list T) rows (N.to_nat (fst p)), snd p)) out)
              (map (fun p => (nth_error rows (fst p), snd p)) l).
Proof.
  intros P. rewrite (Permutation_map _ P), map_map. cbn [fst snd]. apply Permutation_refl'.
  apply map_ext. intros p. now rewrite Nat2N.id.
Qed.

Lemma order_independent :
  forall (lib1 lib2 : SplitLib f64_ops nat) simd1 simd2 sort1 sort2 b1 b2 n dim X1 Xs1 X2 Xs2 Q r so1 so2 k maxb par1 par2,
  lib_ok f64_ops nat lib1 -> lib_ok f64_ops nat lib2 -> sort_ok f64_ops sort1 -> sort_ok f64_ops sort2 ->
  Forall (good_mat f64_ops dim) (X1 :: Xs1) -> clean f64_ops b1 n (X1 :: Xs1) ->
  Forall (good_mat f64_ops dim) (X2 :: Xs2) -> clean f64_ops b2 n (X2 :: Xs2) ->
  Permutation (all_rows f64_ops (X1 :: Xs1)) (all_rows f64_ops (X2 :: Xs2)) ->
  scalar_metric n dim -> (N.of_nat (length (all_rows f64_ops (X1 :: Xs1))) <= 2 ^ 32)%N ->
  good_mat f64_ops dim Q -> all_finite f64_ops (m_data f64_ops Q) -> 0 < k ->
  nlt (neps f64_ops) r = true ->
  sched_ok (m_rows f64_ops Q) par1 -> sched_ok (m_rows f64_ops Q) par2 ->
  exists s1 s2 w1 w2 d1 d2 i1 i2,
    py_history f64_ops lib1 simd1 b1 n X1 Xs1 = Ok s1 /\ py_history f64_ops lib2 simd2 b2 n X2 Xs2 = Ok s2 /\
    kdtree_within f64_ops sort1 s1 Q (Scalar f64_ops r) so1 par1 = Ok (Value w1) /\
    kdtree_within f64_ops sort2 s2 Q (Scalar f64_ops r) so2 par2 = Ok (Value w2) /\
    Forall2 (fun a b =>
       Permutation (map (fun p => (nth_error (all_rows f64_ops (X1 :: Xs1)) (N.to_nat (fst p)), snd p)) a)
                   (map (fun p => (nth_error (all_rows f64_ops (X2 :: Xs2)) (N.to_nat (fst p)), snd p)) b)) w1 w2 /\
    kdtree_knn f64_ops s1 Q k (nzero f64_ops) maxb par1 = Ok (d1, i1) /\
    kdtree_knn f64_ops s2 Q k (nzero f64_ops) maxb par2 = Ok (d2, i2) /\
    Forall2 (fun a b => forall j t, nlt t (nabs f64_ops maxb) = true ->
       (nth_error a j = Some t -> exists t', nth_error b j = Some t' /\ same f64_ops t t') /\
       (nth_error b j = Some t -> exists t', nth_error a j = Some t' /\ same f64_ops t t')) d1 d2.
Proof.
  intros lib1 lib2 simd1 simd2 sort1 sort2 b1 b2 n dim X1 Xs1 X2 Xs2 Q r so1 so2 k maxb par1 par2
    LO1 LO2 SO1 SO2 G1 C1 G2 C2 P SM Cap GQ FQ Hk Hr SC1 SC2.
  assert (Cap2 : (N.of_nat (length (all_rows f64_ops (X2 :: Xs2))) <= 2 ^ 32)%N)
    by (rewrite <- (Permutation_length P); exact Cap).
  assert (RR : Forall (fun x => nle x (nadd f64_ops (nzero f64_ops) (neps f64_ops)) = false)
                 (radii f64_ops (m_rows f64_ops Q) (Scalar f64_ops r))).
  { apply radii_pos. simpl. clear - Hr. induction (m_rows f64_ops Q); simpl; constructor; auto. }
  assert (RL : length (radii f64_ops (m_rows f64_ops Q) (Scalar f64_ops r)) = m_rows f64_ops Q)
    by apply repeat_length.
  destruct (within_history f64_ops f64_laws lib1 simd1 b1 n dim X1 Xs1 sort1 Q (Scalar f64_ops r) so1 par1
              LO1 SO1 G1 C1 SM Cap GQ FQ RL RR SC1) as (s1 & w1 & E1 & W1 & F1).
  destruct (within_history f64_ops f64_laws lib2 simd2 b2 n dim X2 Xs2 sort2 Q (Scalar f64_ops r) so2 par2
              LO2 SO2 G2 C2 SM Cap2 GQ FQ RL RR SC2) as (s2 & w2 & E2 & W2 & F2).
  destruct (knn_exact_history lib1 simd1 b1 n dim X1 Xs1 Q k maxb par1 LO1 G1 C1 SM Cap GQ FQ Hk SC1)
    as (s1' & d1 & i1 & E1' & K1 & a1 & A1 & D1 & _).
  destruct (knn_exact_history lib2 simd2 b2 n dim X2 Xs2 Q k maxb par2 LO2 G2 C2 SM Cap2 GQ FQ Hk SC2)
    as (s2' & d2 & i2 & E2' & K2 & a2 & A2 & D2 & _).
  rewrite E1 in E1'. injection E1' as <-. rewrite E2 in E2'. injection E2' as <-.
  exists s1, s2, w1, w2, d1, d2, i1, i2.
  split; [exact E1|]. split; [exact E2|].
  split; [apply kw_value; [discriminate|exact W1]|]. split; [apply kw_value; [discriminate|exact W2]|].
  split.
  { clear - F1 F2 P. revert w2 F2. induction F1 as [|qr o1 qs os1 H1 F1 IH]; intros w2 F2;
      inversion F2 as [|? o2 ? os2 H2 F2']; subst; constructor; [|now apply IH].
    destruct H1 as [H1 _]. destruct H2 as [H2 _].
    rewrite (ids_rows _ _ _ H1), (ids_rows _ _ _ H2). apply (brute_same_rows f64_ops), P. }
  split; [exact K1|]. split; [exact K2|].
  subst d1 d2. clear - A1 A2 P. revert a2 A2.
  assert (HALF : forall rowsa rowsb q (oa ob : list (nat * T)), Permutation rowsa rowsb ->
     knn_exact f64_ops nat (metric_of n) (indexed rowsa) k q (nabs f64_ops maxb) oa ->
     knn_exact f64_ops nat (metric_of n) (indexed rowsb) k q (nabs f64_ops maxb) ob ->
     forall j t, nlt t (nabs f64_ops maxb) = true ->
     nth_error (map snd oa ++ repeat (ninf f64_ops) (k - length oa)) j = Some t ->
     exists t', nth_error (map snd ob ++ repeat (ninf f64_ops) (k - length ob)) j = Some t' /\ same f64_ops t t').
  { intros rowsa rowsb q oa ob PP Ka Kb j t Ht Hj.
    destruct (Nat.lt_ge_cases j (length (map snd oa))) as [L|L].
    - rewrite nth_error_app1 in Hj by exact L.
      destruct (exact_unique f64_ops f64_laws nat nat (metric_of n) (indexed rowsa) (indexed rowsb) k q
                  (nabs f64_ops maxb) oa ob j t Ka Kb) as (t' & Et & S).
      { rewrite !indexed_snd. exact PP. }
      { exact Hj. } { exact Ht. }
      exists t'. split; [|exact S]. rewrite nth_error_app1; [exact Et|]. apply nth_error_Some. congruence.
    - rewrite nth_error_app2 in Hj by exact L. apply nth_error_In in Hj. apply repeat_spec in Hj. subst t.
      exfalso. clear - Ht. revert Ht. cbn. destruct maxb as [s|s| |s m e He]; cbn; discriminate. }
  induction A1 as [|q o1 qs os1 H1 F1 IH]; intros a2 F2; inversion F2 as [|? o2 ? os2 H2 F2']; subst;
    simpl; constructor; [|now apply IH].
  intros j t Ht. split.
  - exact (HALF _ _ q o1 o2 P H1 H2 j t Ht).
  - exact (HALF _ _ q o2 o1 (Permutation_sym P) H2 H1 j t Ht).
Qed.

Lemma order_case :
    Permutation (all_rows f64_ops [mk 2 1 [fi 1; fi 2]; mk 1 1 [fi 3]]) (all_rows f64_ops [mk 3 1 [fi 3; fi 1; fi 2]]).
Proof.
  change (Permutation [[fi 1]; [fi 2]; [fi 3]] [[fi 3]; [fi 1]; [fi 2]]).
  exact (Permutation_app_comm [[fi 1]; [fi 2]] [[fi 3]]).
Qed.

Lemma no_panic :
  forall (lib : SplitLib f64_ops nat) simd sort_nb balanced n dim X0 Xs Q r sort k epsilon maxb par,
  lib_ok f64_ops nat lib -> sort_ok f64_ops sort_nb ->
  Forall (good_mat f64_ops dim) (X0 :: Xs) ->
  (balanced = true -> Forall (fun X => no_nan f64_ops (m_data f64_ops X)) (X0 :: Xs)) ->
  good_mat f64_ops dim Q -> sched_ok (m_rows f64_ops Q) par ->
  exists s, py_history f64_ops lib simd balanced n X0 Xs = Ok s /\
    py_count f64_ops s <> Panic /\
    kdtree_knn f64_ops s Q k epsilon maxb par <> Panic /\
    kdtree_within f64_ops sort_nb s Q r sort par <> Panic /\
    kdtree_within_count f64_ops s Q r par <> Panic.
Proof.
  intros lib simd sort_nb balanced n dim X0 Xs Q r sort k eps maxb par LO SO G C GQ SC.
  destruct (py_history_ok f64_ops f64_laws lib simd balanced n Dl1 dim X0 Xs LO G (clean_l1 _ _ C)) as (s & E & H).
  exists s. split; [exact E|].
  assert (NP : forall r', py_within f64_ops sort_nb s Q r' sort par <> Panic /\
                          py_within_count f64_ops s Q r' par <> Panic).
  { intros r'. destruct (Nat.eq_dec (length (radii f64_ops (m_rows f64_ops Q) r')) (m_rows f64_ops Q)) as [L|L].
    - destruct (within_no_panic f64_ops _ _ _ _ s sort_nb Q r' sort par H SO GQ SC L)
        as ((o & -> & _) & (c & -> & _)). split; discriminate.
    - destruct r' as [r'|rs]; [exfalso; exact (L (repeat_length _ _))|].
      unfold py_within, py_within_count. rewrite (good_usable f64_ops dim Q GQ).
      destruct (Nat.eqb_spec (length rs) (m_rows f64_ops Q)) as [e|]; [exfalso; exact (L e)|]. split; discriminate. }
  split; [rewrite (hist_count f64_ops _ _ _ _ _ H); discriminate|].
  split.
  { destruct (knn_no_panic f64_ops f64_laws dim _ _ _ s Q k (nabs f64_ops eps) (nabs f64_ops maxb) par H)
      as [(_ & _ & dm & im & R & _)|(_ & R)]; [destruct GQ; tauto|exact SC| |]; unfold kdtree_knn; rewrite R; discriminate. }
  split.
  - unfold kdtree_within. pose proof (proj1 (NP r)) as R.
    destruct r as [r|[|x [|y rs]]].
    2:{ destruct (py_within _ _ _ _ _ _ _); congruence. }
    1,3: destruct (py_within _ _ _ _ _ _ _); congruence.
    pose proof (proj1 (NP (Scalar f64_ops x))) as R'. destruct (py_within f64_ops sort_nb s Q (Scalar f64_ops x) sort par); congruence.
  - unfold kdtree_within_count. pose proof (proj2 (NP r)) as R.
    destruct r as [r|[|x [|y rs]]].
    2:{ destruct (py_within_count _ _ _ _ _); congruence. }
    1,3: destruct (py_within_count _ _ _ _ _); congruence.
    pose proof (proj2 (NP (Scalar f64_ops x))) as R'. destruct (py_within_count f64_ops s Q (Scalar f64_ops x) par); congruence.
Qed.

Lemma nan_panics : exists X,
  good_mat f64_ops 1 X /\ py_new f64_ops demo_lib no_simd X true Dl2 = Panic.
Proof.
  exists (mk 11 1 ((nnanv f64_ops) :: map fi [1;2;3;4;5;6;7;8;9;10]%Z)). split.
  - repeat constructor.
  - apply is_panic_v. vm_compute. reflexivity.
Qed.

Lemma sound_any :
  forall (lib : SplitLib f64_ops nat) simd sort_nb balanced n dim X0 Xs q r sort k epsilon maxb,
  lib_ok f64_ops nat lib -> sort_ok f64_ops sort_nb ->
  Forall (good_mat f64_ops dim) (X0 :: Xs) ->
  (balanced = true -> Forall (fun X => no_nan f64_ops (m_data f64_ops X)) (X0 :: Xs)) ->
  length q = dim -> 0 < k ->
  let d := dist f64_ops (new_from_str_informed f64_ops simd n dim) in
  exists s w nn, py_history f64_ops lib simd balanced n X0 Xs = Ok s /\
    within_or_empty f64_ops sort_nb s sort (q, r) = Some w /\
    (exists chosen rest, Permutation (stored f64_ops (X0 :: Xs)) (chosen ++ rest) /\
       Permutation (map (fun nb => (nb_item nb, nb_dist nb)) w) (map (fun p => (fst p, d (snd p) q)) chosen)) /\
    Forall (fun nb => nle (nb_dist nb) r = true) w /\
    knn_bounded_unchecked f64_ops nat (k_dim f64_ops s) (k_d f64_ops s) (k_tree f64_ops s) k q maxb epsilon = Some nn /\
    length nn <= k /\
    (exists chosen rest, Permutation (stored f64_ops (X0 :: Xs)) (chosen ++ rest) /\
       map (fun nb => (nb_item nb, nb_dist nb)) nn = map (fun p => (fst p, d (snd p) q)) chosen) /\
    Forall (fun nb => nle (nb_dist nb) maxb = true) nn /\
    StronglySorted (fun a b => nle (nb_dist a) (nb_dist b) = true) nn.
Proof.
  intros lib simd sort_nb balanced n dim X0 Xs q r sort k eps maxb LO SO G C Lq Hk d.
  destruct (py_history_ok f64_ops f64_laws lib simd balanced n Dl1 dim X0 Xs LO G (clean_l1 _ _ C)) as (s & E & H).
  destruct (within_total f64_ops dim _ _ _ s sort_nb q r sort H SO Lq) as (w & Ew & Bw & Cw & _).
  destruct (knn_total f64_ops f64_laws dim _ _ _ s k q maxb eps H Lq Hk) as (nn & En & L & S & B & Cn).
  exists s, w, nn. repeat (split; [assumption|]). assumption.
Qed.

Lemma kdtree_parallel :
  forall sort_nb s (Q : mat f64_ops) r sort k epsilon maxb sched,
  length (m_data f64_ops Q) = m_rows f64_ops Q * m_cols f64_ops Q ->
  Permutation sched (seq 0 (m_rows f64_ops Q)) ->
  kdtree_knn f64_ops s Q k epsilon maxb (Some sched) = kdtree_knn f64_ops s Q k epsilon maxb None /\
  kdtree_within f64_ops sort_nb s Q r sort (Some sched) = kdtree_within f64_ops sort_nb s Q r sort None /\
  kdtree_within_count f64_ops s Q r (Some sched) = kdtree_within_count f64_ops s Q r None.
Proof.
  intros sort_nb s Q r sort k eps maxb sched S P. unfold kdtree_knn, kdtree_within, kdtree_within_count.
  split; [now apply knn_par|]. split.
  - destruct r as [r|[|x [|y rs]]]; rewrite within_par by assumption; reflexivity.
  - destruct r as [r|[|x [|y rs]]]; rewrite count_par by assumption; reflexivity.
Qed.
Lemma parallel_case : Permutation [2; 0; 1] (seq 0 3).
Proof. exact (Permutation_app_comm [2] [0; 1]). Qed.

Lemma radius_zero_refuted :
  exists s outs,
    py_new f64_ops demo_lib no_simd demo_X true Dl2 = Ok s /\
    kdtree_within f64_ops demo_sort s (mk 1 1 [fi 5]) (Scalar f64_ops (nzero f64_ops)) false None = Ok (Value outs) /\
    outs = [[]] /\
    length (brute_within f64_ops nat ML2 (stored f64_ops [demo_X]) [fi 5] (nzero f64_ops)) = 1.
Proof.
  destruct (ex_ok (py_new f64_ops demo_lib no_simd demo_X true Dl2)
    (fun s => obs_within (kdtree_within f64_ops demo_sort s (mk 1 1 [fi 5]) (Scalar f64_ops (nzero f64_ops)) false None))
    (Some (Some [[]]))) as (s & E & O); [vm_compute; reflexivity|].
  apply obs_within_v in O. destruct O as (outs & O1 & O2). exists s, outs. split; [exact E|]. split; [exact O1|].
  split; [|vm_compute; reflexivity]. destruct outs as [|[|] [|]]; try discriminate. reflexivity.
Qed.

Lemma rejected_empty :
  forall sort_nb s q r sort,
  (nle r (neps f64_ops) = true \/ Exists (fun x => is_finite x = false) q) ->
  within_or_empty f64_ops sort_nb s sort (q, r) = Some [].
Proof.
  intros sort_nb s q r sort H. unfold within_or_empty, within. cbn [fst snd].
  replace (nadd f64_ops (nzero f64_ops) (neps f64_ops)) with (neps f64_ops) by reflexivity.
  destruct H as [H|H]; [rewrite H; reflexivity|].
  assert (existsb (fun x => negb (nfinite f64_ops x)) q = true) as ->; [|rewrite orb_true_r; reflexivity].
  apply Exists_exists in H. destruct H as (x & Hx & F). apply existsb_exists. exists x. split; [exact Hx|].
  cbn. now rewrite F.
Qed.

Lemma length_one_refuted :
  exists s,
    py_new f64_ops demo_lib no_simd demo_X true Dl2 = Ok s /\
    kdtree_within f64_ops demo_sort s (mk 1 1 [fi 5]) (Vec f64_ops [fi 1]) false None = Ok PyNone /\
    kdtree_within_count f64_ops s (mk 1 1 [fi 5]) (Vec f64_ops [fi 1]) None = Ok PyNone /\
    exists v, kdtree_within f64_ops demo_sort s (mk 1 1 [fi 5]) (Scalar f64_ops (fi 1)) false None = Ok (Value v).
Proof.
  destruct (ex_ok (py_new f64_ops demo_lib no_simd demo_X true Dl2)
    (fun s => (obs_within (kdtree_within f64_ops demo_sort s (mk 1 1 [fi 5]) (Vec f64_ops [fi 1]) false None),
               kdtree_within_count f64_ops s (mk 1 1 [fi 5]) (Vec f64_ops [fi 1]) None,
               obs_within (kdtree_within f64_ops demo_sort s (mk 1 1 [fi 5]) (Scalar f64_ops (fi 1)) false None)))
    (Some None, Ok PyNone, Some (Some [[5; 6; 4]]%N))) as (s & E & O); [vm_compute; reflexivity|].
  apply pair_inj in O. destruct O as [O O3]. apply pair_inj in O. destruct O as [O1 O2]. apply obs_within_n in O1. apply obs_within_v in O3. destruct O3 as (v & O3 & _).
  exists s. repeat (split; [assumption|]). exists v. exact O3.
Qed.

Lemma width_refuted :
  exists s outs big,
    py_new f64_ops demo_lib no_simd (mk 2 1 [fi 1; fi 2]) true Dl2 = Ok s /\
    kdtree_within f64_ops demo_sort s (mk 1 2 [fi 1; fi 77]) (Scalar f64_ops (fz 1 (-1))) false None = Ok (Value outs) /\
    map (map fst) outs = [[0%N]] /\
    py_new f64_ops demo_lib no_simd demo_X true Dl2 = Ok big /\
    kdtree_within f64_ops demo_sort big (mk 1 2 [fi 1; fi 77]) (Scalar f64_ops (fz 1 (-1))) false None = Panic.
Proof.
  destruct (ex_ok (py_new f64_ops demo_lib no_simd (mk 2 1 [fi 1; fi 2]) true Dl2)
    (fun s => obs_within (kdtree_within f64_ops demo_sort s (mk 1 2 [fi 1; fi 77]) (Scalar f64_ops (fz 1 (-1))) false None))
    (Some (Some [[0%N]]))) as (s & E & O); [vm_compute; reflexivity|].
  destruct (ex_ok (py_new f64_ops demo_lib no_simd demo_X true Dl2)
    (fun s => is_panic (kdtree_within f64_ops demo_sort s (mk 1 2 [fi 1; fi 77]) (Scalar f64_ops (fz 1 (-1))) false None))
    true) as (b & E2 & O2); [vm_compute; reflexivity|].
  apply obs_within_v in O. destruct O as (outs & O & O').
  exists s, outs, b. repeat (split; [assumption|]).
  now apply is_panic_v.
Qed.
