(** Concrete cases for the properties of NearProps.v. *)
From Coq Require Import List Bool Arith Permutation Reals Lra Lia.
From Verif Require Import HavSpec HavModel NearSpec NearModel NearProofs NearProofs2.
From Verif Require Import Num F64 KdModel KdSpec KdProofs PyKdModel PyKdSpec PyKdProofs KdDemo KdPropsLemmas KnnExprModel KnnExprSpec KnnExprProofs KnnExprSem KnnIds KnnExprPropsLemmas.
Import ListNotations.
Open Scope nat_scope.
Open Scope list_scope.

Lemma l2_one x : true_dist NL2 [0%R] [x] (Rabs x).
Proof. cbn [true_dist]. replace (sql2 [0%R] [x]) with (Rsqr x) by (unfold sql2, along, add_up, Rsqr; cbn; ring). symmetry. apply sqrt_Rsqr_abs. Qed.
Lemma leb_true a b : (a <= b)%R -> cell_leb (Num a) (Num b) = Some true.
Proof. intros H. cbn. destruct (Rle_dec a b); [reflexivity|contradiction]. Qed.
Lemma leb_false a b : (b < a)%R -> cell_leb (Num a) (Num b) = Some false.
Proof. intros H. cbn. destruct (Rle_dec a b); [lra|reflexivity]. Qed.
Lemma l2_cases :
  (exists pt q r, true_dist NL2 pt q 2%R /\ (2 <= r)%R /\ within_dist_from true NL2 pt 1 [map Some q] (RNum r) = Some [Some false]) /\
  (exists pt q r, true_dist NL2 pt q (1 / 2)%R /\ (r < 1 / 2)%R /\ within_dist_from true NL2 pt 1 [map Some q] (RNum r) = Some [Some true]).
Proof.
  split.
  - exists [0%R], [2%R], 3%R. split; [replace 2%R with (Rabs 2) at 2 by (apply Rabs_pos_eq; lra); apply l2_one|]. split; [lra|].
    unfold within_dist_from. cbn [NearModel.accepted length Nat.eqb andb NearModel.radii repeat combine map fst snd]. f_equal. f_equal. cbn [point_dist]. apply leb_false. cbn. lra.
  - exists [0%R], [(1 / 2)%R], (1 / 3)%R. split; [replace (1 / 2)%R with (Rabs (1 / 2)) at 2 by (apply Rabs_pos_eq; lra); apply l2_one|]. split; [lra|].
    unfold within_dist_from. cbn [NearModel.accepted length Nat.eqb andb NearModel.radii repeat combine map fst snd]. f_equal. f_equal. cbn [point_dist]. apply leb_true. cbn. lra.
Qed.
Lemma max_one b l v : bottom_ok b -> In (Num v) l -> (forall w, In (Num w) l -> v <= w)%R -> cell_max (b 1 l) = Num v.
Proof.
  intros B I U. destruct (bottom_rank b B 1 l v (le_n 1) I) as (m & M & Q). rewrite M. f_equal.
  assert (V : (v <= m)%R).
  { apply Q. rewrite filter_none; [cbn; lia|]. intros [| |w] W; try reflexivity. cbn. destruct (Rlt_dec w v); [specialize (U w W); lra|reflexivity]. }
  destruct (B 1 l) as (rest & P & L & O). destruct l as [|c l]; [easy|]. cbn [length Nat.min] in L. destruct (b 1 (c :: l)) as [|x [|]] eqn:E; try discriminate L.
  assert (X : x = Num m). { unfold cell_max in M. destruct x; cbn in M; congruence. } subst x.
  apply Rle_antisym; [|exact V]. apply (Permutation_in _ P) in I. destruct I as [I|I]; [injection I as ->; lra|]. exact (O (Num m) (Num v) (or_introl eq_refl) I).
Qed.
Lemma null_cases b : bottom_ok b -> forall x r, (0 <= r)%R ->
  within_dist_from true NL1 [x] 1 [[None]] (RNum r) = Some [Some true] /\ within_dist_from true NSQL2 [x] 1 [[None]] (RNum r) = Some [Some true] /\
  is_knn_from b true NSQL2 [x] 1 [[None]; [Some (x + 1)%R]] 1 = Some [Some true; Some false].
Proof.
  intros B x r H. split; [|split].
  - unfold within_dist_from. cbn [NearModel.accepted length Nat.eqb andb NearModel.radii repeat combine map fst snd]. f_equal. f_equal. apply leb_true. exact H.
  - unfold within_dist_from. cbn [NearModel.accepted length Nat.eqb andb NearModel.radii repeat combine map fst snd]. f_equal. f_equal. apply leb_true. exact H.
  - unfold is_knn_from. cbn [NearModel.accepted length Nat.eqb andb]. cbn [map point_dist].
    set (a := hsum (zipped (fun x e => ((e - x) ^ 2)%R) [x] [None])). set (c := hsum (zipped (fun x e => ((e - x) ^ 2)%R) [x] [Some (x + 1)%R])).
    assert (Ea : a = 0%R) by reflexivity. assert (Ec : c = 1%R) by (unfold c; cbn; ring).
    rewrite (max_one b [Num a; Num c] a B (or_introl eq_refl)); [|intros w [W|[W|[]]]; injection W as <-; lra].
    rewrite leb_true by lra. rewrite leb_false by lra. reflexivity.
Qed.
Lemma tie_case b : bottom_ok b -> is_knn_from b true NL1 [0%R] 1 [[Some 1%R]; [Some (-1)%R]; [Some 3%R]] 1 = Some [Some true; Some true; Some false].
Proof.
  intros B. unfold is_knn_from. cbn [NearModel.accepted length Nat.eqb andb]. cbn [map point_dist].
  assert (E : forall y, hsum (zipped (fun x e => Rabs (e - x)) [0%R] [Some y]) = Rabs y) by (intros y; unfold hsum, zipped; cbn; rewrite Rplus_0_r; f_equal; ring).
  rewrite !E. assert (E1 : Rabs 1 = 1%R) by (apply Rabs_pos_eq; lra). assert (E2 : Rabs (-1) = 1%R) by (rewrite Rabs_left; lra). assert (E3 : Rabs 3 = 3%R) by (apply Rabs_pos_eq; lra).
  rewrite E1, E2, E3. rewrite (max_one b [Num 1; Num 1; Num 3] 1 B (or_introl eq_refl)); [|intros w [W|[W|[W|[]]]]; injection W as <-; lra].
  rewrite leb_true by lra. rewrite leb_false by lra. reflexivity.
Qed.
Lemma point_cases : true_dist NL2 [0; 0]%R [3; 4]%R 5 /\ true_dist NL1 [0; 0]%R [3; -4]%R 7 /\ true_dist NINF [0; 0]%R [3; -4]%R 4.
Proof.
  assert (A : Rabs (3 - 0) = 3%R) by (rewrite Rminus_0_r; apply Rabs_pos_eq; lra). assert (B : Rabs (-4 - 0) = 4%R) by (rewrite Rminus_0_r; rewrite Rabs_left; lra).
  split; [|split]; cbn [true_dist].
  - replace (sql2 _ _) with (Rsqr 5) by (unfold sql2, along, add_up, Rsqr; cbn; ring). symmetry. apply sqrt_Rsqr. lra.
  - unfold l1, along, add_up. cbn. rewrite A, B. ring.
  - unfold linf, along. cbn. rewrite A, B. rewrite (Rmax_left 4 0) by lra. symmetry. apply Rmax_right. lra.
Qed.
Lemma itself_case : forall vc, value_counts_ok Nat.eq_dec vc -> exists out res,
  query_radius_ptwise f64_ops (demo_lib_of nat) demo_sort no_simd Dl2 [10; 11; 12; 13; 14] demo_cols (demo_trace demo_cols) (fi 2) false demo_par = PyKdModel.Ok out /\
  nth_error out 3 = Some (Some [13]) /\ (forall i l, nth_error out i = Some (Some l) -> In 13 l -> i = 3) /\
  query_radius_freq_cnt f64_ops vc (demo_lib_of nat) demo_sort no_simd Dl2 [10; 11; 12; 13; 14] demo_cols (demo_trace demo_cols) (fi 2) demo_par = PyKdModel.Ok res /\
  In (13, 1) res.
Proof.
  intros vc V.
  assert (E : exists out, query_radius_ptwise f64_ops (demo_lib_of nat) demo_sort no_simd Dl2 [10; 11; 12; 13; 14] demo_cols (demo_trace demo_cols) (fi 2) false demo_par = PyKdModel.Ok out /\
    nth_error out 3 = Some (Some [13]) /\ map (fun o => match o with Some l => existsb (Nat.eqb 13) l | None => false end) out = [false; false; false; true; false] /\ count_occ Nat.eq_dec (flat out) 13 = 1).
  { eexists. split; [vm_compute; reflexivity|]. split; [reflexivity|]. split; reflexivity. }
  destruct E as (out & E & E3 & EM & EC). exists out, (vc (flat out)). split; [exact E|]. split; [exact E3|]. split.
  - intros i l I J. assert (H : nth_error (map (fun o => match o with Some l => existsb (Nat.eqb 13) l | None => false end) out) i = Some (existsb (Nat.eqb 13) l)) by (rewrite nth_error_map, I; reflexivity).
    rewrite EM in H. assert (T : existsb (Nat.eqb 13) l = true) by (apply existsb_exists; exists 13; split; [exact J|reflexivity]). rewrite T in H.
    do 5 (destruct i as [|i]; [cbn in H; congruence|]). cbn in H. destruct i; discriminate H.
  - unfold query_radius_freq_cnt. rewrite E, drop_explode. split; [reflexivity|]. destruct (V (flat out)) as (_ & V2 & _). apply V2. rewrite EC. split; [reflexivity|lia].
Qed.
(** A value_counts. *)
Fixpoint vins (p : nat * nat) (l : list (nat * nat)) : list (nat * nat) := match l with [] => [p] | q :: r => if snd q <=? snd p then p :: q :: r else q :: vins p r end.
Definition some_value_counts (l : list nat) : list (nat * nat) := fold_right vins [] (map (fun a => (a, count_occ Nat.eq_dec l a)) (nodup Nat.eq_dec l)).
Lemma vins_perm p l : Permutation (p :: l) (vins p l).
Proof. induction l as [|q r IH]; [apply Permutation_refl|]. cbn [vins]. destruct (snd q <=? snd p); [apply Permutation_refl|]. eapply perm_trans; [apply perm_swap|now constructor]. Qed.
Inductive vsorted : list (nat * nat) -> Prop := vs_nil : vsorted [] | vs_cons a l : (forall b, In b l -> snd b <= snd a) -> vsorted l -> vsorted (a :: l).
Lemma vins_sorted p l : vsorted l -> vsorted (vins p l).
Proof.
  induction 1 as [|b r H S IH]; [constructor; [easy|constructor]|]. cbn [vins]. destruct (snd b <=? snd p) eqn:E.
  - apply Nat.leb_le in E. constructor; [|now constructor]. intros c [<-|C]; [exact E|]. specialize (H c C). lia.
  - apply Nat.leb_gt in E. constructor; [|exact IH]. intros c C. apply (Permutation_in _ (Permutation_sym (vins_perm p r))) in C. destruct C as [<-|C]; [lia|now apply H].
Qed.
Lemma some_value_counts_ok : value_counts_ok Nat.eq_dec some_value_counts.
Proof.
  intros l. unfold some_value_counts. set (c := map _ (nodup Nat.eq_dec l)).
  assert (P : Permutation c (fold_right vins [] c)). { clearbody c. induction c as [|p c IH]; [constructor|]. cbn [fold_right]. eapply perm_trans; [apply perm_skip, IH|apply vins_perm]. }
  assert (S : vsorted (fold_right vins [] c)). { clear P. clearbody c. induction c as [|p c IH]; [constructor|]. cbn [fold_right]. now apply vins_sorted. }
  split; [|split].
  - eapply Permutation_NoDup; [apply Permutation_map, P|]. unfold c. rewrite map_map. cbn [fst]. rewrite map_id. apply NoDup_nodup.
  - intros a n. split.
    + intros I. apply (Permutation_in _ (Permutation_sym P)) in I. unfold c in I. apply in_map_iff in I. destruct I as (x & E & I). injection E as -> <-. split; [reflexivity|].
      apply nodup_In in I. apply (count_occ_In Nat.eq_dec) in I. lia.
    + intros [-> H]. apply (Permutation_in _ P). unfold c. apply in_map_iff. exists a. split; [reflexivity|]. apply nodup_In. apply (count_occ_In Nat.eq_dec). lia.
  - clear P. generalize dependent (fold_right vins [] c). clear c. intros r S. induction S as [|p r H S IH]; intros i j a b L I J; [now destruct i|].
    destruct i as [|i].
    + injection I as <-. destruct j as [|j]; [lia|]. apply H. exact (nth_error_In r j J).
    + destruct j as [|j]; [lia|]. apply (IH i j a b); [lia|exact I|exact J].
Qed.
