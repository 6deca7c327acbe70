From Coq Require Import Bool List Arith ZArith QArith Qabs Lia Lqa Permutation Setoid Morphisms.
From Verif Require Import PairSums QSum MwProofs AnovaModel AnovaSpec AnovaProofs.
Import ListNotations.
Open Scope Q_scope.

Lemma osum_some {A} (h : A -> option Q) (v : A -> Q) l : (forall c, In c l -> h c = Some (v c)) ->
  osum (map h l) = Some (qsum v l).
Proof.
  induction l as [|x l IH]; intros H; [reflexivity|]. cbn [map osum fold_right]. fold (osum (map h l)).
  rewrite H by now left. rewrite IH; [reflexivity|]. intros; apply H. now right.
Qed.
Lemma osum_none l : In None l -> osum l = None.
Proof.
  induction l as [|x l IH]; [intros []|]. intros [->|H]; [reflexivity|]. cbn [osum fold_right]. fold (osum l).
  rewrite IH by exact H. now destruct x.
Qed.
Lemma qsum_list_prod {A B} (v : A * B -> Q) l1 l2 :
  qsum v (list_prod l1 l2) == qsum (fun a => qsum (fun b => v (a, b)) l2) l1.
Proof.
  induction l1 as [|a l1 IH]; [reflexivity|]. cbn [list_prod]. rewrite qsum_app, IH, qsum_map. reflexivity.
Qed.
Lemma list_prod_perm {A B} (l1 l1' : list A) (l2 l2' : list B) : Permutation l1 l1' -> Permutation l2 l2' ->
  Permutation (list_prod l1 l2) (list_prod l1' l2').
Proof.
  intros P1 P2. transitivity (list_prod l1' l2).
  - induction P1; cbn [list_prod].
    + reflexivity.
    + now apply Permutation_app_head.
    + rewrite !app_assoc. apply Permutation_app_tail, Permutation_app_comm.
    + etransitivity; eassumption.
  - clear P1. induction l1' as [|a l IH]; cbn [list_prod]; [reflexivity|].
    apply Permutation_app; [now apply Permutation_map|exact IH].
Qed.
Lemma inj_zsum {A} (f : A -> Z) l : inject_Z (zsum f l) == qsum (fun x => inject_Z (f x)) l.
Proof.
  induction l as [|x l IH]; [reflexivity|]. cbn [zsum fold_right qsum]. rewrite inject_Z_plus. fold (zsum f l). rewrite IH. reflexivity.
Qed.
Lemma inj_eq a b : inject_Z a == inject_Z b -> a = b.
Proof. intros H. unfold Qeq in H. simpl in H. lia. Qed.
Lemma qsum_pick (f : Z -> Q) D a : NoDup D -> In a D -> qsum (fun x => if (x =? a)%Z then f x else 0) D == f a.
Proof.
  induction 1 as [|x D N ND IH]; [intros []|]. intros H. rewrite qsum_cons. destruct (Z.eqb_spec x a) as [->|Ne].
  - rewrite qsum_zero; [ring|]. intros y Hy. destruct (Z.eqb_spec y a); [subst; contradiction|reflexivity].
  - destruct H as [->|H]; [contradiction|]. rewrite IH by exact H. ring.
Qed.

Section Table.
Variable rows : list (Z * Z).
Notation D1 := (distinct (map fst rows)).
Notation D2 := (distinct (map snd rows)).
Definition olift := map (fun r : Z * Z => (Some (fst r), Some (snd r))) rows.

Lemma observed_freq a b : inject_Z (observed olift (Some a, Some b)) = freq rows a b.
Proof. unfold observed, freq, qlen, zlen, olift. rewrite filter_map, map_length. reflexivity. Qed.
Lemma filter_filter {A} (p q : A -> bool) l : filter p (filter q l) = filter (fun x => q x && p x) l.
Proof. induction l as [|x l IH]; simpl; [reflexivity|]. destruct (q x); simpl; [|exact IH]. destruct (p x); now rewrite IH. Qed.
Lemma freq_row a : qsum (fun b => freq rows a b) D2 == freq1 rows a.
Proof.
  unfold freq1. rewrite qlen_sum, (qsum_by_key Z.eqb Z.eqb_eq (@snd Z Z) _ D2).
  - apply qsum_ext. intros b _. unfold freq. rewrite filter_filter. apply qlen_sum.
  - apply NoDup_nodup.
  - intros x Hx. apply filter_In in Hx. apply nodup_In. now apply in_map.
Qed.
Lemma freq_col b : qsum (fun a => freq rows a b) D1 == freq2 rows b.
Proof.
  unfold freq2. rewrite qlen_sum, (qsum_by_key Z.eqb Z.eqb_eq (@fst Z Z) _ D1).
  - apply qsum_ext. intros a _. unfold freq. rewrite filter_filter, qlen_sum. 
    rewrite (filter_ext (fun r => (fst r =? a)%Z && (snd r =? b)%Z) (fun x => (snd x =? b)%Z && (fst x =? a)%Z)); [reflexivity|].
    intros x. apply andb_comm.
  - apply NoDup_nodup.
  - intros x Hx. apply filter_In in Hx. apply nodup_In. now apply in_map.
Qed.
Lemma freq_total : qsum (fun a => freq1 rows a) D1 == qlen rows.
Proof.
  rewrite (qlen_sum rows), (qsum_by_key Z.eqb Z.eqb_eq (@fst Z Z) _ D1).
  - apply qsum_ext. intros a _. apply qlen_sum.
  - apply NoDup_nodup.
  - intros x Hx. apply nodup_In. now apply in_map.
Qed.

Variable uniq : list (option Z) -> list (option Z).
Hypothesis U : uniq_ok uniq.
Notation xs := (map (fun r : Z * Z => Some (fst r)) rows).
Notation ys := (map (fun r : Z * Z => Some (snd r)) rows).
Notation cells := (list_prod (uniq xs) (uniq ys)).
Lemma u1_perm : Permutation (uniq xs) (map Some D1).
Proof. replace xs with (map Some (map fst rows)) by (rewrite map_map; reflexivity). now apply uniq_some. Qed.
Lemma u2_perm : Permutation (uniq ys) (map Some D2).
Proof. replace ys with (map Some (map snd rows)) by (rewrite map_map; reflexivity). now apply uniq_some. Qed.
Lemma cells_sum (v : option Z * option Z -> Q) :
  qsum v cells == qsum (fun a => qsum (fun b => v (Some a, Some b)) D2) D1.
Proof.
  rewrite (qsum_perm v _ _ (list_prod_perm _ _ _ _ u1_perm u2_perm)), qsum_list_prod, qsum_map.
  apply qsum_ext. intros a _. rewrite qsum_map. reflexivity.
Qed.
Lemma in_cells c : In c cells -> exists a b, c = (Some a, Some b) /\ In a D1 /\ In b D2.
Proof.
  destruct c as [x y]. intros H. apply in_prod_iff in H. destruct H as [H1 H2].
  apply (Permutation_in _ u1_perm) in H1. apply (Permutation_in _ u2_perm) in H2.
  apply in_map_iff in H1, H2. destruct H1 as (a & <- & Ha), H2 as (b & <- & Hb). eauto 6.
Qed.
Lemma total_ob : zsum (observed olift) cells = zlen rows.
Proof.
  apply inj_eq. rewrite inj_zsum, cells_sum.
  rewrite (qsum_ext _ (fun a => freq1 rows a)); [apply freq_total|].
  intros a _. rewrite <- freq_row. apply qsum_ext. intros b _. rewrite observed_freq. reflexivity.
Qed.
Lemma over1_ob a : In a D1 ->
  inject_Z (zsum (observed olift) (filter (fun c' => key_eqb (fst c') (Some a)) cells)) == freq1 rows a.
Proof.
  intros Ha. rewrite inj_zsum, qsum_filter, cells_sum.
  rewrite (qsum_ext _ (fun a' => if (a' =? a)%Z then freq1 rows a' else 0)).
  - apply qsum_pick; [apply NoDup_nodup|exact Ha].
  - intros a' _. cbn [fst key_eqb]. destruct (a' =? a)%Z.
    + rewrite <- freq_row. apply qsum_ext. intros b _. rewrite observed_freq. reflexivity.
    + apply qsum_zero. reflexivity.
Qed.
Lemma over2_ob b : In b D2 ->
  inject_Z (zsum (observed olift) (filter (fun c' => key_eqb (snd c') (Some b)) cells)) == freq2 rows b.
Proof.
  intros Hb. rewrite inj_zsum, qsum_filter, cells_sum, qsum_swap.
  rewrite (qsum_ext _ (fun b' => if (b' =? b)%Z then freq2 rows b' else 0)).
  - apply qsum_pick; [apply NoDup_nodup|exact Hb].
  - intros b' _. cbn [snd key_eqb]. destruct (b' =? b)%Z.
    + rewrite <- freq_col. apply qsum_ext. intros a _. rewrite observed_freq. reflexivity.
    + apply qsum_zero. reflexivity.
Qed.
Lemma freq1_bounds a : In a D1 -> 1 <= freq1 rows a <= qlen rows.
Proof.
  intros Ha. apply nodup_In in Ha. apply in_map_iff in Ha. destruct Ha as (r & E & Hr).
  unfold freq1, qlen. change 1 with (inject_Z 1). rewrite <- !Zle_Qle. unfold zlen.
  pose proof (KsProofs.count_le (fun r => (fst r =? a)%Z) rows).
  assert (In r (filter (fun r => (fst r =? a)%Z) rows)) by (apply filter_In; split; [exact Hr|now apply Z.eqb_eq]).
  destruct (filter (fun r => (fst r =? a)%Z) rows); [contradiction|]. simpl in *. lia.
Qed.
Lemma freq2_bounds b : In b D2 -> 1 <= freq2 rows b <= qlen rows.
Proof.
  intros Ha. apply nodup_In in Ha. apply in_map_iff in Ha. destruct Ha as (r & E & Hr).
  unfold freq2, qlen. change 1 with (inject_Z 1). rewrite <- !Zle_Qle. unfold zlen.
  pose proof (KsProofs.count_le (fun r => (snd r =? b)%Z) rows).
  assert (In r (filter (fun r => (snd r =? b)%Z) rows)) by (apply filter_In; split; [exact Hr|now apply Z.eqb_eq]).
  destruct (filter (fun r => (snd r =? b)%Z) rows); [contradiction|]. simpl in *. lia.
Qed.
Lemma expected_pos a b : In a D1 -> In b D2 -> 0 < expected rows a b.
Proof.
  intros Ha Hb. pose proof (freq1_bounds a Ha). pose proof (freq2_bounds b Hb). unfold expected.
  apply Qlt_shift_div_l; [lra|]. rewrite Qmult_0_l. apply Qmult_lt_0_compat; lra.
Qed.
Lemma u64_small z : (0 <= z < 2 ^ 64)%Z -> u64 z = z.
Proof. intros. now apply Z.mod_small. Qed.
Lemma z_of_q z q n : inject_Z z == q -> 1 <= q <= inject_Z n -> (1 <= z <= n)%Z.
Proof.
  intros E [A B]. rewrite <- E in A, B. change 1 with (inject_Z 1) in A. rewrite <- Zle_Qle in A, B. lia.
Qed.

Hypothesis small : (zlen rows < 2 ^ 32)%Z.

Lemma chi2_cell a b : In a D1 -> In b D2 ->
  exists e t, qdiv (inject_Z (u64 (u64 (zsum (observed olift) (filter (fun c' => key_eqb (snd c') (Some b)) cells)) *
                              u64 (zsum (observed olift) (filter (fun c' => key_eqb (fst c') (Some a)) cells)))))
            (inject_Z (u64 (zsum (observed olift) cells))) = Some e /\ e == expected rows a b /\
  qdiv ((inject_Z (observed olift (Some a, Some b)) - e) * (inject_Z (observed olift (Some a, Some b)) - e)) e = Some t /\
  t == (freq rows a b - expected rows a b) * (freq rows a b - expected rows a b) / expected rows a b.
Proof.
  intros Ha Hb.
  pose proof (over1_ob a Ha) as E1. pose proof (over2_ob b Hb) as E2.
  pose proof (z_of_q _ _ _ E1 (freq1_bounds a Ha)) as B1. pose proof (z_of_q _ _ _ E2 (freq2_bounds b Hb)) as B2.
  set (o1 := zsum _ (filter (fun c' => key_eqb (fst c') _) _)) in *.
  set (o2 := zsum _ (filter (fun c' => key_eqb (snd c') _) _)) in *.
  rewrite total_ob. assert (P32 : (2 ^ 32 * 2 ^ 32 = 2 ^ 64)%Z) by reflexivity.
  assert (Pr : (1 <= o2 * o1 < 2 ^ 64)%Z).
  { split; [nia|]. apply Z.lt_le_trans with (2 ^ 32 * 2 ^ 32)%Z; [|lia]. apply Z.mul_lt_mono_nonneg; lia. }
  rewrite (u64_small o1), (u64_small o2), (u64_small (o2 * o1)), (u64_small (zlen rows)) by lia.
  unfold qdiv at 1. replace (Qeq_bool (inject_Z (zlen rows)) 0) with false.
  2:{ symmetry. apply not_true_is_false. intros H. apply Qeq_bool_iff in H. apply (inj_eq _ 0) in H. lia. }
  eexists. eexists. split; [reflexivity|].
  assert (E : inject_Z (o2 * o1) / inject_Z (zlen rows) == expected rows a b).
  { rewrite inject_Z_mult, E1, E2. unfold expected, qlen, Qdiv. ring. }
  split; [exact E|].
  unfold qdiv. pose proof (expected_pos a b Ha Hb) as EP.
  match goal with |- context [Qeq_bool ?x 0] => replace (Qeq_bool x 0) with false end.
  2:{ symmetry. apply not_true_is_false. intros H. apply Qeq_bool_iff in H. rewrite E in H. lra. }
  split; [reflexivity|]. rewrite E, observed_freq. reflexivity.
Qed.

Definition rect (c : option Z * option Z) : Q :=
  match c with
  | (Some a, Some b) => match qdiv (inject_Z (u64 (u64 (zsum (observed olift) (filter (fun c' => key_eqb (snd c') (Some b)) cells)) *
                              u64 (zsum (observed olift) (filter (fun c' => key_eqb (fst c') (Some a)) cells)))))
            (inject_Z (u64 (zsum (observed olift) cells))) with
                        | Some e => match qdiv ((inject_Z (observed olift (Some a, Some b)) - e) * (inject_Z (observed olift (Some a, Some b)) - e)) e with
                                    | Some t => t | None => 0 end
                        | None => 0 end
  | _ => 0
  end.
Lemma chi2_ok : exists q, fst (chi2 uniq xs ys) = Some q /\ q == pearson_chi2 rows.
Proof.
  unfold chi2, chi2_frame. cbn [fst]. rewrite combine_map2. fold olift. rewrite map_map.
  rewrite (osum_some _ rect).
  - eexists. split; [reflexivity|]. rewrite cells_sum. unfold pearson_chi2.
    apply qsum_ext. intros a Ha. apply qsum_ext. intros b Hb. unfold rect.
    destruct (chi2_cell a b Ha Hb) as (e & t & -> & _ & -> & E). exact E.
  - intros c Hc. destruct (in_cells c Hc) as (a & b & -> & Ha & Hb). unfold chi2_term, rect. cbn [fst snd].
    destruct (chi2_cell a b Ha Hb) as (e & t & -> & _ & -> & E). reflexivity.
Qed.
Lemma chi2_expected_freqs : forall a b o e, In (Some a, Some b, o, e) (chi2_frame uniq xs ys) ->
  inject_Z o = freq rows a b /\ exists q, e = Some q /\ q == expected rows a b.
Proof.
  intros a b o e H. unfold chi2_frame in H. rewrite combine_map2 in H. fold olift in H.
  apply in_map_iff in H. destruct H as (c & E & Hc). destruct (in_cells c Hc) as (a' & b' & -> & Ha & Hb).
  cbn [fst snd] in E. injection E as -> -> <- <-. split; [apply observed_freq|].
  destruct (chi2_cell a b Ha Hb) as (e' & t & -> & Ee & _). eauto.
Qed.
Lemma uniq_len1 : length (uniq xs) = length D1.
Proof. rewrite (Permutation_length u1_perm), map_length. reflexivity. Qed.
Lemma uniq_len2 : length (uniq ys) = length D2.
Proof. rewrite (Permutation_length u2_perm), map_length. reflexivity. Qed.
End Table.

Lemma chi2_dof uniq rows : uniq_ok uniq -> rows <> [] ->
  snd (chi2 uniq (map (fun r => Some (fst r)) rows) (map (fun r => Some (snd r)) rows)) =
  ((length (distinct (map fst rows)) - 1) * (length (distinct (map snd rows)) - 1))%nat.
Proof.
  intros U NE. unfold chi2. cbn [snd]. rewrite (uniq_len1 rows uniq U), (uniq_len2 rows uniq U).
  assert (H : forall f : Z * Z -> Z, (1 <= length (distinct (map f rows)))%nat).
  { intros f. destruct rows as [|r rs]; [contradiction|].
    assert (I : In (f r) (distinct (map f (r :: rs)))) by (apply nodup_In; now left).
    destruct (distinct (map f (r :: rs))); [destruct I|simpl; lia]. }
  pose proof (H fst) as H1. pose proof (H snd) as H2. unfold abs_diff1.
  destruct (Nat.leb_spec (length (distinct (map fst rows))) 1), (Nat.leb_spec (length (distinct (map snd rows))) 1); try nia.
Qed.

Definition flip (r : Z * Z) : Z * Z := (snd r, fst r).
Lemma pearson_sym rows : pearson_chi2 (map flip rows) == pearson_chi2 rows.
Proof.
  unfold pearson_chi2. rewrite !map_map. cbn [flip fst snd]. rewrite qsum_swap.
  change (map (fun x : Z * Z => fst (flip x)) rows) with (map snd rows) || idtac.
  apply qsum_ext. intros b _. apply qsum_ext. intros a _.
  assert (F : freq (map flip rows) a b = freq rows b a).
  { unfold freq. rewrite filter_map, qlen_map. f_equal. apply filter_ext. intros x. cbn [flip fst snd]. apply andb_comm. }
  assert (E : expected (map flip rows) a b == expected rows b a).
  { unfold expected, freq1, freq2. rewrite !filter_map, !qlen_map. cbn [flip fst snd]. unfold Qdiv. ring. }
  rewrite F, E. reflexivity.
Qed.

Lemma chi2_null uniq xs ys : uniq_ok uniq -> length xs = length ys -> In None xs \/ In None ys ->
  fst (chi2 uniq xs ys) = None.
Proof.
  intros U L H. unfold chi2, chi2_frame. cbn [fst]. apply osum_none.
  assert (X : exists x, In x xs). { destruct H as [H|H]; [eauto|]. destruct xs; [destruct ys; [destruct H|discriminate]|]. eexists; now left. }
  assert (Y : exists y, In y ys). { destruct H as [H|H]; [|eauto]. destruct ys; [destruct xs; [destruct H|discriminate]|]. eexists; now left. }
  destruct X as [x Hx], Y as [y Hy].
  set (rows := combine xs ys).
  assert (Z1 : forall cs, zsum (observed rows) (filter (fun c' => key_eqb (fst c') None) cs) = 0%Z).
  { intros cs. apply zsum_zero. intros [c1 c2] Hc. apply filter_In in Hc. destruct Hc as [_ Hc]. apply key_eqb_ok in Hc.
    simpl in Hc. now subst. }
  assert (Z2 : forall cs, zsum (observed rows) (filter (fun c' => key_eqb (snd c') None) cs) = 0%Z).
  { intros cs. apply zsum_zero. intros [c1 c2] Hc. apply filter_In in Hc. destruct Hc as [_ Hc]. apply key_eqb_ok in Hc.
    simpl in Hc. subst. now destruct c1. }
  assert (Q0 : forall n d (o : Z), n == 0 -> match qdiv n d with None => None | Some e => qdiv ((inject_Z o - e) * (inject_Z o - e)) e end = None).
  { intros n d o Hn. unfold qdiv. destruct (Qeq_bool d 0) eqn:E; [reflexivity|].
    replace (Qeq_bool (n / d) 0) with true; [reflexivity|]. symmetry. apply Qeq_bool_iff. rewrite Hn. unfold Qdiv. ring. }
  destruct H as [H|H]; rewrite map_map.
  - apply in_map_iff. exists (None, y). split.
    + unfold chi2_term. cbn [fst snd]. fold rows. rewrite Z1. apply Q0. rewrite Z.mul_0_r. reflexivity.
    + apply in_prod_iff. split; [now apply (U xs)|now apply (U ys)].
  - apply in_map_iff. exists (x, None). split.
    + unfold chi2_term. cbn [fst snd]. fold rows. rewrite Z2. apply Q0. rewrite Z.mul_0_l. reflexivity.
    + apply in_prod_iff. split; [now apply (U xs)|now apply (U ys)].
Qed.
