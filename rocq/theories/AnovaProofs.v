From Coq Require Import Bool List Arith ZArith QArith Qabs Lia Lqa Permutation Setoid Morphisms.
From Verif Require Import PairSums QSum MwProofs AnovaModel AnovaSpec.
Import ListNotations.
Open Scope Q_scope.

Lemma key_eqb_ok a b : key_eqb a b = true <-> a = b.
Proof.
  destruct a, b; simpl; split; intros H; try discriminate; try reflexivity.
  - apply Z.eqb_eq in H. now subst.
  - injection H as <-. apply Z.eqb_refl.
Qed.
Lemma combine_map2 {A B C} (f : A -> B) (g : A -> C) l : combine (map f l) (map g l) = map (fun x => (f x, g x)) l.
Proof. induction l as [|x l IH]; simpl; [reflexivity|]. now rewrite IH. Qed.
Lemma uniq_some uniq (l : list Z) : uniq_ok uniq -> Permutation (uniq (map Some l)) (map Some (distinct l)).
Proof.
  intros U. destruct (U (map Some l)) as [ND I]. apply NoDup_Permutation; [exact ND| |].
  - apply FinFun.Injective_map_NoDup; [intros x y H; congruence|apply NoDup_nodup].
  - intros x. rewrite I, !in_map_iff. unfold distinct. split; intros (y & E & H); exists y; (split; [exact E|]).
    + now apply nodup_In.
    + now apply nodup_In in H.
Qed.

Definition lift (rows : list (Z * Q)) : list (option Z * option Q) := map (fun r => (Some (fst r), Some (snd r))) rows.
Lemma group_values_some rows g : group_values (lift rows) (Some g) = map Some (of_group rows g).
Proof.
  unfold group_values, of_group, lift. rewrite filter_map, !map_map. simpl. reflexivity.
Qed.
Lemma nonnull_some l : nonnull (map Some l) = l.
Proof. induction l as [|x l IH]; simpl; [reflexivity|]. now rewrite IH. Qed.
Lemma var0_len l : var0 l * qlen l == qsum (fun x => (x - qmean l) * (x - qmean l)) l.
Proof.
  destruct l as [|x l]; [reflexivity|]. unfold var0. field.
  pose proof (qlen_pos (x :: l) ltac:(discriminate)). lra.
Qed.
Lemma by_group (rows : list (Z * Q)) f :
  qsum f rows == qsum (fun g => qsum f (filter (fun r => (fst r =? g)%Z) rows)) (distinct (map fst rows)).
Proof.
  apply (qsum_by_key Z.eqb Z.eqb_eq (@fst Z Q)); [apply NoDup_nodup|].
  intros x Hx. apply nodup_In. now apply in_map.
Qed.

Lemma f_test_ok uniq rows : uniq_ok uniq -> 1 < n_groups rows -> ~ ss_within rows == 0 ->
  exists q, f_test uniq (map (fun r => Some (fst r)) rows) (map (fun r => Some (snd r)) rows) = Some (Some q) /\
            q == anova_F rows.
Proof.
  intros U K W. unfold f_test. rewrite combine_map2. fold (lift rows).
  assert (E0 : map fst (lift rows) = map Some (map fst rows)) by (unfold lift; rewrite !map_map; reflexivity).
  rewrite E0. clear E0.
  set (D := distinct (map fst rows)).
  assert (P : Permutation (uniq (map Some (map fst rows))) (map Some D)) by now apply uniq_some.
  set (G := uniq (map Some (map fst rows))) in *.
  assert (Q0 : forall f : option Z -> Q, qsum f G == qsum (fun g => f (Some g)) D).
  { intros f. rewrite (qsum_perm f _ _ P), qsum_map. reflexivity. }
  assert (NC : zlen (filter (fun g => match g with Some _ => true | None => false end) G) = zlen D).
  { unfold zlen. rewrite (Permutation_length (KdProofs.filter_perm _ _ _ P)), filter_map, filter_all, map_length; auto. }
  rewrite NC.
  assert (NS : qsum (fun g => qlen (group_values (lift rows) g)) G == qlen rows).
  { rewrite Q0, (qlen_sum rows), (by_group rows). fold D. apply qsum_ext. intros g _.
    rewrite group_values_some, qlen_map. unfold of_group. rewrite qlen_map. apply qlen_sum. }
  assert (TS : qsum (fun g => qsum (fun x => x) (nonnull (group_values (lift rows) g))) G == qsum (fun x => x) (map snd rows)).
  { rewrite Q0, qsum_map, (by_group rows). fold D. apply qsum_ext. intros g _.
    rewrite group_values_some, nonnull_some. unfold of_group. rewrite qsum_map. reflexivity. }
  assert (P1 : qsum (fun g => (qsum (fun x => x) (nonnull (group_values (lift rows) g)) / qlen (group_values (lift rows) g) -
             qsum (fun g => qsum (fun x => x) (nonnull (group_values (lift rows) g))) G /
             qsum (fun g => qlen (group_values (lift rows) g)) G) *
            (qsum (fun x => x) (nonnull (group_values (lift rows) g)) / qlen (group_values (lift rows) g) -
             qsum (fun g => qsum (fun x => x) (nonnull (group_values (lift rows) g))) G /
             qsum (fun g => qlen (group_values (lift rows) g)) G) * qlen (group_values (lift rows) g)) G == ss_between rows).
  { rewrite Q0. unfold ss_between. fold D. apply qsum_ext. intros g _.
    rewrite NS, TS, group_values_some, nonnull_some, qlen_map. unfold qmean. rewrite (qlen_map snd rows). ring. }
  assert (P2 : qsum (fun g => var0 (nonnull (group_values (lift rows) g)) * qlen (group_values (lift rows) g)) G == ss_within rows).
  { rewrite Q0. unfold ss_within. rewrite (by_group rows). fold D. apply qsum_ext. intros g _.
    rewrite group_values_some, nonnull_some, qlen_map, var0_len. unfold of_group at 3. rewrite qsum_map.
    apply qsum_ext. intros r Hr. apply filter_In in Hr. destruct Hr as [_ Hr]. apply Z.eqb_eq in Hr. rewrite Hr. reflexivity. }
  unfold n_groups in K. fold D in K. unfold qlen in K. change 1 with (inject_Z 1) in K. rewrite <- Zlt_Qlt in K.
  assert (LD : (zlen D <= zlen rows)%Z).
  { unfold zlen, D, distinct. rewrite <- (map_length fst rows).
    enough (length (nodup Z.eq_dec (map fst rows)) <= length (map fst rows))%nat by lia.
    apply NoDup_incl_length; [apply NoDup_nodup|]. intros x Hx. now apply nodup_In in Hx. }
  replace (zlen D <=? 1)%Z with false by (symmetry; apply Z.leb_gt; exact K).
  replace (Qle_bool (qsum (fun g => qlen (group_values (lift rows) g)) G) 1) with false.
  2:{ symmetry. apply not_true_is_false. intros H. apply Qle_bool_iff in H. rewrite NS in H.
      unfold qlen in H. change 1 with (inject_Z 1) in H. rewrite <- Zle_Qle in H. lia. }
  cbn [orb].
  set (p1 := qsum _ G) in P1 |- *. set (p2 := qsum (fun g => var0 _ * _) G) in P2 |- *.
  unfold qdiv. replace (Qeq_bool p2 0) with false.
  2:{ symmetry. apply not_true_is_false. intros H. apply Qeq_bool_iff in H. rewrite P2 in H. contradiction. }
  cbn [option_map]. eexists. split; [reflexivity|].
  rewrite P1, P2, NS. unfold anova_F, n_groups. fold D. rewrite Z.abs_eq by lia.
  unfold qlen.
  assert (A1 : inject_Z (zlen D - 1) == inject_Z (zlen D) - 1).
  { unfold Z.sub. rewrite inject_Z_plus. reflexivity. }
  rewrite A1.
  assert (A2 : Qabs (inject_Z (zlen rows) - inject_Z (zlen D)) == inject_Z (zlen rows) - inject_Z (zlen D)).
  { apply Qabs_pos. rewrite Zle_Qle in LD. lra. }
  rewrite A2.
  assert (K1 : ~ inject_Z (zlen D) - 1 == 0).
  { rewrite Zlt_Qlt in K. change (inject_Z 1) with 1 in K. lra. }
  destruct (Qeq_dec (inject_Z (zlen rows) - inject_Z (zlen D)) 0) as [Z0|Z0].
  - unfold Qdiv. rewrite Z0. setoid_replace (ss_within rows * / 0) with 0 by (change (/0) with 0; ring).
    change (/ 0) with 0. ring.
  - field. auto.
Qed.
