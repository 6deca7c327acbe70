From Coq Require Import Bool List ZArith QArith Lia Lqa Arith Sorted Setoid.
From Verif Require Import PairSums QSum MwProofs Chi2Proofs AnovaModel AnovaProofs TrapzModel TrapzSpec TrapzProofs RocModel RocSpec RocProofs.
Import ListNotations.
Open Scope Z_scope.

Lemma inj_ne0 z : z <> 0 -> ~ (inject_Z z == 0)%Q.
Proof. intros H C. change 0%Q with (inject_Z 0) in C. apply inj_eq in C. contradiction. Qed.
Lemma qdiv_some a z : z <> 0 -> qdiv a (inject_Z z) = Some (a / inject_Z z)%Q.
Proof.
  intros H. unfold qdiv. assert (Z0 : Qeq_bool (inject_Z z) 0 = false).
  { apply not_true_iff_false. intros C. apply Qeq_bool_iff in C. now apply inj_ne0 in C. }
  now rewrite Z0.
Qed.
Lemma all_some_map {A} (f : A -> Q) l : all_some (map (fun x => Some (f x)) l) = Some (map f l).
Proof. induction l as [|a l IH]; [reflexivity|]. cbn. now rewrite IH. Qed.
Lemma has_null_none {A B} (f : A -> B) l : has_null (map (fun x => Some (f x)) l) = false.
Proof. induction l; [reflexivity|exact IHl]. Qed.
Lemma flat_some {A B} (f : A -> B) l : flat (map (fun x => Some (f x)) l) = map f l.
Proof. induction l as [|a l IH]; [reflexivity|]. change (f a :: flat (map (fun x => Some (f x)) l) = f a :: map f l). now rewrite IH. Qed.
Lemma qsum_zsum {A} (f : A -> Z) l : qsum (fun x => inject_Z (f x)) l == inject_Z (zsum f l).
Proof. symmetry. apply inj_zsum. Qed.

Section Auc.
Context {K : Type} (leb : K -> K -> bool) (TO : total_order leb).
Context (rows : list (K * bool)) (small : zlen rows < 2 ^ 32).
Notation zrows := (map zrow rows).
Notation ks := (keys leb zrows).
Notation P := (npos rows).
Notation N := (nneg rows).

Lemma rows_ne : 0 < P -> rows <> [].
Proof. intros H E. rewrite E in H. cbn in H. lia. Qed.
Lemma complete : rows <> [] -> complete_rows (scores rows) (labels rows) = Some zrows.
Proof.
  intros H. unfold complete_rows, scores, labels. rewrite !map_length, Nat.eqb_refl, !has_null_none, !flat_some. cbn [negb orb].
  assert (E : (length rows =? 0)%nat = false) by (apply Nat.eqb_neq; destruct rows; [contradiction|discriminate]).
  rewrite E. cbn [orb]. now rewrite combine_map2.
Qed.
Lemma positives_ok : positives (labels rows) = P.
Proof.
  unfold positives, labels. rewrite flat_some, zsum_map.
  change (zsum (fun a => b2z (snd a)) rows) with (zsum lab rows). rewrite <- npos_sum. apply u32_small.
  pose proof (npos_bounds rows) as B. lia.
Qed.

Notation fr := (tp_fp_frame leb zrows P).
Lemma fr_tp : rows <> [] -> 0 < P -> ratios f_tp fr = map (fun k => Some (inject_Z (tp_at leb rows k) / inject_Z P)%Q) ks.
Proof.
  intros Ne Hp. rewrite (frame_ok leb TO rows small Ne). unfold ratios. rewrite map_map. cbn [f_tp].
  destruct (ks_ne leb TO rows small Ne) as (k0 & l & Ek).
  assert (F0 : first_z f_tp (map (fun k => mkrow k (tp_at leb rows k) (fp_at leb rows k) (Some (precision_at leb rows k))) ks) = P).
  { rewrite Ek. cbn. rewrite tp_from, (from_first leb TO rows lab k0 l Ek), <- npos_sum. reflexivity. }
  rewrite F0. apply map_ext. intros k. apply qdiv_some. lia.
Qed.
Lemma fr_fp : rows <> [] -> 0 < N -> ratios f_fp fr = map (fun k => Some (inject_Z (fp_at leb rows k) / inject_Z N)%Q) ks.
Proof.
  intros Ne Hp. rewrite (frame_ok leb TO rows small Ne). unfold ratios. rewrite map_map. cbn [f_fp].
  destruct (ks_ne leb TO rows small Ne) as (k0 & l & Ek).
  assert (F0 : first_z f_fp (map (fun k => mkrow k (tp_at leb rows k) (fp_at leb rows k) (Some (precision_at leb rows k))) ks) = N).
  { rewrite Ek. cbn. rewrite fp_from, (from_first leb TO rows neglab k0 l Ek), <- nneg_sum. reflexivity. }
  rewrite F0. apply map_ext. intros k. apply qdiv_some. lia.
Qed.

(** Area contributed by one score: its negatives against the positives at or above it, ties half. *)
Definition area k : Q := (inject_Z (at_key leb neglab rows k) * (inject_Z (tp_at leb rows k) - (1 # 2) * inject_Z (at_key leb lab rows k)))%Q.
Definition pt k : Q * Q := (inject_Z (fp_at leb rows k) / inject_Z N, inject_Z (tp_at leb rows k) / inject_Z P)%Q.

Lemma area_sum : forall l k, up leb rows (k :: l) -> 0 < P -> 0 < N ->
  (- trapezoids (map pt (k :: l)) == qsum area (removelast (k :: l)) / inject_Z (P * N))%Q.
Proof.
  induction l as [|k' l IH]; intros k U HP HN.
  - cbn [map trapezoids removelast]. unfold qsum. cbn [fold_right]. rewrite inject_Z_mult. field.
    split; apply inj_ne0; lia.
  - change (removelast (k :: k' :: l)) with (k :: removelast (k' :: l)). rewrite qsum_cons.
    change (map pt (k :: k' :: l)) with (pt k :: pt k' :: map pt l). rewrite trapezoids_cons.
    change (pt k' :: map pt l) with (map pt (k' :: l)).
    rewrite <- (Qopp_involutive (trapezoids (map pt (k' :: l)))), (IH k' (up_tail leb TO _ _ _ U) HP HN).
    unfold area, pt. cbn [fst snd]. rewrite !tp_from, !fp_from.
    rewrite (from_step leb TO lab rows k k' l U), (from_step leb TO neglab rows k k' l U).
    rewrite !inject_Z_plus, inject_Z_mult. field. split; apply inj_ne0; lia.
Qed.

(** The rank probability is the sum of the areas over all scores. *)
Lemma wins_sum k : (qsum (fun b => wins leb k (fst b)) (filter (fun r => snd r) rows) ==
  inject_Z (tp_at leb rows k) - (1 # 2) * inject_Z (at_key leb lab rows k))%Q.
Proof.
  rewrite qsum_filter, tp_from. unfold from_key, at_key. rewrite <- !qsum_zsum, <- qsum_mul, <- qsum_sub.
  apply qsum_ext. intros r _. unfold wins, lab, keq. destruct (snd r), (leb (fst r) k) eqn:E1, (leb k (fst r)) eqn:E2; cbn; try reflexivity.
  exfalso. destruct (to_total _ TO (fst r) k); congruence.
Qed.
Lemma rank_sum : 0 < P -> 0 < N -> (rank_probability leb rows == qsum area ks / inject_Z (P * N))%Q.
Proof.
  intros HP HN. unfold rank_probability.
  assert (E : (qsum (fun a => qsum (fun b => wins leb (fst a) (fst b)) (filter (fun r => snd r) rows)) (filter (fun r => negb (snd r)) rows) == qsum area ks)%Q).
  { rewrite (qsum_by_key (keq leb) (keq_eq leb TO) (fun r => fst r) _ ks).
    - apply qsum_ext. intros k _. unfold area.
      rewrite (qsum_ext _ (fun _ => (inject_Z (tp_at leb rows k) - (1 # 2) * inject_Z (at_key leb lab rows k))%Q)).
      + rewrite qsum_const. unfold qlen. rewrite filter_filter, zlen_filter, Qmult_comm. apply Qmult_comp; [|reflexivity].
        assert (X : zsum (fun x => b2z (negb (snd x) && keq leb (fst x) k)) rows = at_key leb neglab rows k).
        { apply zsum_ext. intros r _. unfold neglab. destruct (snd r), (keq leb (fst r) k); reflexivity. }
        rewrite X. reflexivity.
      + intros a Ha. apply filter_In in Ha. destruct Ha as [_ Ha]. apply (keq_eq leb TO) in Ha. rewrite Ha. apply wins_sum.
    - apply (sorted_nodup leb TO), keys_sorted, TO.
    - intros r Hr. apply filter_In in Hr. destruct Hr as [Hr _]. apply keys_in; [exact TO|]. exists (b2z (snd r)).
      apply in_map_iff. exists r. split; [destruct r; reflexivity|exact Hr]. }
  rewrite E. reflexivity.
Qed.

(** The last score is the largest one. *)
Lemma top_at l kt : ks = l ++ [kt] -> at_key leb lab rows kt = top_pos leb rows /\ at_key leb neglab rows kt = top_neg leb rows.
Proof.
  intros E.
  assert (T : forall r, In r rows -> leb (fst r) kt = true).
  { intros r Hr. assert (I : In (fst r) ks).
    { apply keys_in; [exact TO|]. exists (b2z (snd r)). apply in_map_iff. exists r. split; [destruct r; reflexivity|exact Hr]. }
    pose proof (keys_sorted leb TO zrows) as S. rewrite E in S, I. apply in_app_or in I. destruct I as [I|[<-|[]]]; [|apply leb_refl, TO].
    clear - S I. induction l as [|a l IH]; [destruct I|]. cbn in S. inversion S as [|? ? S' F]; subst.
    destruct I as [<-|I]; [|now apply IH]. rewrite Forall_forall in F. apply F. apply in_or_app. right. now left. }
  assert (Ikt : exists r0, In r0 rows /\ fst r0 = kt).
  { assert (I : In kt ks) by (rewrite E; apply in_or_app; right; now left). apply keys_in in I; [|exact TO]. destruct I as (z & I).
    apply in_map_iff in I. destruct I as (r & Er & Hr). exists r. split; [exact Hr|]. unfold zrow in Er. now injection Er. }
  assert (Q : forall r, In r rows -> keq leb (fst r) kt = is_top leb rows (fst r)).
  { intros r Hr. unfold is_top. destruct (keq leb (fst r) kt) eqn:Ke.
    - apply (keq_eq leb TO) in Ke. rewrite Ke. symmetry. apply forallb_forall. exact T.
    - symmetry. apply not_true_iff_false. intros C. rewrite forallb_forall in C. destruct Ikt as (r0 & H0 & <-).
      specialize (C r0 H0). specialize (T r Hr). unfold keq in Ke. rewrite C, T in Ke. discriminate. }
  unfold top_pos, top_neg. rewrite !zlen_filter. split; apply zsum_ext; intros r Hr; rewrite (Q r Hr); unfold lab, neglab; destruct (snd r), (is_top leb rows (fst r)); reflexivity.
Qed.

Theorem auc_ok : 0 < P -> 0 < N ->
  exists q, roc_auc leb (labels rows) (scores rows) = OVal q /\
    (one_score rows -> q == rank_probability leb rows)%Q /\
    (~ one_score rows -> q == rank_probability leb rows - inject_Z (top_pos leb rows * top_neg leb rows) / inject_Z (2 * (P * N)))%Q.
Proof.
  intros HP HN. pose proof (rows_ne HP) as Ne. unfold roc_auc. rewrite positives_ok.
  assert (E0 : (P =? 0) = false) by (apply Z.eqb_neq; lia). rewrite E0, (complete Ne). cbv zeta.
  rewrite (fr_tp Ne HP), (fr_fp Ne HN), !all_some_map.
  eexists. split; [reflexivity|].
  destruct (ks_ne leb TO rows small Ne) as (k0 & l & Ek).
  pose proof (ks_up leb TO rows) as U.
  destruct l as [|k1 l].
  - (* a single score *)
    assert (One : one_score rows).
    { intros a b Ha Hb. assert (I : forall r, In r rows -> fst r = k0).
      { intros r Hr. assert (I : In (fst r) ks).
        { apply keys_in; [exact TO|]. exists (b2z (snd r)). apply in_map_iff. exists r. split; [destruct r; reflexivity|exact Hr]. }
        rewrite Ek in I. destruct I as [I|[]]. now symmetry. }
      now rewrite !I. }
    split; [intros _|intros C; contradiction].
    rewrite (rank_sum HP HN), Ek. cbn [map trapz]. unfold qsum. cbn [fold_right]. unfold area.
    pose proof (from_first leb TO rows lab k0 [] Ek) as F1. pose proof (from_first leb TO rows neglab k0 [] Ek) as F2.
    rewrite Ek in U. rewrite tp_from, fp_from, <- !(from_last leb TO _ rows k0 U), F1, F2, <- npos_sum, <- nneg_sum.
    rewrite inject_Z_mult. field. split; apply inj_ne0; lia.
  - assert (Two : ~ one_score rows).
    { intros C. assert (I : forall k, In k ks -> exists r, In r rows /\ fst r = k).
      { intros k I. apply keys_in in I; [|exact TO]. destruct I as (z & I). apply in_map_iff in I. destruct I as (r & Er & Hr).
        exists r. split; [exact Hr|]. unfold zrow in Er. now injection Er. }
      destruct (I k0) as (r0 & H0 & E0'); [rewrite Ek; now left|]. destruct (I k1) as (r1 & H1 & E1); [rewrite Ek; right; now left|].
      specialize (C r0 r1 H0 H1). pose proof (keys_sorted leb TO zrows) as S. rewrite Ek in S. inversion S as [|? ? _ F]; subst.
      inversion F as [|? ? [_ F2] _]; subst. rewrite C in F2. rewrite (leb_refl leb TO) in F2. discriminate. }
    split; [intros C; contradiction|intros _].
    assert (Y : map (fun k => inject_Z (tp_at leb rows k) / inject_Z P)%Q ks = map snd (map pt ks)) by (rewrite map_map; reflexivity).
    assert (X : map (fun k => inject_Z (fp_at leb rows k) / inject_Z N)%Q ks = map fst (map pt ks)) by (rewrite map_map; reflexivity).
    rewrite Y, X, trapz_sum by (rewrite map_length, Ek; cbn; lia).
    rewrite (rank_sum HP HN).
    destruct (exists_last (l := ks)) as (pre & kt & El); [rewrite Ek; discriminate|].
    assert (R : removelast ks = pre) by (rewrite El; apply removelast_last).
    rewrite Ek in R, U |- *. rewrite (area_sum (k1 :: l) k0 U HP HN), R, <- Ek, El, qsum_app. unfold qsum at 3. cbn [fold_right].
    destruct (top_at pre kt El) as [T1 T2].
    assert (A : (area kt == (1 # 2) * inject_Z (top_pos leb rows * top_neg leb rows))%Q).
    { unfold area. rewrite tp_from.
      assert (Ut : up leb rows [kt]).
      { pose proof (ks_up leb TO rows) as U2. rewrite El in U2. clear - U2 TO. induction pre as [|a pre IH]; [exact U2|].
        apply IH. exact (up_tail leb TO _ _ _ U2). }
      rewrite (from_last leb TO lab rows kt Ut), T1, T2, inject_Z_mult. field. }
    rewrite A, !inject_Z_mult. change (inject_Z 2) with (2#1)%Q. field. split; apply inj_ne0; lia.
Qed.

Theorem auc_no_negatives : 0 < P -> N = 0 -> roc_auc leb (labels rows) (scores rows) = ONan.
Proof.
  intros HP HN. pose proof (rows_ne HP) as Ne. unfold roc_auc. rewrite positives_ok.
  assert (E0 : (P =? 0) = false) by (apply Z.eqb_neq; lia). rewrite E0, (complete Ne). cbv zeta.
  rewrite (frame_ok leb TO rows small Ne). unfold ratios at 2. rewrite map_map. cbn [f_fp].
  destruct (ks_ne leb TO rows small Ne) as (k0 & l & Ek).
  assert (F0 : first_z f_fp (map (fun k => mkrow k (tp_at leb rows k) (fp_at leb rows k) (Some (precision_at leb rows k))) ks) = 0).
  { rewrite Ek. cbn. rewrite fp_from, (from_first leb TO rows neglab k0 l Ek), <- nneg_sum. exact HN. }
  rewrite F0.
  assert (A0 : all_some (map (fun x => qdiv (inject_Z (fp_at leb rows x)) (inject_Z 0)) ks) = None) by (rewrite Ek; reflexivity).
  rewrite A0. destruct (all_some (ratios f_tp _)); reflexivity.
Qed.
Theorem auc_no_positives : P = 0 -> roc_auc leb (labels rows) (scores rows) = ONan.
Proof. intros HP. unfold roc_auc. now rewrite positives_ok, HP. Qed.

(** The ROC table exposed by [query_tpr_fpr]. *)
Theorem tpr_fpr_ok : 0 < P -> 0 < N ->
  exists ts, thresholds leb rows ts /\
    tpr_fpr leb (labels rows) (scores rows) =
      OVal (map (fun t => (t, Some (inject_Z (tp_at leb rows t) / inject_Z P)%Q, Some (inject_Z (fp_at leb rows t) / inject_Z N)%Q)) ts).
Proof.
  intros HP HN. pose proof (rows_ne HP) as Ne. exists ks. split.
  - split.
    + intros k. rewrite (keys_in leb TO). split.
      * intros (z & H). apply in_map_iff in H. destruct H as ([k' b] & E & H). injection E as <- _. eauto.
      * intros (b & H). exists (b2z b). apply in_map_iff. exists (k, b). auto.
    + intros i j a b L Ha Hb. pose proof (keys_sorted leb TO zrows) as S. revert i j L Ha Hb. 
      induction S as [|c l S IH F]; intros i j L Ha Hb; [destruct i; discriminate|].
      destruct i as [|i], j as [|j]; cbn in Ha, Hb; try lia.
      * injection Ha as ->. rewrite Forall_forall in F. apply F. eapply nth_error_In; eassumption.
      * apply (IH i j); auto; lia.
  - unfold tpr_fpr. rewrite positives_ok.
    assert (E0 : (P =? 0) = false) by (apply Z.eqb_neq; lia). rewrite E0, (complete Ne). cbv zeta.
    rewrite (fr_tp Ne HP), (fr_fp Ne HN), (frame_ok leb TO rows small Ne), map_map. cbn [f_thr].
    rewrite combine_map2, zipw_map. reflexivity.
Qed.

(** Metrics at a threshold. *)
Lemma ap_sum : forall l k, up leb rows (k :: l) -> 0 < P ->
  (- (1) * ap_fold (map (recall_at leb rows) (k :: l)) (map (precision_at leb rows) (k :: l)) ==
   avg_precision leb rows (k :: l) - recall_at leb rows (last l k) * precision_at leb rows (last l k))%Q.
Proof.
  induction l as [|k' l IH]; intros k U HP.
  - cbn [map ap_fold avg_precision last]. ring.
  - assert (El : last (k' :: l) k = last l k').
    { clear. revert k k'. induction l as [|c l IH]; intros; [reflexivity|]. change (last (k' :: c :: l) k) with (last (c :: l) k). rewrite IH. now rewrite IH. }
    rewrite El. specialize (IH k' (up_tail leb TO _ _ _ U) HP).
    change (avg_precision leb rows (k :: k' :: l)) with
      ((recall_at leb rows k - recall_at leb rows k') * precision_at leb rows k + avg_precision leb rows (k' :: l))%Q.
    change (ap_fold (map (recall_at leb rows) (k :: k' :: l)) (map (precision_at leb rows) (k :: k' :: l))) with
      ((recall_at leb rows k' - recall_at leb rows k) * precision_at leb rows k + ap_fold (map (recall_at leb rows) (k' :: l)) (map (precision_at leb rows) (k' :: l)))%Q.
    set (A := ap_fold (map (recall_at leb rows) (k' :: l)) (map (precision_at leb rows) (k' :: l))) in *.
    assert (IH' : (A == - (avg_precision leb rows (k' :: l) - recall_at leb rows (last l k') * precision_at leb rows (last l k')))%Q) by (rewrite <- IH; ring).
    rewrite IH'. ring.
Qed.

(** The [index]-th threshold is the first one at or above the requested value; predicting with it is
    predicting with the requested value. *)
Lemma index_ok thr l : sorted_lt leb l ->
  match nth_error l (length (filter (fun k => klt leb k thr) l)) with
  | Some t => leb thr t = true /\ forall k, In k l -> leb thr k = leb t k
  | None => forall k, In k l -> leb thr k = false
  end.
Proof.
  induction 1 as [|a l S IH F]; cbn [filter]; [intros k []|].
  unfold klt in *. destruct (leb thr a) eqn:E.
  - rewrite andb_false_r.
    assert (Z0 : filter (fun k => leb k thr && negb (leb thr k)) l = []).
    { clear IH S. induction F as [|b l [B1 B2] F IHF]; [reflexivity|]. cbn [filter]. rewrite (to_trans _ TO thr a b E B1), andb_false_r. exact IHF. }
    rewrite Z0. cbn. split; [exact E|]. intros k [<-|Hk]; [rewrite (leb_refl leb TO); exact E|].
    rewrite Forall_forall in F. destruct (F k Hk) as [F1 _]. rewrite F1. exact (to_trans _ TO thr a k E F1).
  - rewrite (leb_false leb TO _ _ E). cbn [andb negb length nth_error].
    destruct (nth_error l _) as [t|] eqn:En.
    + destruct IH as [I1 I2]. split; [exact I1|]. intros k [<-|Hk]; [|now apply I2]. rewrite E. symmetry.
      rewrite Forall_forall in F. apply F. eapply nth_error_In; eassumption.
    + intros k [<-|Hk]; [exact E|now apply IH].
Qed.

Theorem combo_ok thr : 0 < P -> 0 < N ->
  ((exists r, In r rows /\ leb thr (fst r) = true) ->
   exists m ts kt, combo_b leb (labels rows) (scores rows) thr = OVal m /\ thresholds leb rows ts /\ last ts kt = kt /\ In kt ts /\
     (m_recall m == recall_at leb rows thr)%Q /\ (m_precision m == precision_at leb rows thr)%Q /\
     m_f m = qdiv ((2#1) * (m_precision m * m_recall m))%Q (m_precision m + m_recall m)%Q /\
     (exists a, roc_auc leb (labels rows) (scores rows) = OVal a /\ m_auc m = Some a) /\
     (m_ap m == avg_precision leb rows ts - recall_at leb rows kt * precision_at leb rows kt)%Q) /\
  ((forall r, In r rows -> leb thr (fst r) = false) -> combo_b leb (labels rows) (scores rows) thr = OPanic).
Proof.
  intros HP HN. pose proof (rows_ne HP) as Ne.
  destruct (tpr_fpr_ok HP HN) as (ts0 & _ & _).
  assert (Run : combo_b leb (labels rows) (scores rows) thr =
    let y := map (recall_at leb rows) ks in let prec := map (precision_at leb rows) ks in
    let index := length (filter (fun k => klt leb k thr) ks) in
    match nth_error y index, nth_error prec index with
    | Some recall, Some pr =>
        OVal (mkmetrics pr recall (qdiv ((2#1) * (pr * recall)) (pr + recall)) (- (1) * ap_fold y prec)%Q
          (Some (- trapz y (map (fun k => inject_Z (fp_at leb rows k) / inject_Z N) ks)))%Q)
    | _, _ => OPanic
    end).
  { unfold combo_b. rewrite positives_ok.
    assert (E0 : (P =? 0) = false) by (apply Z.eqb_neq; lia). rewrite E0, (complete Ne). cbv zeta.
    rewrite (fr_tp Ne HP), (fr_fp Ne HN), (frame_ok leb TO rows small Ne), map_map. cbn [f_prec].
    rewrite !all_some_map.
    rewrite filter_map, map_length. reflexivity. }
  assert (RunA : exists a, roc_auc leb (labels rows) (scores rows) = OVal a /\
    a = (- trapz (map (recall_at leb rows) ks) (map (fun k => inject_Z (fp_at leb rows k) / inject_Z N) ks))%Q).
  { unfold roc_auc. rewrite positives_ok.
    assert (E0 : (P =? 0) = false) by (apply Z.eqb_neq; lia). rewrite E0, (complete Ne). cbv zeta.
    rewrite (fr_tp Ne HP), (fr_fp Ne HN), !all_some_map. eexists. split; reflexivity. }
  rewrite Run. cbv zeta. rewrite !nth_error_map.
  pose proof (index_ok thr ks (keys_sorted leb TO zrows)) as Ix.
  assert (Kin : forall r, In r rows -> In (fst r) ks).
  { intros r Hr. apply keys_in; [exact TO|]. exists (b2z (snd r)). apply in_map_iff. exists r. split; [destruct r; reflexivity|exact Hr]. }
  assert (Kout : forall k, In k ks -> exists r, In r rows /\ fst r = k).
  { intros k I. apply keys_in in I; [|exact TO]. destruct I as (z & I). apply in_map_iff in I. destruct I as (r & Er & Hr).
    exists r. split; [exact Hr|]. unfold zrow in Er. now injection Er. }
  destruct (nth_error ks (length (filter (fun k => klt leb k thr) ks))) as [t|] eqn:En; cbn [option_map].
  - destruct Ix as [I1 I2]. split.
    + intros _. destruct (ks_ne leb TO rows small Ne) as (k0 & l & Ek).
      destruct (exists_last (l := ks)) as (pre & kt & El); [rewrite Ek; discriminate|].
      eexists. exists ks, kt. split; [reflexivity|].
      split. { destruct (tpr_fpr_ok HP HN) as (ts & Th & E). 
        split. { intros k. split; [intros H; destruct (Kout k H) as ([k' b] & H1 & <-); eauto|intros (b & H); exact (Kin (k, b) H)]. }
        intros i j a b L Ha Hb. pose proof (keys_sorted leb TO zrows) as S. clear - S L Ha Hb. revert i j L Ha Hb.
        induction S as [|c l S IH F]; intros i j L Ha Hb; [destruct i; discriminate|].
        destruct i as [|i], j as [|j]; cbn in Ha, Hb; try lia.
        * injection Ha as ->. rewrite Forall_forall in F. apply F. eapply nth_error_In; eassumption.
        * apply (IH i j); auto; lia. }
      split; [rewrite El; apply last_last|]. split; [rewrite El; apply in_or_app; right; now left|].
      cbn [m_recall m_precision m_ap].
      assert (Eq : forall r, In r rows -> leb thr (fst r) = leb t (fst r)) by (intros r Hr; apply I2, Kin, Hr).
      assert (T1 : tp_at leb rows thr = tp_at leb rows t).
      { unfold tp_at. rewrite !zlen_filter. apply zsum_ext. intros r Hr. now rewrite (Eq r Hr). }
      assert (T2 : pp_at leb rows thr = pp_at leb rows t).
      { unfold pp_at. rewrite !zlen_filter. apply zsum_ext. intros r Hr. now rewrite (Eq r Hr). }
      split; [unfold recall_at; rewrite T1; reflexivity|]. split; [unfold precision_at; rewrite T1, T2; reflexivity|].
      split; [reflexivity|]. split; [destruct RunA as (a & Ra & ->); eexists; split; [exact Ra|reflexivity]|].
      pose proof (ks_up leb TO rows) as U. rewrite Ek in U, El |- *. rewrite (ap_sum l k0 U HP).
      assert (Elast : last l k0 = kt).
      { rewrite <- (last_last pre kt k0). rewrite <- El. clear. revert k0. induction l as [|c l IH]; intros; [reflexivity|].
        change (last (k0 :: c :: l) k0) with (last (c :: l) k0). destruct l; reflexivity. }
      rewrite Elast. reflexivity.
    + intros H. exfalso. destruct (Kout t) as (r & Hr & <-); [eapply nth_error_In; eassumption|]. rewrite (H r Hr) in I1. discriminate.
  - split; [|reflexivity]. intros (r & Hr & C). rewrite (Ix (fst r) (Kin r Hr)) in C. discriminate.
Qed.
End Auc.
