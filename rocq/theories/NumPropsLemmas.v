(** Demonstration data, witnesses and small corollaries used by NumProps. *)
From Coq Require Import Bool List Arith ZArith QArith Qabs Lia Lqa.
From Verif Require Import Num F64 KdDemo PairSums QSum AnovaModel IsoModel IsoSpec IsoProofs IsoQ IsoF64 TrapzModel TrapzSpec TrapzProofs
  RocModel RocSpec RocProofs RocAuc RocConf.
Import ListNotations.
Open Scope Z_scope.

(** Isotonic. *)
Lemma iso_idempotent inc y w : length w = length y -> Forall (fun a => 0 < a)%Q w -> monotone inc y ->
  exists x, isotonic_q false (map Some y) (Some (map Some w)) inc = IsoOk (map Some x) /\ Forall2 Qeq y x.
Proof.
  intros L F M. destruct (isotonic_q_weighted inc y w L F) as (x & R & Fit). exists x. split; [exact R|].
  exact (fit_monotone inc y w x L F M Fit).
Qed.
Definition iso_y : list Q := [1; 3; 2; 4; 3; 5]%Q.
Definition iso_w : list Q := [1; 1; 3; 1; 1; 2]%Q.
Lemma iso_case : length iso_w = length iso_y /\ Forall (fun a => 0 < a)%Q iso_w /\
  match isotonic_q false (map Some iso_y) (Some (map Some iso_w)) true with
  | IsoOk l => forallb (fun p => match p with (Some a, b) => Qeq_bool a b | _ => false end)
                       (combine l [1; 9 # 4; 9 # 4; 7 # 2; 7 # 2; 5]%Q) && (length l =? 6)%nat
  | _ => false
  end = true.
Proof. split; [reflexivity|]. split; [|vm_compute; reflexivity]. unfold iso_w. repeat constructor. Qed.
Definition iso_fy : list f64 := [fi 3; fi 1; fi 2].
Definition iso_fw : list f64 := [fi 1; fi 1; fi 1].
Lemma iso_f_case : length iso_fw = length iso_fy /\ (2 <= length iso_fy)%nat /\
  Forall (fun a : f64 => nle f64_ops a (nzero f64_ops) = false) iso_fw.
Proof. split; [reflexivity|]. split; [cbn; lia|]. unfold iso_fw. repeat constructor. Qed.

(** Trapezoidal rule. *)
Definition tz_pts : list (Q * Q) := [(0, 1); (1, 3); (3, 2); (4, 4)]%Q.
Lemma tz_case : (2 <= length tz_pts)%nat /\ Qeq_bool (trapezoids tz_pts) 10 = true.
Proof. split; [cbn; lia|vm_compute; reflexivity]. Qed.
Definition ycol (pts : list (Q * Q)) := map (fun p => Some (snd p)) pts.
Definition xcol (pts : list (Q * Q)) := map (fun p => Some (fst p)) pts.
Lemma tz_affine (a b : Q) (xs : list Q) : (2 <= length xs)%nat ->
  exists q, pl_trapz (ycol (map (fun x => (x, a * x + b)%Q) xs)) (xcol (map (fun x => (x, a * x + b)%Q) xs)) = TVal q /\
    (q == (a * (last xs 0 * last xs 0) / 2 + b * last xs 0) - (a * (hd 0 xs * hd 0 xs) / 2 + b * hd 0 xs))%Q.
Proof.
  intros L. destruct (pl_trapz_points (map (fun x => (x, a * x + b)%Q) xs)) as (q & R & E); [now rewrite map_length|].
  exists q. split; [exact R|]. rewrite E. destruct xs as [|x0 l]; [cbn in L; lia|].
  rewrite trapezoids_affine, hd_snoc. cbn [hd]. unfold square_diff. field.
Qed.
Lemma tz_concat l1 p l2 : l1 <> [] -> l2 <> [] -> exists q1 q2 q,
  pl_trapz (ycol (l1 ++ [p])) (xcol (l1 ++ [p])) = TVal q1 /\
  pl_trapz (ycol (p :: l2)) (xcol (p :: l2)) = TVal q2 /\
  pl_trapz (ycol (l1 ++ p :: l2)) (xcol (l1 ++ p :: l2)) = TVal q /\ (q == q1 + q2)%Q.
Proof.
  intros N1 N2. destruct l1 as [|a l1]; [contradiction|]. destruct l2 as [|c l2]; [contradiction|].
  destruct (pl_trapz_points ((a :: l1) ++ [p])) as (q1 & R1 & E1); [rewrite app_length; cbn; lia|].
  destruct (pl_trapz_points (p :: c :: l2)) as (q2 & R2 & E2); [cbn; lia|].
  destruct (pl_trapz_points ((a :: l1) ++ p :: c :: l2)) as (q & R & E); [rewrite app_length; cbn; lia|].
  exists q1, q2, q. repeat split; auto. now rewrite E, E1, E2, trapezoids_app.
Qed.
Lemma tz_reverse pts : (2 <= length pts)%nat -> exists q q',
  pl_trapz (ycol pts) (xcol pts) = TVal q /\ pl_trapz (ycol (rev pts)) (xcol (rev pts)) = TVal q' /\ (q' == - q)%Q.
Proof.
  intros L. destruct (pl_trapz_points pts L) as (q & R & E).
  destruct (pl_trapz_points (rev pts)) as (q' & R' & E'); [now rewrite rev_length|].
  exists q, q'. repeat split; auto. now rewrite E, E', trapezoids_rev.
Qed.
Lemma tz_single : exists pt q, pl_trapz (ycol [pt]) (xcol [pt]) = TVal q /\ ~ (q == trapezoids [pt])%Q.
Proof. exists (4, 2)%Q. eexists. split; [reflexivity|]. intros C. vm_compute in C. discriminate. Qed.
Lemma tz_errors y x : length y <> length x -> (1 < length x)%nat -> y <> [] -> ~ In None x -> ~ In None y -> pl_trapz y x = TErr.
Proof.
  intros L Lx Ny Hx Hy. assert (N : forall l : list (option Q), ~ In None l -> has_null l = false).
  { intros l H. apply not_true_iff_false. intros C. apply existsb_exists in C. destruct C as ([o|] & I & C); [discriminate|contradiction]. }
  unfold pl_trapz. rewrite (N _ Hx), (N _ Hy). destruct y as [|y0 y]; [contradiction|]. cbn [length Nat.ltb Nat.leb orb].
  rewrite (proj2 (Nat.eqb_neq (length x) 1)) by lia. cbn [andb].
  now rewrite (proj2 (Nat.eqb_neq (length x) (S (length y)))) by (cbn in L; congruence).
Qed.

(** Classification. *)
Lemma z_total : total_order Z.leb.
Proof. split; intros *; rewrite ?Z.leb_le; lia. Qed.
Definition auc_rows : list (Z * bool) := [(10, false); (40, true); (35, false); (80, true); (40, false)].
Lemma auc_case : total_order Z.leb /\ zlen auc_rows < 2 ^ 32 /\ 0 < npos auc_rows /\ 0 < nneg auc_rows /\ ~ one_score auc_rows /\
  top_pos Z.leb auc_rows * top_neg Z.leb auc_rows = 0 /\ Qeq_bool (rank_probability Z.leb auc_rows) (11 # 12) = true /\
  match roc_auc Z.leb (labels auc_rows) (scores auc_rows) with OVal q => Qeq_bool q (11 # 12) | _ => false end = true.
Proof.
  split; [exact z_total|]. repeat (split; [vm_compute; reflexivity|]). split.
  { intros C. specialize (C (10, false) (40, true)). cbn in C. discriminate C; tauto. }
  repeat (split; [vm_compute; reflexivity|]). vm_compute. reflexivity.
Qed.
Definition auc_bad : list (Z * bool) := [(1, false); (9, true); (9, false)].
Lemma auc_refuted : zlen auc_bad < 2 ^ 32 /\ 0 < npos auc_bad /\ 0 < nneg auc_bad /\
  exists q, roc_auc Z.leb (labels auc_bad) (scores auc_bad) = OVal q /\ (q == 1 # 2)%Q /\ (rank_probability Z.leb auc_bad == 3 # 4)%Q.
Proof. repeat (split; [vm_compute; reflexivity|]). eexists. split; [reflexivity|]. split; vm_compute; reflexivity. Qed.

Lemma auc_pure_top {K} (leb : K -> K -> bool) rows : total_order leb -> zlen rows < 2 ^ 32 -> 0 < npos rows -> 0 < nneg rows ->
  (one_score rows \/ top_pos leb rows = 0 \/ top_neg leb rows = 0) ->
  exists q, roc_auc leb (labels rows) (scores rows) = OVal q /\ (q == rank_probability leb rows)%Q.
Proof.
  intros TO S HP HN H. destruct (auc_ok leb TO rows S HP HN) as (q & R & E1 & E2). exists q. split; [exact R|].
  assert (D : one_score rows \/ ~ one_score rows).
  { assert (Dk : forall a b : K, a = b \/ a <> b).
    { intros a b. destruct (keq leb a b) eqn:E; [left; now apply (keq_eq leb TO)|right; intros C; apply (keq_eq leb TO) in C; congruence]. }
    destruct rows as [|r0 rows]; [left; intros a b []|].
    destruct (forallb (fun r => keq leb (fst r) (fst r0)) (r0 :: rows)) eqn:F.
    - left. rewrite forallb_forall in F. intros a b Ha Hb. apply F, (keq_eq leb TO) in Ha. apply F, (keq_eq leb TO) in Hb. congruence.
    - right. intros C. apply not_true_iff_false in F. apply F. apply forallb_forall. intros r Hr. apply (keq_eq leb TO), C; [exact Hr|now left]. }
  destruct D as [D|D]; [exact (E1 D)|]. rewrite (E2 D). destruct H as [H|H]; [contradiction|].
  assert (Z0 : top_pos leb rows * top_neg leb rows = 0) by (destruct H as [H|H]; rewrite H; ring). rewrite Z0.
  change (inject_Z 0) with 0%Q. unfold Qdiv. ring.
Qed.
(** Conversely a mixed top score always gives a value that is too small. *)
Lemma auc_mixed_top {K} (leb : K -> K -> bool) rows : total_order leb -> zlen rows < 2 ^ 32 -> 0 < npos rows -> 0 < nneg rows ->
  ~ one_score rows -> 0 < top_pos leb rows -> 0 < top_neg leb rows ->
  exists q, roc_auc leb (labels rows) (scores rows) = OVal q /\ (q < rank_probability leb rows)%Q.
Proof.
  intros TO S HP HN H T1 T2. destruct (auc_ok leb TO rows S HP HN) as (q & R & _ & E2). exists q. split; [exact R|]. rewrite (E2 H).
  assert (X : (0 < inject_Z (top_pos leb rows * top_neg leb rows) / inject_Z (2 * (npos rows * nneg rows)))%Q).
  { apply Qlt_shift_div_l; change 0%Q with (inject_Z 0); [rewrite <- Zlt_Qlt; nia|]. rewrite <- inject_Z_mult, <- Zlt_Qlt. nia. }
  lra.
Qed.
Lemma combo_perfect :
  let rows := [(1, false); (2, false); (8, true); (9, true)] in
  exists m ts, combo_b Z.leb (labels rows) (scores rows) 5 = OVal m /\ thresholds Z.leb rows ts /\
    (avg_precision Z.leb rows ts == 1)%Q /\ (m_ap m == 1 # 2)%Q.
Proof.
  cbv zeta. set (rows := [(1, false); (2, false); (8, true); (9, true)]). eexists. exists [1; 2; 8; 9]. split; [reflexivity|]. split.
  - split.
    + intros k. split.
      * intros [<-|[<-|[<-|[<-|[]]]]]; eexists; cbn; eauto.
      * intros (b & [E|[E|[E|[E|[]]]]]); injection E as <- <-; cbn; auto.
    + intros i j a b L Ha Hb. do 4 (destruct i as [|i]; [do 4 (destruct j as [|j]; [try lia; cbn in Ha, Hb; injection Ha as <-; injection Hb as <-; split; reflexivity|]); destruct j; discriminate|]).
      destruct i; discriminate.
  - split; vm_compute; reflexivity.
Qed.
Definition one_tp : list (Z * bool) := [(1, false); (9, true)].
Lemma combo_zero : exists m ts, combo_b Z.leb (labels one_tp) (scores one_tp) 5 = OVal m /\ thresholds Z.leb one_tp ts /\
    (avg_precision Z.leb one_tp ts == 1)%Q /\ (m_ap m == 0)%Q.
Proof.
  eexists. exists [1; 9]. split; [reflexivity|]. split.
  - split.
    + intros k. split.
      * intros [<-|[<-|[]]]; eexists; cbn; eauto.
      * intros (b & [E|[E|[]]]); injection E as <- <-; cbn; auto.
    + intros i j a b L Ha Hb. do 2 (destruct i as [|i]; [do 2 (destruct j as [|j]; [try lia; cbn in Ha, Hb; injection Ha as <-; injection Hb as <-; split; reflexivity|]); destruct j; discriminate|]).
      destruct i; discriminate.
  - split; vm_compute; reflexivity.
Qed.
Lemma combo_panic : combo_b Z.leb (labels one_tp) (scores one_tp) 10 = OPanic.
Proof. reflexivity. Qed.
Lemma combo_metrics {K} (leb : K -> K -> bool) rows thr : total_order leb -> zlen rows < 2 ^ 32 -> 0 < npos rows -> 0 < nneg rows ->
  (exists r, In r rows /\ leb thr (fst r) = true) ->
  exists m, combo_b leb (labels rows) (scores rows) thr = OVal m /\
    (m_recall m == recall_at leb rows thr)%Q /\ (m_precision m == precision_at leb rows thr)%Q /\
    m_f m = qdiv ((2#1) * (m_precision m * m_recall m))%Q (m_precision m + m_recall m)%Q /\
    (exists a, roc_auc leb (labels rows) (scores rows) = OVal a /\ m_auc m = Some a).
Proof.
  intros TO S HP HN H. destruct (combo_ok leb TO rows S thr HP HN) as [C _]. destruct (C H) as (m & ts & kt & R & _ & _ & _ & A & B & D & E & _).
  exists m. auto.
Qed.
Lemma combo_ap {K} (leb : K -> K -> bool) rows thr : total_order leb -> zlen rows < 2 ^ 32 -> 0 < npos rows -> 0 < nneg rows ->
  (exists r, In r rows /\ leb thr (fst r) = true) ->
  exists m ts top, combo_b leb (labels rows) (scores rows) thr = OVal m /\ thresholds leb rows ts /\ last ts top = top /\ In top ts /\
    (m_ap m == avg_precision leb rows ts - recall_at leb rows top * precision_at leb rows top)%Q.
Proof.
  intros TO S HP HN H. destruct (combo_ok leb TO rows S thr HP HN) as [C _]. destruct (C H) as (m & ts & kt & R & T & L & I & _ & _ & _ & _ & E).
  exists m, ts, kt. auto.
Qed.
Lemma combo_above {K} (leb : K -> K -> bool) rows thr : total_order leb -> zlen rows < 2 ^ 32 -> 0 < npos rows -> 0 < nneg rows ->
  (forall r, In r rows -> leb thr (fst r) = false) -> combo_b leb (labels rows) (scores rows) thr = OPanic.
Proof. intros TO S HP HN H. destruct (combo_ok leb TO rows S thr HP HN) as [_ C]. exact (C H). Qed.

Lemma confusion_sum rows : zlen rows < 2 ^ 32 ->
  zsum (fun x => x) (confusion (combine_labels (map fst rows) (map snd rows))) = zlen rows.
Proof.
  intros L. rewrite (confusion_ok rows L), <- cells_sum. cbn. ring.
Qed.
Definition conf_rows : list (bool * bool) := [(true, true); (false, true); (true, false); (true, true); (false, false)].
Lemma conf_case : zlen conf_rows < 2 ^ 32 /\ confusion (combine_labels (map fst conf_rows) (map snd conf_rows)) = [1; 1; 1; 2].
Proof. split; vm_compute; reflexivity. Qed.
Lemma mcc_small rows : zlen rows < 2 ^ 16 ->
  let tn := cell rows false false in let fp := cell rows false true in
  let fn := cell rows true false in let tp := cell rows true true in
  mcc_parts (combine_labels (map fst rows) (map snd rows)) =
    (tp * tn - fn * fp, (tp + fn) * (tp + fp) * (fp + tn) * (fn + tn)) /\
  (tp * tn - fn * fp) * (tp * tn - fn * fp) <= (tp + fn) * (tp + fp) * (fp + tn) * (fn + tn).
Proof.
  intros L. cbv zeta. rewrite mcc_ok by lia. cbv zeta.
  pose proof (cells_sum rows). pose proof (cell_nonneg rows false false). pose proof (cell_nonneg rows false true).
  pose proof (cell_nonneg rows true false). pose proof (cell_nonneg rows true true).
  split; [|now apply mcc_bound].
  assert (B : forall a b, 0 <= a < 2 ^ 16 -> 0 <= b < 2 ^ 16 -> 0 <= a * b < 2 ^ 32).
  { intros a b Ha Hb. change (2 ^ 32) with (2 ^ 16 * 2 ^ 16). split; [lia|]. nia. }
  rewrite !u32_small; [reflexivity|apply B; lia..].
Qed.
