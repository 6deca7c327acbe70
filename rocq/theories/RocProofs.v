From Coq Require Import Bool List ZArith QArith Lia Lqa Arith Sorted Setoid.
From Verif Require Import PairSums QSum MwProofs Chi2Proofs AnovaModel AnovaProofs TrapzModel TrapzSpec TrapzProofs RocModel RocSpec.
Import ListNotations.
Open Scope Z_scope.

Lemma u32_small z : 0 <= z < 2 ^ 32 -> u32 z = z.
Proof. apply Z.mod_small. Qed.
Lemma zlen_nonneg {A} (l : list A) : 0 <= zlen l.
Proof. unfold zlen. lia. Qed.
Lemma zsum_nonneg {A} (f : A -> Z) l : (forall x, In x l -> 0 <= f x) -> 0 <= zsum f l.
Proof. induction l as [|a l IH]; cbn; intros H; [lia|]. pose proof (H a (or_introl eq_refl)). specialize (IH (fun x Hx => H x (or_intror Hx))). fold (zsum f l). lia. Qed.
Lemma zsum_filter {A} (p : A -> bool) (g : A -> Z) l : zsum g (filter p l) = zsum (fun r => if p r then g r else 0) l.
Proof. induction l as [|a l IH]; cbn; [reflexivity|]. destruct (p a); cbn; fold (zsum g (filter p l)); rewrite IH; reflexivity. Qed.
Lemma zipw_map {A B C D} (h : B -> C -> D) (f : A -> B) (g : A -> C) l : zipw h (map f l) (map g l) = map (fun x => h (f x) (g x)) l.
Proof. induction l as [|a l IH]; cbn; [reflexivity|]. now rewrite IH. Qed.
Lemma zipw_map_r {A C D} (h : A -> C -> D) (g : A -> C) l : zipw h l (map g l) = map (fun x => h x (g x)) l.
Proof. induction l as [|a l IH]; cbn; [reflexivity|]. now rewrite IH. Qed.
Lemma zipw_pair {A B} (l : list A) (m : list B) : zipw pair l m = combine l m.
Proof. revert m. induction l as [|a l IH]; intros [|b m]; cbn; try reflexivity. now rewrite IH. Qed.

(** Suffix sums. *)
Fixpoint suf (l : list Z) : list Z := match l with [] => [] | a :: l' => (a + zsum (fun x => x) l') :: suf l' end.
Lemma pp_suf : forall l acc n, (forall a, In a l -> 0 <= a) -> n = acc + zsum (fun x => x) l -> 0 <= acc -> n < 2 ^ 32 ->
  zipw (fun c cs => u32 (u32 (n - cs) + c)) l (cum_sum acc l) = suf l.
Proof.
  induction l as [|a l IH]; intros acc n P E A N; [reflexivity|]. cbn [cum_sum zipw suf].
  assert (0 <= a) by (apply P; now left). cbn [zsum fold_right] in E. fold (zsum (fun x : Z => x) l) in E.
  assert (0 <= zsum (fun x => x) l) by (apply zsum_nonneg; intros; apply P; now right).
  rewrite (u32_small (n - _)) by lia. rewrite u32_small by lia. f_equal; [lia|].
  apply IH; try lia. intros; apply P; now right.
Qed.
Lemma tp_suf : forall l acc n, (forall a, In a l -> 0 <= a) -> n = acc + zsum (fun x => x) l -> 0 <= acc -> n < 2 ^ 32 ->
  firstn (length l) ((n - acc) :: map (fun cs => u32 (n - cs)) (cum_sum acc l)) = suf l.
Proof.
  induction l as [|a l IH]; intros acc n P E A N; [reflexivity|]. cbn [cum_sum map length firstn suf].
  assert (0 <= a) by (apply P; now left). cbn [zsum fold_right] in E. fold (zsum (fun x : Z => x) l) in E.
  assert (0 <= zsum (fun x => x) l) by (apply zsum_nonneg; intros; apply P; now right).
  rewrite (u32_small (n - _)) by lia. f_equal; [lia|].
  apply IH; try lia. intros; apply P; now right.
Qed.

Section Roc.
Context {K : Type} (leb : K -> K -> bool) (TO : total_order leb).
Notation lt a b := (leb a b = true /\ leb b a = false).
Lemma leb_refl a : leb a a = true.
Proof. destruct (to_total _ TO a a); assumption. Qed.
Lemma keq_eq a b : keq leb a b = true <-> a = b.
Proof.
  unfold keq. rewrite andb_true_iff. split; [intros [H1 H2]; exact (to_anti _ TO a b H1 H2)|].
  intros ->. split; apply leb_refl.
Qed.
Lemma leb_false a b : leb a b = false -> leb b a = true.
Proof. destruct (to_total _ TO a b); congruence. Qed.
Lemma lt_le_trans a b c : leb b a = false -> leb b c = true -> leb c a = false.
Proof. intros H1 H2. destruct (leb c a) eqn:E; [|reflexivity]. rewrite (to_trans _ TO b c a H2 E) in H1. discriminate. Qed.

Definition sorted_lt := StronglySorted (fun a b => lt a b).
Lemma key_insert_in k l x : In x (key_insert leb k l) <-> x = k \/ In x l.
Proof.
  induction l as [|a l IH]; cbn; [intuition congruence|].
  destruct (leb k a) eqn:E1; [destruct (leb a k) eqn:E2|]; cbn; rewrite ?IH.
  - assert (a = k) by (apply (to_anti _ TO); assumption). subst. intuition congruence.
  - intuition congruence.
  - intuition congruence.
Qed.
Lemma key_insert_sorted k l : sorted_lt l -> sorted_lt (key_insert leb k l).
Proof.
  induction 1 as [|a l S IH F]; cbn; [repeat constructor|].
  destruct (leb k a) eqn:E1; [destruct (leb a k) eqn:E2|].
  - constructor; assumption.
  - constructor; [constructor; assumption|]. constructor; [split; assumption|].
    eapply Forall_impl; [|exact F]. intros b [B1 B2]. split; [exact (to_trans _ TO k a b E1 B1)|].
    exact (lt_le_trans k a b E2 B1).
  - constructor; [exact IH|]. apply Forall_forall. intros b Hb. apply key_insert_in in Hb. destruct Hb as [->|Hb].
    + split; [exact (leb_false _ _ E1)|exact E1].
    + rewrite Forall_forall in F. exact (F b Hb).
Qed.
Lemma keys_sorted rows : sorted_lt (keys leb rows).
Proof. induction rows as [|r rows IH]; cbn; [constructor|]. now apply key_insert_sorted. Qed.
Lemma keys_in rows k : In k (keys leb rows) <-> exists z, In (k, z) rows.
Proof.
  induction rows as [|[a z] rows IH]; cbn; [split; [intros []|intros (? & [])]|].
  rewrite key_insert_in, IH. cbn [fst]. split.
  - intros [->|(z' & H)]; [exists z; now left|exists z'; now right].
  - intros (z' & [E|H]); [injection E as -> ->; now left|right; exists z'; exact H].
Qed.
Lemma sorted_nodup l : sorted_lt l -> NoDup l.
Proof.
  induction 1 as [|a l S IH F]; constructor; [|exact IH]. intros H. rewrite Forall_forall in F.
  destruct (F a H) as [_ C]. rewrite leb_refl in C. discriminate.
Qed.

(** [ks] contains every score at or above its first element. *)
Definition up {B} (rows : list (K * B)) (ks : list K) : Prop :=
  sorted_lt ks /\ forall k r, hd_error ks = Some k -> In r rows -> leb k (fst r) = true -> In (fst r) ks.
Lemma up_tail {B} (rows : list (K * B)) k ks : up rows (k :: ks) -> up rows ks.
Proof.
  intros [S H]. inversion S as [|? ? S' F]; subst. split; [exact S'|]. intros k2 r E Hr L.
  destruct ks as [|k' ks]; [discriminate|]. injection E as <-. inversion F as [|? ? [F1 F2] _]; subst.
  destruct (H k r eq_refl Hr (to_trans _ TO k k' (fst r) F1 L)) as [Ek|I]; [|exact I]. rewrite Ek in F2. congruence.
Qed.
(** Rows at or above [k] are those at [k] and those at or above the next key. *)
Lemma up_step {B} (rows : list (K * B)) k k' ks r : up rows (k :: k' :: ks) -> In r rows ->
  leb k (fst r) = keq leb (fst r) k || leb k' (fst r) /\ (keq leb (fst r) k = true -> leb k' (fst r) = false).
Proof.
  intros [S H] Hr. inversion S as [|? ? S' F]; subst. inversion F as [|? ? [F1 F2] F3]; subst. split.
  - destruct (leb k (fst r)) eqn:E.
    + destruct (H k r eq_refl Hr E) as [Ek|[Ek|I]].
      * symmetry. apply orb_true_iff. left. now apply keq_eq.
      * symmetry. apply orb_true_iff. right. rewrite Ek. apply leb_refl.
      * symmetry. apply orb_true_iff. right. inversion S'; subst. rewrite Forall_forall in H3. now apply H3.
    + symmetry. apply orb_false_iff. split.
      * apply not_true_iff_false. intros C. apply keq_eq in C. rewrite C, leb_refl in E. discriminate.
      * destruct (leb k' (fst r)) eqn:C; [|reflexivity]. rewrite (to_trans _ TO k k' _ F1 C) in E. discriminate.
  - intros C. apply keq_eq in C. now rewrite C.
Qed.
Lemma up_last {B} (rows : list (K * B)) k r : up rows [k] -> In r rows -> leb k (fst r) = keq leb (fst r) k.
Proof.
  intros [S H] Hr. destruct (leb k (fst r)) eqn:E.
  - destruct (H k r eq_refl Hr E) as [Ek|[]]. symmetry. now apply keq_eq.
  - symmetry. apply not_true_iff_false. intros C. apply keq_eq in C. rewrite C, leb_refl in E. discriminate.
Qed.
Definition at_key {B} (g : K * B -> Z) rows k : Z := zsum (fun r => if keq leb (fst r) k then g r else 0) rows.
Definition from_key {B} (g : K * B -> Z) rows k : Z := zsum (fun r => if leb k (fst r) then g r else 0) rows.
Lemma from_step {B} (g : K * B -> Z) rows k k' ks : up rows (k :: k' :: ks) -> from_key g rows k = at_key g rows k + from_key g rows k'.
Proof.
  intros U. unfold from_key, at_key. rewrite <- zsum_add. apply zsum_ext. intros r Hr.
  destruct (up_step rows k k' ks r U Hr) as [E D]. rewrite E.
  destruct (keq leb (fst r) k); [rewrite D by reflexivity; cbn; lia|]. cbn. lia.
Qed.
Lemma from_last {B} (g : K * B -> Z) rows k : up rows [k] -> from_key g rows k = at_key g rows k.
Proof. intros U. apply zsum_ext. intros r Hr. now rewrite (up_last rows k r U Hr). Qed.
Lemma suf_from {B} (g : K * B -> Z) rows ks : up rows ks -> suf (map (at_key g rows) ks) = map (from_key g rows) ks.
Proof.
  induction ks as [|k ks IH]; intros U; [reflexivity|]. cbn [map suf]. rewrite (IH (up_tail _ _ _ U)). f_equal.
  clear IH. revert k U. induction ks as [|k' ks IH]; intros k U.
  - cbn. rewrite (from_last g rows k U). lia.
  - cbn [map zsum fold_right]. fold (zsum (fun x : Z => x) (map (at_key g rows) ks)).
    rewrite (IH k' (up_tail _ _ _ U)). symmetry. apply (from_step g rows k k' ks U).
Qed.
Lemma suf_total l : zsum (fun x => x) l = match suf l with [] => 0 | a :: _ => a end.
Proof. destruct l; reflexivity. Qed.

Context (rows : list (K * bool)) (small : zlen rows < 2 ^ 32) (nonempty : rows <> []).
Definition zrow (r : K * bool) : K * Z := (fst r, b2z (snd r)).
Notation zrows := (map zrow rows).
Notation ks := (keys leb zrows).
Definition lab (r : K * bool) : Z := b2z (snd r).
Definition neglab (r : K * bool) : Z := b2z (negb (snd r)).

Lemma ks_up : up rows ks.
Proof.
  split; [apply keys_sorted|]. intros k r _ Hr _. apply keys_in. exists (b2z (snd r)).
  apply in_map_iff. exists r. split; [destruct r; reflexivity|exact Hr].
Qed.
Lemma ks_ne : exists k0 l, ks = k0 :: l.
Proof.
  destruct ks as [|k0 l] eqn:E; [|eauto]. exfalso. destruct rows as [|r l]; [contradiction|].
  assert (In (fst r) (keys leb (map zrow (r :: l)))) by (apply keys_in; exists (b2z (snd r)); now left).
  rewrite E in H. destruct H.
Qed.
Lemma grp_cnt k : zlen (filter (fun r => keq leb (fst r) k) zrows) = at_key (fun _ => 1) rows k.
Proof. rewrite filter_map. unfold zlen. rewrite map_length. fold (zlen (filter (fun x => keq leb (fst (zrow x)) k) rows)).
  rewrite zlen_filter. apply zsum_ext. intros r _. cbn. destruct keq; reflexivity. Qed.
Lemma grp_pos k : zsum snd (filter (fun r => keq leb (fst r) k) zrows) = at_key lab rows k.
Proof. rewrite filter_map, zsum_map, zsum_filter. reflexivity. Qed.
Lemma at_bounds g k : (forall r, 0 <= g r <= 1) -> 0 <= at_key g rows k <= zlen rows.
Proof.
  intros H. unfold at_key. split.
  - apply zsum_nonneg. intros r _. destruct keq; [apply H|lia].
  - replace (zlen rows) with (zsum (fun _ : K * bool => 1) rows) by (rewrite zsum_const; lia).
    apply zsum_le. intros r _. destruct keq; [apply H|lia].
Qed.
Lemma lab01 r : 0 <= lab r <= 1.
Proof. unfold lab. destruct (snd r); cbn; lia. Qed.
Lemma from_first (g : K * bool -> Z) k0 l : ks = k0 :: l -> from_key g rows k0 = zsum g rows.
Proof.
  intros E. apply zsum_ext. intros r Hr.
  assert (I : In (fst r) ks).
  { apply keys_in. exists (b2z (snd r)). apply in_map_iff. exists r. split; [destruct r; reflexivity|exact Hr]. }
  pose proof (keys_sorted zrows) as S. rewrite E in S, I. inversion S as [|? ? _ F]; subst.
  destruct I as [Ek|I]; [rewrite <- Ek; now rewrite leb_refl|]. rewrite Forall_forall in F. destruct (F _ I) as [F1 _]. now rewrite F1.
Qed.
Lemma tp_from k : tp_at leb rows k = from_key lab rows k.
Proof. unfold tp_at. rewrite zlen_filter. apply zsum_ext. intros r _. unfold lab. destruct (snd r), (leb k (fst r)); reflexivity. Qed.
Lemma fp_from k : fp_at leb rows k = from_key neglab rows k.
Proof. unfold fp_at. rewrite zlen_filter. apply zsum_ext. intros r _. unfold neglab. destruct (snd r), (leb k (fst r)); reflexivity. Qed.
Lemma pp_from k : pp_at leb rows k = from_key (fun _ => 1) rows k.
Proof. unfold pp_at. rewrite zlen_filter. apply zsum_ext. intros r _. destruct (leb k (fst r)); reflexivity. Qed.
Lemma pp_tp_fp k : pp_at leb rows k = tp_at leb rows k + fp_at leb rows k.
Proof.
  rewrite tp_from, fp_from, pp_from. unfold from_key. rewrite <- zsum_add. apply zsum_ext. intros r _.
  unfold lab, neglab. destruct (leb k (fst r)), (snd r); reflexivity.
Qed.
Lemma npos_sum : npos rows = zsum lab rows.
Proof. unfold npos. rewrite zlen_filter. reflexivity. Qed.
Lemma nneg_sum : nneg rows = zsum neglab rows.
Proof. unfold nneg. rewrite zlen_filter. reflexivity. Qed.
Lemma npos_nneg : npos rows + nneg rows = zlen rows.
Proof.
  rewrite npos_sum, nneg_sum, <- zsum_add. replace (zlen rows) with (zsum (fun _ : K * bool => 1) rows) by (rewrite zsum_const; lia).
  apply zsum_ext. intros r _. unfold lab, neglab. destruct (snd r); reflexivity.
Qed.
Lemma npos_bounds : 0 <= npos rows <= zlen rows /\ 0 <= nneg rows <= zlen rows.
Proof. pose proof npos_nneg. pose proof (zlen_nonneg (filter (fun r => snd r) rows)). pose proof (zlen_nonneg (filter (fun r => negb (snd r)) rows)). unfold npos, nneg in *. lia. Qed.

Lemma pp_pos k : In k ks -> 0 < pp_at leb rows k.
Proof.
  intros H. apply keys_in in H. destruct H as (z & H). apply in_map_iff in H. destruct H as (r & E & Hr).
  unfold zrow in E. injection E as E _.
  unfold pp_at. assert (I : In r (filter (fun r => leb k (fst r)) rows)) by (apply filter_In; split; [exact Hr|rewrite E; apply leb_refl]).
  destruct (filter _ rows); [destruct I|]. unfold zlen. cbn. lia.
Qed.

(** The computed table is the ROC table. *)
Lemma frame_ok : tp_fp_frame leb zrows (npos rows) =
  map (fun k => mkrow k (tp_at leb rows k) (fp_at leb rows k) (Some (precision_at leb rows k))) ks.
Proof.
  unfold tp_fp_frame.
  assert (E1 : map (fun k => zlen (filter (fun r => keq leb (fst r) k) zrows)) ks = map (at_key (fun _ => 1) rows) ks)
    by (apply map_ext; intros; apply grp_cnt).
  assert (E2 : map (fun k => u32 (zsum snd (filter (fun r => keq leb (fst r) k) zrows))) ks = map (at_key lab rows) ks).
  { apply map_ext. intros k. rewrite grp_pos. apply u32_small. pose proof (at_bounds lab k lab01). lia. }
  assert (Ln : zlen zrows = zlen rows) by (unfold zlen; now rewrite map_length).
  destruct ks_ne as (k0 & l & Ek).
  rewrite E1, E2, Ln. rewrite (u32_small (zlen rows)) by (pose proof (zlen_nonneg rows); lia).
  rewrite pp_suf.
  2:{ intros a Ha. apply in_map_iff in Ha. destruct Ha as (k & <- & _). apply at_bounds. intros; lia. }
  2:{ rewrite suf_total, suf_from by apply ks_up. rewrite Ek. cbn [map]. rewrite (from_first _ k0 l Ek), zsum_const. lia. }
  2:{ lia. } 2:{ lia. }
  unfold shift_fill. rewrite map_length.
  assert (Lc : forall acc m, length (cum_sum acc m) = length m) by (intros acc m; revert acc; induction m; intros; cbn; congruence).
  rewrite Lc.
  rewrite <- (Z.sub_0_r (npos rows)) at 1. rewrite tp_suf.
  2:{ intros a Ha. apply in_map_iff in Ha. destruct Ha as (k & <- & _). apply at_bounds, lab01. }
  2:{ rewrite suf_total, suf_from by apply ks_up. rewrite Ek. cbn [map]. rewrite (from_first _ k0 l Ek), npos_sum. lia. }
  2:{ lia. } 2:{ pose proof npos_bounds; lia. }
  rewrite !suf_from by apply ks_up. rewrite zipw_map, zipw_map_r. apply map_ext_in. intros k Hk. cbn [fst snd].
  rewrite <- tp_from, <- pp_from. pose proof (pp_pos k Hk) as Pp. unfold qdiv.
  assert (Z0 : Qeq_bool (inject_Z (pp_at leb rows k)) 0 = false).
  { apply not_true_iff_false. intros C. apply Qeq_bool_iff in C. change 0%Q with (inject_Z 0) in C. apply inj_eq in C. lia. }
  rewrite Z0. unfold precision_at. f_equal. rewrite pp_tp_fp. apply u32_small || idtac.
  replace (tp_at leb rows k + fp_at leb rows k - tp_at leb rows k) with (fp_at leb rows k) by lia. apply u32_small.
  pose proof (zlen_nonneg (filter (fun r => negb (snd r) && leb k (fst r)) rows)).
  assert (fp_at leb rows k <= zlen rows).
  { unfold fp_at, zlen. clear. induction rows as [|a m IH]; cbn [filter]; [lia|]. destruct (_ && _); cbn [length]; lia. }
  unfold fp_at in *. lia.
Qed.
End Roc.
