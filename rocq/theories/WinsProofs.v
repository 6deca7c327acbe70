(** Lemmas on winsorizing. *)
From Coq Require Import Reals Lra Lia List ZArith Permutation Sorted Arith.
From Flocq Require Import Core.Raux.
From Verif Require Import WStatsSpec WStatsModel WStatsProofs WStatsPropsLemmas XiProofs MetricSpec MetricModel MetricProofs LagSpec LagProofs LagPropsLemmas DescSpec DescModel DescProofs WinsSpec WinsModel.
Import ListNotations.
Open Scope R_scope.

Lemma sorted_unique : forall l l' : list R, StronglySorted Rle l -> StronglySorted Rle l' -> Permutation l l' -> l = l'.
Proof.
  induction l as [|a l IH]; intros [|b l'] S S' P; [easy| | |].
  - apply Permutation_length in P. easy.
  - apply Permutation_length in P. easy.
  - inversion S as [|? ? Sl Fa]; subst. inversion S' as [|? ? Sl' Fb]; subst. rewrite Forall_forall in Fa, Fb.
    assert (a = b) as ->.
    { assert (In a (b :: l')) as I1 by (eapply Permutation_in; [exact P|now left]).
      assert (In b (a :: l)) as I2 by (eapply Permutation_in; [symmetry; exact P|now left]).
      destruct I1 as [->|I1]; [easy|]. destruct I2 as [->|I2]; [easy|]. specialize (Fa _ I2). specialize (Fb _ I1). lra. }
    f_equal. apply IH; try easy. now apply Permutation_cons_inv in P.
Qed.
Lemma map_sorted g l : (forall u v, u <= v -> g u <= g v) -> StronglySorted Rle l -> StronglySorted Rle (map g l).
Proof.
  intros M. induction 1 as [|a l Sl IH Fa]; cbn; [constructor|]. constructor; [easy|]. rewrite Forall_forall in *.
  intros v Hv. apply in_map_iff in Hv. destruct Hv as (u & <- & Hu). auto.
Qed.
Lemma sort_mono g l : (forall u v, u <= v -> g u <= g v) -> sort_R (map g l) = map g (sort_R l).
Proof.
  intros M. apply sorted_unique; [apply sort_sorted|apply map_sorted; [easy|apply sort_sorted]|].
  rewrite (sort_perm (map g l)). apply Permutation_map. symmetry. apply sort_perm.
Qed.
Lemma pos_bounds (l : list R) q : l <> [] -> 0 <= q <= 1 -> 0 <= position (length l) q <= INR (length l) - 1.
Proof.
  intros N Q. unfold position. assert (1 <= INR (length l)) by (apply (le_INR 1); destruct l; cbn; [easy|lia]). nra.
Qed.
Lemma idx_floor (l : list R) r : l <> [] -> 0 <= r <= INR (length l) - 1 -> (0 <= Zfloor r /\ Zceil r < Z.of_nat (length l))%Z /\ (Zfloor r <= Zceil r)%Z.
Proof.
  intros N (A & B). split; [split|].
  - apply Zfloor_lub. exact A.
  - rewrite INR_IZR_INZ, <- minus_IZR in B. apply Zceil_glb in B. lia.
  - apply le_IZR. apply Rle_trans with r; [apply Zfloor_lb|apply Zceil_ub].
Qed.
Lemma at_mono l i j : (0 <= i <= j)%Z -> (j < Z.of_nat (length l))%Z -> at_ (sort_R l) i <= at_ (sort_R l) j.
Proof. intros H H'. unfold at_. apply sorted_nth; [apply sort_sorted|]. rewrite sort_length. lia. Qed.
Lemma floor_mono r r' : r <= r' -> (Zfloor r <= Zfloor r')%Z. Proof. apply Zfloor_le. Qed.
Lemma half_floor r : (Zfloor r <= Zfloor (r + / 2) <= Zceil r)%Z.
Proof.
  split; [apply Zfloor_le; lra|]. apply Zlt_succ_le. apply lt_IZR. apply Rle_lt_trans with (r + / 2); [apply Zfloor_lb|].
  unfold Z.succ. rewrite plus_IZR. pose proof (Zceil_ub r). lra.
Qed.
Definition qv (s : list R) (r : R) (m : qmethod) : R :=
  match m with
  | Nearest => at_ s (Zfloor (r + / 2)) | Lower => at_ s (Zfloor r) | Higher => at_ s (Zceil r)
  | Midpoint => (at_ s (Zfloor r) + at_ s (Zceil r)) / 2
  | Linear => at_ s (Zfloor r) + (r - IZR (Zfloor r)) * (at_ s (Zceil r) - at_ s (Zfloor r))
  end.
Lemma quant_val l q m : l <> [] -> quantile l q m = Some (qv (sort_R l) (position (length l) q) m).
Proof. intros H. unfold quantile. destruct l; [easy|]. destruct m; reflexivity. Qed.
Lemma frac r : 0 <= r - IZR (Zfloor r) < 1.
Proof. pose proof (Zfloor_lb r). pose proof (Zfloor_ub r). lra. Qed.
Lemma qv_between l r m : l <> [] -> 0 <= r <= INR (length l) - 1 ->
  at_ (sort_R l) (Zfloor r) <= qv (sort_R l) r m <= at_ (sort_R l) (Zceil r).
Proof.
  intros N B. destruct (idx_floor l r N B) as ((A1 & A2) & A3). pose proof (half_floor r). pose proof (frac r).
  assert (at_ (sort_R l) (Zfloor r) <= at_ (sort_R l) (Zceil r)) as L by (apply at_mono; lia).
  destruct m; cbn [qv]; try lra.
  - split; apply at_mono; lia.
  - nra.
Qed.
Lemma qv_mono l r r' m : l <> [] -> 0 <= r -> r <= r' -> r' <= INR (length l) - 1 -> qv (sort_R l) r m <= qv (sort_R l) r' m.
Proof.
  intros N A B C. destruct (idx_floor l r N) as ((A1 & A2) & A3); [lra|]. destruct (idx_floor l r' N) as ((B1 & B2) & B3); [lra|].
  pose proof (floor_mono r r' B) as F. assert (Zceil r <= Zceil r')%Z as G by (apply Zceil_le; easy).
  assert (at_ (sort_R l) (Zfloor r) <= at_ (sort_R l) (Zfloor r')) as L1 by (apply at_mono; lia).
  assert (at_ (sort_R l) (Zceil r) <= at_ (sort_R l) (Zceil r')) as L2 by (apply at_mono; lia).
  destruct m; cbn [qv]; try lra.
  - pose proof (half_floor r). pose proof (half_floor r'). apply at_mono; [|lia]. split; [lia|]. apply Zfloor_le. lra.
  - destruct (Z.eq_dec (Zfloor r) (Zfloor r')) as [E|NE].
    + rewrite <- E in *. pose proof (frac r). pose proof (frac r') as FR'. rewrite <- E in FR'.
      assert (at_ (sort_R l) (Zfloor r) <= at_ (sort_R l) (Zceil r)) as L by (apply at_mono; lia).
      apply Rplus_le_compat_l. apply Rle_trans with ((r' - IZR (Zfloor r)) * (at_ (sort_R l) (Zceil r) - at_ (sort_R l) (Zfloor r))); [apply Rmult_le_compat_r; lra|apply Rmult_le_compat_l; lra].
    + assert (Zceil r <= Zfloor r')%Z as K. { apply Z.le_trans with (Zfloor r + 1)%Z; [|lia]. apply Zceil_glb. rewrite plus_IZR. pose proof (Zfloor_ub r). lra. }
      pose proof (qv_between l r Linear N ltac:(lra)) as (_ & U). pose proof (qv_between l r' Linear N ltac:(lra)) as (V & _). cbn [qv] in U, V.
      assert (at_ (sort_R l) (Zceil r) <= at_ (sort_R l) (Zfloor r')) by (apply at_mono; lia). lra.
Qed.
Lemma clip_between lo hi v : lo <= hi -> lo <= clip lo hi v <= hi.
Proof. intros H. unfold clip. destruct (Rlt_dec v lo), (Rlt_dec hi v); lra. Qed.
Lemma clip_nearest lo hi v : lo <= hi -> nearest_in lo hi v (clip lo hi v).
Proof.
  intros H. split; [now apply clip_between|]. intros u Hu. unfold clip. destruct (Rlt_dec v lo); [|destruct (Rlt_dec hi v)].
  - rewrite !Rabs_left1 by lra. lra.
  - rewrite !Rabs_right by lra. lra.
  - rewrite Rminus_diag_eq, Rabs_R0 by easy. apply Rabs_pos.
Qed.
Lemma clip_mono lo hi u v : lo <= hi -> u <= v -> clip lo hi u <= clip lo hi v.
Proof. intros H H'. unfold clip. destruct (Rlt_dec u lo), (Rlt_dec v lo), (Rlt_dec hi u), (Rlt_dec hi v); lra. Qed.
Lemma clip_id lo hi v : lo <= v <= hi -> clip lo hi v = v.
Proof. intros H. unfold clip. destruct (Rlt_dec v lo), (Rlt_dec hi v); lra. Qed.
Lemma clip_idem lo hi v : lo <= hi -> clip lo hi (clip lo hi v) = clip lo hi v.
Proof. intros H. apply clip_id, clip_between, H. Qed.
Definition valid_q (a b : R) : Prop := 0 < a /\ a < b /\ b < 1.
Lemma wins_val x a b m : valid_q a b -> winsorize x a b m =
  Some match quantile (values x) a m, quantile (values x) b m with Some lo, Some hi => lift1 (clip lo hi) x | _, _ => x end.
Proof.
  intros (A & B & C). unfold winsorize. destruct (Rle_dec a 0); [lra|]. destruct (Rle_dec 1 a); [lra|]. destruct (Rle_dec b 0); [lra|].
  destruct (Rle_dec 1 b); [lra|]. destruct (Rle_dec b a); [lra|]. easy.
Qed.
Lemma wins_reject x a b m : winsorize x a b m = None <-> ~ valid_q a b.
Proof.
  unfold valid_q. split; intros H.
  - intros V. rewrite wins_val in H by easy. discriminate.
  - unfold winsorize. destruct (Rle_dec a 0); [easy|]. destruct (Rle_dec 1 a); [easy|]. destruct (Rle_dec b 0); [easy|].
    destruct (Rle_dec 1 b); [easy|]. destruct (Rle_dec b a); [easy|]. exfalso. apply H. lra.
Qed.
Lemma qs_ordered x a b m : valid_q a b -> values x <> [] -> exists lo hi, quantile (values x) a m = Some lo /\ quantile (values x) b m = Some hi /\ lo <= hi.
Proof.
  intros (A & B & C) N. rewrite !quant_val by easy. do 2 eexists. split; [reflexivity|]. split; [reflexivity|].
  pose proof (pos_bounds (values x) a N ltac:(lra)). pose proof (pos_bounds (values x) b N ltac:(lra)). apply qv_mono; try easy; try lra.
  unfold position. assert (1 <= INR (length (values x))) by (apply (le_INR 1); destruct (values x); cbn; [easy|lia]). nra.
Qed.
Lemma wins_thm x a b m : valid_q a b -> values x <> [] -> exists lo hi y,
  quantile (values x) a m = Some lo /\ quantile (values x) b m = Some hi /\ lo <= hi /\ winsorize x a b m = Some y /\ length y = length x /\
  (forall i, match get x i with Some v => exists w, get y i = Some w /\ nearest_in lo hi v w /\ (lo <= v <= hi -> w = v) | None => get y i = None end) /\
  (forall i j u v u' v', get x i = Some u -> get x j = Some v -> get y i = Some u' -> get y j = Some v' -> u <= v -> u' <= v').
Proof.
  intros V N. destruct (qs_ordered x a b m V N) as (lo & hi & E1 & E2 & L). exists lo, hi, (lift1 (clip lo hi) x).
  split; [easy|]. split; [easy|]. split; [easy|]. split; [rewrite wins_val, E1, E2; easy|]. split; [unfold lift1; apply map_length|]. split.
  - intros i. rewrite get_lift1. destruct (get x i); cbn; [|easy]. eexists. split; [reflexivity|]. split; [now apply clip_nearest|apply clip_id].
  - intros i j u v u' v' Eu Ev. rewrite !get_lift1, Eu, Ev. cbn. intros F1 F2. inversion F1. inversion F2. now apply clip_mono.
Qed.
(** ** How many rows change. *)
Lemma count_lt_sorted (s : list R) k : StronglySorted Rle s -> (k < length s)%nat ->
  (length (filter (fun v => if Rlt_dec v (nth k s 0%R) then true else false) s) <= k)%nat.
Proof.
  intros S K. set (f := fun v => if Rlt_dec v (nth k s 0) then true else false). rewrite <- (firstn_skipn k s), filter_app, app_length. unfold f at 2.
  assert (filter (fun v => if Rlt_dec v (nth k s 0) then true else false) (skipn k s) = []) as ->.
  { assert (forall v, In v (skipn k s) -> nth k s 0 <= v) as A.
    { intros v Hv. apply (In_nth _ _ 0) in Hv. destruct Hv as (i & Hi & <-). rewrite skipn_length in Hi. rewrite nth_skipn. apply sorted_nth; [easy|lia]. }
    induction (skipn k s) as [|v t IH]; [easy|]. cbn. destruct (Rlt_dec v (nth k s 0)); [|apply IH; intros; apply A; now right].
    specialize (A v (or_introl eq_refl)). lra. }
  cbn [length Nat.add]. assert (forall g (t : list R), (length (filter g t) <= length t)%nat) as FL by (intros g t; induction t as [|v t IH]; cbn; [lia|destruct (g v); cbn; lia]).
  rewrite Nat.add_0_r. eapply Nat.le_trans; [apply FL|]. rewrite firstn_length. lia.
Qed.
Lemma count_gt_sorted (s : list R) k : StronglySorted Rle s -> (k < length s)%nat ->
  (length (filter (fun v => if Rlt_dec (nth k s 0%R) v then true else false) s) <= length s - 1 - k)%nat.
Proof.
  intros SS K. set (f := fun v => if Rlt_dec (nth k s 0) v then true else false). replace (filter f s) with (filter f (firstn (S k) s ++ skipn (S k) s)) by now rewrite firstn_skipn.
  rewrite filter_app, app_length. unfold f at 1.
  assert (filter (fun v => if Rlt_dec (nth k s 0) v then true else false) (firstn (S k) s) = []) as ->.
  { assert (forall v, In v (firstn (S k) s) -> v <= nth k s 0) as A.
    { intros v Hv. apply (In_nth _ _ 0) in Hv. destruct Hv as (i & Hi & <-). rewrite firstn_length in Hi. rewrite nth_firstn by lia. apply sorted_nth; [easy|lia]. }
    induction (firstn (S k) s) as [|v t IH]; [easy|]. cbn. destruct (Rlt_dec (nth k s 0) v); [|apply IH; intros; apply A; now right].
    specialize (A v (or_introl eq_refl)). lra. }
  cbn [length Nat.add]. assert (forall g (t : list R), (length (filter g t) <= length t)%nat) as FL by (intros g t; induction t as [|v t IH]; cbn; [lia|destruct (g v); cbn; lia]).
  eapply Nat.le_trans; [apply FL|]. rewrite skipn_length. lia.
Qed.
Lemma filter_perm {A} (f : A -> bool) l l' : Permutation l l' -> length (filter f l) = length (filter f l').
Proof. induction 1; cbn; try (destruct (f x)); try (destruct (f y)); cbn; lia. Qed.
Lemma filter_sub {A} (f g : A -> bool) l : (forall x, f x = true -> g x = true) -> (length (filter f l) <= length (filter g l))%nat.
Proof. intros H. induction l as [|a l IH]; cbn; [lia|]. specialize (H a). destruct (f a) eqn:E; [rewrite H by easy; cbn; lia|]. destruct (g a); cbn; lia. Qed.
Lemma raised_clip lo hi x : lo <= hi -> raised x (lift1 (clip lo hi) x) = length (filter (fun v => if Rlt_dec v lo then true else false) (values x)).
Proof.
  intros L. unfold raised, lift1. induction x as [|[v|] x IH]; cbn; [easy| |exact IH].
  assert (v < clip lo hi v <-> v < lo) as W by (unfold clip; destruct (Rlt_dec v lo), (Rlt_dec hi v); lra).
  destruct (Rlt_dec v (clip lo hi v)), (Rlt_dec v lo); try (exfalso; tauto); [|exact IH]. cbn. f_equal. exact IH.
Qed.
Lemma lowered_clip lo hi x : lo <= hi -> lowered x (lift1 (clip lo hi) x) = length (filter (fun v => if Rlt_dec hi v then true else false) (values x)).
Proof.
  intros L. unfold lowered, raised, lift1. induction x as [|[v|] x IH]; cbn; [easy| |exact IH].
  assert (clip lo hi v < v <-> hi < v) as W by (unfold clip; destruct (Rlt_dec v lo), (Rlt_dec hi v); lra).
  destruct (Rlt_dec (clip lo hi v) v), (Rlt_dec hi v); try (exfalso; tauto); [|exact IH]. cbn. f_equal. exact IH.
Qed.
Lemma filter_len {A} f (t : list A) : (length (filter f t) <= length t)%nat. Proof. induction t as [|v t IH]; cbn; [lia|destruct (f v); cbn; lia]. Qed.
Lemma wins_count x a b m y : valid_q a b -> values x <> [] -> winsorize x a b m = Some y ->
  INR (raised x y) < (INR (length (values x)) - 1) * a + 1 /\ INR (lowered x y) < (INR (length (values x)) - 1) * (1 - b) + 1.
Proof.
  intros V N. destruct (qs_ordered x a b m V N) as (lo & hi & E1 & E2 & L). rewrite wins_val, E1, E2 by easy. intros H. inversion H. clear H H1.
  destruct V as (A & B & C). rewrite raised_clip, lowered_clip by easy. set (l := values x) in *. rewrite quant_val in E1, E2 by easy. injection E1 as F1. injection E2 as F2.
  pose proof (pos_bounds l a N ltac:(lra)) as Pa. pose proof (pos_bounds l b N ltac:(lra)) as Pb.
  destruct (idx_floor l _ N Pa) as ((A1 & A2) & A3). destruct (idx_floor l _ N Pb) as ((B1 & B2) & B3).
  destruct (qv_between l _ m N Pa) as (_ & U). destruct (qv_between l _ m N Pb) as (W & _).
  rewrite F1 in U. rewrite F2 in W.
  set (r := position (length l) a) in *. set (r' := position (length l) b) in *. split.
  - apply Rle_lt_trans with (IZR (Zceil r)).
    + rewrite INR_IZR_INZ. apply IZR_le.
      assert (length (filter (fun v => if Rlt_dec v lo then true else false) l) <= Z.to_nat (Zceil r))%nat as K; [|lia].
      rewrite (filter_perm _ _ _ (Permutation_sym (sort_perm l))).
      eapply Nat.le_trans; [|apply (count_lt_sorted (sort_R l) (Z.to_nat (Zceil r)) (sort_sorted l)); rewrite sort_length; lia].
      apply filter_sub. intros v Hv. destruct (Rlt_dec v lo); [|easy]. destruct (Rlt_dec v (nth (Z.to_nat (Zceil r)) (sort_R l) 0)); [easy|].
      unfold at_ in U. lra.
    + fold r. pose proof (Zceil_lb r). unfold r in *. unfold position in *. lra.
  - apply Rle_lt_trans with (INR (length l) - 1 - IZR (Zfloor r')).
    + assert (length (filter (fun v => if Rlt_dec hi v then true else false) l) <= length l - 1 - Z.to_nat (Zfloor r'))%nat as K.
      { rewrite (filter_perm _ _ _ (Permutation_sym (sort_perm l))). rewrite <- (sort_length l).
        eapply Nat.le_trans; [|apply (count_gt_sorted (sort_R l) (Z.to_nat (Zfloor r')) (sort_sorted l)); rewrite sort_length; lia].
        apply filter_sub. intros v Hv. destruct (Rlt_dec hi v); [|easy]. destruct (Rlt_dec (nth (Z.to_nat (Zfloor r')) (sort_R l) 0) v); [easy|].
        unfold at_ in W. lra. }
      rewrite !INR_IZR_INZ, <- !minus_IZR. apply IZR_le. lia.
    + pose proof (Zfloor_ub r'). unfold r' in *. unfold position in *. lra.
Qed.
(** ** Idempotence and equivariance. *)
Definition indexed (m : qmethod) : Prop := m = Nearest \/ m = Lower \/ m = Higher.
Lemma quant_mono_map g l q m : (forall u v, u <= v -> g u <= g v) -> indexed m -> 0 < q < 1 -> quantile (map g l) q m = option_map g (quantile l q m).
Proof.
  intros M IM Q. destruct l as [|a l0]; [easy|]. assert (a :: l0 <> []) as N by easy. set (l := a :: l0) in *.
  assert (map g l <> []) as N' by (unfold l; easy). rewrite !quant_val by easy. cbn [option_map]. f_equal. rewrite map_length.
  pose proof (pos_bounds l q N ltac:(lra)) as P. destruct (idx_floor l _ N P) as ((A1 & A2) & A3). pose proof (half_floor (position (length l) q)).
  rewrite sort_mono by easy. assert (forall k, (0 <= k < Z.of_nat (length l))%Z -> at_ (map g (sort_R l)) k = g (at_ (sort_R l) k)) as AT.
  { intros k Hk. unfold at_. rewrite (nth_indep _ 0 (g 0)) by (rewrite map_length, sort_length; lia). apply map_nth. }
  destruct IM as [->|[->| ->]]; cbn [qv]; apply AT; lia.
Qed.
Lemma wins_idem x a b m y : indexed m -> winsorize x a b m = Some y -> winsorize y a b m = Some y.
Proof.
  intros IM H. destruct (Rlt_dec 0 a) as [V1|V1]; [destruct (Rlt_dec a b) as [V2|V2]; [destruct (Rlt_dec b 1) as [V3|V3]|]|].
  2-4: exfalso; assert (~ valid_q a b) as NV by (unfold valid_q; lra); apply (wins_reject x a b m) in NV; congruence.
  assert (valid_q a b) as V by easy. rewrite wins_val in H |- * by easy.
  destruct (list_eq_dec Req_EM_T (values x) []) as [E|N].
  - rewrite E in H. cbn in H. inversion H; subst y. rewrite E. reflexivity.
  - destruct (qs_ordered x a b m V N) as (lo & hi & E1 & E2 & L). rewrite E1, E2 in H. inversion H; subst y. clear H.
    rewrite values_lift1, !quant_mono_map by (try easy; try lra; intros; now apply clip_mono). rewrite E1, E2. cbn [option_map].
    rewrite (clip_id lo hi lo), (clip_id lo hi hi) by lra. f_equal. unfold lift1. rewrite map_map. apply map_ext. intros [v|]; cbn; [|easy].
    now rewrite clip_idem.
Qed.
Lemma quant_affine l q m s t : 0 <= q <= 1 -> 0 < s -> quantile (map (fun v => s * v + t) l) q m = option_map (fun v => s * v + t) (quantile l q m).
Proof.
  intros Q S. destruct l as [|a l0]; [easy|]. assert (a :: l0 <> []) as N by easy. set (l := a :: l0) in *. set (g := fun v => s * v + t) in *.
  assert (forall u v, u <= v -> g u <= g v) as M by (intros; unfold g; nra).
  assert (map g l <> []) as N' by (unfold l; easy). rewrite !quant_val by easy. cbn [option_map]. f_equal. rewrite map_length.
  pose proof (pos_bounds l q N ltac:(lra)) as P. destruct (idx_floor l _ N P) as ((A1 & A2) & A3). pose proof (half_floor (position (length l) q)).
  rewrite sort_mono by easy. assert (forall k, (0 <= k < Z.of_nat (length l))%Z -> at_ (map g (sort_R l)) k = g (at_ (sort_R l) k)) as AT.
  { intros k Hk. unfold at_. rewrite (nth_indep _ 0 (g 0)) by (rewrite map_length, sort_length; lia). apply map_nth. }
  destruct m; cbn [qv]; rewrite !AT by lia; unfold g; lra.
Qed.
Lemma wins_affine x a b m s t y : 0 < s -> winsorize x a b m = Some y ->
  winsorize (lift1 (fun v => s * v + t) x) a b m = Some (lift1 (fun v => s * v + t) y).
Proof.
  intros S H. destruct (Rlt_dec 0 a) as [V1|V1]; [destruct (Rlt_dec a b) as [V2|V2]; [destruct (Rlt_dec b 1) as [V3|V3]|]|].
  2-4: exfalso; assert (~ valid_q a b) as NV by (unfold valid_q; lra); apply (wins_reject x a b m) in NV; congruence.
  assert (valid_q a b) as V by easy. rewrite wins_val in H |- * by easy. rewrite values_lift1, !quant_affine by (try easy; lra).
  destruct (quantile (values x) a m) as [lo|]; cbn [option_map]; [|inversion H; easy].
  destruct (quantile (values x) b m) as [hi|]; cbn [option_map]; [|inversion H; easy].
  inversion H. f_equal. unfold lift1. rewrite !map_map. apply map_ext. intros [v|]; cbn; [|easy]. f_equal. unfold clip.
  destruct (Rlt_dec v lo), (Rlt_dec (s * v + t) (s * lo + t)); try lra; try nra.
  destruct (Rlt_dec hi v), (Rlt_dec (s * hi + t) (s * v + t)); try lra; try nra.
Qed.
Lemma wins_linear_ex : exists x y z, winsorize x (1 / 4) (3 / 4) Linear = Some y /\ winsorize y (1 / 4) (3 / 4) Linear = Some z /\ y <> z.
Proof.
  exists [Some 0; Some 4].
  assert (valid_q (1 / 4) (3 / 4)) as V by (unfold valid_q; lra).
  assert (forall u v, u <= v -> winsorize [Some u; Some v] (1 / 4) (3 / 4) Linear = Some [Some (u + (v - u) / 4); Some (v - (v - u) / 4)]) as W.
  { intros u v L. rewrite wins_val by easy. cbn [values flat_map app]. rewrite !quant_val by easy. cbn [length].
    assert (sort_R [u; v] = [u; v]) as -> by (cbn; destruct (Rle_dec u v); [easy|lra]).
    unfold position. replace ((INR 2 - 1) * (1 / 4)) with (1 / 4) by (cbn; lra). replace ((INR 2 - 1) * (3 / 4)) with (3 / 4) by (cbn; lra).
    cbn [qv]. assert (forall r, 0 < r < 1 -> Zfloor r = 0%Z /\ Zceil r = 1%Z) as FC.
    { intros r Hr. split; [apply Zfloor_imp; cbn; lra|apply Zceil_imp; cbn; lra]. }
    destruct (FC (1 / 4)) as (-> & ->); [lra|]. destruct (FC (3 / 4)) as (-> & ->); [lra|]. unfold at_. change (Z.to_nat 1) with 1%nat. change (Z.to_nat 0) with 0%nat. cbn [nth].
    f_equal. cbn [lift1 map option_map]. unfold clip.
    repeat match goal with |- context [Rlt_dec ?p ?q] => destruct (Rlt_dec p q) end; try (exfalso; lra); (apply (f_equal2 (@cons (option R))); [apply f_equal; lra|apply (f_equal2 (@cons (option R))); [apply f_equal; lra|reflexivity]]). }
  do 2 eexists. split; [apply W; lra|]. split; [apply W; lra|]. intros E. inversion E. lra.
Qed.
Lemma wins_case : valid_q (1 / 20) (19 / 20) /\ values [Some 1; None; Some 7] <> [].
Proof. split; [unfold valid_q; lra|easy]. Qed.
Lemma wins_empty x a b m : valid_q a b -> values x = [] -> winsorize x a b m = Some x.
Proof. intros V E. now rewrite wins_val, E. Qed.
Lemma quant_in l q m : l <> [] -> 0 < q < 1 -> exists v, quantile l q m = Some v /\ (indexed m -> In v l) /\
  (exists u w, In u l /\ In w l /\ u <= v <= w /\ (m = Midpoint -> v = (u + w) / 2)) /\
  (forall q', q <= q' < 1 -> exists v', quantile l q' m = Some v' /\ v <= v').
Proof.
  intros N Q. rewrite quant_val by easy. eexists. split; [reflexivity|]. pose proof (pos_bounds l q N ltac:(lra)) as P.
  destruct (idx_floor l _ N P) as ((A1 & A2) & A3). pose proof (half_floor (position (length l) q)).
  assert (forall k, (0 <= k < Z.of_nat (length l))%Z -> In (at_ (sort_R l) k) l) as AT.
  { intros k Hk. unfold at_. eapply Permutation_in; [apply (sort_perm l)|]. apply nth_In. rewrite sort_length. lia. }
  split; [|split].
  - intros [->|[->| ->]]; cbn [qv]; apply AT; lia.
  - exists (at_ (sort_R l) (Zfloor (position (length l) q))), (at_ (sort_R l) (Zceil (position (length l) q))).
    split; [apply AT; lia|]. split; [apply AT; lia|]. split; [now apply qv_between|]. intros ->. easy.
  - intros q' Q'. rewrite quant_val by easy. eexists. split; [reflexivity|]. pose proof (pos_bounds l q' N ltac:(lra)). apply qv_mono; try easy; try lra.
    unfold position. assert (1 <= INR (length l)) by (apply (le_INR 1); destruct l; cbn; [easy|lia]). nra.
Qed.
