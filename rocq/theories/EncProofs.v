From Coq Require Import Reals List Arith Lra Lia Psatz Permutation.
From Verif Require Import WStatsSpec WStatsModel WStatsProofs MetricSpec MetricProofs LagProofs LagPropsLemmas DescProofs InfoProofs EncSpec EncModel.
Import ListNotations.
Open Scope R_scope.

Section Enc.
Context {A : Type} (dec : forall a b : A, {a = b} + {a <> b}).
Lemma in_drop k t (rows : list (@row A)) : In (k, t) (drop_nulls rows) <-> In (Some k, Some t) rows.
Proof.
  unfold drop_nulls. rewrite in_flat_map. split.
  - intros [[[k'|] [t'|]] [I J]]; cbn in J; try easy. destruct J as [J|[]]. injection J as -> ->. exact I.
  - intro I. exists (Some k, Some t). split; [exact I|]. now left.
Qed.
Lemma occurs_drop k (rows : list (@row A)) : occurs k rows <-> In k (map fst (drop_nulls rows)).
Proof.
  rewrite in_map_iff. split.
  - intros [t I]. exists (k, t). split; [easy|]. now apply in_drop.
  - intros [[k' t] [E I]]. cbn in E. subst k'. exists t. now apply in_drop.
Qed.
Lemma group_targets k (rows : list (@row A)) : map snd (filter (fun r => if dec (fst r) k then true else false) (drop_nulls rows)) = targets_of dec k rows.
Proof.
  induction rows as [|[[k'|] [t|]] rows IH]; [easy| |exact IH..]. change (drop_nulls ((Some k', Some t) :: rows)) with ((k', t) :: drop_nulls rows).
  change (targets_of dec k ((Some k', Some t) :: rows)) with ((if dec k' k then [t] else []) ++ targets_of dec k rows). cbn [filter fst]. destruct (dec k' k); cbn [app map snd]; now rewrite IH.
Qed.
Lemma targets_ne k (rows : list (@row A)) : occurs k rows <-> targets_of dec k rows <> [].
Proof.
  rewrite <- group_targets, occurs_drop, in_map_iff. split.
  - intros [r [E I]] N. apply map_eq_nil in N. assert (J : In r (filter (fun r => if dec (fst r) k then true else false) (drop_nulls rows))) by (apply filter_In; split; [exact I|]; destruct (dec (fst r) k); congruence). rewrite N in J. easy.
  - intro N. destruct (filter (fun r => if dec (fst r) k then true else false) (drop_nulls rows)) as [|r l] eqn:E; [easy|]. assert (J : In r (r :: l)) by now left. rewrite <- E in J. apply filter_In in J. exists r. destruct J as [I J]. destruct (dec (fst r) k); [easy|discriminate].
Qed.
Lemma table_of {B} gb (rows : list (@row A)) (f : list R -> B) : group_ok dec gb -> is_table rows (fun k => f (targets_of dec k rows)) (map (fun g => (fst g, f (snd g))) (gb (drop_nulls rows))).
Proof.
  intro G. destruct (G (drop_nulls rows)) as [ND [K V]]. split.
  - rewrite map_map. cbn. exact ND.
  - intros k v. rewrite in_map_iff. split.
    + intros [[k' vs] [E I]]. cbn in E. injection E as -> <-. split.
      * apply occurs_drop, K. apply in_map_iff. now exists (k, vs).
      * now rewrite (V k vs I), group_targets.
    + intros [O ->]. apply occurs_drop, K, in_map_iff in O. destruct O as [[k' vs] [E I]]. cbn in E. subst k'. exists (k, vs). split; [|exact I]. cbn. now rewrite (V k vs I), group_targets.
Qed.
Lemma in_targets k t (rows : list (@row A)) : In t (targets_of dec k rows) <-> In (Some k, Some t) rows.
Proof.
  unfold targets_of. rewrite in_flat_map. split.
  - intros [[[k'|] [t'|]] [I J]]; cbn in J; try easy. destruct (dec k' k) as [->|]; [|easy]. destruct J as [->|[]]. exact I.
  - intro I. exists (Some k, Some t). split; [exact I|]. destruct (dec k k); [now left|easy].
Qed.
Lemma in_all_targets k t (rows : list (@row A)) : In (Some k, Some t) rows -> In t (targets rows).
Proof. intro I. unfold targets. apply in_flat_map. exists (Some k, Some t). split; [exact I|now left]. Qed.
End Enc.
Lemma mean_range l a b : l <> [] -> (forall x, In x l -> a <= x <= b) -> a <= mean_of l <= b.
Proof.
  intros N H. pose proof (inr_pos l N) as P. unfold mean_of.
  assert (S : INR (length l) * a <= Rsum l <= INR (length l) * b).
  { clear N P. induction l as [|x l IH]; [cbn; lra|]. cbn [length Rsum]. rewrite S_INR. specialize (IH (fun y I => H y (or_intror I))). specialize (H x (or_introl eq_refl)). nra. }
  split; apply Rmult_le_reg_r with (INR (length l)); try easy; unfold Rdiv; rewrite Rmult_assoc, Rinv_l; lra.
Qed.
Lemma weight_range n m s : 0 < weight n m s < 1.
Proof.
  unfold weight. pose proof (exp_pos (- ((INR n - m) / s))) as E. set (e := exp _) in *. split.
  - apply Rdiv_lt_0_compat; lra.
  - apply Rmult_lt_reg_r with (1 + e); [lra|]. unfold Rdiv. rewrite Rmult_assoc, Rinv_l; lra.
Qed.
Lemma weight_mono n n' m s : 0 < s -> (n < n')%nat -> weight n m s < weight n' m s.
Proof.
  intros S L. apply lt_INR in L. unfold weight. assert (E : exp (- ((INR n' - m) / s)) < exp (- ((INR n - m) / s))).
  { apply exp_increasing. apply Ropp_lt_contravar. unfold Rdiv. apply Rmult_lt_compat_r; [now apply Rinv_0_lt_compat|lra]. }
  unfold Rdiv. rewrite !Rmult_1_l. apply Rinv_lt_contravar; [|lra]. pose proof (exp_pos (- ((INR n' - m) / s))). pose proof (exp_pos (- ((INR n - m) / s))). nra.
Qed.
Lemma weight_half n m s : 0 < s -> (1 / 2 < weight n m s <-> m < INR n) /\ (weight n m s = 1 / 2 <-> m = INR n).
Proof.
  intro S. unfold weight. set (y := (INR n - m) / s). assert (Y : (0 < y <-> m < INR n) /\ (y = 0 <-> m = INR n)).
  { assert (E : y * s = INR n - m) by (unfold y; field; lra). split; split; intro H; [nra| |rewrite H in E; lra|]; [apply Rmult_lt_reg_r with s; lra|apply Rmult_eq_reg_r with s; lra]. }
  pose proof (exp_pos (- y)) as P. assert (EX : (exp (- y) < 1 <-> 0 < y) /\ (exp (- y) = 1 <-> y = 0)).
  { rewrite <- exp_0 at 1 2. repeat split; intro H.
    - apply exp_lt_inv in H. lra.
    - apply exp_increasing. lra.
    - apply exp_inv in H. lra.
    - rewrite H. f_equal. lra. }
  destruct EX as [E1 E2]. destruct Y as [Y1 Y2]. assert (W : 1 / (1 + exp (- y)) * (1 + exp (- y)) = 1) by (field; lra). set (v := 1 / (1 + exp (- y))) in *. split.
  - rewrite <- Y1, <- E1. split; intro H; [apply Rnot_le_lt; intro; nra|apply Rnot_le_lt; intro; nra].
  - rewrite <- Y2, <- E2. split; intro H; [rewrite H in W; lra|rewrite H in W; lra].
Qed.

Section Tables.
Context {A : Type} (dec : forall a b : A, {a = b} + {a <> b}).
Lemma encode_thm gb (rows : list (@row A)) m s : group_ok dec gb -> targets rows <> [] -> s <> 0 ->
  exists out, target_encode gb rows m s = Some out /\
    is_table rows (fun k => let w := weight (length (targets_of dec k rows)) m s in Fin (w * mean_of (targets_of dec k rows) + (1 - w) * mean_of (targets rows))) out.
Proof.
  intros G N S. unfold target_encode. destruct (targets rows) as [|t0 ts] eqn:E; [easy|]. eexists. split; [reflexivity|].
  pose proof (table_of dec gb rows (fun vs => blend (alpha (length vs) m s) (mean_of vs) (mean_of (t0 :: ts))) G) as [ND H].
  split; [exact ND|]. intros k v. rewrite (H k v). apply and_iff_compat_l. unfold alpha. destruct (Req_EM_T s 0); [easy|]. unfold blend, weight.
  now replace (- (INR (length (targets_of dec k rows)) - m) / s) with (- ((INR (length (targets_of dec k rows)) - m) / s)) by (field; exact S).
Qed.
Lemma encode_range gb (rows : list (@row A)) m s a b out k v : group_ok dec gb -> s <> 0 -> (forall t, In t (targets rows) -> a <= t <= b) ->
  target_encode gb rows m s = Some out -> In (k, v) out -> exists r, v = Fin r /\ a <= r <= b /\
    Rmin (mean_of (targets_of dec k rows)) (mean_of (targets rows)) <= r <= Rmax (mean_of (targets_of dec k rows)) (mean_of (targets rows)).
Proof.
  intros G S H E I. assert (N : targets rows <> []) by (intro N; unfold target_encode in E; now rewrite N in E). destruct (encode_thm gb rows m s G N S) as [out' [E' [_ T]]]. rewrite E in E'. injection E' as <-.
  apply T in I. destruct I as [O ->]. cbn zeta. eexists. split; [reflexivity|]. pose proof (weight_range (length (targets_of dec k rows)) m s) as W. set (w := weight _ _ _) in *.
  pose proof (mean_range _ a b N H) as M1. assert (M2 : a <= mean_of (targets_of dec k rows) <= b).
  { apply mean_range; [now apply (targets_ne dec)|]. intros x I. apply H. apply in_targets in I. exact (in_all_targets k x rows I). }
  unfold Rmin, Rmax. destruct (Rle_dec (mean_of (targets_of dec k rows)) (mean_of (targets rows))); repeat split; nra.
Qed.
Lemma encode_shrink gb (rows : list (@row A)) m s out k v : group_ok dec gb -> s <> 0 ->
  target_encode gb rows m s = Some out -> In (k, v) out -> exists r, v = Fin r /\
    r - mean_of (targets rows) = weight (length (targets_of dec k rows)) m s * (mean_of (targets_of dec k rows) - mean_of (targets rows)).
Proof.
  intros G S E I. assert (N : targets rows <> []) by (intro N; unfold target_encode in E; now rewrite N in E). destruct (encode_thm gb rows m s G N S) as [out' [E' [_ T]]]. rewrite E in E'. injection E' as <-.
  apply T in I. destruct I as [O ->]. cbn zeta. eexists. split; [reflexivity|]. ring.
Qed.
Lemma perm_flat {X Y} (f : X -> list Y) l l' : Permutation l l' -> Permutation (flat_map f l) (flat_map f l').
Proof.
  induction 1; cbn; [constructor|now apply Permutation_app_head| |etransitivity; eassumption]. rewrite !app_assoc. apply Permutation_app_tail, Permutation_app_comm.
Qed.
Lemma encode_order gb gb' (rows rows' : list (@row A)) m s : group_ok dec gb -> group_ok dec gb' -> Permutation rows rows' -> s <> 0 -> targets rows <> [] ->
  exists out out', target_encode gb rows m s = Some out /\ target_encode gb' rows' m s = Some out' /\ Permutation out out'.
Proof.
  intros G G' P S N. assert (PT : Permutation (targets rows) (targets rows')) by (apply perm_flat, P).
  assert (N' : targets rows' <> []) by (intro E; rewrite E in PT; symmetry in PT; apply Permutation_nil in PT; easy).
  destruct (encode_thm gb rows m s G N S) as [o [E [ND T]]]. destruct (encode_thm gb' rows' m s G' N' S) as [o' [E' [ND' T']]]. exists o, o'. repeat split; try assumption.
  apply NoDup_Permutation; [exact (NoDup_map_inv _ _ ND)|exact (NoDup_map_inv _ _ ND')|]. intros [k v]. rewrite T, T'. cbn zeta.
  assert (PK : Permutation (targets_of dec k rows) (targets_of dec k rows')) by (apply perm_flat, P). rewrite (Permutation_length PK), (mean_perm _ _ PK), (mean_perm _ _ PT). apply and_iff_compat_r. unfold occurs. split; intros [t I]; exists t; [now apply (Permutation_in _ P)|now apply (Permutation_in _ (Permutation_sym P))].
Qed.
Lemma encode_zero gb (rows : list (@row A)) m : group_ok dec gb -> targets rows <> [] ->
  exists out, target_encode gb rows m 0 = Some out /\ forall k, occurs k rows -> INR (length (targets_of dec k rows)) = m -> In (k, NaN) out.
Proof.
  intros G N. unfold target_encode. destruct (targets rows) as [|t0 ts] eqn:E; [easy|]. eexists. split; [reflexivity|]. intros k O L.
  pose proof (table_of dec gb rows (fun vs => blend (alpha (length vs) m 0) (mean_of vs) (mean_of (t0 :: ts))) G) as [ND H]. apply H. split; [exact O|]. unfold alpha. destruct (Req_EM_T 0 0); [|easy].
  rewrite L. destruct (Rlt_dec 0 (m - m)); [lra|]. destruct (Rlt_dec (m - m) 0); [lra|]. reflexivity.
Qed.
Lemma encode_nulls gb : group_ok dec gb -> exists rows : list (@row A), In (None, Some 1) rows /\ forall m s, target_encode gb rows m s = Some [].
Proof.
  intro G. exists [(None, Some 1)]. split; [now left|]. intros m s. unfold target_encode. cbn [targets flat_map snd app drop_nulls]. destruct (G []) as [_ [K _]].
  destruct (gb []) as [|g l]; [easy|]. destruct (K (fst g)) as [K1 _]. destruct (K1 (or_introl eq_refl)).
Qed.
Lemma encode_panics (gb : list (A * R) -> list (A * list R)) rows m s : (forall r, In r rows -> snd r = None) -> target_encode gb rows m s = None.
Proof.
  intro H. unfold target_encode. assert (E : targets rows = []); [|now rewrite E]. induction rows as [|r rows IH]; [easy|]. cbn. rewrite (H r) by now left. apply IH. auto with datatypes.
Qed.

(** Weight of evidence. *)
Lemma sum_keys (f : R -> R) (ks : list A) (rows : list (A * R)) : NoDup ks -> (forall r, In r rows -> In (fst r) ks) ->
  Rsum (map (fun k => Rsum (map f (map snd (filter (fun r => if dec (fst r) k then true else false) rows)))) ks) = Rsum (map f (map snd rows)).
Proof.
  intros ND. induction rows as [|[a c] rows IH]; intro H.
  - cbn. clear. induction ks as [|k ks IH]; cbn; [easy|]. rewrite IH. ring.
  - cbn [map snd Rsum]. rewrite <- (IH (fun r I => H r (or_intror I))). specialize (H (a, c) (or_introl eq_refl)). cbn [fst] in H. clear IH. induction ks as [|k ks IH]; [easy|]. inversion_clear ND as [|? ? NI ND']. cbn [map Rsum filter fst].
    destruct (dec a k) as [->|NE].
    + cbn [map snd Rsum]. assert (E : map (fun k0 => Rsum (map f (map snd (if if dec k k0 then true else false then (k, c) :: filter (fun r => if dec (fst r) k0 then true else false) rows else filter (fun r => if dec (fst r) k0 then true else false) rows)))) ks = map (fun k0 => Rsum (map f (map snd (filter (fun r => if dec (fst r) k0 then true else false) rows)))) ks).
      { apply map_ext_in. intros k0 I. destruct (dec k k0) as [->|]; easy. }
      rewrite E. ring.
    + destruct H as [->|H]; [easy|]. specialize (IH ND' H). cbn [filter fst] in IH. rewrite IH. ring.
Qed.
Definition good_of (rows : list (@row A)) k := (Rsum (targets_of dec k rows) + 1) / (Rsum (map snd (drop_nulls rows)) + 2).
Definition bad_of (rows : list (@row A)) k := (INR (length (targets_of dec k rows)) - Rsum (targets_of dec k rows) + 1) / (INR (length (drop_nulls rows)) - Rsum (map snd (drop_nulls rows)) + 2).
Lemma rsum_one {X} (l : list X) : Rsum (map (fun _ => 1) l) = INR (length l).
Proof. induction l as [|x l IH]; [easy|]. cbn [map Rsum length]. rewrite S_INR, IH. ring. Qed.
Lemma frame_table gb (rows : list (@row A)) : group_ok dec gb -> is_table rows (fun k => (good_of rows k, bad_of rows k, ln (good_of rows k / bad_of rows k))) (woe_frame gb rows).
Proof.
  intro G. destruct (G (drop_nulls rows)) as [ND [K V]]. unfold woe_frame. rewrite !map_map. cbn [fst snd].
  assert (S1 : Rsum (map (fun x => Rsum (snd x)) (gb (drop_nulls rows))) = Rsum (map snd (drop_nulls rows))).
  { rewrite <- (map_id (map snd (drop_nulls rows))). rewrite <- (sum_keys (fun x => x) (map fst (gb (drop_nulls rows))) (drop_nulls rows) ND) by (intros r I; apply K; now apply in_map). rewrite map_map. f_equal. apply map_ext_in. intros [k vs] I. cbn [fst snd]. now rewrite (V k vs I), map_id. }
  assert (S2 : Rsum (map (fun x => INR (length (snd x))) (gb (drop_nulls rows))) = INR (length (drop_nulls rows))).
  { rewrite <- (map_length snd (drop_nulls rows)), <- rsum_one. rewrite <- (sum_keys (fun _ => 1) (map fst (gb (drop_nulls rows))) (drop_nulls rows) ND) by (intros r I; apply K; now apply in_map). rewrite map_map. f_equal. apply map_ext_in. intros [k vs] I. cbn [fst snd]. now rewrite (V k vs I), rsum_one. }
  rewrite S1, S2. exact (table_of dec gb rows (fun vs => let g := (Rsum vs + 1) / (Rsum (map snd (drop_nulls rows)) + 2) in let b := (INR (length vs) - Rsum vs + 1) / (INR (length (drop_nulls rows)) - Rsum (map snd (drop_nulls rows)) + 2) in (g, b, ln (g / b))) G).
Qed.
Lemma table_map {B C} (rows : list (@row A)) (f : A -> B) (g : B -> C) out : is_table rows f out -> is_table rows (fun k => g (f k)) (map (fun r => (fst r, g (snd r))) out).
Proof.
  intros [ND H]. split; [rewrite map_map; exact ND|]. intros k v. rewrite in_map_iff. split.
  - intros [[k' b] [E I]]. cbn in E. injection E as -> <-. apply H in I. destruct I as [O ->]. easy.
  - intros [O ->]. exists (k, f k). split; [easy|]. now apply H.
Qed.
Lemma table_ext {B} (rows : list (@row A)) (f g : A -> B) out : (forall k, occurs k rows -> f k = g k) -> is_table rows f out -> is_table rows g out.
Proof. intros E [ND H]. split; [exact ND|]. intros k v. rewrite H. split; intros [O ->]; (split; [exact O|]); [now apply E|symmetry; now apply E]. Qed.
Lemma count01 k (rows : list (@row A)) : zero_one rows -> Rsum (targets_of dec k rows) = INR (hits_of dec 1 k rows) /\ INR (length (targets_of dec k rows)) = INR (hits_of dec 1 k rows) + INR (hits_of dec 0 k rows).
Proof.
  unfold hits_of. induction rows as [|[[k'|] [t|]] rows IH]; intro Z; [cbn; lra| |apply IH; intros k0 t0 I0; apply (Z k0 t0); now right..]. destruct (IH (fun k0 t0 I => Z k0 t0 (or_intror I))) as [I1 I2]. specialize (Z k' t (or_introl eq_refl)).
  change (targets_of dec k ((Some k', Some t) :: rows)) with ((if dec k' k then [t] else []) ++ targets_of dec k rows). cbn [filter]. destruct (dec k' k); [|exact (conj I1 I2)]. cbn [app Rsum length]. rewrite S_INR, I1, I2.
  destruct Z as [->| ->]; [destruct (Req_EM_T 0 1); [lra|]; destruct (Req_EM_T 0 0); [|lra]|destruct (Req_EM_T 1 1); [|lra]; destruct (Req_EM_T 1 0); [lra|]]; cbn [length]; rewrite S_INR; lra.
Qed.
Lemma count01_all (rows : list (@row A)) : zero_one rows -> Rsum (map snd (drop_nulls rows)) = INR (hits 1 rows) /\ INR (length (drop_nulls rows)) = INR (hits 1 rows) + INR (hits 0 rows).
Proof.
  unfold hits. induction rows as [|[[k'|] [t|]] rows IH]; intro Z; [cbn; lra| |apply IH; intros k0 t0 I0; apply (Z k0 t0); now right..]. destruct (IH (fun k0 t0 I => Z k0 t0 (or_intror I))) as [I1 I2]. specialize (Z k' t (or_introl eq_refl)).
  change (drop_nulls ((Some k', Some t) :: rows)) with ((k', t) :: drop_nulls rows). cbn [filter map snd Rsum length]. rewrite S_INR, I1, I2.
  destruct Z as [->| ->]; [destruct (Req_EM_T 0 1); [lra|]; destruct (Req_EM_T 0 0); [|lra]|destruct (Req_EM_T 1 1); [|lra]; destruct (Req_EM_T 1 0); [lra|]]; cbn [length]; rewrite S_INR; lra.
Qed.
Lemma shares k (rows : list (@row A)) : zero_one rows -> good_of rows k = share (hits_of dec 1 k rows) (hits 1 rows) /\ bad_of rows k = share (hits_of dec 0 k rows) (hits 0 rows).
Proof.
  intro Z. destruct (count01 k rows Z) as [H1 H2]. destruct (count01_all rows Z) as [H3 H4]. unfold good_of, bad_of, share. rewrite H1, H2, H3, H4. split; [easy|]. f_equal; ring.
Qed.
Lemma share_pos n m : 0 < share n m.
Proof. unfold share. pose proof (pos_INR n). pose proof (pos_INR m). apply Rdiv_lt_0_compat; lra. Qed.
Lemma woe_thm gb (rows : list (@row A)) : group_ok dec gb -> zero_one rows ->
  is_table rows (fun k => ln (share (hits_of dec 1 k rows) (hits 1 rows) / share (hits_of dec 0 k rows) (hits 0 rows))) (woe_discrete gb rows).
Proof.
  intros G Z. apply (table_ext rows (fun k => ln (good_of rows k / bad_of rows k))).
  - intros k _. destruct (shares k rows Z) as [-> ->]. easy.
  - exact (table_map rows _ (fun x => snd x) _ (frame_table gb rows G)).
Qed.
Definition iv_of (rows : list (@row A)) k := let g := share (hits_of dec 1 k rows) (hits 1 rows) in let b := share (hits_of dec 0 k rows) (hits 0 rows) in (g - b) * ln (g / b).
Lemma iv_thm gb (rows : list (@row A)) : group_ok dec gb -> zero_one rows -> is_table rows (iv_of rows) (info_value_discrete gb rows).
Proof.
  intros G Z. apply (table_ext rows (fun k => (good_of rows k - bad_of rows k) * ln (good_of rows k / bad_of rows k))).
  - intros k _. unfold iv_of. destruct (shares k rows Z) as [-> ->]. easy.
  - exact (table_map rows _ (fun x => (fst (fst x) - snd (fst x)) * snd x) _ (frame_table gb rows G)).
Qed.
Lemma term_sign g b : 0 < g -> 0 < b -> 0 <= (g - b) * ln (g / b) /\ ((g - b) * ln (g / b) = 0 <-> g = b).
Proof.
  intros G B. assert (L : ln (g / b) = ln g - ln b) by (unfold Rdiv; rewrite ln_mult, ln_Rinv; [ring|easy|easy|now apply Rinv_0_lt_compat]). rewrite L. destruct (Rtotal_order g b) as [H|[->|H]].
  - pose proof (ln_increasing g b G H). split; [nra|]. split; intro; [nra|lra].
  - split; [lra|]. split; intro; [easy|ring].
  - pose proof (ln_increasing b g B H). split; [nra|]. split; intro; [nra|lra].
Qed.
Lemma iv_sum gb (rows : list (@row A)) : group_ok dec gb -> zero_one rows -> 0 <= info_value_discrete_sum gb rows /\
  (forall k v, In (k, v) (info_value_discrete gb rows) -> 0 <= v <= info_value_discrete_sum gb rows) /\
  (info_value_discrete_sum gb rows = 0 <-> forall k, occurs k rows -> share (hits_of dec 1 k rows) (hits 1 rows) = share (hits_of dec 0 k rows) (hits 0 rows)).
Proof.
  intros G Z. destruct (iv_thm gb rows G Z) as [ND H]. unfold info_value_discrete_sum. set (out := info_value_discrete gb rows) in *.
  assert (P : forall k v, In (k, v) out -> 0 <= v /\ (v = 0 <-> share (hits_of dec 1 k rows) (hits 1 rows) = share (hits_of dec 0 k rows) (hits 0 rows))).
  { intros k v I. apply H in I. destruct I as [_ ->]. apply term_sign; apply share_pos. }
  assert (S : 0 <= Rsum (map snd out) /\ (forall k v, In (k, v) out -> v <= Rsum (map snd out)) /\ (Rsum (map snd out) = 0 <-> forall k v, In (k, v) out -> v = 0)).
  { assert (Q : forall k v, In (k, v) out -> 0 <= v) by (intros; now apply (P k v)). clear - Q. induction out as [|[k v] l IH]; [cbn; repeat split; try easy; lra|]. cbn [map snd Rsum]. specialize (Q k v (or_introl eq_refl)) as Qv. destruct (IH (fun a b I => Q a b (or_intror I))) as [I1 [I2 I3]]. split; [lra|]. split.
    - intros a b [E|I]; [injection E as -> ->; lra|]. specialize (I2 a b I). lra.
    - split; intro E.
      + intros a b [F|I]; [injection F as -> ->; lra|]. assert (Z0 : Rsum (map snd l) = 0) by lra. exact (proj1 I3 Z0 a b I).
      + rewrite (E k v (or_introl eq_refl)). replace (Rsum (map snd l)) with 0; [ring|]. symmetry. apply I3. intros a b I. apply (E a b). now right. }
  destruct S as [S1 [S2 S3]]. split; [exact S1|]. split; [intros k v I; split; [now apply (P k v)|now apply (S2 k v)]|]. rewrite S3. split.
  - intros E k O. assert (I : In (k, iv_of rows k) out) by (apply H; easy). apply (P k _ I). now apply (E k).
  - intros E k v I. apply (P k v I). apply E. now apply H in I.
Qed.
Definition flip (r : @row A) : @row A := (fst r, option_map (fun t => 1 - t) (snd r)).
Lemma flip_hits k (rows : list (@row A)) : zero_one rows -> zero_one (map flip rows) /\ hits_of dec 1 k (map flip rows) = hits_of dec 0 k rows /\ hits_of dec 0 k (map flip rows) = hits_of dec 1 k rows /\
  hits 1 (map flip rows) = hits 0 rows /\ hits 0 (map flip rows) = hits 1 rows.
Proof.
  intro Z. split.
  { intros k0 t I. apply in_map_iff in I. destruct I as [[[a|] [b|]] [E I]]; try easy. cbn in E. injection E as -> <-. destruct (Z _ _ I); subst; lra. }
  unfold hits, hits_of. induction rows as [|[[k'|] [t|]] rows IH]; [easy| |apply IH; intros k0 t0 I0; apply (Z k0 t0); now right..]. destruct (IH (fun k0 t0 I => Z k0 t0 (or_intror I))) as [I1 [I2 [I3 I4]]]. specialize (Z k' t (or_introl eq_refl)).
  cbn [map flip fst snd option_map filter]. destruct Z as [->| ->];
  repeat (match goal with |- context [Req_EM_T ?a ?b] => destruct (Req_EM_T a b); try lra end); destruct (dec k' k); cbn [length]; rewrite ?I1, ?I2, ?I3, ?I4; easy.
Qed.
Lemma occurs_flip k (rows : list (@row A)) : occurs k (map flip rows) <-> occurs k rows.
Proof.
  unfold occurs. split.
  - intros [t I]. apply in_map_iff in I. destruct I as [[[a|] [b|]] [E I]]; try easy. cbn in E. injection E as -> <-. now exists b.
  - intros [t I]. exists (1 - t). apply in_map_iff. now exists (Some k, Some t).
Qed.
Lemma swap_thm gb gb' (rows : list (@row A)) : group_ok dec gb -> group_ok dec gb' -> zero_one rows -> 
  (forall k v, In (k, v) (woe_discrete gb rows) <-> In (k, - v) (woe_discrete gb' (map flip rows))) /\
  (forall k v, In (k, v) (info_value_discrete gb rows) <-> In (k, v) (info_value_discrete gb' (map flip rows))).
Proof.
  intros G G' Z. assert (LN : forall g b, 0 < g -> 0 < b -> ln (b / g) = - ln (g / b)).
  { intros g b Pg Pb. unfold Rdiv. rewrite !ln_mult, !ln_Rinv; try easy; try (now apply Rinv_0_lt_compat). ring. }
  split; intros k v; destruct (flip_hits k rows Z) as [Z' [H1 [H2 [H3 H4]]]].
  - destruct (woe_thm gb rows G Z) as [_ T]. destruct (woe_thm gb' (map flip rows) G' Z') as [_ T']. rewrite T, T', occurs_flip, H1, H2, H3, H4. apply and_iff_compat_l. rewrite (LN (share (hits_of dec 1 k rows) (hits 1 rows))) by apply share_pos. split; intro; lra.
  - destruct (iv_thm gb rows G Z) as [_ T]. destruct (iv_thm gb' (map flip rows) G' Z') as [_ T']. rewrite T, T', occurs_flip. unfold iv_of. rewrite H1, H2, H3, H4. apply and_iff_compat_l. cbn zeta. rewrite (LN (share (hits_of dec 1 k rows) (hits 1 rows))) by apply share_pos. split; intro; subst; lra.
Qed.
(** Binning. *)
Lemma finite_len x : (length (finite_values x) <= length x)%nat /\ (length (finite_values x) = length x <-> forall v, In v x -> exists r, v = Some (Fin r)).
Proof.
  induction x as [|v x IH]; [cbn; split; [lia|]; split; easy|]. destruct IH as [I1 I2].
  assert (D : (exists r, v = Some (Fin r)) \/ finite_values (v :: x) = finite_values x /\ forall r, v <> Some (Fin r)).
  { destruct v as [[r| | |]|]; [left; now exists r|right; split; [reflexivity|intros; discriminate]..]. }
  destruct D as [[r ->]|[E N]].
  - change (finite_values (Some (Fin r) :: x)) with (r :: finite_values x). cbn [length]. split; [lia|]. split.
    + intros L w [<-|I]; [now exists r|]. apply I2; [lia|exact I].
    + intro H. f_equal. apply I2. intros w I. apply H. now right.
  - rewrite E. cbn [length]. split; [lia|]. split; [lia|]. intro H. destruct (H v (or_introl eq_refl)) as [r ->]. now destruct (N r).
Qed.
Lemma finite_fin xs : finite_values (map (fun r => Some (Fin r)) xs) = xs.
Proof. induction xs as [|a xs IH]; [easy|]. change (a :: finite_values (map (fun r => Some (Fin r)) xs) = a :: xs). now rewrite IH. Qed.
Lemma woe_finite gb (qcut : list R -> list A) (xs : list R) target : (forall l, length (qcut l) = length l) -> length target = length xs ->
  woe gb qcut (map (fun r => Some (Fin r)) xs) target = Some (woe_discrete gb (combine (map Some (qcut xs)) target)).
Proof.
  intros Q L. unfold woe, binned. pose proof (finite_fin xs) as F.
  now rewrite F, Q, L, Nat.eqb_refl.
Qed.
Lemma woe_raises gb (qcut : list R -> list A) x target v : (forall l, length (qcut l) = length l) -> length target = length x -> In v x -> (forall r, v <> Some (Fin r)) ->
  woe gb qcut x target = None /\ info_value gb qcut x target = None.
Proof.
  intros Q L I N. assert (B : binned qcut x target = None).
  { unfold binned. rewrite Q, L. destruct (Nat.eqb_spec (length (finite_values x)) (length x)) as [E|]; [|easy]. destruct (finite_len x) as [_ F]. destruct (proj1 F E v I) as [r ->]. now destruct (N r). }
  unfold woe, info_value. now rewrite B.
Qed.
End Tables.

(** An oracle. *)
Definition group_ref {A} (dec : forall a b : A, {a = b} + {a <> b}) (rows : list (A * R)) : list (A * list R) :=
  map (fun k => (k, map snd (filter (fun r => if dec (fst r) k then true else false) rows))) (nodup dec (map fst rows)).
Lemma group_ref_ok {A} (dec : forall a b : A, {a = b} + {a <> b}) : group_ok dec (group_ref dec).
Proof.
  intro rows. unfold group_ref. rewrite map_map. cbn [fst]. rewrite map_id. split; [apply NoDup_nodup|]. split; [intro k; apply nodup_In|]. intros k vs I. apply in_map_iff in I. destruct I as [k' [E _]]. injection E as -> <-. reflexivity.
Qed.
Definition indep_rows : list (@row bool) := map (fun p => (Some (fst p), Some (snd p))) [(true, 1); (true, 0); (true, 0); (false, 1); (false, 1); (false, 0); (false, 0); (false, 0); (false, 0)].
Lemma indep_thm gb : group_ok Bool.bool_dec gb -> zero_one indep_rows /\ (forall k, INR (hits_of Bool.bool_dec 0 k indep_rows) = 2 * INR (hits_of Bool.bool_dec 1 k indep_rows)) /\ 0 < info_value_discrete_sum gb indep_rows.
Proof.
  intro G. assert (Z : zero_one indep_rows) by (intros k t I; cbn in I; repeat destruct I as [I|I]; try easy; injection I as _ <-; lra).
  assert (H1 : forall k, hits_of Bool.bool_dec 1 k indep_rows = if k then 1%nat else 2%nat).
  { intro k. unfold hits_of, indep_rows. cbn [map fst snd filter]. destruct (Req_EM_T 1 1); [|lra]. destruct (Req_EM_T 0 1); [lra|]. destruct k; reflexivity. }
  assert (H0 : forall k, hits_of Bool.bool_dec 0 k indep_rows = if k then 2%nat else 4%nat).
  { intro k. unfold hits_of, indep_rows. cbn [map fst snd filter]. destruct (Req_EM_T 1 0); [lra|]. destruct (Req_EM_T 0 0); [|lra]. destruct k; reflexivity. }
  assert (T : hits 1 indep_rows = 3%nat /\ hits 0 indep_rows = 6%nat).
  { unfold hits, indep_rows. cbn [map fst snd filter]. destruct (Req_EM_T 1 1); [|lra]. destruct (Req_EM_T 0 1); [lra|]. destruct (Req_EM_T 1 0); [lra|]. destruct (Req_EM_T 0 0); [|lra]. easy. }
  split; [exact Z|]. split.
  - intro k. rewrite H0, H1. destruct k; cbn; ring.
  - destruct (iv_sum Bool.bool_dec gb indep_rows G Z) as [P [_ E]]. destruct P as [P|P]; [exact P|]. exfalso. symmetry in P. apply (proj1 E) with (k := true) in P; [|exists 1; now left].
    rewrite H0, H1 in P. destruct T as [T1 T2]. rewrite T1, T2 in P. revert P. unfold share. cbn. lra.
Qed.
Lemma enc_case : let rows : list (@row bool) := [(Some true, Some 1); (Some false, Some 0); (None, Some 1); (Some true, None); (Some true, Some 0)] in
  group_ok Bool.bool_dec (group_ref Bool.bool_dec) /\ targets rows <> [] /\ zero_one rows /\ occurs true rows /\ targets_of Bool.bool_dec true rows = [1; 0].
Proof.
  intro rows. split; [apply group_ref_ok|]. split; [easy|]. split; [|split; [exists 1; now left|reflexivity]].
  intros k t I. cbn in I. repeat destruct I as [I|I]; try easy; injection I as _ <-; lra.
Qed.
