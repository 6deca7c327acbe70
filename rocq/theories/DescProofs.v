From Coq Require Import Reals List ZArith Arith Lra Lia Psatz Permutation Sorted.
From Verif Require Import WStatsSpec WStatsModel WStatsProofs WStatsPropsLemmas XiProofs MetricSpec MetricModel MetricProofs LagProofs LagPropsLemmas DescSpec DescModel.
Import ListNotations.
Open Scope R_scope.

Lemma insert_sorted a l : StronglySorted Rle l -> StronglySorted Rle (insert_R a l).
Proof.
  induction l as [|b l IH]; intro S; cbn; [repeat constructor|]. inversion S as [|? ? S1 S2]; subst. destruct (Rle_dec a b).
  - constructor; [exact S|]. constructor; [lra|]. eapply Forall_impl; [|exact S2]. intros. cbn in *. lra.
  - constructor; [now apply IH|]. apply (Permutation_Forall (Permutation_sym (insert_perm a l))). constructor; [lra|exact S2].
Qed.
Lemma sort_sorted l : StronglySorted Rle (sort_R l).
Proof. induction l; cbn; [constructor|now apply insert_sorted]. Qed.
Lemma rev_desc l : StronglySorted Rle l -> StronglySorted (fun a b => b <= a) (rev l).
Proof.
  induction 1 as [|a l S IH F]; cbn; [constructor|]. assert (G : forall m, StronglySorted (fun a b => b <= a) m -> Forall (fun b => a <= b) m -> StronglySorted (fun a b => b <= a) (m ++ [a])).
  { induction 1 as [|b m S' IH' F']; intro G; cbn; [repeat constructor|]. inversion G; subst. constructor; [now apply IH'|]. apply Forall_app. split; [exact F'|now constructor]. }
  apply G; [exact IH|]. apply (Permutation_Forall (Permutation_rev l)). exact F.
Qed.
Lemma Rsum_perm l l' : Permutation l l' -> Rsum l = Rsum l'.
Proof. induction 1; cbn; lra. Qed.
Lemma top_best d : StronglySorted (fun a b => b <= a) d -> forall k s, selection k d s -> Rsum s <= Rsum (firstn k d).
Proof.
  induction 1 as [|a d S IH F]; intros k s [L [rest P]].
  - apply Permutation_sym, Permutation_nil in P. destruct s; [cbn; rewrite firstn_nil; cbn; lra|discriminate].
  - destruct k as [|k]; [destruct s; [cbn; lra|discriminate]|]. assert (I : In a (s ++ rest)) by (eapply Permutation_in; [symmetry; exact P|now left]).
    apply in_app_iff in I. destruct I as [I|I].
    + apply in_split in I. destruct I as [s1 [s2 ->]]. assert (P' : Permutation (s1 ++ s2 ++ rest) d).
      { apply (Permutation_cons_inv (a := a)). rewrite <- P. rewrite <- !app_assoc. cbn. apply Permutation_middle. }
      rewrite <- (Rsum_perm (a :: s1 ++ s2) (s1 ++ a :: s2)) by apply Permutation_middle. cbn [Rsum firstn].
      apply Rplus_le_compat_l, IH. split; [rewrite app_length in *; cbn in L; lia|]. exists rest. now rewrite <- app_assoc.
    + destruct s as [|b s]; [discriminate|]. apply in_split in I. destruct I as [r1 [r2 ->]].
      assert (P' : Permutation (b :: s ++ r1 ++ r2) d).
      { apply (Permutation_cons_inv (a := a)). rewrite <- P. cbn. rewrite !app_assoc. rewrite <- Permutation_middle. apply perm_swap. }
      cbn [Rsum firstn]. assert (b <= a) by (rewrite Forall_forall in F; apply F; eapply Permutation_in; [exact P'|now left]).
      apply Rplus_le_compat; [lra|]. apply IH. split; [cbn in L; lia|]. exists (b :: r1 ++ r2). rewrite <- P'. symmetry. apply Permutation_middle.
Qed.
Lemma top_len n l : length (top_k n l) = Nat.min n (length l).
Proof. unfold top_k. now rewrite firstn_length, rev_length, sort_len. Qed.
Lemma top_sel n l : selection (Nat.min n (length l)) l (top_k n l).
Proof.
  split; [apply top_len|]. exists (skipn n (rev (sort_R l))). unfold top_k. rewrite firstn_skipn. rewrite <- Permutation_rev. apply sort_perm.
Qed.
Lemma top_thm x n : (0 < n)%Z -> values x <> [] ->
  let abs := map Rabs (values x) in let k := Nat.min (Z.to_nat n) (length (values x)) in
  exists v, query_mean_n_abs_max x n = Some (Some v) /\ (exists s, selection k abs s /\ v = mean_of s) /\ forall s, selection k abs s -> mean_of s <= v.
Proof.
  intros P N abs k. unfold query_mean_n_abs_max. destruct (Z.leb_spec n 0); [lia|]. rewrite values_lift1. fold abs.
  pose proof (top_sel (Z.to_nat n) abs) as TS. assert (LA : length abs = length (values x)) by apply map_length. rewrite LA in TS. fold k in TS.
  assert (K : (0 < k)%nat) by (subst k; destruct (values x); [easy|cbn; lia]).
  exists (mean_of (top_k (Z.to_nat n) abs)). split.
  { destruct (top_k (Z.to_nat n) abs) eqn:E; [|reflexivity]. destruct TS as [L _]. cbn in L. lia. }
  split; [now exists (top_k (Z.to_nat n) abs)|]. intros s Hs. unfold mean_of. destruct TS as [L _]. rewrite L. destruct Hs as [Ls Q]. rewrite Ls.
  apply Rmult_le_compat_r; [apply Rlt_le, Rinv_0_lt_compat, lt_0_INR, K|].
  assert (E : Rsum (top_k (Z.to_nat n) abs) = Rsum (firstn k (rev (sort_R abs)))).
  { unfold top_k. f_equal. subst k. destruct (Nat.min_spec (Z.to_nat n) (length (values x))) as [[_ ->]|[M ->]]; [easy|].
    rewrite !firstn_all2; [easy| |]; rewrite rev_length, sort_len, LA; lia. }
  rewrite E. apply top_best; [apply rev_desc, sort_sorted|]. split; [exact Ls|]. destruct Q as [rest P']. exists rest. rewrite P'. rewrite <- Permutation_rev. symmetry. apply sort_perm.
Qed.

(** Symmetry ratio. *)
Lemma rmin_fold l : forall a, (In (fold_left Rmin l a) (a :: l)) /\ forall x, In x (a :: l) -> fold_left Rmin l a <= x.
Proof.
  induction l as [|b l IH]; intro a; cbn; [split; [now left|]; intros x [->|[]]; lra|]. destruct (IH (Rmin a b)) as [I G]. split.
  - destruct I as [I|I]; [|now right; right]. rewrite <- I. unfold Rmin. destruct (Rle_dec a b); auto.
  - assert (fold_left Rmin l (Rmin a b) <= Rmin a b) by (apply G; now left). intros x [->|[->|J]]; [eapply Rle_trans; [exact H|apply Rmin_l]|eapply Rle_trans; [exact H|apply Rmin_r]|apply G; now right].
Qed.
Lemma sum_le c l : (forall x, In x l -> x <= c) -> Rsum l <= INR (length l) * c.
Proof.
  induction l as [|a l IH]; intro H; [cbn; lra|]. cbn [Rsum length]. rewrite S_INR. assert (a <= c) by (apply H; now left).
  assert (Rsum l <= INR (length l) * c) by (apply IH; intros; apply H; now right). lra.
Qed.
Lemma sum_ge c l : (forall x, In x l -> c <= x) -> INR (length l) * c <= Rsum l.
Proof.
  induction l as [|a l IH]; intro H; [cbn; lra|]. cbn [Rsum length]. rewrite S_INR. assert (c <= a) by (apply H; now left).
  assert (INR (length l) * c <= Rsum l) by (apply IH; intros; apply H; now right). lra.
Qed.
Lemma sorted_nth l : StronglySorted Rle l -> forall i j, (i <= j < length l)%nat -> nth i l 0 <= nth j l 0.
Proof.
  induction 1 as [|a l S IH F]; intros i j H; [cbn in H; lia|]. destruct i, j; cbn; [lra| |lia|].
  - rewrite Forall_forall in F. apply F. apply nth_In. cbn in H. lia.
  - apply IH. cbn in H. lia.
Qed.
Lemma nth_firstn {A} (l : list A) d : forall k i, (i < k)%nat -> nth i (firstn k l) d = nth i l d.
Proof. induction l as [|a l IH]; intros [|k] [|i] H; cbn; auto; try lia. apply IH. lia. Qed.
Lemma nth_skipn {A} (l : list A) d : forall k i, nth i (skipn k l) d = nth (k + i) l d.
Proof. induction l as [|a l IH]; intros [|k] i; cbn; auto; now destruct i. Qed.
Lemma split_bounds s k lo hi : StronglySorted Rle s -> (forall x, In x s -> lo <= x <= hi) -> (k < length s)%nat ->
  INR k * lo + INR (length s - k) * nth k s 0 <= Rsum s /\
  Rsum s <= INR (S k) * nth k s 0 + INR (length s - S k) * hi.
Proof.
  intros S B L. split.
  - rewrite <- (firstn_skipn k s) at 3. rewrite Rsum_app. apply Rplus_le_compat.
    + replace k with (length (firstn k s)) at 1 by (rewrite firstn_length; lia). apply sum_ge. intros x I. apply B.
      apply (In_nth _ _ 0) in I. destruct I as [i [Li <-]]. rewrite firstn_length in Li. rewrite nth_firstn by lia. apply nth_In. lia.
    + replace (length s - k)%nat with (length (skipn k s)) by (rewrite skipn_length; lia). apply sum_ge. intros x I.
      apply (In_nth _ _ 0) in I. destruct I as [i [Li <-]]. rewrite skipn_length in Li. rewrite nth_skipn. apply sorted_nth; [exact S|lia].
  - rewrite <- (firstn_skipn (1 + k) s) at 1. rewrite Rsum_app. apply Rplus_le_compat.
    + replace (INR (Datatypes.S k)) with (INR (length (firstn (1 + k) s))) by (f_equal; rewrite firstn_length; lia).
      apply sum_le. intros x I. apply (In_nth _ _ 0) in I. destruct I as [i [Li <-]]. rewrite firstn_length in Li. rewrite nth_firstn by lia. apply sorted_nth; [exact S|lia].
    + replace (INR (length s - Datatypes.S k)) with (INR (length (skipn (1 + k) s))) by (f_equal; rewrite skipn_length; lia).
      apply sum_le. intros x I. apply (In_nth _ _ 0) in I. destruct I as [i [Li <-]]. rewrite skipn_length in Li. rewrite nth_skipn. apply B. apply nth_In. lia.
Qed.
Lemma sort_length l : length (sort_R l) = length l.
Proof. apply sort_len. Qed.
Lemma median_mid l lo hi : l <> [] -> (forall x, In x l -> lo <= x <= hi) ->
  lo <= median_of l <= hi /\ Rabs (mean_of l - median_of l) <= (hi - lo) / 2.
Proof.
  intros N B. unfold median_of. set (s := sort_R l). assert (S : StronglySorted Rle s) by apply sort_sorted.
  assert (PS : Permutation s l) by apply sort_perm.
  assert (B' : forall x, In x s -> lo <= x <= hi) by (intros x I; apply B; eapply Permutation_in; [exact PS|exact I]).
  assert (E : mean_of l = mean_of s) by (apply mean_perm; now symmetry). rewrite E.
  assert (L0 : (0 < length s)%nat) by (subst s; rewrite sort_len; destruct l; [easy|cbn; lia]). set (n := length s) in *.
  assert (P : 0 < INR n) by now apply lt_0_INR.
  assert (ME : mean_of s * INR n = Rsum s) by (unfold mean_of; fold n; field; lra).
  assert (Bn : forall i, (i < n)%nat -> lo <= nth i s 0 <= hi) by (intros i Hi; apply B', nth_In; exact Hi).
  assert (LH : lo <= hi) by (destruct (Bn 0%nat L0); lra).
  destruct (Nat.even n) eqn:EV.
  - apply Nat.even_spec in EV. destruct EV as [k EV]. assert (K : (0 < k)%nat) by lia. replace (n / 2)%nat with k by (rewrite EV, Nat.mul_comm, Nat.div_mul; lia).
    set (a := nth (k - 1) s 0). set (b := nth k s 0). assert (ab : a <= b) by (apply sorted_nth; [exact S|fold n; lia]).
    destruct (Bn (k - 1)%nat ltac:(lia)) as [A1 A2]. destruct (Bn k ltac:(lia)) as [B1 B2]. fold a in A1, A2. fold b in B1, B2.
    split; [lra|].
    destruct (split_bounds s (k - 1) lo hi S B' ltac:(fold n; lia)) as [_ U]. destruct (split_bounds s k lo hi S B' ltac:(fold n; lia)) as [D _].
    fold n a in U. fold n b in D. replace (Datatypes.S (k - 1)) with k in U by lia. replace (n - k)%nat with k in U, D by lia.
    assert (KP : 0 < INR k) by now apply lt_0_INR. assert (NK : INR n = 2 * INR k) by (rewrite EV, mult_INR; cbn; lra). rewrite <- ME, NK in U, D.
    assert (mean_of s <= (a + hi) / 2) by (apply Rmult_le_reg_r with (INR k); [exact KP|]; lra).
    assert ((lo + b) / 2 <= mean_of s) by (apply Rmult_le_reg_r with (INR k); [exact KP|]; lra).
    apply Rabs_le. lra.
  - assert (OD : Nat.odd n = true) by (unfold Nat.odd; now rewrite EV). apply Nat.odd_spec in OD. destruct OD as [k OD].
    replace (n / 2)%nat with k by (rewrite OD; replace (2 * k + 1)%nat with (1 + k * 2)%nat by lia; rewrite Nat.div_add by lia; reflexivity).
    set (m := nth k s 0). destruct (Bn k ltac:(lia)) as [B1 B2]. fold m in B1, B2. split; [lra|].
    destruct (split_bounds s k lo hi S B' ltac:(fold n; lia)) as [D U]. fold n m in U, D. replace (n - k)%nat with (k + 1)%nat in D by lia. replace (n - Datatypes.S k)%nat with k in U by lia.
    rewrite S_INR in U. rewrite plus_INR in D. change (INR 1) with 1 in D. assert (NK : INR n = 2 * INR k + 1) by (rewrite OD, plus_INR, mult_INR; cbn; lra).
    assert (KP : 0 <= INR k) by apply pos_INR. rewrite <- ME, NK in U, D.
    assert (mean_of s - m <= (hi - lo) / 2).
    { apply Rmult_le_reg_r with (2 * INR k + 1); [lra|]. nra. }
    assert (- ((hi - lo) / 2) <= mean_of s - m).
    { apply Rmult_le_reg_r with (2 * INR k + 1); [lra|]. nra. }
    apply Rabs_le. lra.
Qed.
Lemma symm_thm x : (exists a b, In a (values x) /\ In b (values x) /\ a < b) ->
  exists v, query_symm_ratio x = Some (Fin v) /\ 0 <= v <= 1 / 2 /\ (v = 0 <-> mean_of (values x) = median_of (values x)).
Proof.
  intros [a [b [Ia [Ib ab]]]]. unfold query_symm_ratio. change (cmean x) with (mean_of (values x)). destruct (values x) as [|c l] eqn:E; [easy|]. unfold rmax, rmin. rewrite <- E in *.
  destruct (rmax_fold l c) as [HI HG]. destruct (rmin_fold l c) as [LI LG]. rewrite <- E in *.
  set (hi := fold_left Rmax l c) in *. set (lo := fold_left Rmin l c) in *.
  assert (D : 0 < hi - lo) by (pose proof (HG _ Ib); pose proof (LG _ Ia); lra).
  destruct (median_mid (values x) lo hi) as [_ M]; [rewrite E; discriminate|intros y I; split; [now apply LG|now apply HG]|].
  rewrite xdiv_fin by lra. eexists. split; [reflexivity|]. pose proof (Rabs_pos (mean_of (values x) - median_of (values x))).
  assert (IV : 0 < / (hi - lo)) by now apply Rinv_0_lt_compat. clearbody hi lo. clear - D M H IV. split.
  - split; [apply Rmult_le_pos; [exact H|apply Rlt_le, IV]|]. unfold Rdiv. apply Rmult_le_reg_r with (hi - lo); [exact D|]. rewrite Rmult_assoc, Rinv_l by (apply Rgt_not_eq; exact D). lra.
  - split; intro Z.
    + apply Rmult_integral in Z. destruct Z as [Z|Z]; [|lra]. destruct (Req_dec (mean_of (values x) - median_of (values x)) 0) as [Q|Q]; [lra|]. apply Rabs_no_R0 in Q. lra.
    + rewrite Z, Rminus_diag_eq, Rabs_R0 by reflexivity. unfold Rdiv. ring.
Qed.

(** Counts. *)
Lemma uniq_once x : query_count_uniques x = occurring_once x.
Proof.
  unfold query_count_uniques, occurring_once. apply Permutation_length. apply NoDup_Permutation.
  - assert (G : forall y, (forall v, In v y -> (count_occ odec y v <= count_occ odec x v)%nat) -> NoDup (filter (fun v => Nat.eqb (count_occ odec x v) 1) y)).
    { induction y as [|v y IH]; intro H; cbn; [constructor|]. assert (IH' : NoDup (filter (fun v => Nat.eqb (count_occ odec x v) 1) y)).
      { apply IH. intros w I. specialize (H w (or_intror I)). cbn in H. destruct (odec v w); lia. }
      destruct (Nat.eqb_spec (count_occ odec x v) 1) as [C|]; [|exact IH']. constructor; [|exact IH']. intro I. apply filter_In in I. destruct I as [I _].
      apply (count_occ_In odec) in I. specialize (H v (or_introl eq_refl)). cbn in H. destruct (odec v v); [lia|easy]. }
    apply G. auto.
  - apply NoDup_filter, NoDup_nodup.
  - intro v. rewrite !filter_In, nodup_In. easy.
Qed.
Lemma uniq_le x : (query_count_uniques x <= distinct x)%nat.
Proof. rewrite uniq_once. unfold occurring_once, distinct. induction (nodup odec x) as [|a l IH]; cbn; [lia|]. destruct (Nat.eqb _ 1); cbn; lia. Qed.
Lemma filter_all {A} f (l : list A) : length (filter f l) = length l -> forall v, In v l -> f v = true.
Proof.
  induction l as [|a l IH]; cbn; intros H v I; [easy|]. assert (length (filter f l) <= length l)%nat by (clear; induction l; cbn; [lia|]; destruct (f a); cbn; lia).
  destruct (f a) eqn:E; cbn in H; [|lia]. destruct I as [->|I]; [exact E|]. apply IH; [lia|exact I].
Qed.
Lemma filter_true {A} f (l : list A) : (forall v, In v l -> f v = true) -> filter f l = l.
Proof. induction l as [|a l IH]; cbn; intro H; [easy|]. rewrite (H a) by now left. f_equal. apply IH. auto. Qed.
Lemma uniq_thm x : query_count_uniques x = occurring_once x /\ (query_count_uniques x <= distinct x)%nat /\ (query_count_uniques x = distinct x <-> NoDup x).
Proof.
  split; [apply uniq_once|]. split; [apply uniq_le|]. rewrite uniq_once. unfold occurring_once, distinct. split; intro H.
  - pose proof (filter_all _ _ H) as F. apply (NoDup_count_occ odec). intro v. destruct (in_dec odec v x) as [I|I].
    + specialize (F v). rewrite nodup_In in F. specialize (F I). apply Nat.eqb_eq in F. lia.
    + apply (count_occ_not_In odec) in I. lia.
  - f_equal. apply filter_true. intros v I. rewrite nodup_In in I. apply Nat.eqb_eq. apply (NoDup_count_occ' odec x); assumption.
Qed.
Lemma range_thm x lower upper : exists idx, NoDup idx /\ length idx = query_range_count x lower upper /\
  forall i, In i idx <-> exists v, nth_error x i = Some (Some v) /\ lower <= v <= upper.
Proof.
  unfold query_range_count. induction x as [|o x [idx [ND [LE IX]]]].
  - exists []. split; [constructor|]. split; [reflexivity|]. intro i. split; [easy|]. intros [v [H _]]. now destruct i.
  - assert (SH : NoDup (map S idx) /\ forall i, In i (map S idx) <-> exists j, i = S j /\ In j idx).
    { split; [apply FinFun.Injective_map_NoDup; [intros ? ? Q; now injection Q|exact ND]|]. intro i. rewrite in_map_iff. split; intros [j [A B]]; exists j; auto. }
    destruct SH as [SN SI].
    assert (SX : forall i, In i (map S idx) <-> exists j, i = S j /\ exists v, nth_error x j = Some (Some v) /\ lower <= v <= upper).
    { intro i. rewrite SI. split; intros [j [A B]]; exists j; (split; [exact A|]); now apply IX. }
    destruct o as [w|].
    + change (values (Some w :: x)) with (w :: values x). cbn [filter].
      assert (CW : (lower <= w <= upper) \/ ~ (lower <= w <= upper)) by (destruct (Rle_dec lower w), (Rle_dec w upper); [left; lra|right; lra..]).
      destruct CW as [CW|CW].
      * exists (0%nat :: map S idx). split; [constructor; [|exact SN]; intro I; apply SI in I; now destruct I as [? [? _]]|]. split.
        { destruct (Rle_dec lower w); [|lra]. destruct (Rle_dec w upper); [|lra]. cbn. now rewrite map_length, LE. }
        intro i. cbn. rewrite SX. split.
        { intros [<-|[j [-> Q]]]; [exists w; auto|exact Q]. }
        { intros [v Q]. destruct i as [|j]; [now left|]. right. exists j. split; [easy|]. now exists v. }
      * exists (map S idx). split; [exact SN|]. split.
        { destruct (Rle_dec lower w); [|now rewrite map_length, LE]. destruct (Rle_dec w upper); [lra|]. now rewrite map_length, LE. }
        intro i. rewrite SX. split.
        { intros [j [-> Q]]; exact Q. }
        { intros [v Q]. destruct i as [|j]; [cbn in Q; destruct Q as [Q1 Q2]; injection Q1 as <-; easy|]. exists j. split; [easy|]. now exists v. }
    + exists (map S idx). split; [exact SN|]. split; [now rewrite map_length, LE|].
      intro i. rewrite SX. split.
      { intros [j [-> Q]]; exact Q. }
      { intros [v Q]. destruct i as [|j]; [now destruct Q|]. exists j. split; [easy|]. now exists v. }
Qed.
