(** Ties, bounds and the frame. *)
From Coq Require Import String.
From Coq Require Import Reals List Bool ZArith Arith Lra Lia Psatz Permutation Sorted.
From Verif Require Import WStatsSpec WStatsProofs NdcgSpec NdcgModel NdcgProofs NdcgTies.
Import ListNotations.
Open Scope R_scope.

Lemma Rsum_perm l m : Permutation l m -> Rsum l = Rsum m.
Proof. induction 1; cbn; lra. Qed.
Lemma mean_perm l m : Permutation l m -> mean_of l = mean_of m.
Proof. intro P. unfold mean_of. now rewrite (Rsum_perm _ _ P), (Permutation_length P). Qed.
Lemma tied_perm top items items' scores scores' : Permutation items items' -> Permutation scores scores' ->
  tied_dcg top items scores = tied_dcg top items' scores'.
Proof.
  intros P Q. unfold tied_dcg. rewrite (Rsum_perm _ _ (Permutation_map _ Q)). f_equal. apply map_ext. intro s.
  unfold at_score, above. pose proof (filter_perm (fun x : R * R => if Req_EM_T (snd x) s then true else false) _ _ P) as P1.
  pose proof (filter_perm (fun x : R * R => if Rlt_dec s (snd x) then true else false) _ _ P) as P2.
  now rewrite (mean_perm _ _ (Permutation_map fst P1)), (Permutation_length P1), (Permutation_length P2).
Qed.
Lemma filter_map' {A B} (f : B -> bool) (g : A -> B) l : filter f (map g l) = map g (filter (fun x => f (g x)) l).
Proof. induction l as [|a l IH]; cbn; [easy|]. destruct (f (g a)); cbn; now rewrite IH. Qed.

Section T.
Context {row : Type} (rel score : row -> R) (k : option Z).
Notation top := (topk k).
Definition item (r : row) : R * R := (rel r, score r).

Lemma run_terms_map pre post : runs_ok score (pre ++ post) -> let items := map item (rows_of (pre ++ post)) in
  run_terms rel k (length (rows_of pre)) post =
  map (fun s => mean_of (map fst (at_score s items)) * weight_sum top (length (above s items)) (length (at_score s items))) (map fst post).
Proof.
  revert pre. induction post as [|b post IH]; intros pre H items; [easy|]. cbn [run_terms map].
  destruct (split_facts score pre b post H) as [H1 [H2 [H3 NE]]].
  assert (EA : at_score (fst b) items = map item (snd b)).
  { unfold at_score, items. rewrite filter_map'. f_equal. cbn [item snd]. rewrite rows_app. change (rows_of (b :: post)) with (snd b ++ rows_of post).
    rewrite !filter_app, (filter_none _ (rows_of pre)), (filter_all _ (snd b)), (filter_none _ (rows_of post)), app_nil_r; [easy|..].
    - intros r I. specialize (H3 r I). unfold item. cbn. destruct (Req_EM_T _ _); [lra|easy].
    - intros r I. specialize (H2 r I). unfold item. cbn. destruct (Req_EM_T _ _); [easy|lra].
    - intros r I. specialize (H1 r I). unfold item. cbn. destruct (Req_EM_T _ _); [lra|easy]. }
  assert (EB : above (fst b) items = map item (rows_of pre)).
  { unfold above, items. rewrite filter_map'. f_equal. cbn [item snd]. rewrite rows_app. change (rows_of (b :: post)) with (snd b ++ rows_of post).
    rewrite !filter_app, (filter_all _ (rows_of pre)), (filter_none _ (snd b)), (filter_none _ (rows_of post)), !app_nil_r; [easy|..].
    - intros r I. specialize (H3 r I). unfold item. cbn. destruct (Rlt_dec _ _); [lra|easy].
    - intros r I. specialize (H2 r I). unfold item. cbn. destruct (Rlt_dec _ _); [lra|easy].
    - intros r I. specialize (H1 r I). unfold item. cbn. destruct (Rlt_dec _ _); [easy|lra]. }
  f_equal.
  - rewrite EA, EB, !map_length, map_map. reflexivity.
  - specialize (IH (pre ++ [b])). rewrite <- app_assoc in IH. cbn [app] in IH. specialize (IH H). cbv zeta in IH. fold items in IH.
    assert (L : length (rows_of (pre ++ [b])) = (length (rows_of pre) + length (snd b))%nat)
      by (rewrite rows_app, app_length; change (rows_of [b]) with (snd b ++ []); now rewrite app_nil_r).
    rewrite L in IH. exact IH.
Qed.
Lemma runs_scores bls : runs_ok score bls -> distinct_scores (map item (rows_of bls)) (map fst bls).
Proof.
  intros [F S]. split.
  - clear F. induction S as [|b bls S IH Fb]; cbn; constructor; [|exact IH]. intro I. apply in_map_iff in I. destruct I as [c [E I]].
    rewrite Forall_forall in Fb. specialize (Fb c I). lra.
  - intro s. rewrite Forall_forall in F. rewrite map_map. cbn [item snd]. split; intro I.
    + apply in_map_iff in I. destruct I as [b [<- I]]. destruct (F b I) as [NE E]. destruct (snd b) as [|r rs] eqn:Er; [easy|].
      apply in_map_iff. exists r. split; [apply E; now left|]. unfold rows_of. apply in_concat. exists (snd b). split; [now apply in_map|rewrite Er; now left].
    + apply in_map_iff in I. destruct I as [r [<- I]]. unfold rows_of in I. apply in_concat in I. destruct I as [x [I J]].
      apply in_map_iff in I. destruct I as [b [<- I]]. destruct (F b I) as [_ E]. rewrite (E r J). now apply in_map.
Qed.
Lemma scores_perm items a b : distinct_scores items a -> distinct_scores items b -> Permutation a b.
Proof. intros [N1 E1] [N2 E2]. apply NoDup_Permutation; try assumption. intro x. now rewrite E1, E2. Qed.
Lemma ties_spec sorted items scores : descending (map score sorted) -> Permutation items sorted -> distinct_scores (map item items) scores ->
  dcg_ties rel score k sorted = tied_dcg top (map item items) scores.
Proof.
  intros D P Q. destruct (runs_exist score sorted D) as [bls [E [H _]]]. fold (rows_of bls) in E. rewrite E at 1.
  rewrite (ties_runs rel score k bls H). pose proof (run_terms_map [] bls H) as RT. cbn [app] in RT. cbv zeta in RT.
  change (length (rows_of [])) with 0%nat in RT. rewrite RT. clear RT.
  rewrite (tied_perm top (map item items) (map item (rows_of bls)) scores (map fst bls)); [reflexivity|..].
  - apply Permutation_map. now rewrite <- E.
  - apply scores_perm with (map item (rows_of bls)); [|now apply runs_scores].
    destruct Q as [Q1 Q2]. split; [exact Q1|]. intro s. rewrite Q2. subst sorted. split; intro I; eapply Permutation_in; try exact I; apply Permutation_map, Permutation_map; [exact P|now symmetry].
Qed.
End T.

(** Chebyshev's sum inequality. *)
Lemma cross_sum top a w : forall l i,
  Rsum (map (fun p => (a - fst p) * (w - snd p)) (combine l (map (gain_weight top) (seq (S i) (length l))))) =
  INR (length l) * a * w - a * weight_sum top i (length l) - w * Rsum l + dcg_from top (S i) l.
Proof.
  induction l as [|b l IH]; intro i.
  - cbn. lra.
  - cbn [length seq map combine Rsum weight_sum dcg_from fst snd]. rewrite IH, S_INR. ring.
Qed.
Lemma weight_mono top : forall j i, (1 <= i)%nat -> (i <= j)%nat -> gain_weight top j <= gain_weight top i.
Proof.
  intros j i Hi. induction 1 as [|j Hj IH]; [lra|]. pose proof (weight_step top j ltac:(lia)). lra.
Qed.
Lemma chebyshev top : forall l i, descending l -> Rsum l * weight_sum top i (length l) <= INR (length l) * dcg_from top (S i) l.
Proof.
  induction l as [|a l IH]; intros i D; [cbn; lra|]. inversion D as [|? ? D1 D2]; subst. specialize (IH (S i) D1).
  assert (G : 0 <= Rsum (map (fun p => (a - fst p) * (gain_weight top (S i) - snd p)) (combine l (map (gain_weight top) (seq (S (S i)) (length l)))))).
  { apply Rsum_ge0. apply Forall_map, Forall_forall. intros [x w] I. cbn. rewrite Forall_forall in D2.
    assert (x <= a) by (apply D2; now apply in_combine_l in I). apply in_combine_r in I. apply in_map_iff in I. destruct I as [j [<- I]]. apply in_seq in I.
    pose proof (weight_mono top j (S i) ltac:(lia) ltac:(lia)). nra. }
  rewrite cross_sum in G. cbn [length Rsum weight_sum dcg_from]. rewrite S_INR. nra.
Qed.
Lemma dcg_app top : forall a b i, dcg_from top i (a ++ b) = dcg_from top i a + dcg_from top (i + length a) b.
Proof.
  induction a as [|x a IH]; intros b i; cbn; [rewrite Nat.add_0_r; lra|]. rewrite IH. replace (S i + length a)%nat with (i + S (length a))%nat by lia. lra.
Qed.
Lemma runs_bound {row} (rel : row -> R) k : forall (bls : list (R * list row)) off, (forall b, In b bls -> snd b <> []) ->
  exists o, Permutation o (map rel (rows_of bls)) /\ Rsum (run_terms rel k off bls) <= dcg_from (topk k) (S off) o.
Proof.
  induction bls as [|b bls IH]; intros off NE.
  - exists []. split; [easy|]. cbn. lra.
  - destruct (IH (off + length (snd b))%nat) as [o [P L]]; [intros; apply NE; now right|].
    exists (sort_desc (map rel (snd b)) ++ o). split.
    + change (rows_of (b :: bls)) with (snd b ++ rows_of bls). rewrite map_app. apply Permutation_app; [apply sort_desc_perm|exact P].
    + cbn [run_terms Rsum]. rewrite dcg_app. rewrite (Permutation_length (sort_desc_perm (map rel (snd b)))), map_length.
      replace (S off + length (snd b))%nat with (S (off + length (snd b)))%nat by lia.
      assert (LN : (0 < length (snd b))%nat) by (specialize (NE b (or_introl eq_refl)); destruct (snd b); [easy|cbn; lia]).
      assert (mean_of (map rel (snd b)) * weight_sum (topk k) off (length (snd b)) <= dcg_from (topk k) (S off) (sort_desc (map rel (snd b)))); [|lra].
      pose proof (chebyshev (topk k) (sort_desc (map rel (snd b))) off (sort_desc_sorted _)) as C.
      rewrite (Permutation_length (sort_desc_perm _)), map_length, (Rsum_perm _ _ (sort_desc_perm _)) in C.
      unfold mean_of. rewrite map_length. assert (0 < INR (length (snd b))) by (apply lt_0_INR; lia).
      apply (Rmult_le_reg_l (INR (length (snd b)))); [lra|].
      replace (INR (length (snd b)) * (Rsum (map rel (snd b)) / INR (length (snd b)) * weight_sum (topk k) off (length (snd b))))
        with (Rsum (map rel (snd b)) * weight_sum (topk k) off (length (snd b))) by (field; lra). lra.
Qed.
Lemma wsum_ge0 top : forall m lo, 0 <= weight_sum top lo m.
Proof. induction m as [|m IH]; intro lo; cbn; [lra|]. pose proof (weight_ge0 top (S lo) ltac:(lia)). specialize (IH (S lo)). lra. Qed.
Lemma runs_ge0 {row} (rel : row -> R) k : (forall r, 0 <= rel r) -> forall (bls : list (R * list row)) off, 0 <= Rsum (run_terms rel k off bls).
Proof.
  intros H. induction bls as [|b bls IH]; intro off; cbn [run_terms Rsum]; [lra|]. specialize (IH (off + length (snd b))%nat).
  assert (0 <= mean_of (map rel (snd b))).
  { unfold mean_of. apply Rmult_le_pos; [apply Rsum_ge0, Forall_map, Forall_forall; intros; apply H|].
    destruct (length (map rel (snd b))) eqn:E; [cbn; rewrite Rinv_0; lra|]. apply Rlt_le, Rinv_0_lt_compat. apply lt_0_INR. lia. }
  pose proof (wsum_ge0 (topk k) (length (snd b)) off). nra.
Qed.
Lemma runs_single {row} (rel : row -> R) k : forall (bls : list (R * list row)) off, (forall b, In b bls -> length (snd b) = 1%nat) ->
  Rsum (run_terms rel k off bls) = dcg_from (topk k) (S off) (map rel (rows_of bls)).
Proof.
  induction bls as [|b bls IH]; intros off H; [easy|]. cbn [run_terms Rsum]. pose proof (H b (or_introl eq_refl)) as Hb.
  rewrite IH by (intros; apply H; now right). change (rows_of (b :: bls)) with (snd b ++ rows_of bls).
  destruct (snd b) as [|r [|r' rs]]; try discriminate. cbn. unfold mean_of. cbn. rewrite Nat.add_1_r. field.
Qed.
