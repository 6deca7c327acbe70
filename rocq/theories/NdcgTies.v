(** The ranking with ties. *)
From Coq Require Import String.
From Coq Require Import Reals List Bool ZArith Arith Lra Lia Psatz Permutation Sorted.
From Verif Require Import WStatsSpec WStatsProofs NdcgSpec NdcgModel NdcgProofs.
Import ListNotations.
Open Scope R_scope.

Lemma strict_ext : forall l m : list nat, StronglySorted lt l -> StronglySorted lt m -> (forall x, In x l <-> In x m) -> l = m.
Proof.
  induction l as [|a l IH]; intros m Hl Hm E.
  - destruct m as [|b m]; [easy|]. destruct (proj2 (E b) (or_introl eq_refl)).
  - destruct m as [|b m]; [destruct (proj1 (E a) (or_introl eq_refl))|].
    inversion Hl as [|? ? L1 L2]; subst. inversion Hm as [|? ? M1 M2]; subst. rewrite Forall_forall in L2, M2.
    assert (a = b).
    { destruct (proj1 (E a) (or_introl eq_refl)) as [->|Ia]; [easy|]. destruct (proj2 (E b) (or_introl eq_refl)) as [->|Ib]; [easy|].
      specialize (M2 a Ia). specialize (L2 b Ib). lia. }
    subst. f_equal. apply IH; try assumption. intro x. split; intro I.
    + destruct (proj1 (E x) (or_intror I)) as [->|J]; [|exact J]. specialize (L2 x I). lia.
    + destruct (proj2 (E x) (or_intror I)) as [->|J]; [|exact J]. specialize (M2 x I). lia.
Qed.
Lemma seq_sorted : forall n i, StronglySorted lt (seq i n).
Proof. induction n as [|n IH]; intro i; cbn; constructor; [apply IH|]. apply Forall_forall. intros x I. apply in_seq in I. lia. Qed.
Lemma filter_sorted {A} (Q : A -> A -> Prop) f l : StronglySorted Q l -> StronglySorted Q (filter f l).
Proof.
  induction 1 as [|a l H IH F]; cbn; [constructor|]. destruct (f a); [|exact IH]. constructor; [exact IH|].
  rewrite Forall_forall in *. intros x I. apply filter_In in I. now apply F.
Qed.
Lemma filter_all {A} (f : A -> bool) l : (forall x, In x l -> f x = true) -> filter f l = l.
Proof. induction l as [|a l IH]; intro H; cbn; [easy|]. rewrite (H a) by now left. f_equal. apply IH. intros. apply H. now right. Qed.
Lemma filter_none {A} (f : A -> bool) l : (forall x, In x l -> f x = false) -> filter f l = [].
Proof. induction l as [|a l IH]; intro H; cbn; [easy|]. rewrite (H a) by now left. apply IH. intros. apply H. now right. Qed.

Section T.
Context {row : Type} (rel score : row -> R) (k : option Z).
Notation top := (topk k).

(** A descending list is a sequence of runs of equal scores. *)
Definition runs_ok (bls : list (R * list row)) : Prop :=
  Forall (fun b => snd b <> [] /\ forall r, In r (snd b) -> score r = fst b) bls /\ StronglySorted (fun b b' => fst b' < fst b) bls.
Lemma runs_exist : forall l, descending (map score l) -> exists bls, l = concat (map snd bls) /\ runs_ok bls /\
  (match l with [] => bls = [] | r :: _ => exists b bs, bls = b :: bs /\ fst b = score r end).
Proof.
  induction l as [|r l IH]; intro D.
  - exists []. repeat split; constructor.
  - inversion D as [|? ? D1 D2]; subst. destruct (IH D1) as [bls [E [[F S] Hd]]]. destruct l as [|r' l'].
    + exists [(score r, [r])]. split; [easy|]. split; [|cbn; eauto]. split; [|repeat constructor].
      constructor; [|constructor]. cbn. split; [easy|]. intros x [<-|[]]. easy.
    + destruct Hd as [b [bs [-> Hb]]]. destruct (Req_EM_T (score r) (score r')) as [Q|Q].
      * exists ((fst b, r :: snd b) :: bs). split; [cbn in *; now rewrite E|]. split; [|eexists; eexists; split; [reflexivity|cbn; congruence]].
        inversion F as [|? ? [F1 F2] F3]; subst. inversion S as [|? ? S1 S2]; subst. split.
        -- constructor; [|exact F3]. cbn. split; [easy|]. intros x [<-|I]; [congruence|now apply F2].
        -- constructor; assumption.
      * exists ((score r, [r]) :: b :: bs). split; [cbn in *; now rewrite E|]. split; [|eauto].
        assert (score r' < score r). { inversion D2; subst. lra. }
        split.
        -- constructor; [|exact F]. cbn. split; [easy|]. intros x [<-|[]]. easy.
        -- constructor; [exact S|]. inversion S as [|? ? S1 S2]; subst. constructor; [cbn; lra|].
           rewrite Forall_forall in *. intros x I. specialize (S2 x I). cbn in *. lra.
Qed.

Definition rows_of (bls : list (R * list row)) : list row := concat (map snd bls).
Lemma rows_app a b : rows_of (a ++ b) = rows_of a ++ rows_of b.
Proof. unfold rows_of. now rewrite map_app, concat_app. Qed.
Definition gt_s (s : R) (x : row) : bool := if Rlt_dec s (score x) then true else false.
Lemma split_facts pre b post : runs_ok (pre ++ b :: post) ->
  (forall r, In r (rows_of pre) -> fst b < score r) /\ (forall r, In r (snd b) -> score r = fst b) /\ (forall r, In r (rows_of post) -> score r < fst b) /\ snd b <> [].
Proof.
  intros [F S]. rewrite Forall_forall in F. assert (Hb := F b ltac:(apply in_elt)). split; [|split; [|split]]; try apply Hb.
  - intros r I. unfold rows_of in I. apply in_concat in I. destruct I as [l [I J]]. apply in_map_iff in I. destruct I as [c [<- I]].
    destruct (F c ltac:(apply in_or_app; now left)) as [_ Fc]. rewrite (Fc r J).
    clear - S I. induction pre as [|p pre IH]; [easy|]. cbn in S. inversion S as [|? ? S1 S2]; subst. destruct I as [->|I]; [|now apply IH].
    rewrite Forall_forall in S2. apply S2. apply in_elt.
  - intros r I. unfold rows_of in I. apply in_concat in I. destruct I as [l [I J]]. apply in_map_iff in I. destruct I as [c [<- I]].
    destruct (F c ltac:(apply in_or_app; right; now right)) as [_ Fc]. rewrite (Fc r J).
    clear - S I. induction pre as [|p pre IH]; cbn in S; inversion S as [|? ? S1 S2]; subst; [|now apply IH].
    rewrite Forall_forall in S2. now apply S2.
Qed.
Lemma above_count pre b post r : runs_ok (pre ++ b :: post) -> In r (snd b) ->
  filter (gt_s (score r)) (rows_of (pre ++ b :: post)) = rows_of pre.
Proof.
  intros H I. destruct (split_facts _ _ _ H) as [H1 [H2 [H3 _]]]. rewrite (H2 r I).
  rewrite rows_app. change (rows_of (b :: post)) with (snd b ++ rows_of post). rewrite !filter_app.
  rewrite filter_all, !filter_none, !app_nil_r; [easy|..].
  - intros x J. unfold gt_s. specialize (H3 x J). destruct (Rlt_dec _ _); [lra|easy].
  - intros x J. unfold gt_s. rewrite (H2 x J). destruct (Rlt_dec _ _); [lra|easy].
  - intros x J. unfold gt_s. specialize (H1 x J). destruct (Rlt_dec _ _); [easy|lra].
Qed.
Lemma rank_in pre b post r : runs_ok (pre ++ b :: post) -> In r (snd b) ->
  rank_min score (rows_of (pre ++ b :: post)) r = S (length (rows_of pre)).
Proof. intros H I. unfold rank_min. f_equal. change (length (filter (gt_s (score r)) (rows_of (pre ++ b :: post))) = length (rows_of pre)). now rewrite above_count. Qed.

(** The ranks and cumulative discounts of the runs. *)
Fixpoint offsets (off : nat) (bls : list (R * list row)) : list nat :=
  match bls with [] => [] | b :: bs => S off :: offsets (off + length (snd b)) bs end.
Fixpoint run_blocks (off : nat) (bls : list (R * list row)) : list block :=
  match bls with
  | [] => []
  | b :: bs => mkblock (S off) (weight_sum top 0 (off + length (snd b))) (Rsum (map rel (snd b))) (length (snd b))
               :: run_blocks (off + length (snd b)) bs
  end.
Lemma weight_sum_app lo m n : weight_sum top lo (m + n) = weight_sum top lo m + weight_sum top (lo + m) n.
Proof.
  revert lo. induction m as [|m IH]; intro lo; cbn.
  - rewrite Nat.add_0_r. lra.
  - rewrite IH. replace (S lo + m)%nat with (lo + S m)%nat by lia. lra.
Qed.
Lemma cumsum_nth : forall n i s j, (j < n)%nat -> nth j (cumsum s (map (gain_weight top) (seq (S i) n))) 0 = s + weight_sum top i (S j).
Proof.
  induction n as [|n IH]; intros i s j H; [lia|]. cbn [seq map cumsum]. destruct j as [|j]; [cbn; lra|].
  cbn [nth]. rewrite IH by lia. cbn [weight_sum]. lra.
Qed.
Lemma cumsum_length : forall l s, length (cumsum s l) = length l.
Proof. induction l as [|a l IH]; intro s; cbn; [easy|]. now rewrite IH. Qed.
Lemma last_nth : forall (l : list R) d, last l d = nth (length l - 1) l d.
Proof.
  induction l as [|a l IH]; intro d; [easy|]. destruct l as [|b l]; [easy|]. change (last (a :: b :: l) d) with (last (b :: l) d). rewrite IH.
  cbn [length]. replace (S (S (length l)) - 1)%nat with (S (S (length l) - 1))%nat by lia. easy.
Qed.
Lemma combine_app_l {A B} : forall (a b : list A) (c : list B),
  combine (a ++ b) c = combine a (firstn (length a) c) ++ combine b (skipn (length a) c).
Proof. induction a as [|x a IH]; intros b [|y c]; cbn; try easy; try (now destruct b). now rewrite IH. Qed.
Lemma map_fst_combine {A B} : forall (a : list A) (b : list B), (length a <= length b)%nat -> map fst (combine a b) = a.
Proof. induction a as [|x a IH]; intros [|y b] L; cbn in *; try easy; try lia. rewrite IH by lia. easy. Qed.
Lemma map_snd_combine {A B} : forall (a : list A) (b : list B), (length b <= length a)%nat -> map snd (combine a b) = b.
Proof. induction a as [|x a IH]; intros [|y b] L; cbn in *; try easy; try lia. rewrite IH by lia. easy. Qed.

Lemma block_at_run pre b post : runs_ok (pre ++ b :: post) ->
  let l := rows_of (pre ++ b :: post) in
  block_at rel score l (cumsum 0 (discounts k (length l))) (S (length (rows_of pre))) =
  mkblock (S (length (rows_of pre))) (weight_sum top 0 (length (rows_of pre) + length (snd b))) (Rsum (map rel (snd b))) (length (snd b)).
Proof.
  intros H l. set (cums := cumsum 0 (discounts k (length l))).
  assert (LC : length cums = length l) by (unfold cums, discounts; now rewrite cumsum_length, map_length, seq_length).
  assert (El : l = rows_of pre ++ snd b ++ rows_of post) by (unfold l; rewrite rows_app; easy).
  set (m := length (rows_of pre)). set (n := length (snd b)).
  assert (Ll : length l = (m + n + length (rows_of post))%nat) by (rewrite El, !app_length; unfold m, n; lia).
  set (mid := firstn n (skipn m cums)).
  assert (Lmid : length mid = n) by (unfold mid; rewrite firstn_length, skipn_length, LC, Ll; lia).
  assert (Es : filter (fun p => (rank_min score l (fst p) =? S m)%nat) (combine l cums) = combine (snd b) mid).
  { replace (combine l cums) with (combine (rows_of pre ++ snd b ++ rows_of post) cums) by (now rewrite <- El). rewrite combine_app_l. fold m. rewrite combine_app_l, !filter_app. fold n. fold mid.
    assert (Rk : forall pre' b' post' r, pre' ++ b' :: post' = pre ++ b :: post -> In r (snd b') -> rank_min score l r = S (length (rows_of pre'))).
    { intros pre' b' post' r E I. unfold l. rewrite <- E. apply (rank_in pre' b' post'); [now rewrite E|exact I]. }
    destruct (split_facts _ _ _ H) as [_ [_ [_ NE]]]. assert (0 < n)%nat by (unfold n; destruct (snd b); [easy|cbn; lia]).
    rewrite (filter_none _ (combine (rows_of pre) _)), (filter_all _ (combine (snd b) mid)), (filter_none _ (combine (rows_of post) _)), app_nil_r; [easy|..].
    - intros [r c] I. cbn [fst]. apply in_combine_l in I. unfold rows_of in I. apply in_concat in I. destruct I as [x [I J]].
      apply in_map_iff in I. destruct I as [b' [<- I]]. apply in_split in I. destruct I as [p1 [p2 E]].
      rewrite (Rk (pre ++ b :: p1) b' p2 r); [|rewrite E, <- app_assoc; easy|exact J]. rewrite rows_app, app_length. fold m.
      change (rows_of (b :: p1)) with (snd b ++ rows_of p1). rewrite app_length. fold n. apply Nat.eqb_neq. lia.
    - intros [r c] I. cbn [fst]. apply in_combine_l in I. rewrite (Rk pre b post r eq_refl I). fold m. apply Nat.eqb_refl.
    - intros [r c] I. cbn [fst]. apply in_combine_l in I. unfold rows_of in I. apply in_concat in I. destruct I as [x [I J]].
      apply in_map_iff in I. destruct I as [b' [<- I]]. apply in_split in I. destruct I as [p1 [p2 E]].
      rewrite (Rk p1 b' (p2 ++ b :: post) r); [|rewrite E, <- app_assoc; easy|exact J]. apply Nat.eqb_neq.
      assert (m = length (rows_of p1) + length (snd b') + length (rows_of p2))%nat.
      { unfold m. rewrite E, rows_app, app_length. change (rows_of (b' :: p2)) with (snd b' ++ rows_of p2). rewrite app_length. lia. }
      assert (0 < length (snd b'))%nat by (destruct (snd b'); [easy|cbn; lia]). lia. }
  unfold block_at. fold cums. rewrite Es. f_equal.
  - destruct (split_facts _ _ _ H) as [_ [_ [_ NE]]]. assert (0 < n)%nat by (unfold n; destruct (snd b); [easy|cbn; lia]).
    rewrite map_snd_combine by (fold n; lia). rewrite last_nth, Lmid. unfold mid.
    assert (forall (u : list R) i w, (i < w)%nat -> nth i (firstn w u) 0 = nth i u 0) as NF.
    { clear. induction u as [|x u IH]; intros i w Hw; [now rewrite firstn_nil|]. destruct w; [lia|]. destruct i; [easy|]. cbn. apply IH. lia. }
    assert (forall (u : list R) i w, nth i (skipn w u) 0 = nth (w + i) u 0) as NS.
    { clear. induction u as [|x u IH]; intros i w; [rewrite skipn_nil; now destruct i, (w + _)%nat|]. destruct w; [easy|]. cbn. apply IH. }
    rewrite NF by lia. rewrite NS. unfold cums, discounts. rewrite seq_discounts by lia. rewrite cumsum_nth by lia.
    rewrite Rplus_0_l. f_equal. lia.
  - rewrite <- (map_map fst rel), map_fst_combine; [easy|fold n; lia].
  - rewrite combine_length. fold n. lia.
Qed.
Lemma blocks_run pre post : runs_ok (pre ++ post) -> let l := rows_of (pre ++ post) in
  map (block_at rel score l (cumsum 0 (discounts k (length l)))) (offsets (length (rows_of pre)) post) = run_blocks (length (rows_of pre)) post.
Proof.
  revert pre. induction post as [|b post IH]; intros pre H l; [easy|]. cbn [offsets map run_blocks]. unfold l. rewrite block_at_run by exact H. f_equal.
  specialize (IH (pre ++ [b])). rewrite <- app_assoc in IH. cbn [app] in IH. specialize (IH H). cbv zeta in IH.
  assert (L : length (rows_of (pre ++ [b])) = (length (rows_of pre) + length (snd b))%nat)
    by (rewrite rows_app, app_length; change (rows_of [b]) with (snd b ++ []); now rewrite app_nil_r).
  rewrite L in IH. exact IH.
Qed.
Lemma offsets_in : forall post pre x, (forall b, In b post -> snd b <> []) ->
  (In x (offsets (length (rows_of pre)) post) <-> exists p1 b p2, post = p1 ++ b :: p2 /\ x = S (length (rows_of (pre ++ p1)))).
Proof.
  induction post as [|b post IH]; intros pre x NE; cbn [offsets].
  - split; [easy|]. intros [p1 [b [p2 [E _]]]]. now destruct p1.
  - replace (length (rows_of pre) + length (snd b))%nat with (length (rows_of (pre ++ [b])))
      by (rewrite rows_app, app_length; change (rows_of [b]) with (snd b ++ []); now rewrite app_nil_r).
    cbn [In]. rewrite IH by (intros; apply NE; now right). split.
    + intros [<-|[p1 [b' [p2 [-> ->]]]]].
      * exists [], b, post. rewrite app_nil_r. easy.
      * exists (b :: p1), b', p2. rewrite <- app_assoc. easy.
    + intros [[|c p1] [b' [p2 [E ->]]]].
      * left. now rewrite app_nil_r.
      * right. injection E as -> ->. exists p1, b', p2. rewrite <- app_assoc. easy.
Qed.
Lemma offsets_sorted : forall post off, (forall b, In b post -> snd b <> []) -> StronglySorted lt (offsets off post) /\ forall x, In x (offsets off post) -> (off < x)%nat.
Proof.
  induction post as [|b post IH]; intros off NE; cbn [offsets]; [split; [constructor|easy]|].
  destruct (IH (off + length (snd b))%nat) as [S B]; [intros; apply NE; now right|].
  assert (0 < length (snd b))%nat by (specialize (NE b (or_introl eq_refl)); destruct (snd b); [easy|cbn; lia]). split.
  - constructor; [exact S|]. apply Forall_forall. intros x I. specialize (B x I). lia.
  - intros x [<-|I]; [lia|]. specialize (B x I). lia.
Qed.
Lemma blocks_spec bls : runs_ok bls -> blocks rel score k (rows_of bls) = run_blocks 0 bls.
Proof.
  intro H. assert (NE : forall b, In b bls -> snd b <> []) by (intros b I; destruct H as [F _]; rewrite Forall_forall in F; now apply F).
  unfold blocks. cbv zeta. etransitivity; [|exact (blocks_run [] bls H)]. cbn [app]. f_equal. apply strict_ext.
  - apply filter_sorted, seq_sorted.
  - now apply offsets_sorted.
  - intro x. rewrite filter_In, in_seq, existsb_exists. etransitivity; [|symmetry; exact (offsets_in bls [] x NE)]. split.
    + intros [_ [r [I E]]]. apply Nat.eqb_eq in E. unfold rows_of in I. apply in_concat in I. destruct I as [y [I J]].
      apply in_map_iff in I. destruct I as [b [<- I]]. apply in_split in I. destruct I as [p1 [p2 Eb]]. exists p1, b, p2. split; [exact Eb|].
      rewrite <- E. rewrite Eb in H |- *. now apply (rank_in p1 b p2).
    + intros [p1 [b [p2 [Eb ->]]]]. cbn [app]. assert (Hb : snd b <> []) by (apply NE; rewrite Eb; apply in_elt).
      assert (length (rows_of bls) = length (rows_of p1) + length (snd b) + length (rows_of p2))%nat.
      { rewrite Eb, rows_app, app_length. change (rows_of (b :: p2)) with (snd b ++ rows_of p2). rewrite app_length. lia. }
      destruct (snd b) as [|r rs] eqn:Er; [easy|]. cbn in H0. split; [lia|].
      exists r. split; [|apply Nat.eqb_eq; rewrite Eb in H |- *; apply (rank_in p1 b p2); [exact H|rewrite Er; now left]].
      rewrite Eb, rows_app. apply in_or_app. right. change (rows_of (b :: p2)) with (snd b ++ rows_of p2). apply in_or_app. left. rewrite Er. now left.
Qed.
Fixpoint run_terms (off : nat) (bls : list (R * list row)) : list R :=
  match bls with
  | [] => []
  | b :: bs => mean_of (map rel (snd b)) * weight_sum top off (length (snd b)) :: run_terms (off + length (snd b)) bs
  end.
Lemma terms_run : forall bls off prev, (forall b, In b bls -> snd b <> []) ->
  (off = 0%nat \/ prev = Some (weight_sum top 0 off)) -> block_terms prev (run_blocks off bls) = run_terms off bls.
Proof.
  induction bls as [|b bls IH]; intros off prev NE P; [easy|]. assert (0 < length (snd b))%nat as L.
  { specialize (NE b (or_introl eq_refl)). destruct (snd b); [easy|cbn; lia]. }
  cbn [run_blocks block_terms run_terms]. f_equal.
  - cbn [b_rank b_cum b_rel b_rows].
    assert (D : (if (S off =? 1)%nat then weight_sum top 0 (off + length (snd b)) else match prev with Some c => weight_sum top 0 (off + length (snd b)) - c | None => 0 end)
                = weight_sum top off (length (snd b))).
    { rewrite weight_sum_app. cbn [Nat.add]. destruct (Nat.eqb_spec (S off) 1) as [E|E].
      - assert (off = 0%nat) as -> by lia. cbn. lra.
      - destruct P as [->| ->]; [lia|]. lra. }
    rewrite D. unfold mean_of. rewrite map_length.
    assert (Q : match run_blocks (off + length (snd b)) bls with b' :: _ => INR (S off) - INR (b_rank b') | [] => -1 * INR (length (snd b)) end = - INR (length (snd b))).
    { destruct bls as [|b' bls']; cbn [run_blocks b_rank]; [lra|]. rewrite !S_INR, plus_INR. lra. }
    rewrite Q. assert (INR (length (snd b)) <> 0) by (apply not_0_INR; lia). field. exact H.
  - apply IH; [intros; apply NE; now right|]. right. reflexivity.
Qed.
Lemma ties_runs bls : runs_ok bls -> dcg_ties rel score k (rows_of bls) = Rsum (run_terms 0 bls).
Proof.
  intro H. unfold dcg_ties. rewrite blocks_spec by exact H. f_equal. apply terms_run; [|now left].
  intros b I. destruct H as [F _]. rewrite Forall_forall in F. now apply F.
Qed.
End T.
