From Coq Require Import Bool List Arith ZArith QArith Lia Lqa.
From Verif Require Import PairSums QSum TrapzModel RocModel RocSpec RocAuc NumPropsLemmas MultiAucModel MultiAucSpec.
Import ListNotations.
Open Scope Z_scope.

Section P.
Context {K : Type} (leb : K -> K -> bool) (TO : total_order leb).

Lemma zlen_app {A} (a b : list A) : zlen (a ++ b) = zlen a + zlen b.
Proof. unfold zlen. rewrite app_length. lia. Qed.
Lemma zlen_cons {A} (x : A) l : zlen (x :: l) = 1 + zlen l.
Proof. unfold zlen. cbn [length]. lia. Qed.
Lemma zlen_map {A B} (f : A -> B) l : zlen (map f l) = zlen l.
Proof. unfold zlen. now rewrite map_length. Qed.
Lemma pairs_len (rows : list (K * bool)) : zlen (pairs rows) = npos rows * nneg rows.
Proof.
  unfold pairs, npos, nneg. induction (filter (fun r => negb (snd r)) rows) as [|n l IH]; [unfold zlen; cbn; lia|].
  cbn [flat_map]. rewrite zlen_app, zlen_map, IH, zlen_cons. lia.
Qed.
Definition w (pn : K * K) : Q := wins leb (snd pn) (fst pn).
Lemma qsum_pairs rows : (qsum (fun a => qsum (fun b => wins leb (fst a) (fst b)) (filter (fun r => snd r) rows)) (filter (fun r => negb (snd r)) rows)
  == qsum w (pairs rows))%Q.
Proof.
  unfold pairs. induction (filter (fun r => negb (snd r)) rows) as [|n l IH]; [reflexivity|]. cbn [flat_map].
  rewrite qsum_cons, qsum_app, IH, qsum_map. unfold w. cbn [fst snd]. reflexivity.
Qed.
Lemma inj_cons {A} (x : A) l : (inject_Z (zlen (x :: l)) == 1 + inject_Z (zlen l))%Q.
Proof. rewrite zlen_cons, inject_Z_plus. reflexivity. Qed.
Lemma w_sum l : (2 * qsum w l - inject_Z (zlen l) ==
  inject_Z (zlen (filter (fun pn => negb (leb (fst pn) (snd pn))) l) - zlen (filter (fun pn => negb (leb (snd pn) (fst pn))) l)))%Q.
Proof.
  induction l as [|[p n] l IH]; [reflexivity|]. rewrite qsum_cons, inj_cons.
  cbn [filter fst snd]. unfold w at 1, wins. cbn [fst snd]. pose proof (to_total leb TO p n) as T.
  unfold Z.sub in *. rewrite inject_Z_plus, inject_Z_opp in *.
  destruct (leb p n) eqn:E1, (leb n p) eqn:E2; cbn [negb]; rewrite ?inj_cons; [lra|lra|lra|destruct T; discriminate].
Qed.
Lemma rank_somers rows : 0 < npos rows -> 0 < nneg rows -> (2 * rank_probability leb rows - 1 == somers_d leb rows)%Q.
Proof.
  intros HP HN. unfold rank_probability, somers_d. rewrite qsum_pairs, pairs_len. unfold ordered, inverted. rewrite <- w_sum, pairs_len.
  assert (~ inject_Z (npos rows * nneg rows) == 0)%Q. { change 0%Q with (inject_Z 0). rewrite inject_Z_injective. nia. }
  field. assumption.
Qed.
Lemma filter_le {A} (f : A -> bool) l : zlen (filter f l) <= zlen l.
Proof. unfold zlen. induction l as [|a l IH]; [easy|]. cbn [filter]. destruct (f a); cbn [length]; lia. Qed.
Lemma filter_excl l : zlen (filter (fun pn : K * K => negb (leb (fst pn) (snd pn))) l) + zlen (filter (fun pn => negb (leb (snd pn) (fst pn))) l) <= zlen l.
Proof.
  induction l as [|[p n] l IH]; [easy|]. cbn [filter fst snd]. pose proof (to_total leb TO p n) as T.
  destruct (leb p n), (leb n p); cbn [negb]; rewrite ?zlen_cons; [lia|lia|lia|destruct T; discriminate].
Qed.
Lemma somers_range rows : 0 < npos rows -> 0 < nneg rows -> (-1 <= somers_d leb rows <= 1)%Q.
Proof.
  intros HP HN. unfold somers_d. pose proof (filter_excl (pairs rows)) as E. fold (ordered leb rows) in E. fold (inverted leb rows) in E.
  assert (0 <= ordered leb rows) by (unfold ordered, zlen; lia). assert (0 <= inverted leb rows) by (unfold inverted, zlen; lia).
  assert (L : 0 < zlen (pairs rows)) by (rewrite pairs_len; nia).
  assert (LQ : (0 < inject_Z (zlen (pairs rows)))%Q) by (change 0%Q with (inject_Z 0); rewrite <- Zlt_Qlt; exact L). split.
  - apply Qle_shift_div_l; [exact LQ|]. change (-1)%Q with (inject_Z (-1)). rewrite <- inject_Z_mult, <- Zle_Qle. lia.
  - apply Qle_shift_div_r; [exact LQ|]. rewrite Qmult_1_l, <- Zle_Qle. lia.
Qed.
Lemma somers_one rows : 0 < npos rows -> 0 < nneg rows ->
  ((somers_d leb rows == 1)%Q <-> forall p n, In (p, true) rows -> In (n, false) rows -> leb p n = false).
Proof.
  intros HP HN. assert (L : 0 < zlen (pairs rows)) by (rewrite pairs_len; nia).
  assert (LQ : (0 < inject_Z (zlen (pairs rows)))%Q) by (change 0%Q with (inject_Z 0); rewrite <- Zlt_Qlt; exact L).
  assert (E1 : (somers_d leb rows == 1)%Q <-> ordered leb rows - inverted leb rows = zlen (pairs rows)).
  { rewrite <- (inject_Z_injective (ordered leb rows - inverted leb rows)). unfold somers_d. split; intro H.
    - rewrite <- (Qmult_1_l (inject_Z (zlen (pairs rows)))), <- H. field. lra.
    - rewrite H. field. lra. }
  assert (E2 : (forall p n, In (p, true) rows -> In (n, false) rows -> leb p n = false) <-> forall pn, In pn (pairs rows) -> leb (fst pn) (snd pn) = false).
  { unfold pairs. split.
    - intros H pn I. apply in_flat_map in I. destruct I as [[n bn] [I1 I2]]. apply in_map_iff in I2. destruct I2 as [[p bp] [<- I2]].
      apply filter_In in I1, I2. cbn in *. destruct I1 as [I1 B1], I2 as [I2 B2]. destruct bn, bp; try discriminate. now apply H.
    - intros H p n I1 I2. apply (H (p, n)). apply in_flat_map. exists (n, false). split; [apply filter_In; now split|].
      apply in_map_iff. exists (p, true). split; [easy|]. apply filter_In. now split. }
  rewrite E1, E2. unfold ordered, inverted. pose proof (filter_excl (pairs rows)) as E. clear - E TO. set (l := pairs rows) in *. clearbody l. split.
  - intros H pn I. destruct (leb (fst pn) (snd pn)) eqn:B; [|easy]. exfalso.
    assert (zlen (filter (fun pn => negb (leb (fst pn) (snd pn))) l) < zlen l).
    { clear - I B. induction l as [|a l IH]; [easy|]. cbn [filter]. destruct I as [->|I].
      - rewrite B. cbn [negb]. rewrite zlen_cons. pose proof (filter_le (fun pn => negb (leb (fst pn) (snd pn))) l). lia.
      - specialize (IH I). destruct (negb _); rewrite ?zlen_cons; lia. }
    unfold zlen in *. lia.
  - intro H. assert (E1 : filter (fun pn => negb (leb (fst pn) (snd pn))) l = l).
    { clear - H. induction l as [|a l IH]; [easy|]. cbn [filter]. rewrite (H a) by now left. cbn. f_equal. apply IH. intros. apply H. now right. }
    rewrite E1 in *. unfold zlen in *. lia.
Qed.

Lemma gini_thm rows : zlen rows < 2 ^ 32 -> 0 < npos rows -> 0 < nneg rows -> pure_top leb rows ->
  exists g, query_gini leb (labels rows) (scores rows) = OVal g /\ (g == somers_d leb rows)%Q /\ (-1 <= g <= 1)%Q /\
    ((g == 1)%Q <-> forall p n, In (p, true) rows -> In (n, false) rows -> leb p n = false).
Proof.
  intros L HP HN PT. destruct (auc_pure_top leb rows TO L HP HN PT) as [q [E Q]]. exists (q * 2 - 1)%Q. unfold query_gini. rewrite E.
  split; [easy|]. assert (G : (q * 2 - 1 == somers_d leb rows)%Q) by (rewrite <- (rank_somers rows HP HN), Q; ring).
  split; [exact G|]. pose proof (somers_range rows HP HN). split; [rewrite G; assumption|]. rewrite G. now apply somers_one.
Qed.
Lemma gini_nan rows : zlen rows < 2 ^ 32 -> npos rows = 0 \/ 0 < npos rows /\ nneg rows = 0 -> query_gini leb (labels rows) (scores rows) = ONan.
Proof.
  intros L [H|[H1 H2]]; unfold query_gini.
  - now rewrite auc_no_positives.
  - now rewrite auc_no_negatives.
Qed.

(** Multiclass. *)
Lemma get_col n i : (i < n)%nat -> forall rows, list_get i (score_col n rows) = Some (scores (@one_vs_rest K i rows)).
Proof.
  intros H rows. induction rows as [|[v f] rows IH]; [easy|]. cbn [score_col map list_get snd].
  assert (nth_error (map f (seq 0 n)) i = Some (f i)) as ->.
  { rewrite nth_error_map. assert (nth_error (seq 0 n) i = Some i) as ->; [|easy].
    rewrite (nth_error_nth' _ 0%nat) by (rewrite seq_length; lia). f_equal. rewrite seq_nth by lia. lia. }
  fold (score_col n rows). rewrite IH. reflexivity.
Qed.
Lemma class_col i rows : is_class i (label_col rows) = labels (@one_vs_rest K i rows).
Proof.
  unfold is_class, label_col, labels, one_vs_rest. rewrite !map_map. apply map_ext. intros [v f]. cbn. now destruct (v =? Z.of_nat i).
Qed.
Lemma class_is n i rows : (i < n)%nat -> class_auc leb (label_col rows) (score_col n rows) i = roc_auc leb (labels (one_vs_rest i rows)) (scores (one_vs_rest i rows)).
Proof. intro H. unfold class_auc. rewrite get_col by exact H. now rewrite class_col. Qed.
Lemma count_is i rows : class_count i (label_col rows) = @rows_of_class K i rows.
Proof.
  unfold class_count. induction rows as [|[v f] rows IH]; [easy|].
  change (flat (is_class i (label_col ((v, f) :: rows)))) with ((if v =? Z.of_nat i then 1 else 0) :: flat (is_class i (label_col rows))).
  unfold rows_of_class in *. cbn [filter fst]. unfold zsum in *. cbn [fold_right]. rewrite IH. destruct (v =? Z.of_nat i); rewrite ?zlen_cons; lia.
Qed.
Lemma npos_class i rows : npos (@one_vs_rest K i rows) = rows_of_class i rows.
Proof.
  unfold npos, rows_of_class, one_vs_rest. induction rows as [|[v f] rows IH]; [easy|]. cbn [map filter snd fst] in *.
  destruct (v =? Z.of_nat i); rewrite ?zlen_cons; lia.
Qed.
Lemma npos_nneg rows : @npos K rows + nneg rows = zlen rows.
Proof. unfold npos, nneg. induction rows as [|[k b] rows IH]; [easy|]. cbn [filter snd]. destruct b; cbn [negb]; rewrite ?zlen_cons; lia. Qed.
Lemma sum_vals {A} (f : A -> out Q) (g : A -> Q) l : (forall i, In i l -> exists q, f i = OVal q /\ (q == g i)%Q) ->
  exists q, sum_horizontal (map f l) = OVal q /\ (q == qsum g l)%Q.
Proof.
  induction l as [|a l IH]; intro H; [exists 0%Q; split; reflexivity|]. destruct (H a (or_introl eq_refl)) as [x [E1 E2]].
  destruct IH as [y [E3 E4]]; [intros; apply H; now right|]. exists (x + y)%Q. cbn [map sum_horizontal]. rewrite E1, E3.
  split; [easy|]. now rewrite qsum_cons, E2, E4.
Qed.
Lemma ovr_len i rows : zlen (@one_vs_rest K i rows) = zlen rows.
Proof. apply zlen_map. Qed.

Lemma class_val n rows i : zlen rows < 2 ^ 32 -> good_classes leb n rows -> (i < n)%nat ->
  exists q, class_auc leb (label_col rows) (score_col n rows) i = OVal q /\ (q == rank_probability leb (one_vs_rest i rows))%Q.
Proof.
  intros L G H. destruct (G i H) as [C PT]. rewrite class_is by exact H. apply auc_pure_top; try assumption.
  - now rewrite ovr_len.
  - rewrite npos_class. lia.
  - pose proof (npos_nneg (one_vs_rest i rows)). rewrite npos_class, ovr_len in *. lia.
Qed.
Lemma macro_thm n rows : zlen rows < 2 ^ 32 -> (0 < n)%nat -> good_classes leb n rows ->
  exists q, query_multi_roc_auc leb (label_col rows) (score_col n rows) n Macro = OVal q /\
    (q == qmean (map (fun i => rank_probability leb (one_vs_rest i rows)) (seq 0 n)))%Q.
Proof.
  intros L N G. destruct (sum_vals (class_auc leb (label_col rows) (score_col n rows)) (fun i => rank_probability leb (one_vs_rest i rows)) (seq 0 n)) as [q [E Q]].
  { intros i I. apply in_seq in I. apply class_val; [assumption..|lia]. }
  eexists. cbn [query_multi_roc_auc]. rewrite E. cbn [over]. split; [reflexivity|]. unfold qmean. rewrite Q, qsum_map.
  unfold qlen, zlen. rewrite map_length, seq_length. reflexivity.
Qed.
Lemma weighted_thm n rows : zlen rows < 2 ^ 32 -> (0 < n)%nat -> good_classes leb n rows ->
  exists q, query_multi_roc_auc leb (label_col rows) (score_col n rows) n Weighted = OVal q /\
    (q == qsum (fun i => inject_Z (rows_of_class i rows) / inject_Z (zlen rows) * rank_probability leb (one_vs_rest i rows)) (seq 0 n))%Q.
Proof.
  intros L N G.
  destruct (sum_vals (fun i => scale (inject_Z (class_count i (label_col rows))) (class_auc leb (label_col rows) (score_col n rows) i))
    (fun i => inject_Z (rows_of_class i rows) * rank_probability leb (one_vs_rest i rows))%Q (seq 0 n)) as [q [E Q]].
  { intros i I. apply in_seq in I. destruct (class_val n rows i) as [q [E Q]]; [assumption..|lia|]. rewrite E. cbn [scale]. eexists.
    split; [reflexivity|]. now rewrite count_is, Q. }
  eexists. cbn [query_multi_roc_auc]. rewrite E. cbn [over]. split; [reflexivity|]. rewrite Q.
  assert (Z0 : (~ inject_Z (zlen rows) == 0)%Q). { change 0%Q with (inject_Z 0). rewrite inject_Z_injective. destruct (G 0%nat N) as [C _]. lia. }
  assert (LC : zlen (label_col rows) = zlen rows) by apply zlen_map. rewrite LC. unfold Qdiv at 1. rewrite <- qsum_mulr. apply qsum_ext. intros i _. field. exact Z0.
Qed.

Lemma nan_in f (l : list nat) i : In i l -> f i = ONan -> (forall j, In j l -> f j = ONan \/ exists q, f j = OVal q) -> sum_horizontal (map f l) = ONan.
Proof.
  induction l as [|a l IH]; [easy|]. intros I E H. cbn [map sum_horizontal].
  assert (T : forall l, (forall j, In j l -> f j = ONan \/ exists q, f j = OVal q) -> sum_horizontal (map f l) = ONan \/ exists q, sum_horizontal (map f l) = OVal q).
  { clear. induction l as [|b l IH]; intro H; [right; eexists; reflexivity|]. cbn [map sum_horizontal].
    destruct (H b (or_introl eq_refl)) as [->|[x ->]]; (destruct IH as [->|[y ->]]; [intros; apply H; now right|now left|]); [now left|right; now eexists]. }
  destruct I as [->|I].
  - rewrite E. destruct (T l) as [->|[q ->]]; [intros; apply H; now right|reflexivity..].
  - rewrite IH; [|exact I|exact E|intros; apply H; now right]. destruct (H a (or_introl eq_refl)) as [->|[x ->]]; reflexivity.
Qed.
Lemma absent_thm n rows i s : zlen rows < 2 ^ 32 -> (i < n)%nat -> rows_of_class i rows = 0 ->
  query_multi_roc_auc leb (label_col rows) (score_col n rows) n s = ONan.
Proof.
  intros L I Z.
  assert (V : forall j, (j < n)%nat -> class_auc leb (label_col rows) (score_col n rows) j = ONan \/ exists q, class_auc leb (label_col rows) (score_col n rows) j = OVal q).
  { intros j J. rewrite class_is by exact J. pose proof (npos_nneg (one_vs_rest j rows)) as S. rewrite ovr_len in S.
    assert (0 <= npos (one_vs_rest j rows)) by (unfold npos, zlen; lia). assert (0 <= nneg (one_vs_rest j rows)) by (unfold nneg, zlen; lia).
    assert (zlen (one_vs_rest j rows) < 2 ^ 32) by now rewrite ovr_len.
    destruct (Z.eq_dec (npos (one_vs_rest j rows)) 0) as [E|E]; [left; now apply auc_no_positives|].
    destruct (Z.eq_dec (nneg (one_vs_rest j rows)) 0) as [E'|E']; [left; apply auc_no_negatives; auto; lia|].
    right. destruct (auc_ok leb TO (one_vs_rest j rows)) as [q [Q _]]; [auto; lia..|]. now exists q. }
  assert (N : class_auc leb (label_col rows) (score_col n rows) i = ONan).
  { rewrite class_is by exact I. apply auc_no_positives; [now rewrite ovr_len|now rewrite npos_class]. }
  destruct s; cbn [query_multi_roc_auc].
  - erewrite nan_in; [reflexivity|apply in_seq; split; [|exact I]; lia|exact N|]. intros j J. apply in_seq in J. apply V. lia.
  - erewrite (nan_in (fun i => scale _ (class_auc leb (label_col rows) (score_col n rows) i))); [reflexivity|apply in_seq; split; [|exact I]; lia|cbn beta; now rewrite N|].
    intros j J. apply in_seq in J. destruct (V j) as [E|[q E]]; [lia|left; now rewrite E|right]. rewrite E. now eexists.
Qed.
End P.
