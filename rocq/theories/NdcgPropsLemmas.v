(** The statements of NdcgProps. *)
From Coq Require Import String.
From Coq Require Import Reals List Bool ZArith Arith Lra Lia Psatz Permutation Sorted.
From Verif Require Import WStatsSpec WStatsProofs NdcgSpec NdcgModel NdcgProofs NdcgTies NdcgProofs2.
Import ListNotations.
Open Scope R_scope.
Open Scope string_scope.

Lemma best_sorted top rels o : Permutation o rels -> descending o -> best_gain top rels (dcg_of top o).
Proof.
  intros P D. split; [exists o; easy|]. intros o' P'. apply rearrangement; [|exact D]. now rewrite P', P.
Qed.
Lemma best_unique top rels a b : best_gain top rels a -> best_gain top rels b -> a = b.
Proof. intros [[o [P <-]] H] [[o' [P' <-]] H']. apply Rle_antisym; auto. Qed.

Lemma nodup_app_r {A} : forall a b : list A, NoDup (a ++ b)%list -> NoDup b.
Proof. induction a as [|x a IH]; intros b H; [exact H|]. cbn in H. inversion H. auto. Qed.
Lemma nodup_app_l {A} : forall a b : list A, NoDup (a ++ b)%list -> NoDup a.
Proof. intros a b H. apply (Permutation_NoDup (Permutation_app_comm a b)) in H. now apply nodup_app_r in H. Qed.

Section F.
Context {row : Type} (columns : list string) (key : string -> row -> Z) (rel score : row -> R) (sort : (row -> R) -> list row -> list row).
Hypothesis SORT : sorts_desc (key "example_id") sort.

Notation group g df := (in_group (key "example_id") g df).
Notation grp := (of_group key "example_id").

Lemma sorted_group c df g : Permutation (grp g (sort c df)) (group g df) /\ descending (map c (grp g (sort c df))).
Proof. destruct (SORT c df) as [P D]. split; [now apply filter_perm|apply D]. Qed.
Lemma ideal_best k df g : best_gain (topk k) (map rel (group g df)) (dcg_plain rel k (grp g (sort rel df))).
Proof.
  destruct (sorted_group rel df g) as [P D]. rewrite plain_spec. apply best_sorted; [now apply Permutation_map|exact D].
Qed.
Lemma ratio_bounds d i : 0 <= d <= i -> 0 <= ratio d i <= 1.
Proof.
  intros H. unfold ratio. destruct (Req_EM_T i 0) as [E|E]; [lra|]. assert (0 < i) by lra. split.
  - apply Rmult_le_pos; [lra|]. apply Rlt_le, Rinv_0_lt_compat. lra.
  - apply (Rmult_le_reg_r i); [lra|]. unfold Rdiv. rewrite Rmult_assoc, Rinv_l; lra.
Qed.
Lemma plain_thm k df g : (forall r, 0 <= rel r) ->
  exists o best, Permutation o (group g df) /\ descending (map score o) /\ best_gain (topk k) (map rel (group g df)) best /\
    (best <> 0 -> group_ndcg key rel score sort "example_id" k false df g = dcg_of (topk k) (map rel o) / best) /\
    (best = 0 -> group_ndcg key rel score sort "example_id" k false df g = 0) /\
    0 <= group_ndcg key rel score sort "example_id" k false df g <= 1.
Proof.
  intro NN. destruct (sorted_group score df g) as [P D]. exists (grp g (sort score df)), (dcg_plain rel k (grp g (sort rel df))).
  split; [exact P|]. split; [exact D|]. pose proof (ideal_best k df g) as B. split; [exact B|]. unfold group_ndcg. rewrite plain_spec with (l := grp g (sort score df)).
  split; [|split].
  - intro N. unfold ratio. destruct (Req_EM_T _ 0); easy.
  - intro N. unfold ratio. destruct (Req_EM_T _ 0); easy.
  - apply ratio_bounds. split; [apply dcg_ge0; [lia|]; intros x I; apply in_map_iff in I; destruct I as [r [<- _]]; apply NN|].
    apply B. now apply Permutation_map.
Qed.
Lemma perfect_thm k df g : (forall a b, In a (group g df) -> In b (group g df) -> score b <= score a -> rel b <= rel a) ->
  ~ best_gain (topk k) (map rel (group g df)) 0 -> group_ndcg key rel score sort "example_id" k false df g = 1.
Proof.
  intros AG NZ. pose proof (ideal_best k df g) as B. destruct (sorted_group score df g) as [P D].
  assert (D' : descending (map rel (grp g (sort score df)))).
  { assert (AG' : forall a b, In a (grp g (sort score df)) -> In b (grp g (sort score df)) -> score b <= score a -> rel b <= rel a).
    { intros a b Ia Ib. apply AG; eapply Permutation_in; eassumption. }
    clear - D AG'. induction (grp g (sort score df)) as [|a l IH]; cbn; [constructor|]. cbn in D. inversion D as [|? ? D1 D2]; subst.
    constructor; [apply IH; [exact D1|intros; apply AG'; cbn; auto]|]. rewrite Forall_forall in *. intros x I. apply in_map_iff in I.
    destruct I as [b [<- I]]. apply AG'; [now left|now right|]. apply D2. now apply in_map. }
  assert (E : dcg_plain rel k (grp g (sort score df)) = dcg_plain rel k (grp g (sort rel df))).
  { rewrite plain_spec at 1. eapply best_unique; [|exact B]. apply best_sorted; [now apply Permutation_map|exact D']. }
  unfold group_ndcg. rewrite E. unfold ratio. destruct (Req_EM_T _ 0) as [Z|Z]; [rewrite Z in B; easy|]. now apply Rinv_r.
Qed.
Lemma ties_thm k df g scores : (forall r, 0 <= rel r) -> distinct_scores (map (item rel score) (group g df)) scores ->
  exists best, best_gain (topk k) (map rel (group g df)) best /\
    (best <> 0 -> group_ndcg key rel score sort "example_id" k true df g = tied_dcg (topk k) (map (item rel score) (group g df)) scores / best) /\
    (best = 0 -> group_ndcg key rel score sort "example_id" k true df g = 0) /\
    0 <= group_ndcg key rel score sort "example_id" k true df g <= 1.
Proof.
  intros NN DS. exists (dcg_plain rel k (grp g (sort rel df))). pose proof (ideal_best k df g) as B. split; [exact B|].
  destruct (sorted_group score df g) as [P D]. pose proof (ties_spec rel score k _ _ scores D (Permutation_sym P) DS) as E.
  unfold group_ndcg. split; [|split].
  - intro N. rewrite E. unfold ratio. destruct (Req_EM_T _ 0); easy.
  - intro N. unfold ratio. destruct (Req_EM_T _ 0); easy.
  - apply ratio_bounds. destruct (runs_exist score _ D) as [bls [Eb [R _]]]. fold (rows_of bls) in Eb. rewrite Eb.
    rewrite (ties_runs rel score k bls R). split; [now apply runs_ge0|].
    destruct (runs_bound rel k bls 0) as [o [Po Lo]]; [intros b I; destruct R as [F _]; rewrite Forall_forall in F; now apply F|].
    eapply Rle_trans; [exact Lo|]. apply B. rewrite Po, <- Eb. now apply Permutation_map.
Qed.
Lemma no_ties_thm k df g : NoDup (map score (group g df)) ->
  group_ndcg key rel score sort "example_id" k true df g = group_ndcg key rel score sort "example_id" k false df g.
Proof.
  intro ND. unfold group_ndcg. f_equal. destruct (sorted_group score df g) as [P D].
  destruct (runs_exist score _ D) as [bls [Eb [R _]]]. fold (rows_of bls) in Eb.
  assert (ND' : NoDup (map score (rows_of bls))).
  { rewrite <- Eb. eapply Permutation_NoDup; [|exact ND]. apply Permutation_map. now symmetry. }
  rewrite Eb, (ties_runs rel score k bls R), plain_spec. apply runs_single. destruct R as [F _]. rewrite Forall_forall in F.
  intros b I. destruct (F b I) as [NE Es]. apply in_split in I. destruct I as [p1 [p2 ->]].
  rewrite rows_app, map_app in ND'. change (rows_of (b :: p2)) with (snd b ++ rows_of p2)%list in ND'. rewrite map_app in ND'.
  apply nodup_app_r, nodup_app_l in ND'. destruct (snd b) as [|r [|r' rs]]; [easy|easy|]. exfalso.
  cbn in ND'. inversion ND' as [|? ? NI _]; subst. apply NI. left. rewrite (Es r), (Es r'); cbn; auto.
Qed.

Lemma nub_in : forall l x, In x (nub l) <-> In x l.
Proof.
  induction l as [|a l IH]; intro x; cbn; [easy|]. rewrite filter_In, IH. destruct (Z.eqb_spec a x); cbn; intuition congruence.
Qed.
Lemma nub_nodup : forall l, NoDup (nub l).
Proof.
  induction l as [|a l IH]; cbn; constructor.
  - rewrite filter_In. rewrite Z.eqb_refl. cbn. easy.
  - now apply NoDup_filter.
Qed.
Lemma frame_thm k ties df : In "example_id" columns ->
  exists groups, NoDup groups /\ (forall g, In g groups <-> (2 <= length (group g df))%nat) /\
    calculate_ndcg columns key rel score sort "example_id" k ties df =
    MeanNdcg (match groups with [] => None | _ => Some (mean_of (map (group_ndcg key rel score sort "example_id" k ties df) groups)) end).
Proof.
  intro I. eexists. split; [|split].
  3:{ unfold calculate_ndcg. assert (member "example_id" columns = true) as ->.
      { unfold member. apply existsb_exists. exists "example_id". split; [exact I|apply String.eqb_refl]. }
      cbn [negb String.eqb]. change (String.eqb "example_id" "example_id") with true. cbn [negb]. f_equal.
      instantiate (1 := filter (fun g => negb (Nat.eqb (length (grp g df)) 1)) (nub (map (key "example_id") df))).
      set (l := filter _ _). destruct l; [reflexivity|]. reflexivity. }
  - apply NoDup_filter, nub_nodup.
  - intro g. rewrite filter_In, nub_in. change (grp g df) with (group g df). split.
    + intros [J N]. apply negb_true_iff, Nat.eqb_neq in N. apply in_map_iff in J. destruct J as [r [E J]].
      assert (In r (group g df)) by (apply filter_In; split; [exact J|now apply Z.eqb_eq]).
      destruct (group g df) as [|x [|y l]]; [easy|easy|cbn; lia].
    + intro L. split; [|apply negb_true_iff, Nat.eqb_neq; lia].
      destruct (group g df) as [|x l] eqn:E; [cbn in L; lia|]. assert (In x (group g df)) as J by (rewrite E; now left).
      apply filter_In in J. destruct J as [J K]. apply Z.eqb_eq in K. apply in_map_iff. eauto.
Qed.
Lemma mean_range l : l <> [] -> (forall x, In x l -> 0 <= x <= 1) -> 0 <= mean_of l <= 1.
Proof.
  intros N H. assert (0 < INR (length l)) by (destruct l; [easy|apply lt_0_INR; cbn; lia]).
  assert (0 <= Rsum l <= INR (length l)).
  { clear N H0. induction l as [|a l IH]; [cbn; lra|]. cbn [length Rsum]. rewrite S_INR. pose proof (H a (or_introl eq_refl)).
    assert (0 <= Rsum l <= INR (length l)) by (apply IH; intros; apply H; now right). lra. }
  unfold mean_of. split; [apply Rmult_le_pos; [lra|]; apply Rlt_le, Rinv_0_lt_compat; lra|].
  apply (Rmult_le_reg_r (INR (length l))); [lra|]. unfold Rdiv. rewrite Rmult_assoc, Rinv_l; lra.
Qed.
Lemma scores_exist df g : exists scores, distinct_scores (map (item rel score) (group g df)) scores.
Proof.
  exists (nodup Req_EM_T (map snd (map (item rel score) (group g df)))). split; [apply NoDup_nodup|]. intro s. apply nodup_In.
Qed.
Lemma range_thm k ties df v : (forall r, 0 <= rel r) -> In "example_id" columns ->
  calculate_ndcg columns key rel score sort "example_id" k ties df = MeanNdcg (Some v) -> 0 <= v <= 1.
Proof.
  intros NN I E. destruct (frame_thm k ties df I) as [groups [_ [_ E']]]. rewrite E in E'.
  destruct groups as [|g gs]; [discriminate|]. injection E' as ->. apply (mean_range (map (group_ndcg key rel score sort "example_id" k ties df) (g :: gs))); [easy|].
  intros x J. apply in_map_iff in J. destruct J as [h [<- _]]. destruct ties.
  - destruct (scores_exist df h) as [sc DS]. destruct (ties_thm k df h sc NN DS) as [b H]. apply H.
  - destruct (plain_thm k df h NN) as [o [b H]]. apply H.
Qed.
Lemma name_thm group_col k ties df : group_col <> "example_id" ->
  calculate_ndcg columns key rel score sort group_col k ties df = ColumnNotFound.
Proof.
  intro N. unfold calculate_ndcg. destruct (member "example_id" columns); [|easy]. destruct (member group_col columns); [|easy]. cbn [negb].
  apply String.eqb_neq in N. now rewrite N.
Qed.
Lemma k_zero ties df : calculate_ndcg columns key rel score sort "example_id" (Some 0%Z) ties df =
  calculate_ndcg columns key rel score sort "example_id" None ties df.
Proof. reflexivity. Qed.
End F.

(** A sort that satisfies the assumption: selection of the rows of every group in descending order. *)
Section Sort.
Context {row : Type} (group : row -> Z).
Fixpoint ins (c : row -> R) (a : row) (l : list row) : list row :=
  match l with [] => [a] | b :: l' => if Rle_dec (c b) (c a) then a :: l else b :: ins c a l' end.
Definition isort (c : row -> R) (l : list row) : list row := fold_right (ins c) [] l.
Lemma ins_perm c a l : Permutation (ins c a l) (a :: l).
Proof. induction l as [|b l IH]; cbn; [easy|]. destruct (Rle_dec _ _); [easy|]. rewrite IH. apply perm_swap. Qed.
Lemma isort_ok : sorts_desc group isort.
Proof.
  intros c df. split.
  - induction df as [|a df IH]; cbn; [easy|]. now rewrite ins_perm, IH.
  - intro g. assert (S : StronglySorted (fun a b => c b <= c a) (isort c df)).
    { induction df as [|a df IH]; cbn; [constructor|]. change (fold_right (ins c) [] df) with (isort c df). revert IH. generalize (isort c df). clear.
      induction l as [|b l IH]; intro H; cbn; [repeat constructor|]. inversion H as [|? ? H1 H2]; subst. destruct (Rle_dec _ _) as [L|L].
      - constructor; [exact H|]. constructor; [exact L|]. eapply Forall_impl; [|exact H2]. cbn. intros. lra.
      - constructor; [now apply IH|]. apply (Permutation_Forall (Permutation_sym (ins_perm c a l))). constructor; [lra|exact H2]. }
    apply (filter_sorted _ (fun r => Z.eqb (group r) g)) in S. clear - S. unfold descending. induction S as [|a l S IH F]; cbn; constructor; [exact IH|].
    apply Forall_map. exact F.
Qed.
End Sort.

Definition isort2 {row} (c : row -> R) (l : list row) : list row := isort c (rev l).
Lemma isort2_ok {row} (group : row -> Z) : sorts_desc group isort2.
Proof.
  intros c df. destruct (isort_ok group c (rev df)) as [P D]. split; [|exact D]. unfold isort2. rewrite P. symmetry. apply Permutation_rev.
Qed.
Definition demo_key (c : string) (r : bool) : Z := 0%Z.
Definition demo_rel (r : bool) : R := if r then 1 else 0.
Definition demo_score (r : bool) : R := 0.
Lemma tie_order_thm : exists (sort1 sort2 : (bool -> R) -> list bool -> list bool) v,
  sorts_desc (demo_key "example_id") sort1 /\ sorts_desc (demo_key "example_id") sort2 /\
  calculate_ndcg ["example_id"] demo_key demo_rel demo_score sort1 "example_id" None false [false; true] = MeanNdcg (Some 1) /\
  calculate_ndcg ["example_id"] demo_key demo_rel demo_score sort2 "example_id" None false [false; true] = MeanNdcg (Some v) /\ v < 1.
Proof.
  assert (L2 : 0 < ln 2) by (rewrite <- ln_1; apply ln_increasing; lra).
  assert (L3 : ln 2 < ln 3) by (apply ln_increasing; lra).
  exists isort2, isort, (ln 2 / ln 3). split; [apply isort2_ok|]. split; [apply isort_ok|].
  assert (EI : isort demo_rel [false; true] = [true; false]).
  { cbn. destruct (Rle_dec 1 0); [lra|reflexivity]. }
  assert (EI2 : isort2 demo_rel [false; true] = [true; false]).
  { cbn. destruct (Rle_dec 0 1); [reflexivity|lra]. }
  assert (ES : isort demo_score [false; true] = [false; true]).
  { cbn. unfold demo_score. destruct (Rle_dec 0 0); [reflexivity|lra]. }
  assert (ES2 : isort2 demo_score [false; true] = [true; false]).
  { cbn. unfold demo_score. destruct (Rle_dec 0 0); [reflexivity|lra]. }
  assert (G : forall l, of_group demo_key "example_id" 0 l = l).
  { intro l. unfold of_group. induction l; cbn; [reflexivity|]. now f_equal. }
  assert (P1 : dcg_plain demo_rel None [true; false] = 1).
  { rewrite plain_spec. unfold dcg_of, topk. cbn [map dcg_from demo_rel gain_weight]. replace (INR (2 + 1)) with 3 by (cbn; lra). change (INR (1 + 1)) with 2. field. split; lra. }
  assert (P2 : dcg_plain demo_rel None [false; true] = ln 2 / ln 3).
  { rewrite plain_spec. unfold dcg_of, topk. cbn [map dcg_from demo_rel gain_weight]. replace (INR (2 + 1)) with 3 by (cbn; lra). change (INR (1 + 1)) with 2. field. split; lra. }
  assert (V : forall s, calculate_ndcg ["example_id"] demo_key demo_rel demo_score s "example_id" None false [false; true] =
     MeanNdcg (Some (mean_of [group_ndcg demo_key demo_rel demo_score s "example_id" None false [false; true] 0%Z]))) by reflexivity.
  assert (M : forall x, mean_of [x] = x) by (intro x; unfold mean_of; cbn; field).
  rewrite !V, !M. unfold group_ndcg. rewrite !G, EI, EI2, ES, ES2, P1, P2. unfold ratio. destruct (Req_EM_T 1 0); [lra|].
  split; [do 2 f_equal; field|]. split; [do 2 f_equal; field; lra|]. apply (Rmult_lt_reg_r (ln 3)); [lra|]. unfold Rdiv. rewrite Rmult_assoc, Rinv_l; lra.
Qed.
