From Coq Require Import List Arith Bool Reals Lia Lra Permutation.
From Verif Require Import StrSetSpec StrSetModel.
Import ListNotations.

Lemma card_unique P k k' : card P k -> card P k' -> k = k'.
Proof.
  intros (l & N & I & <-) (l' & N' & I' & <-).
  apply Permutation_length. apply NoDup_Permutation; auto. intro x. rewrite I, I'. tauto.
Qed.

Lemma card_ext P Q k : (forall g, P g <-> Q g) -> card P k -> card Q k.
Proof. intros E (l & N & I & L). exists l; repeat split; auto; intro X. apply E, I, X. apply I, E, X. Qed.

Lemma in_windows n w g : 1 <= n -> n <= length w ->
  In g (windows n w) <-> (length g = n /\ exists b a, w = b ++ g ++ a).
Proof.
  intros Hn L. unfold windows. rewrite in_map_iff. split.
  - intros (i & <- & Hi). apply in_seq in Hi. split.
    + rewrite firstn_length, skipn_length. lia.
    + exists (firstn i w), (skipn n (skipn i w)). rewrite firstn_skipn. now rewrite firstn_skipn.
  - intros (Lg & b & a & ->). exists (length b). split.
    + rewrite skipn_app, skipn_all, Nat.sub_diag; cbn.
      rewrite firstn_app, <- Lg, firstn_all, Nat.sub_diag; cbn. apply app_nil_r.
    + apply in_seq. rewrite !app_length. lia.
Qed.

Lemma gram_set_spec w n : 1 <= n ->
  exists s, gram_set w n = Some s /\ NoDup s /\ (forall g, In g s <-> gram n w g) /\ 1 <= length s.
Proof.
  intro Hn. unfold gram_set, gram. destruct (Nat.ltb_spec (length w) n) as [L|L].
  - exists (hashset [w]). repeat split.
    + apply NoDup_nodup.
    + intro H. apply nodup_In in H. destruct H as [H|[]]; auto.
    + intro H. apply nodup_In. left; auto.
    + unfold hashset; cbn. auto.
  - destruct (Nat.eqb_spec n 0); [lia|]. exists (hashset (windows n w)).
    assert (I : forall g, In g (hashset (windows n w)) <-> (length g = n /\ exists b a, w = b ++ g ++ a))
      by (intro g; unfold hashset; rewrite nodup_In; apply in_windows; auto).
    split; [reflexivity|]. split; [apply NoDup_nodup|]. split; [exact I|].
    destruct (hashset (windows n w)) as [|x s] eqn:E; [|cbn; lia].
    assert (In (firstn n w) []) as []. apply I. rewrite firstn_length. split; [lia|].
    exists [], (skipn n w). cbn. now rewrite firstn_skipn.
Qed.

(** The helper returns the cardinalities. *)
Lemma helper_spec w1 w2 n : 1 <= n -> w1 <> [] -> w2 <> [] ->
  exists a b i, str_set_sim_helper w1 w2 n = Some (a, b, i) /\
    card (gram n w1) a /\ card (gram n w2) b /\
    card (fun g => gram n w1 g /\ gram n w2 g) i /\
    card (fun g => gram n w1 g \/ gram n w2 g) (a + b - i) /\
    card (fun g => gram n w1 g /\ ~ gram n w2 g) (a - i) /\
    card (fun g => gram n w2 g /\ ~ gram n w1 g) (b - i) /\
    i <= a /\ i <= b /\ 1 <= a /\ 1 <= b.
Proof.
  intros Hn H1 H2. unfold str_set_sim_helper.
  destruct (Nat.eqb_spec (length w1) 0) as [E|_]; [destruct w1; cbn in E; congruence|].
  destruct (Nat.eqb_spec (length w2) 0) as [E|_]; [destruct w2; cbn in E; congruence|]. cbn [orb].
  destruct (gram_set_spec w1 n Hn) as (s1 & -> & N1 & I1 & P1).
  destruct (gram_set_spec w2 n Hn) as (s2 & -> & N2 & I2 & P2).
  set (f := fun g : bytes => if in_dec (list_eq_dec Nat.eq_dec) g s2 then true else false).
  set (f1 := fun g : bytes => if in_dec (list_eq_dec Nat.eq_dec) g s1 then true else false).
  assert (Ff : forall g, f g = true <-> In g s2)
    by (intro g; unfold f; destruct in_dec; split; auto; discriminate).
  assert (Ff1 : forall g, f1 g = true <-> In g s1)
    by (intro g; unfold f1; destruct in_dec; split; auto; discriminate).
  assert (Part : forall (h : bytes -> bool) l, length (filter h l) + length (filter (fun x => negb (h x)) l) = length l).
  { intros h l; induction l as [|x l IH]; cbn; auto. destruct (h x); cbn; lia. }
  assert (Sw : length (filter f s1) = length (filter f1 s2)).
  { apply Permutation_length, NoDup_Permutation; try (apply NoDup_filter; auto).
    intro x. rewrite !filter_In, Ff, Ff1. tauto. }
  pose proof (Part f s1) as A. pose proof (Part f1 s2) as B.
  exists (length s1), (length s2), (length (filter f s1)).
  split; [reflexivity|]. split; [exists s1; auto|]. split; [exists s2; auto|].
  split; [|split; [|split; [|split]]].
  - exists (filter f s1). split; [apply NoDup_filter; auto|]. split; [|reflexivity].
    intro g. now rewrite filter_In, Ff, I1, I2.
  - exists (s1 ++ filter (fun x => negb (f1 x)) s2). split; [|split].
    + assert (Hdis : forall g, In g s1 -> In g (filter (fun x => negb (f1 x)) s2) -> False).
      { intros g G1 G2. apply filter_In in G2 as [_ G2]. apply Ff1 in G1. now rewrite G1 in G2. }
      assert (ND : forall l l' : list bytes, NoDup l -> NoDup l' -> (forall g, In g l -> In g l' -> False) -> NoDup (l ++ l')).
      { intros l l' K K' Hd. induction K as [|x l Hx K IH]; cbn; auto. constructor.
        - rewrite in_app_iff. intros [Q|Q]; [auto|]. eapply Hd; [left; reflexivity|exact Q].
        - apply IH. intros g G1 G2. eapply Hd; [right; exact G1|exact G2]. }
      apply ND; auto. apply NoDup_filter; auto.
    + intro g. rewrite in_app_iff, filter_In, I1, I2, negb_true_iff. split; [tauto|].
      intros [K|K]; [auto|]. destruct (f1 g) eqn:F; [left; apply I1, Ff1, F|right; auto].
    + rewrite app_length. lia.
  - exists (filter (fun x => negb (f x)) s1). split; [apply NoDup_filter; auto|]. split; [|lia].
    intro g. rewrite filter_In, negb_true_iff, I1. rewrite <- I2, <- Ff. destruct (f g); intuition discriminate.
  - exists (filter (fun x => negb (f1 x)) s2). split; [apply NoDup_filter; auto|]. split; [|lia].
    intro g. rewrite filter_In, negb_true_iff, I2. rewrite <- I1, <- Ff1. destruct (f1 g); intuition discriminate.
  - repeat split; lia.
Qed.

Lemma fdiv_val a b : b <> 0%R -> fdiv a b = Val (a / b).
Proof. intro H. unfold fdiv. destruct Req_EM_T; tauto. Qed.

Lemma INR_nz k : 1 <= k -> INR k <> 0%R.
Proof. intro H. apply not_0_INR. lia. Qed.

Section Words.
Variables (w1 w2 : bytes) (n : nat).
Hypotheses (Hn : 1 <= n) (H1 : w1 <> []) (H2 : w2 <> []).

Lemma jaccard_card i u :
  card (fun g => gram n w1 g /\ gram n w2 g) i -> card (fun g => gram n w1 g \/ gram n w2 g) u ->
  str_jaccard w1 w2 n = Val (INR i / INR u).
Proof.
  intros Ci Cu. destruct (helper_spec w1 w2 n Hn H1 H2) as (a & b & i' & E & Ca & Cb & Ci' & Cu' & _ & _ & L1 & L2 & P1 & P2).
  unfold str_jaccard. rewrite E. rewrite (card_unique _ _ _ Ci Ci'), (card_unique _ _ _ Cu Cu').
  apply fdiv_val, INR_nz. lia.
Qed.

Lemma dice_card a b i :
  card (gram n w1) a -> card (gram n w2) b -> card (fun g => gram n w1 g /\ gram n w2 g) i ->
  sorensen_dice w1 w2 n = Val (2 * INR i / (INR a + INR b)).
Proof.
  intros Ca0 Cb0 Ci. destruct (helper_spec w1 w2 n Hn H1 H2) as (a' & b' & i' & E & Ca & Cb & Ci' & _ & _ & _ & L1 & L2 & P1 & P2).
  unfold sorensen_dice. rewrite E. rewrite (card_unique _ _ _ Ci Ci'), (card_unique _ _ _ Ca0 Ca), (card_unique _ _ _ Cb0 Cb).
  rewrite fdiv_val by (apply INR_nz; lia). now rewrite mult_INR, plus_INR.
Qed.

Lemma overlap_card a b i :
  card (gram n w1) a -> card (gram n w2) b -> card (fun g => gram n w1 g /\ gram n w2 g) i ->
  overlap_coeff w1 w2 n = Val (INR i / Rmin (INR a) (INR b)).
Proof.
  intros Ca0 Cb0 Ci. destruct (helper_spec w1 w2 n Hn H1 H2) as (a' & b' & i' & E & Ca & Cb & Ci' & _ & _ & _ & L1 & L2 & P1 & P2).
  unfold overlap_coeff. rewrite E. rewrite (card_unique _ _ _ Ci Ci'), (card_unique _ _ _ Ca0 Ca), (card_unique _ _ _ Cb0 Cb).
  rewrite fdiv_val by (apply INR_nz; lia). f_equal. f_equal.
  destruct (Nat.le_ge_cases a' b') as [K|K].
  - rewrite Nat.min_l, Rmin_left; auto. now apply le_INR.
  - rewrite Nat.min_r, Rmin_right; auto. now apply le_INR.
Qed.

Lemma tversky_card alpha beta i d e :
  card (fun g => gram n w1 g /\ gram n w2 g) i ->
  card (fun g => gram n w1 g /\ ~ gram n w2 g) d -> card (fun g => gram n w2 g /\ ~ gram n w1 g) e ->
  tversky_sim w1 w2 n alpha beta = fdiv (INR i) (INR i + alpha * INR d + beta * INR e).
Proof.
  intros Ci Cd Ce. destruct (helper_spec w1 w2 n Hn H1 H2) as (a' & b' & i' & E & Ca & Cb & Ci' & _ & Cd' & Ce' & L1 & L2 & P1 & P2).
  unfold tversky_sim. rewrite E. rewrite (card_unique _ _ _ Ci Ci'), (card_unique _ _ _ Cd Cd'), (card_unique _ _ _ Ce Ce').
  unfold abs_diff. now rewrite (proj2 (Nat.sub_0_le i' a') L1), (proj2 (Nat.sub_0_le i' b') L2), !Nat.add_0_r.
Qed.

Lemma ratio01 a b : (0 <= a -> a <= b -> 0 < b -> 0 <= a / b <= 1)%R.
Proof.
  intros A B P. split.
  - apply Rmult_le_pos; auto. left. now apply Rinv_0_lt_compat.
  - apply Rmult_le_reg_r with b; auto. unfold Rdiv. rewrite Rmult_assoc, Rinv_l by lra. lra.
Qed.

Lemma sims_range alpha beta : (0 <= alpha)%R -> (0 <= beta)%R ->
  (exists r, str_jaccard w1 w2 n = Val r /\ 0 <= r <= 1)%R /\
  (exists r, sorensen_dice w1 w2 n = Val r /\ 0 <= r <= 1)%R /\
  (exists r, overlap_coeff w1 w2 n = Val r /\ 0 <= r <= 1)%R /\
  ((0 < alpha)%R -> (0 < beta)%R -> exists r, tversky_sim w1 w2 n alpha beta = Val r /\ 0 <= r <= 1)%R.
Proof.
  intros Ha Hb. destruct (helper_spec w1 w2 n Hn H1 H2) as (a & b & i & E & _ & _ & _ & _ & _ & _ & L1 & L2 & P1 & P2).
  unfold str_jaccard, sorensen_dice, overlap_coeff, tversky_sim. rewrite E.
  repeat split.
  - rewrite fdiv_val by (apply INR_nz; lia). eexists; split; [reflexivity|].
    apply ratio01; [apply pos_INR|apply le_INR; lia|apply lt_0_INR; lia].
  - rewrite fdiv_val by (apply INR_nz; lia). eexists; split; [reflexivity|].
    apply ratio01; [apply pos_INR|apply le_INR; lia|apply lt_0_INR; lia].
  - rewrite fdiv_val by (apply INR_nz; lia). eexists; split; [reflexivity|].
    apply ratio01; [apply pos_INR|apply le_INR; lia|apply lt_0_INR; lia].
  - intros Pa Pb.
    assert (X : (0 <= alpha * INR (abs_diff a i))%R) by (apply Rmult_le_pos; [lra|apply pos_INR]).
    assert (Y : (0 <= beta * INR (abs_diff b i))%R) by (apply Rmult_le_pos; [lra|apply pos_INR]).
    assert (Z : (0 < INR i + alpha * INR (abs_diff a i) + beta * INR (abs_diff b i))%R).
    { destruct i as [|i].
      - assert (0 < alpha * INR (abs_diff a 0))%R by (apply Rmult_lt_0_compat; [lra|apply lt_0_INR; unfold abs_diff; lia]).
        cbn [INR]. lra.
      - assert (0 < INR (S i))%R by (apply lt_0_INR; lia). lra. }
    rewrite fdiv_val by lra. eexists; split; [reflexivity|].
    apply ratio01; [apply pos_INR|lra|lra].
Qed.

Lemma dice_jaccard : exists j d, str_jaccard w1 w2 n = Val j /\ sorensen_dice w1 w2 n = Val d /\ (j = d / (2 - d))%R.
Proof.
  destruct (helper_spec w1 w2 n Hn H1 H2) as (a & b & i & E & _ & _ & _ & _ & _ & _ & L1 & L2 & P1 & P2).
  unfold str_jaccard, sorensen_dice. rewrite E.
  rewrite !fdiv_val by (apply INR_nz; lia). do 2 eexists; split; [reflexivity|split; [reflexivity|]].
  rewrite minus_INR by lia. rewrite mult_INR, plus_INR.
  assert (A : (1 <= INR a)%R) by (apply (le_INR 1); lia). assert (B : (1 <= INR b)%R) by (apply (le_INR 1); lia).
  assert (Ia : (INR i <= INR a)%R) by (apply le_INR; lia). assert (Ib : (INR i <= INR b)%R) by (apply le_INR; lia).
  change (INR 2) with 2%R. field. split; lra.
Qed.

Lemma tversky_jaccard : tversky_sim w1 w2 n 1 1 = str_jaccard w1 w2 n.
Proof.
  destruct (helper_spec w1 w2 n Hn H1 H2) as (a & b & i & E & _ & _ & _ & _ & _ & _ & L1 & L2 & P1 & P2).
  unfold str_jaccard, tversky_sim. rewrite E. f_equal. rewrite !Rmult_1_l, <- !plus_INR. f_equal. unfold abs_diff; lia.
Qed.

Lemma tversky_dice : tversky_sim w1 w2 n (1/2) (1/2) = sorensen_dice w1 w2 n.
Proof.
  destruct (helper_spec w1 w2 n Hn H1 H2) as (a & b & i & E & _ & _ & _ & _ & _ & _ & L1 & L2 & P1 & P2).
  unfold sorensen_dice, tversky_sim. rewrite E.
  assert (X : (INR i + 1 / 2 * INR (abs_diff a i) + 1 / 2 * INR (abs_diff b i) = INR (a + b) / 2)%R).
  { unfold abs_diff. replace (i - a) with 0 by lia. replace (i - b) with 0 by lia. rewrite !Nat.add_0_r.
    rewrite !minus_INR, plus_INR by lia. field. }
  rewrite X. assert (P : INR (a + b) <> 0%R) by (apply INR_nz; lia).
  rewrite !fdiv_val; auto; [|lra]. f_equal. rewrite mult_INR. change (INR 2) with 2%R. field; auto.
Qed.
End Words.

Lemma jaccard_one w1 w2 n : 1 <= n -> w1 <> [] -> w2 <> [] ->
  (str_jaccard w1 w2 n = Val 1 <-> forall g, gram n w1 g <-> gram n w2 g).
Proof.
  intros Hn H1 H2.
  destruct (helper_spec w1 w2 n Hn H1 H2) as (a & b & i & E & Ca & Cb & Ci & Cu & Cd & Ce & L1 & L2 & P1 & P2).
  rewrite (jaccard_card w1 w2 n Hn H1 H2 _ _ Ci Cu). split.
  - intro X. injection X as X.
    assert (Hu : INR (a + b - i) <> 0%R) by (apply INR_nz; lia).
    assert (Y : INR i = INR (a + b - i)).
    { transitivity (INR i / INR (a + b - i) * INR (a + b - i))%R; [field; auto|rewrite X; ring]. }
    apply INR_eq in Y. assert (a - i = 0) as Da by lia. assert (b - i = 0) as Db by lia.
    rewrite Da in Cd. rewrite Db in Ce. destruct Ci as (li & _ & Ii & Li).
    destruct Ca as (la & Na & Ia & La), Cb as (lb & Nb & Ib & Lb).
    assert (Nli : NoDup li \/ True) by auto.
    destruct Cd as (ld & _ & Id & Ld), Ce as (le & _ & Ie & Le).
    destruct ld; [|cbn in Ld; lia]. destruct le; [|cbn in Le; lia].
    intro g. rewrite <- Ia, <- Ib. split; intro G.
    + destruct (in_dec (list_eq_dec Nat.eq_dec) g lb); auto. exfalso. apply (Id g). rewrite <- Ia, <- Ib. auto.
    + destruct (in_dec (list_eq_dec Nat.eq_dec) g la); auto. exfalso. apply (Ie g). rewrite <- Ia, <- Ib. auto.
  - intro G. assert (i = a) as ->. { eapply card_unique; [exact Ci|]. eapply card_ext; [|exact Ca]. intro g. rewrite (G g). tauto. }
    assert (a = b) as ->. { eapply card_unique; [exact Ca|]. eapply card_ext; [|exact Cb]. intro g. rewrite (G g). tauto. }
    replace (b + b - b) with b by lia. f_equal. apply Rinv_r, INR_nz; auto.
Qed.

Lemma sims_self w n alpha beta : 1 <= n -> w <> [] ->
  str_jaccard w w n = Val 1 /\ sorensen_dice w w n = Val 1 /\ overlap_coeff w w n = Val 1 /\ tversky_sim w w n alpha beta = Val 1.
Proof.
  intros Hn H1.
  destruct (helper_spec w w n Hn H1 H1) as (a & b & i & E & Ca & Cb & Ci & _ & _ & _ & L1 & L2 & P1 & P2).
  assert (i = a) as ->. { eapply card_unique; [exact Ci|]. eapply card_ext; [|exact Ca]. intro g. tauto. }
  assert (b = a) as -> by (eapply card_unique; eauto).
  assert (Q : INR a <> 0%R) by (apply INR_nz; auto).
  unfold str_jaccard, sorensen_dice, overlap_coeff, tversky_sim. rewrite E. repeat split.
  - replace (a + a - a) with a by lia. rewrite fdiv_val; auto. f_equal. field; auto.
  - replace (a + a) with (2 * a) by lia. rewrite fdiv_val by (apply INR_nz; lia). f_equal. field. apply INR_nz; lia.
  - rewrite Nat.min_id, fdiv_val; auto. f_equal. field; auto.
  - unfold abs_diff. rewrite Nat.sub_diag. cbn [Nat.add INR]. rewrite !Rmult_0_r, !Rplus_0_r, fdiv_val; auto. f_equal; field; auto.
Qed.

Lemma helper_swap w1 w2 n : match str_set_sim_helper w1 w2 n with
  | None => str_set_sim_helper w2 w1 n = None
  | Some (a, b, i) => str_set_sim_helper w2 w1 n = Some (b, a, i) end.
Proof.
  unfold str_set_sim_helper. rewrite (orb_comm (length w2 =? 0)).
  destruct ((length w1 =? 0) || (length w2 =? 0)); [reflexivity|].
  destruct (gram_set w1 n) as [s1|] eqn:E1, (gram_set w2 n) as [s2|] eqn:E2; auto.
  assert (ND : forall w s, gram_set w n = Some s -> NoDup s).
  { intros w s. unfold gram_set. destruct (length w <? n); [|destruct (n =? 0)]; intro X; try discriminate;
      [assert (s = hashset [w]) as -> by congruence|assert (s = hashset (windows n w)) as -> by congruence]; apply NoDup_nodup. }
  apply (f_equal (fun k => Some (length s2, length s1, k))). apply Permutation_length, NoDup_Permutation;
    try (apply NoDup_filter; eapply ND; eauto).
  intro x. rewrite !filter_In. destruct (in_dec (list_eq_dec Nat.eq_dec) x s1), (in_dec (list_eq_dec Nat.eq_dec) x s2); intuition discriminate.
Qed.

Lemma sims_symm w1 w2 n alpha beta :
  str_jaccard w1 w2 n = str_jaccard w2 w1 n /\ sorensen_dice w1 w2 n = sorensen_dice w2 w1 n /\
  overlap_coeff w1 w2 n = overlap_coeff w2 w1 n /\
  tversky_sim w1 w2 n alpha beta = tversky_sim w2 w1 n beta alpha.
Proof.
  unfold str_jaccard, sorensen_dice, overlap_coeff, tversky_sim. pose proof (helper_swap w1 w2 n) as H.
  destruct (str_set_sim_helper w1 w2 n) as [[[a b] i]|]; rewrite H; auto.
  rewrite (Nat.add_comm b a), (Nat.min_comm b a). repeat split.
  f_equal. ring.
Qed.

Lemma sims_empty w n alpha beta :
  str_jaccard [] w n = NaN /\ sorensen_dice [] w n = NaN /\ overlap_coeff [] w n = NaN /\
  tversky_sim [] w n alpha beta = NaN.
Proof.
  assert (Z : forall a b, b = 0%R -> fdiv a b = NaN) by (intros a b ->; unfold fdiv; destruct Req_EM_T; congruence).
  unfold str_jaccard, sorensen_dice, overlap_coeff, tversky_sim, str_set_sim_helper. cbn.
  repeat split; apply Z; unfold abs_diff; cbn; ring.
Qed.
