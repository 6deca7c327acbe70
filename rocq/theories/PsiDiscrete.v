From Coq Require Import Bool List ZArith Reals Lia Lra Arith Permutation.
From Verif Require Import PairSums MwProofs RocProofs PsiModel PsiSpec PsiProofs.
Import ListNotations.
Open Scope Z_scope.

Section D.
Context {K : Type} (dec : forall a b : K, {a = b} + {a <> b}).
Lemma oeq_eq a b : oeq dec a b = true <-> a = b.
Proof. destruct a as [a|], b as [b|]; cbn; try (split; congruence). destruct (dec a b); split; congruence. Qed.
Lemma okey_eq a b : okey dec a b = true <-> a = b /\ a <> None.
Proof. destruct a as [a|], b as [b|]; cbn; try (split; [discriminate|intros []; congruence]). destruct (dec a b); split; try congruence; [intros _; split; congruence|intros [? ?]; congruence]. Qed.
Lemma distinct_in l c : In c (distinct dec l) <-> In c l.
Proof.
  induction l as [|a l IH]; cbn; [reflexivity|]. destruct (existsb (oeq dec a) l) eqn:E; cbn; rewrite IH; [|reflexivity].
  split; [now right|]. intros [<-|H]; [|exact H]. apply existsb_exists in E. destruct E as (x & Hx & E). apply oeq_eq in E. now subst x.
Qed.
Lemma distinct_nodup l : NoDup (distinct dec l).
Proof.
  induction l as [|a l IH]; cbn; [constructor|]. destruct (existsb (oeq dec a) l) eqn:E; [exact IH|]. constructor; [|exact IH].
  rewrite distinct_in. intros H. assert (X : existsb (oeq dec a) l = true) by (apply existsb_exists; exists a; split; [exact H|now apply oeq_eq]). congruence.
Qed.
Definition cnt (l : list (option K)) (c : option K) : Z := zlen (filter (oeq dec c) l).
Lemma cnt_zero l c : ~ In c l -> cnt l c = 0.
Proof.
  unfold cnt. induction l as [|a l IH]; intros H; [reflexivity|]. cbn [filter]. destruct (oeq dec c a) eqn:E.
  - apply oeq_eq in E. subst. exfalso. apply H. now left.
  - apply IH. intros H'. apply H. now right.
Qed.
Lemma cnt_sum l cats : NoDup cats -> (forall c, In c l -> In c cats) -> zsum (cnt l) cats = zlen l.
Proof.
  intros ND. induction l as [|a l IH]; intros H.
  - clear. unfold cnt. cbn. induction cats; cbn; auto.
  - assert (E : zsum (cnt (a :: l)) cats = zsum (fun c => b2z (oeq dec c a)) cats + zsum (cnt l) cats).
    { rewrite <- zsum_add. apply zsum_ext. intros c _. unfold cnt, zlen. cbn [filter]. destruct (oeq dec c a); cbn [length b2z]; lia. }
    rewrite E, IH by (intros c Hc; apply H; now right).
    assert (O : zsum (fun c => b2z (oeq dec c a)) cats = 1).
    { specialize (H a (or_introl eq_refl)). clear - ND H. induction ND as [|c cats N ND IH]; [destruct H|].
      unfold zsum in *. cbn [fold_right]. destruct H as [<-|H].
      - assert (Z0 : fold_right (fun x acc => b2z (oeq dec x c) + acc) 0 cats = 0).
        { clear - N dec. induction cats as [|d cats IH]; [reflexivity|]. cbn [fold_right]. rewrite IH by (intros X; apply N; now right).
          destruct (oeq dec d c) eqn:E; [|reflexivity]. apply oeq_eq in E. subst. exfalso. apply N. now left. }
        rewrite Z0. rewrite (proj2 (oeq_eq c c) eq_refl). reflexivity.
      - rewrite (IH H). destruct (oeq dec c a) eqn:E; [apply oeq_eq in E; subst; contradiction|reflexivity]. }
    rewrite O. unfold zlen. cbn [length]. lia.
Qed.

Section J.
Variables new base : list (option K).
Hypothesis OneSide : ~ (In None new /\ In None base).
Definition memb (c : option K) (l : list (option K)) : option (option K) := if existsb (oeq dec c) l then Some c else None.
Definition row_of (c : option K) : drow (K := K) := mkd (memb c base) (memb c new) (cnt base c) (cnt new c).
Definition cats : list (option K) := distinct dec new ++ filter (fun c => negb (existsb (oeq dec c) new)) (distinct dec base).

Lemma memb_in c l : In c l -> memb c l = Some c.
Proof. intros H. unfold memb. assert (X : existsb (oeq dec c) l = true) by (apply existsb_exists; exists c; split; [exact H|now apply oeq_eq]). now rewrite X. Qed.
Lemma memb_out c l : ~ In c l -> memb c l = None.
Proof. intros H. unfold memb. destruct (existsb (oeq dec c) l) eqn:E; [|reflexivity]. apply existsb_exists in E. destruct E as (x & Hx & E). apply oeq_eq in E. now subst. Qed.
Lemma exb_in c l : existsb (oeq dec c) l = true <-> In c l.
Proof.
  rewrite existsb_exists. split; [intros (x & Hx & E); apply oeq_eq in E; now subst|]. intros H. exists c. split; [exact H|now apply oeq_eq].
Qed.
Lemma cats_in c : In c cats <-> In c base \/ In c new.
Proof.
  unfold cats. rewrite in_app_iff, filter_In, !distinct_in, negb_true_iff. destruct (existsb (oeq dec c) new) eqn:E.
  - apply exb_in in E. intuition.
  - assert (~ In c new) by (intros H; apply exb_in in H; congruence). intuition.
Qed.
Lemma cats_nodup : NoDup cats.
Proof.
  unfold cats. assert (G : forall l m : list (option K), NoDup l -> NoDup m -> (forall x, In x l -> ~ In x m) -> NoDup (l ++ m)).
  { induction l as [|a l IH]; intros m Hl Hm D; [exact Hm|]. inversion Hl; subst. cbn. constructor.
    - rewrite in_app_iff. intros [H'|H']; [contradiction|]. apply (D a); [now left|exact H'].
    - apply IH; auto. intros x Hx. apply D. now right. }
  apply G; [apply distinct_nodup|apply NoDup_filter, distinct_nodup|].
  intros x Hx Hf. apply filter_In in Hf. destruct Hf as [_ Hf]. apply negb_true_iff in Hf. rewrite distinct_in in Hx. apply exb_in in Hx. congruence.
Qed.

Lemma match_base a l : NoDup l ->
  filter (fun b => okey dec a (fst b)) (map (fun v => (v, cnt base v)) l) =
  if existsb (okey dec a) l then [(a, cnt base a)] else [].
Proof.
  induction 1 as [|b l N ND IH]; [reflexivity|]. cbn [map filter existsb fst].
  destruct (okey dec a b) eqn:E; cbn [orb]; [|exact IH].
  apply okey_eq in E. destruct E as [<- Na]. rewrite IH.
  assert (X : existsb (okey dec a) l = false).
  { destruct (existsb (okey dec a) l) eqn:E; [|reflexivity]. apply existsb_exists in E. destruct E as (x & Hx & E). apply okey_eq in E. destruct E as [<- _]. contradiction. }
  now rewrite X.
Qed.
Lemma okey_mem c (l : list (option K)) : existsb (okey dec c) l = true <-> In c l /\ c <> None.
Proof.
  rewrite existsb_exists. split; [intros (x & Hx & E); apply okey_eq in E; destruct E as [<- N]; auto|]. intros [H N]. exists c. split; [exact H|now apply okey_eq].
Qed.
Lemma join_rows : full_join dec (value_counts dec new) (value_counts dec base) = map row_of cats.
Proof.
  unfold full_join, cats, value_counts. fold (cnt new) (cnt base). rewrite map_app. f_equal.
  - change (fun v : option K => (v, zlen (filter (oeq dec v) base))) with (fun v => (v, cnt base v)).
    change (fun v : option K => (v, zlen (filter (oeq dec v) new))) with (fun v => (v, cnt new v)).
    match goal with |- flat_map ?f _ = _ => set (F := f) end.
    assert (In1 : forall c, In c (distinct dec new) -> In c new) by (intros c; apply distinct_in). revert In1. generalize (distinct dec new) as l.
    induction l as [|c l IH]; intros In1; [reflexivity|]. cbn [map flat_map]. rewrite IH by (intros x Hx; apply In1; now right).
    enough (X0 : F (c, cnt new c) = [row_of c]) by now rewrite X0.
    unfold F. rewrite (match_base (fst (c, cnt new c)) (distinct dec base) (distinct_nodup base)). cbn [fst snd].
    assert (Hc : In c new) by (apply In1; now left).
    destruct (existsb (okey dec c) (distinct dec base)) eqn:E.
    + apply okey_mem in E. rewrite distinct_in in E. destruct E as [Hb _]. cbn [map fst snd app]. f_equal. unfold row_of. now rewrite !memb_in.
    + assert (Nb : ~ In c base).
      { intros Hb. destruct c as [c|]; [|now apply OneSide]. assert (X : existsb (okey dec (Some c)) (distinct dec base) = true) by (apply okey_mem; rewrite distinct_in; split; [exact Hb|discriminate]). congruence. }
      cbn [app]. f_equal. unfold row_of. rewrite (memb_in c new Hc), (memb_out c base Nb), (cnt_zero base c Nb). reflexivity.
  - rewrite filter_map, map_map. assert (E : forall c, In c (distinct dec base) ->
      negb (existsb (fun a => okey dec (fst a) (fst (c, zlen (filter (oeq dec c) base)))) (map (fun v => (v, zlen (filter (oeq dec v) new))) (distinct dec new))) =
      negb (existsb (oeq dec c) new)).
    { intros c Hc. rewrite distinct_in in Hc. f_equal. rewrite existsb_map. cbn [fst]. apply eq_true_iff_eq. rewrite exb_in, existsb_exists. split.
      - intros (x & Hx & E). apply okey_eq in E. destruct E as [-> _]. now rewrite distinct_in in Hx.
      - intros Hn. exists c. rewrite distinct_in. split; [exact Hn|]. apply okey_eq. split; [reflexivity|]. intros ->. now apply OneSide. }
    rewrite (filter_ext_in _ _ _ E). apply map_ext_in. intros c Hc. apply filter_In in Hc. destruct Hc as [Hb Hn]. rewrite distinct_in in Hb. cbn [fst snd].
    assert (Nn : ~ In c new) by (intros X; apply exb_in in X; rewrite X in Hn; discriminate).
    unfold row_of. rewrite (memb_in c base Hb), (memb_out c new Nn), (cnt_zero new c Nn). reflexivity.
Qed.

Definition discrete_row (c : option K) : psi_row (drow (K := K)) :=
  let b := share (cnt base c) (zlen base) in let a := share (cnt new c) (zlen new) in
  mkpsi (row_of c) (Some b) (Some a) (Some (contribution b a)).
Theorem discrete_ok : new <> [] -> base <> [] -> psi_discrete dec new base = map discrete_row cats.
Proof.
  intros Nn Nb. unfold psi_discrete. rewrite join_rows.
  assert (NZ : forall s : list (option K), s <> [] -> zlen s <> 0) by (intros [|? ?] H; [congruence|unfold zlen; cbn [length]; lia]).
  unfold psi_frame. rewrite !map_map, !zsum_map_id.
  assert (T1 : zsum (fun x => d_bcnt (row_of x)) cats = zlen base) by (apply cnt_sum; [apply cats_nodup|intros c Hc; apply cats_in; now left]).
  assert (T2 : zsum (fun x => d_acnt (row_of x)) cats = zlen new) by (apply cnt_sum; [apply cats_nodup|intros c Hc; apply cats_in; now right]).
  rewrite T1, T2. clear T1 T2.
  induction cats as [|c l IH]; [reflexivity|]. cbn [map combine]. rewrite IH. f_equal.
  unfold discrete_row, row_of. cbn [d_bcnt d_acnt]. rewrite !pct_share by auto. reflexivity.
Qed.
Lemma cnt_occ (od : forall a b : option K, {a = b} + {a <> b}) l c : cnt l c = Z.of_nat (count_occ od l c).
Proof.
  unfold cnt, zlen. f_equal. induction l as [|a l IH]; [reflexivity|]. cbn [filter count_occ]. destruct (od a c) as [E|E].
  - assert (X : oeq dec c a = true) by (now apply oeq_eq). rewrite X. cbn [length]. now rewrite IH.
  - destruct (oeq dec c a) eqn:X; [apply oeq_eq in X; congruence|exact IH].
Qed.
Lemma memb_occ (od : forall a b : option K, {a = b} + {a <> b}) l c : memb c l = (if Z.of_nat (count_occ od l c) =? 0 then None else Some c).
Proof.
  destruct (in_dec od c l) as [H|H].
  - rewrite memb_in by exact H. apply (count_occ_In od) in H. destruct (Z.eqb_spec (Z.of_nat (count_occ od l c)) 0); [lia|reflexivity].
  - rewrite memb_out by exact H. apply (count_occ_not_In od) in H. now rewrite H.
Qed.
Theorem discrete_report (od : forall a b : option K, {a = b} + {a <> b}) : new <> [] -> base <> [] ->
  category_report od base new (psi_discrete dec new base).
Proof.
  intros Nn Nb. rewrite discrete_ok by assumption. exists cats. split; [apply cats_nodup|]. split; [intros c; rewrite cats_in; reflexivity|].
  split; [apply map_length|]. intros j c row Hc Hr. rewrite nth_error_map, Hc in Hr. cbn [option_map] in Hr. injection Hr as <-.
  cbv zeta. rewrite <- !cnt_occ. unfold discrete_row, row_of. cbn [d_base d_act p_brk p_base p_act p_psi]. rewrite !(memb_occ od), <- !cnt_occ. auto.
Qed.
End J.
End D.
