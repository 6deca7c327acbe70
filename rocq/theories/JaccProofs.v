From Coq Require Import Bool List ZArith QArith Lia Lqa Arith.
From Verif Require Import PairSums AnovaModel RocProofs JaccModel JaccSpec.
Import ListNotations.
Open Scope Z_scope.

Lemma card_unique {A} (P : A -> Prop) n m : card P n -> card P m -> n = m.
Proof.
  intros (l & N1 & I1 & <-) (k & N2 & I2 & <-). unfold zlen. f_equal. apply Nat.le_antisymm; apply NoDup_incl_length; auto;
    intros x Hx; [apply I2, I1, Hx|apply I1, I2, Hx].
Qed.
Lemma card_ext {A} (P Q : A -> Prop) n : (forall x, P x <-> Q x) -> card P n -> card Q n.
Proof. intros H (l & N & I & E). exists l. split; [exact N|]. split; [|exact E]. intros x. now rewrite I. Qed.

Section J.
Context {K : Type} (dec : forall a b : K, {a = b} + {a <> b}).

Lemma split_count (p : K -> bool) l : zlen (filter p l) + zlen (filter (fun x => negb (p x)) l) = zlen l.
Proof. induction l as [|a l IH]; [reflexivity|]. cbn [filter]. unfold zlen in *. destruct (p a); cbn [negb length]; lia. Qed.

Lemma jaccard_ok (a b : list K) : is_jaccard (fun x => In x a) (fun x => In x b) (jaccard_sets dec a b).
Proof.
  unfold jaccard_sets, hash_set, inter_count. cbv zeta.
  set (s1 := nodup dec a). set (s2 := nodup dec b).
  set (p := fun x => if in_dec dec x s2 then true else false).
  set (q := fun x => if in_dec dec x s1 then true else false).
  assert (P1 : forall x, p x = true <-> In x b).
  { intros x. unfold p, s2. destruct (in_dec dec x (nodup dec b)) as [H|H]; rewrite nodup_In in H; split; auto; discriminate. }
  assert (Q1 : forall x, q x = true <-> In x a).
  { intros x. unfold q, s1. destruct (in_dec dec x (nodup dec a)) as [H|H]; rewrite nodup_In in H; split; auto; discriminate. }
  assert (N1 : NoDup s1) by apply NoDup_nodup. assert (N2 : NoDup s2) by apply NoDup_nodup.
  assert (CI : card (fun x => In x a /\ In x b) (zlen (filter p s1))).
  { exists (filter p s1). split; [now apply NoDup_filter|]. split; [|reflexivity].
    intros x. rewrite filter_In, P1. unfold s1. now rewrite nodup_In. }
  assert (CI2 : card (fun x => In x a /\ In x b) (zlen (filter q s2))).
  { exists (filter q s2). split; [now apply NoDup_filter|]. split; [|reflexivity].
    intros x. rewrite filter_In, Q1. unfold s2. rewrite nodup_In. tauto. }
  pose proof (card_unique _ _ _ CI CI2) as EI.
  assert (CU : card (fun x => In x a \/ In x b) (zlen s1 + zlen s2 - zlen (filter p s1))).
  { exists (s1 ++ filter (fun x => negb (q x)) s2). split.
    - clear - N1 N2 Q1. assert (G : forall l, NoDup l -> (forall x, In x l -> In x a) -> forall m, NoDup m -> (forall x, In x m -> ~ In x a) -> NoDup (l ++ m)).
      { induction 1 as [|x l H N IH]; intros A m M D; [exact M|]. cbn. constructor.
        - rewrite in_app_iff. intros [C|C]; [contradiction|]. apply (D x C), A. now left.
        - apply IH; auto. intros y Hy. apply A. now right. }
      apply G; auto.
      + intros x. unfold s1. now rewrite nodup_In.
      + now apply NoDup_filter.
      + intros x Hx. apply filter_In in Hx. destruct Hx as [_ Hx]. intros C. apply Q1 in C. rewrite C in Hx. discriminate.
    - split.
      + intros x. rewrite in_app_iff, filter_In. unfold s1 at 1, s2 at 1. rewrite !nodup_In.
        destruct (q x) eqn:E; cbn [negb]; [apply Q1 in E; split; tauto|].
        assert (~ In x a) by (intros C; apply Q1 in C; congruence). intuition.
      + pose proof (split_count q s2). rewrite EI. unfold zlen in *. rewrite app_length. lia. }
  exists (zlen (filter p s1)), (zlen s1 + zlen s2 - zlen (filter p s1)). split; [exact CI|]. split; [exact CU|].
  split.
  - intros U. rewrite U. reflexivity.
  - intros U. eexists. split; [|reflexivity]. unfold qdiv.
    assert (Z0 : Qeq_bool (inject_Z (zlen s1 + zlen s2 - zlen (filter p s1))) 0 = false).
    { apply not_true_iff_false. intros C. apply Qeq_bool_iff in C. unfold Qeq in C. cbn in C. lia. }
    now rewrite Z0.
Qed.

Lemma is_jaccard_ext (a a' b b' : K -> Prop) v : (forall x, a x <-> a' x) -> (forall x, b x <-> b' x) -> is_jaccard a b v -> is_jaccard a' b' v.
Proof.
  intros Ha Hb (i & u & C1 & C2 & H). exists i, u. split; [|split; [|exact H]].
  - eapply card_ext; [|exact C1]. intros x. cbn. now rewrite Ha, Hb.
  - eapply card_ext; [|exact C2]. intros x. cbn. now rewrite Ha, Hb.
Qed.
(** Symmetric, in [0,1], and 1 exactly for equal (non-empty) sets. *)
Lemma is_jaccard_sym (a b : K -> Prop) v : is_jaccard a b v -> is_jaccard b a v.
Proof.
  intros (i & u & C1 & C2 & H). exists i, u. split; [|split; [|exact H]].
  - eapply card_ext; [|exact C1]. cbn. tauto.
  - eapply card_ext; [|exact C2]. cbn. tauto.
Qed.
End J.

Lemma is_jaccard_range {A} (a b : A -> Prop) q : is_jaccard a b (Some q) -> (0 <= q <= 1)%Q /\ (q == 1 <-> (forall x, a x <-> b x))%Q.
Proof.
  intros (i & u & (li & Ni & Ii & Ei) & (lu & Nu & Iu & Eu) & H0 & H1).
  assert (U : u <> 0) by (intros C; specialize (H0 C); discriminate).
  destruct (H1 U) as (q' & E & Eq). injection E as <-. clear H0 H1.
  assert (Le : (length li <= length lu)%nat).
  { apply NoDup_incl_length; [exact Ni|]. intros x Hx. apply Iu. apply Ii in Hx. tauto. }
  assert (Up : 0 < u) by (pose proof (zlen_nonneg lu); lia).
  assert (Ip : 0 <= i <= u) by (unfold zlen in *; lia).
  assert (QU : (0 < inject_Z u)%Q) by (change 0%Q with (inject_Z 0); now rewrite <- Zlt_Qlt).
  split.
  - rewrite Eq. split.
    + apply Qle_shift_div_l; [exact QU|]. rewrite Qmult_0_l. change 0%Q with (inject_Z 0). rewrite <- Zle_Qle. lia.
    + apply Qle_shift_div_r; [exact QU|]. rewrite Qmult_1_l, <- Zle_Qle. lia.
  - rewrite Eq. split.
    + intros E1. assert (Eiu : i = u).
      { assert (X : (inject_Z i == inject_Z u)%Q).
        { rewrite <- (Qmult_1_l (inject_Z u)), <- E1. field. intros C. rewrite C in QU. now apply Qlt_irrefl in QU. }
        unfold Qeq in X. cbn in X. lia. }
      assert (Inc : incl lu li).
      { apply NoDup_length_incl; [exact Ni|unfold zlen in *; lia|]. intros x Hx. apply Iu. apply Ii in Hx. tauto. }
      intros x. split; intros Hx; assert (I : In x li) by (apply Inc, Iu; tauto); apply Ii in I; tauto.
    + intros Hab. assert (Eiu : i = u).
      { rewrite <- Ei, <- Eu. unfold zlen. f_equal. apply Nat.le_antisymm; [exact Le|]. apply NoDup_incl_length; [exact Nu|].
        intros x Hx. apply Ii. apply Iu in Hx. specialize (Hab x). tauto. }
      rewrite Eiu. field. intros C. rewrite C in QU. now apply Qlt_irrefl in QU.
Qed.

Section Cols.
Context {K : Type} (dec : forall a b : K, {a = b} + {a <> b}).

Lemma card_map {A B} (f : A -> B) (inj : forall x y, f x = f y -> x = y) (P : A -> Prop) (Q : B -> Prop) n :
  (forall x, P x -> Q (f x)) -> (forall y, Q y -> exists x, y = f x /\ P x) -> card P n -> card Q n.
Proof.
  intros H1 H2 (l & N & I & E). exists (map f l). split; [|split].
  - clear - N inj. induction N as [|a l H N IH]; cbn; constructor; [|exact IH]. intros C. apply in_map_iff in C. destruct C as (x & E & C).
    apply inj in E. subst. contradiction.
  - intros y. rewrite in_map_iff. split.
    + intros (x & <- & Hx). apply H1, I, Hx.
    + intros Hy. destruct (H2 y Hy) as (x & -> & Hx). exists x. split; [reflexivity|now apply I].
  - unfold zlen in *. now rewrite map_length.
Qed.

(** Without nulls, [jaccard_col] is the Jaccard similarity of the two sets of values. *)
Theorem jaccard_col_ok count_null (c1 c2 : list (bool * K)) : has_nulls c1 = false -> has_nulls c2 = false ->
  is_jaccard (elements count_null (logical c1)) (elements count_null (logical c2)) (jaccard_col dec count_null c1 c2).
Proof.
  intros H1 H2.
  assert (E : jaccard_col dec count_null c1 c2 = jaccard_sets dec (no_null_iter c1) (no_null_iter c2)).
  { unfold jaccard_col, jaccard_sets. cbv zeta. rewrite H1. cbn [andb].
    assert (Z0 : (if count_null then 0 else 0) = 0) by now destruct count_null. rewrite Z0, Z.add_0_r.
    destruct (jaccard_ok dec (no_null_iter c1) (no_null_iter c2)) as (i & u & C1 & C2 & _).
    rewrite Z.abs_eq; [reflexivity|].
    clear - dec. set (s1 := hash_set dec (no_null_iter c1)). set (s2 := hash_set dec (no_null_iter c2)). unfold inter_count.
    pose proof (split_count (fun x => if in_dec dec x s2 then true else false) s1).
    pose proof (zlen_nonneg s2). pose proof (zlen_nonneg (filter (fun x => negb (if in_dec dec x s2 then true else false)) s1)). cbv beta in *. lia. }
  rewrite E.
  destruct (jaccard_ok dec (no_null_iter c1) (no_null_iter c2)) as (i & u & C1 & C2 & R). exists i, u.
  assert (L : forall c : list (bool * K), has_nulls c = false -> forall y, elements count_null (logical c) y <-> exists x, y = Some x /\ In x (no_null_iter c)).
  { intros c H y. unfold elements, logical, no_null_iter. unfold has_nulls in H.
    assert (V : forall s, In s c -> fst s = true).
    { intros s Hs. destruct (fst s) eqn:F; [reflexivity|]. exfalso. apply not_true_iff_false in H. apply H. apply existsb_exists. exists s. now rewrite F. }
    split.
    - intros [Hy _]. apply in_map_iff in Hy. destruct Hy as (s & Es & Hs). rewrite (V s Hs) in Es. subst y. exists (snd s). split; [reflexivity|now apply in_map].
    - intros (x & -> & Hx). apply in_map_iff in Hx. destruct Hx as (s & <- & Hs). split; [|discriminate].
      apply in_map_iff. exists s. now rewrite (V s Hs). }
  split; [|split; [|exact R]].
  - eapply (card_map Some); [|..|exact C1]; [intros x y; congruence|..].
    + intros x [A B]. split; [apply (L _ H1)|apply (L _ H2)]; eauto.
    + intros y [A B]. apply (L _ H1) in A. apply (L _ H2) in B. destruct A as (x & -> & A), B as (x' & Ex & B). injection Ex as <-. eauto.
  - eapply (card_map Some); [|..|exact C2]; [intros x y; congruence|..].
    + intros x [A|B]; [left; apply (L _ H1)|right; apply (L _ H2)]; eauto.
    + intros y [A|B]; [apply (L _ H1) in A; destruct A as (x & -> & A)|apply (L _ H2) in B; destruct B as (x & -> & B)]; eauto.
Qed.

Theorem list_jaccard_ok (a b : list (option (list (option K)))) i x y : nth_error a i = Some x -> nth_error b i = Some y ->
  exists v, nth_error (list_jaccard dec a b) i = Some v /\
    match x, y with
    | Some l, Some r => exists q, v = Some q /\ is_jaccard (fun e => In e l) (fun e => In e r) q
    | _, _ => v = None
    end.
Proof.
  intros Ha Hb. unfold list_jaccard. exists (list_jaccard_row dec x y). split.
  - rewrite nth_error_map. assert (E : nth_error (combine a b) i = Some (x, y)); [|now rewrite E].
    revert b i Ha Hb. induction a as [|a0 a IH]; intros [|b0 b] [|i] Ha Hb; cbn in *; try discriminate; [congruence|auto].
  - unfold list_jaccard_row. destruct x as [l|], y as [r|]; try reflexivity. eexists. split; [reflexivity|]. apply jaccard_ok.
Qed.
Theorem list_jaccard_length (a b : list (option (list (option K)))) : length a = length b -> length (list_jaccard dec a b) = length a.
Proof. intros E. unfold list_jaccard. rewrite map_length, combine_length. lia. Qed.
End Cols.
