(** Rearrangement and the ranking without ties. *)
From Coq Require Import String.
From Coq Require Import Reals List Bool ZArith Arith Lra Lia Psatz Permutation Sorted.
From Verif Require Import WStatsSpec WStatsProofs NdcgSpec NdcgModel.
Import ListNotations.
Open Scope R_scope.

Definition topk (k : option Z) : option nat :=
  match k with None => None | Some z => if Z.eqb z 0 then None else Some (Z.to_nat z) end.

Lemma ln_gt0 i : (1 <= i)%nat -> 0 < ln (INR (i + 1)).
Proof.
  intro H. rewrite <- ln_1. apply ln_increasing; [lra|]. rewrite plus_INR. cbn. apply le_INR in H. cbn in H. lra.
Qed.
Lemma ln2_gt0 : 0 < ln 2.
Proof. rewrite <- ln_1. apply ln_increasing; lra. Qed.
Lemma discount_weight k i : (1 <= i)%nat -> discount k i = gain_weight (topk k) i.
Proof.
  intro H. pose proof (ln_gt0 i H) as L. pose proof ln2_gt0 as L2. unfold discount, mask, log2R, gain_weight, topk. rewrite plus_INR in *. cbn [INR] in *.
  destruct k as [z|]; [|field; lra]. destruct (Z.eqb_spec z 0); [field; lra|].
  destruct (Z.leb_spec (Z.of_nat i) z), (Nat.leb_spec i (Z.to_nat z)); try lia; try (field; lra).
Qed.
Lemma weight_ge0 top i : (1 <= i)%nat -> 0 <= gain_weight top i.
Proof.
  intro H. pose proof (ln_gt0 i H). pose proof ln2_gt0. assert (0 <= ln 2 / ln (INR (i + 1))) by (apply Rlt_le, Rdiv_lt_0_compat; lra).
  unfold gain_weight. destruct top as [k|]; [|lra]. destruct (i <=? k)%nat; lra.
Qed.
Lemma weight_step top i : (1 <= i)%nat -> gain_weight top (S i) <= gain_weight top i.
Proof.
  intro H. pose proof (ln_gt0 i H) as L. pose proof (ln_gt0 (S i) ltac:(lia)) as L'. pose proof ln2_gt0 as L2.
  assert (ln (INR (i + 1)) < ln (INR (S i + 1))).
  { apply ln_increasing; [apply lt_0_INR; lia|]. apply lt_INR. lia. }
  assert (ln 2 / ln (INR (S i + 1)) <= ln 2 / ln (INR (i + 1))).
  { apply Rmult_le_compat_l; [lra|]. apply Rinv_le_contravar; lra. }
  unfold gain_weight. destruct top as [k|]; [|lra]. destruct (Nat.leb_spec (S i) k), (Nat.leb_spec i k); try lia; try lra.
  apply Rlt_le, Rdiv_lt_0_compat; lra.
Qed.

Lemma seq_discounts k : forall m i, (1 <= i)%nat -> map (discount k) (seq i m) = map (gain_weight (topk k)) (seq i m).
Proof. intros m i H. apply map_ext_in. intros j I. apply in_seq in I. apply discount_weight. lia. Qed.
Lemma dcg_sum {A} (f : A -> R) top : forall l i,
  Rsum (map (fun p => f (fst p) * snd p) (combine l (map (gain_weight top) (seq i (length l))))) = dcg_from top i (map f l).
Proof. induction l as [|a l IH]; intro i; cbn; [easy|]. now rewrite IH. Qed.
Lemma plain_spec {row} (rel : row -> R) k l : dcg_plain rel k l = dcg_of (topk k) (map rel l).
Proof. unfold dcg_plain, discounts. rewrite seq_discounts by lia. apply dcg_sum. Qed.

(** Rearrangement inequality. *)
Fixpoint insert_desc (a : R) (l : list R) : list R :=
  match l with [] => [a] | b :: l' => if Rle_dec b a then a :: l else b :: insert_desc a l' end.
Fixpoint sort_desc (l : list R) : list R := match l with [] => [] | a :: l' => insert_desc a (sort_desc l') end.
Lemma insert_desc_perm a l : Permutation (insert_desc a l) (a :: l).
Proof. induction l as [|b l IH]; cbn; [easy|]. destruct (Rle_dec b a); [easy|]. rewrite IH. apply perm_swap. Qed.
Lemma sort_desc_perm l : Permutation (sort_desc l) l.
Proof. induction l as [|a l IH]; cbn; [easy|]. now rewrite insert_desc_perm, IH. Qed.
Lemma insert_desc_sorted a l : descending l -> descending (insert_desc a l).
Proof.
  unfold descending. induction l as [|b l IH]; intro H; cbn; [repeat constructor|]. inversion H as [|? ? H1 H2]; subst.
  destruct (Rle_dec b a) as [L|L].
  - constructor; [exact H|]. constructor; [exact L|]. eapply Forall_impl; [|exact H2]. cbn. intros. lra.
  - constructor; [now apply IH|]. apply (Permutation_Forall (Permutation_sym (insert_desc_perm a l))). constructor; [lra|exact H2].
Qed.
Lemma sort_desc_sorted l : descending (sort_desc l).
Proof. induction l as [|a l IH]; cbn; [constructor|]. now apply insert_desc_sorted. Qed.
Lemma desc_unique : forall l m, descending l -> descending m -> Permutation l m -> l = m.
Proof.
  unfold descending. induction l as [|a l IH]; intros m Hl Hm P.
  - apply Permutation_nil in P. now subst.
  - destruct m as [|b m]; [now apply Permutation_sym, Permutation_nil in P|].
    inversion Hl as [|? ? L1 L2]; subst. inversion Hm as [|? ? M1 M2]; subst. rewrite Forall_forall in L2, M2.
    assert (a = b).
    { assert (In a (b :: m)) as Ia by (eapply Permutation_in; [exact P|now left]).
      assert (In b (a :: l)) as Ib by (eapply Permutation_in; [apply Permutation_sym, P|now left]).
      destruct Ia as [->|Ia]; [easy|]. destruct Ib as [->|Ib]; [easy|]. specialize (M2 a Ia). specialize (L2 b Ib). lra. }
    subst. f_equal. apply IH; try assumption. now apply Permutation_cons_inv in P.
Qed.
Lemma insert_dcg top a : forall l i, (1 <= i)%nat -> dcg_from top i (a :: l) <= dcg_from top i (insert_desc a l).
Proof.
  induction l as [|b l IH]; intros i Hi; cbn [insert_desc]; [lra|]. destruct (Rle_dec b a) as [L|L]; [lra|].
  specialize (IH (S i) ltac:(lia)). cbn [dcg_from] in *. pose proof (weight_step top i Hi). nra.
Qed.
Lemma sort_dcg top : forall l i, (1 <= i)%nat -> dcg_from top i l <= dcg_from top i (sort_desc l).
Proof.
  induction l as [|a l IH]; intros i Hi; cbn [sort_desc]; [lra|]. specialize (IH (S i) ltac:(lia)).
  eapply Rle_trans; [|apply insert_dcg, Hi]. cbn [dcg_from]. lra.
Qed.
Lemma rearrangement top l m : Permutation l m -> descending m -> dcg_of top l <= dcg_of top m.
Proof.
  intros P D. assert (m = sort_desc l) as ->.
  { apply desc_unique; [exact D|apply sort_desc_sorted|]. rewrite sort_desc_perm. now symmetry. }
  apply sort_dcg. lia.
Qed.
Lemma dcg_ge0 top : forall l i, (1 <= i)%nat -> (forall x, In x l -> 0 <= x) -> 0 <= dcg_from top i l.
Proof.
  induction l as [|a l IH]; intros i Hi H; cbn; [lra|]. assert (0 <= a) by (apply H; now left).
  pose proof (weight_ge0 top i Hi). assert (0 <= dcg_from top (S i) l) by (apply IH; [lia|intros; apply H; now right]). nra.
Qed.
Lemma filter_perm {A} (f : A -> bool) l m : Permutation l m -> Permutation (filter f l) (filter f m).
Proof.
  induction 1; cbn; try easy.
  - destruct (f x); [now constructor|easy].
  - destruct (f x), (f y); try easy. apply perm_swap.
  - etransitivity; eassumption.
Qed.
