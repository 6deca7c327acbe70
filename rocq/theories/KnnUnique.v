(** Exact k-nearest-neighbour answers are unique up to ties: the distances strictly below the bound
    do not depend on the order of the rows. *)
From Coq Require Import Bool List Arith Lia Permutation Sorted.
From Verif Require Import Num PermTac KdModel KdSpec KdProofs.
Import ListNotations.

Section U.
Context (N : NumOps) (laws : NumLaws N).
Notation T := (carrier N).
Notation nle := (nle N). Notation nlt := (nlt N). Notation nnan := (nnan N).

Definition cnt (t : T) (l : list T) : nat := length (filter (fun x => nle x t) l).

Lemma filter_len {X} (f : X -> bool) l : length (filter f l) <= length l.
Proof. induction l as [|a l IH]; simpl; [lia|]. destruct (f a); simpl; lia. Qed.
Lemma filter_all {X} (f : X -> bool) l : (forall x, In x l -> f x = true) -> filter f l = l.
Proof.
  induction l as [|a l IH]; intros H; simpl; [reflexivity|]. rewrite (H a) by (left; reflexivity).
  f_equal. apply IH. intros x Hx. apply H. right. exact Hx.
Qed.
Lemma filter_none {X} (f : X -> bool) l : (forall x, In x l -> f x = false) -> filter f l = [].
Proof.
  induction l as [|a l IH]; intros H; simpl; [reflexivity|]. rewrite (H a) by (left; reflexivity).
  apply IH. intros x Hx. apply H. right. exact Hx.
Qed.

(** In a sorted list, exactly the first [cnt t] elements are at most [t]. *)
Lemma sorted_cnt t : forall l i x, StronglySorted (fun a b => nle a b = true) l ->
  nth_error l i = Some x -> (nle x t = true <-> i < cnt t l).
Proof.
  induction l as [|a l IH]; intros i x S H; [destruct i; discriminate|].
  inversion S as [|? ? S' F]; subst. unfold cnt. simpl. destruct i as [|i]; simpl in H.
  - injection H as ->. destruct (nle x t) eqn:E; simpl; [split; [lia|reflexivity]|].
    split; [discriminate|]. intros Hc.
    rewrite filter_none in Hc; [simpl in Hc; lia|]. intros y Hy. rewrite Forall_forall in F.
    destruct (nle y t) eqn:Ey; [|reflexivity]. rewrite (le_trans N laws _ _ _ (F y Hy) Ey) in E. discriminate.
  - destruct (nle a t) eqn:E; simpl.
    + rewrite (IH i x S' H). unfold cnt. lia.
    + rewrite (IH i x S' H). unfold cnt.
      assert (filter (fun x0 => nle x0 t) l = []) as ->; [|simpl; lia].
      apply filter_none. intros y Hy. rewrite Forall_forall in F.
      destruct (nle y t) eqn:Ey; [|reflexivity]. rewrite (le_trans N laws _ _ _ (F y Hy) Ey) in E. discriminate.
Qed.

Lemma SS_map {X Y} (f : X -> Y) (R : Y -> Y -> Prop) l :
  StronglySorted (fun a b => R (f a) (f b)) l -> StronglySorted R (map f l).
Proof.
  induction 1 as [|a l S IH F]; simpl; constructor; [exact IH|].
  clear - F. induction F; simpl; constructor; auto.
Qed.

Lemma exact_cnt (A : Type) m rows k q maxb out t : knn_exact N A m rows k q maxb out -> nlt t maxb = true ->
  cnt t (map snd out) = Nat.min k (cnt t (map (fun p => spec_dist N m (snd p) q) rows)).
Proof.
  intros (ch & rest & P & E & S & L & B & X) Ht.
  assert (PC : cnt t (map (fun p => spec_dist N m (snd p) q) rows)
               = cnt t (map snd out) + cnt t (map (fun p => spec_dist N m (snd p) q) rest)).
  { unfold cnt. rewrite (Permutation_length (filter_perm _ _ _ (Permutation_map _ P))).
    rewrite map_app, filter_app, app_length. rewrite E, map_map. reflexivity. }
  assert (LE : cnt t (map snd out) <= k).
  { unfold cnt. etransitivity; [apply filter_len|]. rewrite map_length. exact L. }
  destruct (cnt t (map (fun p => spec_dist N m (snd p) q) rest)) as [|c] eqn:Ec; [lia|].
  assert (exists p, In p rest /\ nle (spec_dist N m (snd p) q) t = true) as (p & Hp & Dp).
  { unfold cnt in Ec. destruct (filter (fun x => nle x t) (map (fun p => spec_dist N m (snd p) q) rest)) as [|x l] eqn:El;
      [discriminate|].
    assert (Hx : In x (filter (fun x => nle x t) (map (fun p => spec_dist N m (snd p) q) rest)))
      by (rewrite El; left; reflexivity).
    apply filter_In in Hx. destruct Hx as [Hx Dx]. apply in_map_iff in Hx. destruct Hx as (p & <- & Hp). eauto. }
  destruct (X p Hp (le_lt_trans N laws _ _ _ Dp Ht)) as [Lk Fk].
  assert (cnt t (map snd out) = k); [|lia].
  unfold cnt. rewrite filter_all; [now rewrite map_length|].
  intros x Hx. apply in_map_iff in Hx. destruct Hx as (a & <- & Ha). rewrite Forall_forall in Fk.
  exact (le_trans N laws _ _ _ (Fk a Ha) Dp).
Qed.

Lemma exact_half (A B : Type) m rows1 rows2 k q maxb out1 out2 i t :
  knn_exact N A m rows1 k q maxb out1 -> knn_exact N B m rows2 k q maxb out2 ->
  Permutation (map snd rows1) (map snd rows2) ->
  nth_error (map snd out1) i = Some t -> nlt t maxb = true ->
  exists t', nth_error (map snd out2) i = Some t' /\ nle t' t = true.
Proof.
  intros K1 K2 P H Ht. pose proof (exact_cnt _ _ _ _ _ _ _ _ K1 Ht) as C1.
  pose proof (exact_cnt _ _ _ _ _ _ _ _ K2 Ht) as C2.
  assert (EQ : cnt t (map (fun p => spec_dist N m (snd p) q) rows1) = cnt t (map (fun p => spec_dist N m (snd p) q) rows2)).
  { unfold cnt. apply Permutation_length, filter_perm.
    rewrite <- (map_map snd (fun v => spec_dist N m v q)), <- (map_map snd (fun v => spec_dist N m v q) rows2).
    apply Permutation_map, P. }
  destruct K1 as (_ & _ & _ & _ & S1 & _). destruct K2 as (_ & _ & _ & _ & S2 & _).
  assert (I1 : i < cnt t (map snd out1)).
  { apply (sorted_cnt t (map snd out1) i t); [apply SS_map, S1|exact H|]. apply (le_refl N laws).
    apply (lt_le N laws) in Ht. tauto. }
  assert (I2 : i < cnt t (map snd out2)) by lia.
  assert (I3 : i < length (map snd out2)).
  { eapply Nat.lt_le_trans; [exact I2|]. apply filter_len. }
  destruct (nth_error (map snd out2) i) as [t'|] eqn:E'; [|apply nth_error_None in E'; lia].
  exists t'. split; [reflexivity|]. apply (sorted_cnt t (map snd out2) i t'); [apply SS_map, S2|exact E'|exact I2].
Qed.

Lemma exact_unique (A B : Type) m rows1 rows2 k q maxb out1 out2 i t :
  knn_exact N A m rows1 k q maxb out1 -> knn_exact N B m rows2 k q maxb out2 ->
  Permutation (map snd rows1) (map snd rows2) ->
  nth_error (map snd out1) i = Some t -> nlt t maxb = true ->
  exists t', nth_error (map snd out2) i = Some t' /\ same N t t'.
Proof.
  intros K1 K2 P H Ht. destruct (exact_half _ _ _ _ _ _ _ _ _ _ _ _ K1 K2 P H Ht) as (t' & E & L).
  exists t'. split; [exact E|]. split; [|exact L].
  destruct (exact_half _ _ _ _ _ _ _ _ _ _ _ _ K2 K1 (Permutation_sym P) E (le_lt_trans N laws _ _ _ L Ht))
    as (t2 & E2 & L2). congruence.
Qed.

(** epsilon = 0 in [knn_answer] gives [knn_exact]. *)
Lemma answer_exact (A : Type) m rows k q maxb eps out :
  (forall p, In p rows -> nnan (spec_dist N m (snd p) q) = false -> nle (nzero N) (spec_dist N m (snd p) q) = true) ->
  eps = nzero N ->
  knn_answer N A m rows k q maxb eps out -> knn_exact N A m rows k q maxb out.
Proof.
  intros NNeg -> (ch & rest & P & E & S & L & B & X). exists ch, rest.
  do 5 (split; [assumption|]). intros p Hp Hlt.
  assert (Nd : nnan (spec_dist N m (snd p) q) = false) by (apply (lt_le N laws) in Hlt; tauto).
  assert (ND : nle (nzero N) (spec_dist N m (snd p) q) = true).
  { apply NNeg; [|exact Nd]. eapply Permutation_in; [symmetry; exact P|]. apply in_or_app. auto. }
  destruct (add_zero N laws _ ND) as [Z1 Z2].
  destruct (X p Hp) as [X1 X2]; [exact (le_lt_trans N laws _ _ _ Z2 Hlt)|].
  split; [exact X1|].
  rewrite Forall_forall in X2, B |- *. intros a Ha. specialize (X2 a Ha).
  apply (lt_false N laws) in X2; [|exact (le_nan_r N laws _ _ Z1)|exact (le_nan_l N laws _ _ (B a Ha))].
  exact (le_trans N laws _ _ _ X2 Z2).
Qed.
End U.
