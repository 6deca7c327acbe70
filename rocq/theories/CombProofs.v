From Coq Require Import Bool List Arith Lia Sorted ZArith.
From Verif Require Import RocModel RocSpec RocProofs CombModel CombSpec.
Import ListNotations.
Open Scope nat_scope.

Lemma combos_nil {A} k : combos (A := A) (S k) [] = [].
Proof. reflexivity. Qed.
Lemma combos_cons {A} k (a : A) l : combos (S k) (a :: l) = map (cons a) (combos k l) ++ combos (S k) l.
Proof. reflexivity. Qed.
Lemma combos_map {A B} (f : A -> B) : forall k l, combos k (map f l) = map (map f) (combos k l).
Proof.
  induction k as [|k IHk]; intros l; [reflexivity|]. induction l as [|a l IH]; [reflexivity|].
  cbn [map]. rewrite !combos_cons, IHk, IH, map_app, !map_map. f_equal.
Qed.
Lemma map_nth_seq_id {A} (l : list A) : map (fun i => nth_error l i) (seq 0 (length l)) = map Some l.
Proof.
  assert (G : forall (l : list A) (h : nat -> option A) k, (forall i, (i < length l) -> h (k + i) = nth_error l i) -> map h (seq k (length l)) = map Some l).
  { induction l0 as [|a l0 IH]; intros h k H; [reflexivity|]. cbn. f_equal; [rewrite <- (Nat.add_0_r k), H by (cbn; lia); reflexivity|].
    apply IH. intros i Hi. replace (S k + i) with (k + S i) by lia. rewrite H by (cbn; lia). reflexivity. }
  apply G. reflexivity.
Qed.
Lemma combos_pick {A} k (l : list A) : map (map Some) (combos k l) = map (pick l) (combos k (seq 0 (length l))).
Proof. unfold pick. rewrite <- !combos_map. now rewrite map_nth_seq_id. Qed.

Lemma combos_in : forall k b n idx, In idx (combos k (seq b n)) <-> length idx = k /\ increasing b idx /\ Forall (fun i => i < b + n) idx.
Proof.
  induction k as [|k IHk]; intros b n idx.
  - cbn. split; [intros [<-|[]]; repeat split; constructor|]. intros [L _]. left. now destruct idx.
  - revert b. induction n as [|n IH]; intros b.
    + cbn [seq]. rewrite combos_nil. split; [intros []|]. intros (L & I & F). destruct idx as [|i idx]; [discriminate|].
      cbn in I. inversion F; subst. lia.
    + cbn [seq]. rewrite combos_cons, in_app_iff, in_map_iff, IH. split.
      * intros [(c & <- & Hc)|(L & I & F)].
        -- apply IHk in Hc. destruct Hc as (L & I & F). split; [cbn; lia|]. split; [cbn; split; [lia|exact I]|].
           constructor; [lia|]. eapply Forall_impl; [|exact F]. intros i Hi. cbn in Hi. lia.
        -- split; [exact L|]. split; [|eapply Forall_impl; [|exact F]; intros i Hi; cbn in Hi; lia].
           destruct idx as [|i idx]; [exact I|]. cbn in *. split; [lia|apply I].
      * intros (L & I & F). destruct idx as [|i idx]; [discriminate|]. cbn in I. destruct I as [I1 I2]. inversion F as [|? ? F1 F2]; subst.
        destruct (Nat.eq_dec i b) as [->|N].
        -- left. exists idx. split; [reflexivity|]. apply IHk. split; [cbn in L; lia|]. split; [exact I2|]. eapply Forall_impl; [|exact F2]. intros j Hj. cbn in *. lia.
        -- right. split; [exact L|]. split; [cbn; split; [lia|exact I2]|]. constructor; [lia|]. eapply Forall_impl; [|exact F2]. intros j Hj. cbn in *. lia.
Qed.
Lemma combos_lex : forall k b n, StronglySorted lex_lt (combos k (seq b n)).
Proof.
  induction k as [|k IHk]; intros b n; [repeat constructor|]. revert b. induction n as [|n IH]; intros b; [constructor|].
  cbn [seq]. rewrite combos_cons.
  assert (G : forall l m, StronglySorted lex_lt l -> StronglySorted lex_lt m -> (forall x y, In x l -> In y m -> lex_lt x y) -> StronglySorted lex_lt (l ++ m)).
  { induction l as [|a l IHl]; intros m Sl Sm H; [exact Sm|]. inversion Sl as [|? ? S F]; subst. cbn. constructor.
    - apply IHl; auto. intros x y Hx Hy. apply H; [now right|exact Hy].
    - apply Forall_app. split; [exact F|]. apply Forall_forall. intros y Hy. apply H; [now left|exact Hy]. }
  apply G; [| apply IH |].
  - generalize (IHk (S b) n). generalize (combos k (seq (S b) n)). intros l Sl. induction Sl as [|a l Sl IHl F]; [constructor|]. cbn. constructor; [exact IHl|].
    apply Forall_map. eapply Forall_impl; [|exact F]. intros c Hc. cbn. right. split; [reflexivity|exact Hc].
  - intros x y Hx Hy. apply in_map_iff in Hx. destruct Hx as (c & <- & _). apply combos_in in Hy. destruct Hy as (L & I & _).
    destruct y as [|j y]; [discriminate|]. cbn in *. left. lia.
Qed.
Lemma lex_irrefl a : ~ lex_lt a a.
Proof. induction a as [|i a IH]; cbn; [auto|]. intros [H|[_ H]]; [lia|auto]. Qed.
Lemma sorted_nodup {A} (R : A -> A -> Prop) l : (forall a, ~ R a a) -> StronglySorted R l -> NoDup l.
Proof.
  intros I. induction 1 as [|a l S IH F]; constructor; [|exact IH]. intros H. rewrite Forall_forall in F. exact (I a (F a H)).
Qed.

Lemma combos_length {A} : forall k (l : list A), length (combos k l) = binom (length l) k.
Proof.
  induction k as [|k IHk]; intros l; [now destruct l|]. induction l as [|a l IH]; [reflexivity|].
  rewrite combos_cons, app_length, map_length, IHk, IH. reflexivity.
Qed.
Lemma binom_zero n : forall k, n < k -> binom n k = 0.
Proof. induction n as [|n IH]; intros [|k] H; cbn; try lia. rewrite !IH by lia. reflexivity. Qed.
Lemma binom_nn n : binom n n = 1.
Proof. induction n as [|n IH]; cbn; [reflexivity|]. rewrite IH, binom_zero by lia. reflexivity. Qed.
Lemma binom_n0 n : binom n 0 = 1.
Proof. now destruct n. Qed.
Lemma binom_step n : forall k, binom n (S k) * S k = binom n k * (n - k).
Proof.
  induction n as [|n IH]; intros k; [now destruct k|]. destruct k as [|k].
  - cbn [binom]. rewrite binom_n0. specialize (IH 0). rewrite binom_n0 in IH. rewrite Nat.sub_0_r in *. lia.
  - cbn [binom]. destruct (le_lt_dec (S k) n) as [L|L].
    + pose proof (IH k) as H1. pose proof (IH (S k)) as H2. replace (S n - S k) with (n - k) by lia.
      replace (n - k) with (S (n - S k)) in * by lia. nia.
    + destruct (Nat.eq_dec k n) as [->|N]; [|rewrite !(binom_zero n) by lia; lia].
      rewrite !(binom_zero n) by lia. lia.
Qed.
Lemma binom_sym n : forall k, k <= n -> binom n k = binom n (n - k).
Proof.
  induction n as [|n IH]; intros k L; [replace k with 0 by lia; reflexivity|].
  destruct k as [|k]; [rewrite Nat.sub_0_r, binom_nn; reflexivity|]. destruct (Nat.eq_dec k n) as [->|N]; [rewrite Nat.sub_diag, binom_nn; reflexivity|].
  replace (S n - S k) with (S (n - S k)) by lia. cbn [binom]. rewrite (IH k), (IH (S k)) by lia.
  replace (n - k) with (S (n - S k)) by lia. lia.
Qed.
Theorem count_ok n k : count_combinations n k = binom n k.
Proof.
  unfold count_combinations. destruct (Nat.ltb_spec n k) as [L|L]; [now rewrite binom_zero|].
  assert (G : forall m, m <= n -> fold_left (fun acc val => acc * (n - val + 1) / val) (seq 1 m) 1 = binom n m).
  { induction m as [|m IH]; intros H; [now rewrite binom_n0|]. rewrite seq_S, fold_left_app, IH by lia. cbn [fold_left Nat.add].
    replace (n - S m + 1) with (n - m) by lia. rewrite <- binom_step. apply Nat.div_mul. lia. }
  rewrite G by lia. destruct (Nat.min_spec k (n - k)) as [[H E]|[H E]]; rewrite E; [reflexivity|]. symmetry. now apply binom_sym.
Qed.

Section K.
Context {A : Type} (leb : A -> A -> bool) (TO : total_order leb).
Lemma source_unique_sorted col : StronglySorted (fun a b => leb a b = true /\ leb b a = false) (source leb true col).
Proof. apply keys_sorted. exact TO. Qed.
Lemma drop_in (col : list (option A)) a : In a (drop_nulls col) <-> In (Some a) col.
Proof.
  unfold drop_nulls. rewrite in_flat_map. split; [intros ([x|] & H & I); [destruct I as [->|[]]; exact H|destruct I]|]. intros H. exists (Some a). split; [exact H|now left].
Qed.
Lemma source_unique_in col a : In a (source leb true col) <-> In (Some a) col.
Proof.
  unfold source. rewrite (keys_in leb TO), <- drop_in. split; [intros (z & H); apply in_map_iff in H; destruct H as (x & E & H); now injection E as <- _|].
  intros H. exists 0%Z. apply in_map_iff. eauto.
Qed.
Theorem combinations_ok col k unique :
  let s := source leb unique col in
  (length s < k -> combinations leb col k unique = None) /\
  (k <= length s -> exists out idxs, combinations leb col k unique = Some out /\
     map (map Some) out = map (pick s) idxs /\
     (forall idx, In idx idxs <-> selection (length s) k idx) /\ StronglySorted lex_lt idxs /\ NoDup idxs /\
     length out = binom (length s) k /\ count_combinations (length s) k = length out).
Proof.
  cbv zeta. unfold combinations. split; intros L.
  - now rewrite (proj2 (Nat.ltb_lt _ _) L).
  - rewrite (proj2 (Nat.ltb_ge _ _) L). eexists. exists (combos k (seq 0 (length (source leb unique col)))). split; [reflexivity|].
    split; [apply combos_pick|]. split; [intros idx; unfold selection; apply combos_in|]. split; [apply combos_lex|].
    split; [apply (sorted_nodup lex_lt); [apply lex_irrefl|apply combos_lex]|]. rewrite combos_length, count_ok. auto.
Qed.

(** Unique sources: every ascending k-tuple of the values exactly once. *)
Lemma combos_sorted_in (R : A -> A -> Prop) : (forall a, ~ R a a) -> (forall a b c, R a b -> R b c -> R a c) -> forall k l c,
  StronglySorted R l -> (In c (combos k l) <-> length c = k /\ StronglySorted R c /\ (forall x, In x c -> In x l)).
Proof.
  intros Irr Tr. induction k as [|k IHk]; intros l c S.
  - cbn. split; [intros [<-|[]]; split; [reflexivity|split; [constructor|intros x []]]|]. intros [L _]. left. now destruct c.
  - induction S as [|a l S IH F].
    + rewrite combos_nil. split; [intros []|]. intros (L & _ & I). destruct c as [|x c]; [discriminate|]. destruct (I x (or_introl eq_refl)).
    + rewrite combos_cons, in_app_iff, in_map_iff, IH. rewrite Forall_forall in F. split.
      * intros [(d & <- & Hd)|(L & Sc & I)].
        -- apply (IHk l d S) in Hd. destruct Hd as (L & Sd & I). split; [cbn; lia|]. split; [constructor; [exact Sd|]; apply Forall_forall; auto|].
           intros x [<-|Hx]; [now left|right; auto].
        -- split; [exact L|]. split; [exact Sc|]. intros x Hx. right. auto.
      * intros (L & Sc & I). destruct c as [|x c]; [discriminate|]. inversion Sc as [|? ? Sc' Fc]; subst. rewrite Forall_forall in Fc.
        destruct (I x (or_introl eq_refl)) as [<-|Hx].
        -- left. exists c. split; [reflexivity|]. apply (IHk l c S). split; [cbn in L; lia|]. split; [exact Sc'|].
           intros y Hy. destruct (I y (or_intror Hy)) as [<-|H]; [destruct (Irr a (Fc a Hy))|exact H].
        -- right. split; [exact L|]. split; [exact Sc|]. intros y [<-|Hy]; [exact Hx|]. destruct (I y (or_intror Hy)) as [<-|H]; [|exact H].
           exfalso. apply (Irr x). apply (Tr x a x); [auto|auto].
Qed.
Lemma combos_nodup (R : A -> A -> Prop) : (forall a, ~ R a a) -> forall k l, StronglySorted R l -> NoDup (combos k l).
Proof.
  intros Irr. induction k as [|k IHk]; intros l S; [repeat constructor; auto|]. induction S as [|a l S IH F]; [constructor|].
  rewrite combos_cons. assert (G : forall l m : list (list A), NoDup l -> NoDup m -> (forall x, In x l -> ~ In x m) -> NoDup (l ++ m)).
  { induction l0 as [|b l0 IHl]; intros m Hl Hm D; [exact Hm|]. inversion Hl; subst. cbn. constructor.
    - rewrite in_app_iff. intros [H'|H']; [contradiction|]. apply (D b); [now left|exact H'].
    - apply IHl; auto. intros x Hx. apply D. now right. }
  apply G; [| exact IH |].
  - generalize (IHk l S). generalize (combos k l). induction 1 as [|c cs N ND IHn]; cbn; constructor; [|exact IHn].
    intros H. apply in_map_iff in H. destruct H as (d & E & Hd). injection E as ->. contradiction.
  - intros c Hc Hc2. apply in_map_iff in Hc. destruct Hc as (d & <- & _).
    assert (In a l).
    { clear - Hc2. revert Hc2. generalize (S k). induction l as [|b l IH]; intros m H; [destruct m; cbn in H; [destruct H as [H|[]]; discriminate|destruct H]|].
      destruct m as [|m]; [destruct H as [H|[]]; discriminate|]. rewrite combos_cons, in_app_iff, in_map_iff in H. destruct H as [(e & E & _)|H]; [injection E as <- _; now left|right; eauto]. }
    rewrite Forall_forall in F. exact (Irr a (F a H)).
Qed.
Theorem combinations_unique_ok col k out : combinations leb col k true = Some out ->
  NoDup out /\ forall c, In c out <-> length c = k /\ StronglySorted (fun a b => leb a b = true /\ leb b a = false) c /\ (forall x, In x c -> In (Some x) col).
Proof.
  unfold combinations. destruct (length (source leb true col) <? k); [discriminate|]. intros E. injection E as <-.
  assert (Irr : forall a, ~ (leb a a = true /\ leb a a = false)) by (intros a []; congruence).
  assert (Tr : forall a b c, leb a b = true /\ leb b a = false -> leb b c = true /\ leb c b = false -> leb a c = true /\ leb c a = false).
  { intros a b c [H1 H2] [H3 H4]. split; [exact (to_trans _ TO a b c H1 H3)|]. destruct (leb c a) eqn:X; [|reflexivity]. rewrite (to_trans _ TO c a b X H1) in H4. discriminate. }
  split; [apply (combos_nodup (fun a b => leb a b = true /\ leb b a = false) Irr), source_unique_sorted|]. intros c. rewrite (combos_sorted_in (fun a b => leb a b = true /\ leb b a = false) Irr Tr k _ c (source_unique_sorted col)).
  split; intros (L & S & I); (split; [exact L|split; [exact S|]]); intros x Hx; apply source_unique_in, I, Hx.
Qed.
End K.

Theorem product_ok {A} (c1 c2 : list (option A)) :
  let a := drop_nulls c1 in let b := drop_nulls c2 in
  length (product c1 c2) = length a * length b /\
  forall i j x y, nth_error a i = Some x -> nth_error b j = Some y -> nth_error (product c1 c2) (i * length b + j) = Some [x; y].
Proof.
  cbv zeta. unfold product. generalize (drop_nulls c1) as a, (drop_nulls c2) as b. intros a b. split.
  - induction a as [|x a IH]; [reflexivity|]. cbn [flat_map]. rewrite app_length, map_length, IH. reflexivity.
  - induction a as [|z a IH]; intros i j x y Hi Hj; [destruct i; discriminate|]. cbn [flat_map].
    assert (Lj : j < length b) by (apply nth_error_Some; congruence). destruct i as [|i]; cbn [nth_error] in Hi.
    + injection Hi as ->. cbn. rewrite nth_error_app1 by (now rewrite map_length). rewrite nth_error_map, Hj. reflexivity.
    + rewrite nth_error_app2 by (rewrite map_length; nia). rewrite map_length. replace (S i * length b + j - length b) with (i * length b + j) by nia. now apply IH.
Qed.
