(** Proofs about edit distances. *)
From Coq Require Import Bool List Arith ZArith Lia.
From Verif Require Import StrSpec EditSpec.
Import ListNotations.

(** Alignments without swaps. *)
Inductive lal : nat -> chars -> chars -> Prop :=
| l_nil : lal 0 [] []
| l_keep : forall n x a b, lal n a b -> lal n (x :: a) (x :: b)
| l_sub : forall n x y a b, lal n a b -> lal (S n) (x :: a) (y :: b)
| l_ins : forall n y a b, lal n a b -> lal (S n) a (y :: b)
| l_del : forall n x a b, lal n a b -> lal (S n) (x :: a) b.
Lemma lal_refl a : lal 0 a a.
Proof. induction a; constructor; assumption. Qed.
Lemma lal_max : forall a b, lal (Nat.max (length a) (length b)) a b.
Proof.
  induction a as [|x a IH]; intro b.
  - cbn [length Nat.max]. induction b as [|y b IHb]; constructor. exact IHb.
  - destruct b as [|y b].
    + cbn [length Nat.max]. specialize (IH []). cbn [length] in IH. rewrite Nat.max_0_r in IH. now constructor.
    + cbn [length]. rewrite <- Nat.succ_max_distr. now constructor.
Qed.
Lemma lal_comp n a b : lal n a b -> forall m c, lal m b c -> exists k, k <= n + m /\ lal k a c.
Proof.
  induction 1 as [|n x a b H IH|n x y a b H IH|n y a b H IH|n x a b H IH]; intros m c G.
  - exists m. split; [lia|exact G].
  - remember (x :: b) as bb eqn:E. revert E. induction G as [|m x' b' c G IG|m x' y' b' c G IG|m y' b' c G IG|m x' b' c G IG]; intro E; try discriminate E.
    + injection E as -> ->. destruct (IH _ _ G) as (k & K & L). exists k. split; [lia|now constructor].
    + injection E as -> ->. destruct (IH _ _ G) as (k & K & L). exists (S k). split; [lia|now constructor].
    + destruct (IG E) as (k & K & L). exists (S k). split; [lia|now constructor].
    + injection E as -> ->. destruct (IH _ _ G) as (k & K & L). exists (S k). split; [lia|now constructor].
  - remember (y :: b) as bb eqn:E. revert E. induction G as [|m x' b' c G IG|m x' y' b' c G IG|m y' b' c G IG|m x' b' c G IG]; intro E; try discriminate E.
    + injection E as -> ->. destruct (IH _ _ G) as (k & K & L). exists (S k). split; [lia|now constructor].
    + injection E as -> ->. destruct (IH _ _ G) as (k & K & L). exists (S k). split; [lia|now constructor].
    + destruct (IG E) as (k & K & L). exists (S k). split; [lia|now constructor].
    + injection E as -> ->. destruct (IH _ _ G) as (k & K & L). exists (S k). split; [lia|now constructor].
  - remember (y :: b) as bb eqn:E. revert E. induction G as [|m x' b' c G IG|m x' y' b' c G IG|m y' b' c G IG|m x' b' c G IG]; intro E; try discriminate E.
    + injection E as -> ->. destruct (IH _ _ G) as (k & K & L). exists (S k). split; [lia|now constructor].
    + injection E as -> ->. destruct (IH _ _ G) as (k & K & L). exists (S k). split; [lia|now constructor].
    + destruct (IG E) as (k & K & L). exists (S k). split; [lia|now constructor].
    + injection E as -> ->. destruct (IH _ _ G) as (k & K & L). exists k. split; [lia|exact L].
  - destruct (IH _ _ G) as (k & K & L). exists (S k). split; [lia|now constructor].
Qed.
(** Steps. *)
Definition closed (step : chars -> chars -> Prop) : Prop := forall x a b, step a b -> step (x :: a) (x :: b).
Definition sym (step : chars -> chars -> Prop) : Prop := forall a b, step a b -> step b a.
Lemma edit_closed : closed edit.
Proof.
  intros x a b [u y v|u y v|u y z v].
  - exact (edit_ins (x :: u) y v). - exact (edit_del (x :: u) y v). - exact (edit_sub (x :: u) y z v).
Qed.
Lemma edit_sym : sym edit.
Proof. intros a b [u y v|u y v|u y z v]; constructor. Qed.
Lemma swap_closed : closed edit_or_swap.
Proof. intros x a b [a' b' H|u y z v]; [apply one_edit, edit_closed, H|exact (one_swap (x :: u) y z v)]. Qed.
Lemma swap_sym : sym edit_or_swap.
Proof. intros a b [a' b' H|u y z v]; [apply one_edit, edit_sym, H|constructor 2]. Qed.
Section Chain.
Context (step : chars -> chars -> Prop) (C : closed step) (Y : sym step).
Lemma steps_cons n x a b : steps step n a b -> steps step n (x :: a) (x :: b).
Proof. induction 1 as [|n a b c S H IH]; [constructor|]. apply more_steps with (x :: b); auto. Qed.
Lemma steps_app n a b : steps step n a b -> forall m c, steps step m b c -> steps step (n + m) a c.
Proof. induction 1 as [|n a b c S H IH]; intros m d G; [exact G|]. cbn [Nat.add]. apply more_steps with b; auto. Qed.
Lemma steps_sym n a b : steps step n a b -> steps step n b a.
Proof.
  induction 1 as [|n a b c S H IH]; [constructor|]. replace (Datatypes.S n) with (n + 1) by lia. apply steps_app with b; [exact IH|]. apply more_steps with a; [auto|constructor].
Qed.
Lemma chain_metric d : (forall a b, least_of (fun n => steps step n a b) (d a b)) -> metric d.
Proof.
  intro H. split; [|split].
  - intros a b. destruct (H a b) as [S L]. split.
    + intro E. rewrite E in S. now inversion S.
    + intros ->. assert (d b b <= 0) by (apply L; constructor). lia.
  - intros a b. destruct (H a b) as [S L], (H b a) as [S' L']. apply Nat.le_antisymm; [apply L|apply L']; now apply steps_sym.
  - intros a b c. destruct (H a c) as [_ L]. apply L. eapply steps_app; apply H.
Qed.
End Chain.
Lemma lal_steps n a b : lal n a b -> steps edit n a b.
Proof.
  induction 1 as [|n x a b H IH|n x y a b H IH|n y a b H IH|n x a b H IH].
  - constructor.
  - now apply steps_cons; [exact edit_closed|].
  - apply more_steps with (y :: a); [exact (edit_sub [] x y a)|]. now apply steps_cons; [exact edit_closed|].
  - apply more_steps with (y :: a); [exact (edit_ins [] y a)|]. now apply steps_cons; [exact edit_closed|].
  - apply more_steps with a; [exact (edit_del [] x a)|exact IH].
Qed.
Lemma edit_lal a b : edit a b -> lal 1 a b.
Proof.
  intros [u x v|u x v|u x y v]; induction u as [|z u IH]; cbn [app]; try (apply l_keep, IH); constructor; apply lal_refl.
Qed.
Lemma steps_lal n a b : steps edit n a b -> exists k, k <= n /\ lal k a b.
Proof.
  induction 1 as [a|n a b c S H (k & K & L)]; [exists 0; split; [lia|apply lal_refl]|].
  destruct (lal_comp _ _ _ (edit_lal _ _ S) _ _ L) as (j & J & M). exists j. split; [lia|exact M].
Qed.
Lemma steps_edit_swap n a b : steps edit n a b -> steps edit_or_swap n a b.
Proof. induction 1 as [|n a b c S H IH]; [constructor|]. apply more_steps with b; [now constructor|exact IH]. Qed.
Lemma lal_aligned n a b : lal n a b -> aligned n a b.
Proof. induction 1; now constructor. Qed.
Lemma aligned_steps n a b : aligned n a b -> steps edit_or_swap n a b.
Proof.
  induction 1 as [|n x a b H IH|n x y a b H IH|n y a b H IH|n x a b H IH|n x y a b H IH].
  - constructor.
  - now apply steps_cons; [exact swap_closed|].
  - apply more_steps with (y :: a); [apply one_edit; exact (edit_sub [] x y a)|]. now apply steps_cons; [exact swap_closed|].
  - apply more_steps with (y :: a); [apply one_edit; exact (edit_ins [] y a)|]. now apply steps_cons; [exact swap_closed|].
  - apply more_steps with a; [apply one_edit; exact (edit_del [] x a)|exact IH].
  - apply more_steps with (y :: x :: a); [exact (one_swap [] x y a)|]. do 2 (apply steps_cons; [exact swap_closed|]). exact IH.
Qed.
Lemma aligned_sym n a b : aligned n a b -> aligned n b a.
Proof. induction 1; now constructor. Qed.
Lemma swap_len a b : edit_or_swap a b -> length a <= S (length b) /\ length b <= S (length a).
Proof. intros [a' b' [u x v|u x v|u x y v]|u x y v]; rewrite ?app_length; cbn [length]; rewrite ?app_length; cbn [length]; lia. Qed.
Lemma steps_len n a b : steps edit_or_swap n a b -> length a <= n + length b /\ length b <= n + length a.
Proof. induction 1 as [|n a b c S H IH]; [lia|]. apply swap_len in S. lia. Qed.
Lemma aligned_zero n a b : aligned n a b -> n = 0 -> a = b.
Proof. induction 1; intro E; try discriminate E; [reflexivity|]. f_equal. auto. Qed.
(** Subwords. *)
Lemma sub_nil a : subword [] a.
Proof. induction a; constructor; assumption. Qed.
Lemma sub_refl a : subword a a.
Proof. induction a; constructor; assumption. Qed.
Lemma sub_len s a : subword s a -> length s <= length a.
Proof. induction 1; cbn [length]; lia. Qed.
Lemma sub_full s a : subword s a -> length a <= length s -> s = a.
Proof.
  induction 1 as [|x s a H IH|x s a H IH]; cbn [length]; intro L; [reflexivity|f_equal; apply IH; lia|]. apply sub_len in H. lia.
Qed.
Lemma sub_lal s a : subword s a -> lal (length a - length s) s a /\ lal (length a - length s) a s.
Proof.
  induction 1 as [|x s a H IH|x s a H IH]; cbn [length].
  - split; constructor.
  - split; constructor; apply IH.
  - apply sub_len in H. replace (S (length a) - length s) with (S (length a - length s)) by lia. split; constructor; apply IH.
Qed.
Lemma lal_common n a b : lal n a b -> exists s, subword s a /\ subword s b /\ Nat.max (length a) (length b) <= n + length s.
Proof.
  induction 1 as [|n x a b H (s & A & B & L)|n x y a b H (s & A & B & L)|n y a b H (s & A & B & L)|n x a b H (s & A & B & L)]; cbn [length].
  - exists []. repeat split; try constructor. 
  - exists (x :: s). split; [now constructor|]. split; [now constructor|]. cbn [length]. lia.
  - exists s. split; [now constructor|]. split; [now constructor|]. lia.
  - exists s. split; [assumption|]. split; [now constructor|]. lia.
  - exists s. split; [now constructor|]. split; [assumption|]. lia.
Qed.
