(** Finite sums of rationals; specification vocabulary and its algebra. *)
From Coq Require Import Bool List ZArith QArith Lia Lqa Permutation Setoid Morphisms.
From Verif Require Import PairSums.
Import ListNotations.
Open Scope Q_scope.

Definition qsum {A} (f : A -> Q) (l : list A) : Q := fold_right (fun x acc => f x + acc) 0 l.
Definition qlen {A} (l : list A) : Q := inject_Z (zlen l).
(** Arithmetic mean of a list. *)
Definition qmean (l : list Q) : Q := qsum (fun x => x) l / qlen l.

Section S.
Context {A : Type}.
Implicit Types (f g : A -> Q) (l : list A).
Lemma qsum_cons f x l : qsum f (x :: l) = f x + qsum f l.
Proof. reflexivity. Qed.
Lemma qsum_app f l1 l2 : qsum f (l1 ++ l2) == qsum f l1 + qsum f l2.
Proof. induction l1 as [|x l1 IH]; simpl; [ring|]. rewrite IH. ring. Qed.
Lemma qsum_perm f l1 l2 : Permutation l1 l2 -> qsum f l1 == qsum f l2.
Proof. induction 1; simpl; [reflexivity|rewrite IHPermutation; reflexivity|ring|etransitivity; eassumption]. Qed.
Lemma qsum_ext f g l : (forall x, In x l -> f x == g x) -> qsum f l == qsum g l.
Proof. induction l as [|x l IH]; simpl; intros H; [reflexivity|]. rewrite H, IH by auto. reflexivity. Qed.
Lemma qsum_ext_eq f g l : (forall x, In x l -> f x = g x) -> qsum f l = qsum g l.
Proof. induction l as [|x l IH]; simpl; intros H; [reflexivity|]. rewrite H, IH by auto. reflexivity. Qed.
Lemma qsum_add f g l : qsum (fun x => f x + g x) l == qsum f l + qsum g l.
Proof. induction l as [|x l IH]; simpl; [ring|]. rewrite IH. ring. Qed.
Lemma qsum_sub f g l : qsum (fun x => f x - g x) l == qsum f l - qsum g l.
Proof. induction l as [|x l IH]; simpl; [ring|]. rewrite IH. ring. Qed.
Lemma qsum_mul c f l : qsum (fun x => c * f x) l == c * qsum f l.
Proof. induction l as [|x l IH]; simpl; [ring|]. rewrite IH. ring. Qed.
Lemma qsum_mulr c f l : qsum (fun x => f x * c) l == qsum f l * c.
Proof. induction l as [|x l IH]; simpl; [ring|]. rewrite IH. ring. Qed.
Lemma qlen_cons (x : A) l : qlen (x :: l) == 1 + qlen l.
Proof. unfold qlen, zlen. cbn [length]. rewrite Nat2Z.inj_succ, <- Z.add_1_l, inject_Z_plus. reflexivity. Qed.
Lemma qsum_const c l : qsum (fun _ => c) l == c * qlen l.
Proof. induction l as [|x l IH]; [unfold qlen, zlen; simpl; ring|]. rewrite qsum_cons, IH, qlen_cons. ring. Qed.
Lemma qsum_zero f l : (forall x, In x l -> f x == 0) -> qsum f l == 0.
Proof. intros H. rewrite (qsum_ext f (fun _ => 0)) by exact H. rewrite qsum_const. ring. Qed.
Lemma qsum_le f g l : (forall x, In x l -> f x <= g x) -> qsum f l <= qsum g l.
Proof.
  induction l as [|x l IH]; simpl; intros H; [apply Qle_refl|].
  apply Qplus_le_compat; [apply H; auto|apply IH; auto].
Qed.
Lemma qsum_nonneg f l : (forall x, In x l -> 0 <= f x) -> 0 <= qsum f l.
Proof. intros H. setoid_replace 0 with (qsum (fun _ : A => 0) l) by (rewrite qsum_const; ring). now apply qsum_le. Qed.
Lemma qsum_pos_term f l x : In x l -> (forall y, In y l -> 0 <= f y) -> f x <= qsum f l.
Proof.
  induction l as [|a l IH]; [intros []|]. intros [->|H] P; rewrite qsum_cons.
  - assert (0 <= qsum f l) by (apply qsum_nonneg; intros; apply P; now right). lra.
  - assert (f x <= qsum f l) by (apply IH; auto; intros; apply P; now right).
    assert (0 <= f a) by (apply P; now left). lra.
Qed.
Lemma qlen_nonneg l : 0 <= qlen l.
Proof. unfold qlen, zlen. change 0 with (inject_Z 0). rewrite <- Zle_Qle. lia. Qed.
Lemma qlen_pos l : l <> [] -> 0 < qlen l.
Proof. destruct l; [contradiction|]. intros _. rewrite qlen_cons. pose proof (qlen_nonneg l). lra. Qed.
Lemma qlen_app l1 l2 : qlen (l1 ++ l2) == qlen l1 + qlen l2.
Proof. unfold qlen, zlen. rewrite app_length, Nat2Z.inj_add, inject_Z_plus. reflexivity. Qed.
Lemma qlen_perm l1 l2 : Permutation l1 l2 -> qlen l1 = qlen l2.
Proof. intros P. unfold qlen, zlen. now rewrite (Permutation_length P). Qed.
End S.
Lemma qsum_map {A B} (f : B -> Q) (h : A -> B) l : qsum f (map h l) = qsum (fun x => f (h x)) l.
Proof. induction l as [|x l IH]; simpl; [reflexivity|]. now rewrite IH. Qed.
Lemma qlen_map {A B} (h : A -> B) l : qlen (map h l) = qlen l.
Proof. unfold qlen, zlen. now rewrite map_length. Qed.
Lemma qsum_swap {A B} (f : A -> B -> Q) la lb :
  qsum (fun a => qsum (f a) lb) la == qsum (fun b => qsum (fun a => f a b) la) lb.
Proof.
  induction la as [|a la IH]; simpl.
  - rewrite qsum_zero; [reflexivity|intros; reflexivity].
  - rewrite IH, <- qsum_add. reflexivity.
Qed.
Lemma qsum_filter {A} (f : A -> Q) (p : A -> bool) l : qsum f (filter p l) == qsum (fun x => if p x then f x else 0) l.
Proof. induction l as [|x l IH]; simpl; [reflexivity|]. destruct (p x); simpl; rewrite IH; ring. Qed.
Lemma qlen_sum {A} (l : list A) : qlen l == qsum (fun _ => 1) l.
Proof. rewrite qsum_const. ring. Qed.
(** Splitting a sum over rows by their key. *)
Lemma qsum_by_key {A K} (eqb : K -> K -> bool) (eqb_ok : forall a b, eqb a b = true <-> a = b)
  (key : A -> K) (f : A -> Q) (keys : list K) (l : list A) :
  NoDup keys -> (forall x, In x l -> In (key x) keys) ->
  qsum f l == qsum (fun k => qsum f (filter (fun x => eqb (key x) k) l)) keys.
Proof.
  intros ND H.
  rewrite (qsum_ext (fun k => qsum f (filter (fun x => eqb (key x) k) l))
             (fun k => qsum (fun x => if eqb (key x) k then f x else 0) l)) by (intros; apply qsum_filter).
  rewrite (qsum_swap (fun k x => if eqb (key x) k then f x else 0)).
  apply qsum_ext. intros x Hx. specialize (H x Hx). clear Hx. induction ND as [|k keys N ND IH]; [destruct H|].
  rewrite qsum_cons. destruct H as [<-|H].
  - rewrite (proj2 (eqb_ok k k) eq_refl). rewrite qsum_zero; [ring|].
    intros k' Hk. destruct (eqb k k') eqn:E; [|reflexivity]. apply eqb_ok in E. subst k'. contradiction.
  - destruct (eqb (key x) k) eqn:E.
    + apply eqb_ok in E. subst k. contradiction.
    + cbv iota. rewrite <- IH by exact H. ring.
Qed.
