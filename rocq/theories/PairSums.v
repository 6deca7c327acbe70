(** Sums over all pairs i < j of a list; specification vocabulary and its algebra. *)
From Coq Require Import Bool List ZArith Lia Permutation Sorted.
Import ListNotations.
Open Scope Z_scope.

Definition zsum {A} (f : A -> Z) (l : list A) : Z := fold_right (fun x acc => f x + acc) 0 l.
(** Sum of [f x y] over all pairs of positions i < j ([x] at i, [y] at j). *)
Fixpoint psum {A} (f : A -> A -> Z) (l : list A) : Z :=
  match l with [] => 0 | x :: l' => zsum (f x) l' + psum f l' end.

Definition b2z (b : bool) : Z := if b then 1 else 0.
Definition zlen {A} (l : list A) : Z := Z.of_nat (length l).

Section S.
Context {A : Type}.
Implicit Types (f g : A -> A -> Z) (l : list A).

Lemma zsum_app (h : A -> Z) l1 l2 : zsum h (l1 ++ l2) = zsum h l1 + zsum h l2.
Proof. induction l1 as [|x l1 IH]; simpl; [reflexivity|]. rewrite IH. lia. Qed.
Lemma zsum_perm (h : A -> Z) l1 l2 : Permutation l1 l2 -> zsum h l1 = zsum h l2.
Proof. induction 1; simpl; lia. Qed.
Lemma zsum_ext (h k : A -> Z) l : (forall x, In x l -> h x = k x) -> zsum h l = zsum k l.
Proof. induction l as [|x l IH]; simpl; intros H; [reflexivity|]. rewrite H, IH; auto. Qed.
Lemma zsum_add (h k : A -> Z) l : zsum (fun x => h x + k x) l = zsum h l + zsum k l.
Proof. induction l as [|x l IH]; simpl; [reflexivity|]. rewrite IH. lia. Qed.
Lemma zsum_mul c (h : A -> Z) l : zsum (fun x => c * h x) l = c * zsum h l.
Proof. induction l as [|x l IH]; simpl; [lia|]. rewrite IH. lia. Qed.
Lemma zsum_const c l : zsum (fun _ => c) l = c * zlen l.
Proof. unfold zlen. induction l as [|x l IH]; cbn [zsum fold_right length]; [lia|]. fold (zsum (fun _ : A => c) l). rewrite IH. lia. Qed.
Lemma zsum_le (h k : A -> Z) l : (forall x, In x l -> h x <= k x) -> zsum h l <= zsum k l.
Proof. induction l as [|x l IH]; simpl; intros H; [lia|]. specialize (IH (fun x Hx => H x (or_intror Hx))). specialize (H x (or_introl eq_refl)). lia. Qed.
Lemma zsum_map {B} (h : A -> Z) (g : B -> A) (l : list B) : zsum h (map g l) = zsum (fun x => h (g x)) l.
Proof. induction l as [|x l IH]; simpl; [reflexivity|]. now rewrite IH. Qed.
Lemma zsum_zero (h : A -> Z) l : (forall x, In x l -> h x = 0) -> zsum h l = 0.
Proof. induction l as [|x l IH]; simpl; intros H; [reflexivity|]. rewrite H, IH; auto. Qed.

Lemma psum_ext f g l : (forall x y, In x l -> In y l -> f x y = g x y) -> psum f l = psum g l.
Proof.
  induction l as [|x l IH]; simpl; intros H; [reflexivity|]. f_equal.
  - apply zsum_ext. intros y Hy. apply H; auto.
  - apply IH. intros y z Hy Hz. apply H; auto.
Qed.
Lemma psum_add f g l : psum (fun x y => f x y + g x y) l = psum f l + psum g l.
Proof. induction l as [|x l IH]; simpl; [reflexivity|]. rewrite IH, zsum_add. lia. Qed.
Lemma psum_mul c f l : psum (fun x y => c * f x y) l = c * psum f l.
Proof. induction l as [|x l IH]; simpl; [lia|]. rewrite IH, zsum_mul. lia. Qed.
Lemma psum_app f l1 l2 : psum f (l1 ++ l2) = psum f l1 + psum f l2 + zsum (fun x => zsum (f x) l2) l1.
Proof. induction l1 as [|x l1 IH]; simpl; [lia|]. rewrite IH, zsum_app. lia. Qed.
Lemma psum_perm f l1 l2 : (forall x y, f x y = f y x) -> Permutation l1 l2 -> psum f l1 = psum f l2.
Proof.
  intros S. induction 1 as [|x l l' P IH|x y l|l l' l'' P1 IH1 P2 IH2]; simpl.
  - reflexivity.
  - now rewrite IH, (zsum_perm _ _ _ P).
  - rewrite (S x y). lia.
  - congruence.
Qed.
Lemma psum_sorted_ext (R : A -> A -> Prop) f g l : StronglySorted R l ->
  (forall x y, R x y -> f x y = g x y) -> psum f l = psum g l.
Proof.
  intros SS H. induction SS as [|x l SS IH F]; simpl; [reflexivity|]. rewrite IH. f_equal.
  apply zsum_ext. intros y Hy. rewrite Forall_forall in F. now apply H, F.
Qed.
Lemma psum_le f g l : (forall x y, In x l -> In y l -> f x y <= g x y) -> psum f l <= psum g l.
Proof.
  induction l as [|x l IH]; simpl; intros H; [lia|].
  specialize (IH (fun y z Hy Hz => H y z (or_intror Hy) (or_intror Hz))).
  pose proof (zsum_le (f x) (g x) l (fun y Hy => H x y (or_introl eq_refl) (or_intror Hy))). lia.
Qed.
Lemma psum_one l : 2 * psum (fun _ _ => 1) l = zlen l * (zlen l - 1).
Proof.
  unfold zlen. induction l as [|x l IH]; [reflexivity|]. cbn [psum length]. rewrite zsum_const. unfold zlen. nia.
Qed.
End S.

Lemma psum_map {A B} (f : A -> A -> Z) (g : B -> A) (l : list B) :
  psum f (map g l) = psum (fun x y => f (g x) (g y)) l.
Proof. induction l as [|x l IH]; simpl; [reflexivity|]. now rewrite IH, zsum_map. Qed.
Lemma zsum_swap {A B} (f : A -> B -> Z) l1 l2 :
  zsum (fun x => zsum (f x) l2) l1 = zsum (fun y => zsum (fun x => f x y) l1) l2.
Proof.
  induction l1 as [|x l1 IH]; simpl.
  - now rewrite zsum_zero.
  - rewrite IH, <- zsum_add. reflexivity.
Qed.
