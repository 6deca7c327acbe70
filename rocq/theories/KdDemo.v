(** Concrete library routines and matrices used to exhibit cases that meet the hypotheses of the
    KD-tree theorems, and witnesses for the refutations. *)
From Coq Require Import Bool List Arith Lia Permutation Sorted ZArith.
From Flocq Require Import IEEE754.BinarySingleNaN.
From Verif Require Import Num F64 KdModel KdSpec KdProofs KnnUnique PyKdModel PyKdSpec PyKdProofs.
Import ListNotations.

Notation T := (carrier f64_ops).

(** The float m * 2^e, rounded. *)
Definition fz (m e : Z) : f64 := binary_normalize 53 1024 f64_prec f64_emax mode_NE m e false.
Definition fi (m : Z) : f64 := fz m 0.

Section Sort.
Context {X : Type} (le : X -> X -> bool).
Fixpoint ins (x : X) (l : list X) : list X :=
  match l with [] => [x] | y :: l' => if le x y then x :: l else y :: ins x l' end.
Definition isort (l : list X) : list X := fold_right ins [] l.
Lemma ins_perm x l : Permutation (ins x l) (x :: l).
Proof.
  induction l as [|y l IH]; simpl; [reflexivity|]. destruct (le x y); [reflexivity|].
  rewrite IH. apply perm_swap.
Qed.
Lemma isort_perm l : Permutation (isort l) l.
Proof. induction l as [|x l IH]; simpl; [constructor|]. rewrite ins_perm. now constructor. Qed.
End Sort.

(** Stable versions of the library sorts. *)
Definition demo_lib : SplitLib f64_ops nat := {|
  sort_key := fun p l => filter (fun x => negb (p x)) l ++ filter p l;
  sort_cmp := fun cmp l => isort cmp l;
  part_point := fun p l => pp_prefix p l;
|}.
Lemma demo_lib_ok : lib_ok f64_ops nat demo_lib.
Proof.
  repeat split; simpl.
  - intros p l. induction l as [|x l IH]; simpl; [constructor|]. destruct (p x); simpl.
    + rewrite <- Permutation_middle. now constructor.
    + now constructor.
  - intros c l. apply isort_perm.
  - intros p l. induction l as [|x l IH]; simpl; [lia|]. destruct (p x); simpl; lia.
Qed.

Definition demo_sort (l : list (NB f64_ops nat)) : list (NB f64_ops nat) :=
  isort (fun a b => nle f64_ops (nb_dist a) (nb_dist b)) l.
Lemma demo_sort_ok : sort_ok f64_ops demo_sort.
Proof.
  intros l. split; [apply isort_perm|]. intros NN. unfold demo_sort.
  induction NN as [|x l Hx NN IH]; cbn [isort fold_right]; [constructor|].
  fold (isort (fun a b : NB f64_ops nat => nle f64_ops (nb_dist a) (nb_dist b)) l).
  set (s := isort _ l) in *.
  assert (NS : Forall (fun nb => nnan f64_ops (nb_dist nb) = false) s).
  { eapply Forall_perm; [symmetry; apply isort_perm|exact NN]. }
  clearbody s. clear NN. induction IH as [|y s S IH2 F]; cbn [ins]; [constructor; constructor|].
  inversion NS; subst. destruct (nle f64_ops (nb_dist x) (nb_dist y)) eqn:E.
  - constructor; [constructor; assumption|]. constructor; [exact E|].
    eapply Forall_impl; [|exact F]. intros z Hz. exact (le_trans f64_ops f64_laws _ _ _ E Hz).
  - constructor; [now apply IH2|]. rewrite Forall_forall. intros z Hz.
    apply (Permutation_in _ (ins_perm _ _ _)) in Hz. destruct Hz as [<-|Hz].
    + destruct (le_total f64_ops f64_laws (nb_dist x) (nb_dist y) Hx H1); congruence.
    + rewrite Forall_forall in F. now apply F.
Qed.

Definition no_simd : list T -> list T -> T := fun _ _ => nzero f64_ops.

Definition mk (rows cols : nat) (data : list f64) : mat f64_ops :=
  Build_mat f64_ops rows cols data true.

(** Twelve points on a line (forces a split: the capacity is 10), then one more by [add]. *)
Definition demo_X : mat f64_ops := mk 12 1 (map fi [0; 1; 2; 3; 4; 5; 6; 7; 8; 9; 10; 11]%Z).
Definition demo_add : mat f64_ops := mk 1 1 [fi 5].
Definition demo_Q : mat f64_ops := mk 2 1 [fi 5; fi 100].

Lemma eps_zero : forall r, nlt f64_ops (neps f64_ops) r = true ->
  nle f64_ops r (nadd f64_ops (nzero f64_ops) (neps f64_ops)) = false.
Proof.
  intros r H. apply (lt_nle f64_ops f64_laws) in H. rewrite <- H. f_equal.
Qed.

(** Tests (not proofs): the model on the demo data, as printable rationals would show. *)
Definition fin_list (l : list f64) : bool := forallb is_finite l.
Lemma finite_list l : fin_list l = true -> all_finite f64_ops l.
Proof.
  unfold all_finite, fin_list. rewrite forallb_forall, Forall_forall. intros H x Hx. exact (H x Hx).
Qed.
Lemma nan_list l : fin_list l = true -> no_nan f64_ops l.
Proof.
  unfold no_nan, fin_list. rewrite forallb_forall, Forall_forall. intros H x Hx.
  apply (finite_nan f64_ops f64_laws). exact (H x Hx).
Qed.
Lemma demo_good : Forall (good_mat f64_ops 1) [demo_X; demo_add].
Proof. repeat constructor. Qed.
Lemma demo_clean b n : clean f64_ops b n [demo_X; demo_add].
Proof. intros _. repeat constructor. Qed.

(** Queries that come out wrong. *)
Definition ids_of (r : pyres (list (list (BinNums.N * f64)))) : option (list (list BinNums.N)) :=
  match r with Ok outs => Some (map (map fst) outs) | _ => None end.
Definition build (X : mat f64_ops) (n : dname) := py_new f64_ops demo_lib no_simd X true n.
