(** A tactic for permutations of concatenations. *)
From Coq Require Import List Permutation.
Import ListNotations.

Lemma perm_end {X} (a b : list X) : Permutation (a ++ []) (b ++ []) -> Permutation a b.
Proof. now rewrite !app_nil_r. Qed.

Ltac perm_bring a :=
  lazymatch goal with
  | |- Permutation (a ++ ?Z) _ => reflexivity
  | |- Permutation (?b ++ ?Z) _ =>
      eapply perm_trans; [apply Permutation_app_head; perm_bring a | apply Permutation_app_swap_app]
  end.
Ltac perm_loop :=
  lazymatch goal with
  | |- Permutation ?a ?a => reflexivity
  | |- Permutation (?a ++ ?X) _ =>
      eapply perm_trans; [|symmetry; perm_bring a]; apply Permutation_app_head; perm_loop
  end.
Ltac solve_perm :=
  apply perm_end;
  repeat match goal with
         | |- context [?x :: ?l] => lazymatch l with nil => fail | _ => change (x :: l) with ([x] ++ l) end
         end;
  repeat rewrite <- app_assoc; cbn [app]; 
  repeat match goal with
         | |- context [?x :: ?l] => lazymatch l with nil => fail | _ => change (x :: l) with ([x] ++ l) end
         end;
  perm_loop.

Goal forall (X : Type) (x : X) a b c d, Permutation ((a ++ x :: b) ++ c ++ d) (d ++ (x :: c) ++ b ++ a).
Proof. intros. solve_perm. Qed.
