From Coq Require Import Bool List Arith NArith ZArith Lia Permutation Sorted Reals Lra.
From Flocq Require Import Core IEEE754.BinarySingleNaN.
From Verif Require Import Num F64 F64Facts KdModel KdDemo KdSpec KdProofs PyKdModel PyKdSpec KnnExprModel KnnExprSpec KnnExprProofs KnnExprSem
  MetricSpec DigammaModel DigammaSpec KnnEntModel KnnEntSpec KnnEntProofs KnnEntProofs2 KnnEntProofs3 KnnEntProofs4 CopModel CopSpec.
Import ListNotations.
Open Scope nat_scope.

Section Ord.
Context {X : Type} (leb : X -> X -> bool).
Lemma before_lower col x : before leb col x = lower leb col x.
Proof.
  unfold before, lower, somes. induction col as [|[y|] col IH]; [reflexivity| |exact IH]. cbn [filter flat_map app]. destruct (negb (leb x y)); cbn [length]; now rewrite IH.
Qed.
Lemma same_equal col x : same leb col x = equal leb col x.
Proof.
  unfold same, equal, somes. induction col as [|[y|] col IH]; [reflexivity| |exact IH]. cbn [filter flat_map app]. destruct (leb x y && leb y x); cbn [length]; now rewrite IH.
Qed.
Lemma somes_len (col : list (option X)) : length (somes col) <= length col.
Proof. unfold somes. induction col as [|[y|] col IH]; cbn [flat_map app length]; lia. Qed.
Lemma ranks_bound col x : total_order leb -> In (Some x) col -> 1 <= same leb col x /\ before leb col x + same leb col x <= length col.
Proof.
  intros [T _] H. rewrite before_lower, same_equal. unfold lower, equal.
  assert (Hx : In x (somes col)) by (unfold somes; apply in_flat_map; exists (Some x); split; [exact H|now left]).
  split.
  - assert (Hf : In x (filter (fun y => leb x y && leb y x) (somes col))).
    { apply filter_In. split; [exact Hx|]. destruct (T x x) as [E|E]; rewrite E; reflexivity. }
    destruct (filter _ _); [destruct Hf|cbn; lia].
  - apply Nat.le_trans with (length (somes col)); [|apply somes_len]. clear. induction (somes col) as [|y l IH]; [reflexivity|]. cbn [filter].
    destruct (leb x y), (leb y x); cbn [negb andb length]; lia.
Qed.
End Ord.

(** Order isomorphic columns have the same ranks. *)
Lemma nth_pair {X Y} (c : list (option X)) (c' : list (option Y)) (g : option X -> bool) (g' : option Y -> bool) :
  length c = length c' -> (forall i, i < length c -> g (nth i c None) = g' (nth i c' None)) -> length (filter g c) = length (filter g' c').
Proof.
  revert c'. induction c as [|a c IH]; intros [|a' c'] L H; try discriminate L; [reflexivity|]. cbn [filter].
  pose proof (H 0 ltac:(cbn; lia)) as H0. cbn in H0. rewrite H0.
  assert (E : length (filter g c) = length (filter g' c')) by (apply IH; [now injection L|]; intros i Hi; apply (H (S i)); cbn; lia).
  destruct (g' a'); cbn [length]; now rewrite E.
Qed.
Lemma nth_opt_map {X Y} (f : X -> Y) c i : nth i (map (option_map f) c) None = option_map f (nth i c None).
Proof. change (@None Y) with (option_map f None) at 1. apply map_nth. Qed.
Lemma share_order {X Y} (leb : X -> X -> bool) (leb' : Y -> Y -> bool) c c' : same_order leb leb' c c' -> rank_share leb c = rank_share leb' c'.
Proof.
  intros (L & NU & OR). unfold rank_share. apply (nth_ext _ _ None None); [rewrite !map_length; exact L|]. intros i Hi. rewrite map_length in Hi.
  rewrite !nth_opt_map.
  destruct (nth i c None) as [x|] eqn:Ex.
  - destruct (nth i c' None) as [x'|] eqn:Ex'; [|apply NU in Ex'; congruence]. cbn [option_map]. rewrite L. do 2 f_equal.
    assert (E1 : before leb c x = before leb' c' x').
    { apply nth_pair; [exact L|]. intros j Hj. destruct (nth j c None) as [y|] eqn:Ey, (nth j c' None) as [y'|] eqn:Ey'; try reflexivity.
      * now rewrite (OR i j x y x' y').
      * apply NU in Ey'. congruence.
      * apply NU in Ey. congruence. }
    assert (E2 : same leb c x = same leb' c' x').
    { apply nth_pair; [exact L|]. intros j Hj. destruct (nth j c None) as [y|] eqn:Ey, (nth j c' None) as [y'|] eqn:Ey'; try reflexivity.
      * now rewrite (OR i j x y x' y'), (OR j i y x y' x').
      * apply NU in Ey'. congruence.
      * apply NU in Ey. congruence. }
    unfold rank_avg. now rewrite E1, E2.
  - pose proof (proj1 (NU i) Ex) as Ex'. rewrite Ex'. reflexivity.
Qed.
Theorem copula_order {X Y} (leb : X -> X -> bool) (leb' : Y -> Y -> bool) gamma lib cols cols' k r : Forall2 (same_order leb leb') cols cols' ->
  query_copula_entropy leb gamma lib cols k r = query_copula_entropy leb' gamma lib cols' k r.
Proof.
  intros F. unfold query_copula_entropy. do 2 f_equal. induction F as [|c c' l l' H F IH]; [reflexivity|]. cbn [map]. rewrite IH.
  now rewrite (share_order leb leb' c c' H).
Qed.
Theorem cond_order {X Y} (leb : X -> X -> bool) (leb' : Y -> Y -> bool) gamma lib x y z x' y' z' k r1 r2 r3 :
  same_order leb leb' x x' -> same_order leb leb' y y' -> same_order leb leb' z z' ->
  query_cond_indep leb gamma lib x y z k r1 r2 r3 = query_cond_indep leb' gamma lib x' y' z' k r1 r2 r3.
Proof.
  intros A B C. unfold query_cond_indep. 
  rewrite (copula_order leb leb' gamma lib [x; y; z] [x'; y'; z']) by repeat (apply Forall2_cons || apply Forall2_nil || assumption).
  rewrite (copula_order leb leb' gamma lib [y; z] [y'; z']) by repeat (apply Forall2_cons || apply Forall2_nil || assumption).
  rewrite (copula_order leb leb' gamma lib [x; z] [x'; z']) by repeat (apply Forall2_cons || apply Forall2_nil || assumption).
  reflexivity.
Qed.
Lemma increasing_order {X} (leb : X -> X -> bool) f c : (forall x y, leb (f x) (f y) = leb x y) -> same_order leb leb c (map (option_map f) c).
Proof.
  intros H. split; [now rewrite map_length|]. assert (E : forall i, nth i (map (option_map f) c) None = option_map f (nth i c None)).
  { intros i. change (@None X) with (option_map f None) at 1. apply map_nth. }
  split.
  - intros i. rewrite E. destruct (nth i c None); cbn; split; congruence.
  - intros i j x y x' y' A B C D. rewrite E, A in C. rewrite E, B in D. injection C as <-. injection D as <-. now rewrite H.
Qed.
