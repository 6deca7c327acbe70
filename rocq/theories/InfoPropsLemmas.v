From Coq Require Import Reals List ZArith Arith Lra Lia Permutation.
From Verif Require Import WStatsSpec WStatsModel MetricSpec MetricProofs LagSpec LagModel LagProofs InfoSpec InfoModel InfoProofs InfoProofs2.
Import ListNotations.
Open Scope R_scope.

Lemma lnb base : 1 < base -> 0 < ln base.
Proof. intro H. rewrite <- ln_1. apply ln_increasing; lra. Qed.
Lemma entropy_thm {A : Type} (dec : forall a b : A, {a = b} + {a <> b}) uc (l : list A) base :
  counts_ok dec uc -> l <> [] -> 1 < base ->
  let v := query_entropy uc l base true in
  v = shannon dec l / ln base /\
  0 <= v <= ln (INR (length (nodup dec l))) / ln base /\
  (v = 0 <-> forall a b, In a l -> In b l -> a = b) /\
  (v = ln (INR (length (nodup dec l))) / ln base <-> uniform dec l) /\
  (forall l', Permutation l l' -> query_entropy uc l' base true = v).
Proof.
  intros U N B v. assert (E : v = shannon dec l / ln base) by now apply pl_entropy_norm. pose proof (lnb base B) as LB. assert (IB : 0 < / ln base) by now apply Rinv_0_lt_compat.
  pose proof (shannon_ge0 dec l N) as G. destruct (shannon_max dec l N) as [M MU]. unfold ndist in M, MU. split; [exact E|]. rewrite E. clearbody v. subst v.
  assert (CAN : forall a b, a / ln base = b / ln base <-> a = b).
  { intros a b. split; [|intros ->; easy]. intro H. apply Rmult_eq_reg_r in H; [exact H|lra]. }
  split; [split; [apply Rmult_le_pos; lra|apply Rmult_le_compat_r; lra]|]. split.
  - rewrite <- (shannon_zero dec l N). rewrite <- (CAN (shannon dec l) 0). assert (Z0 : 0 / ln base = 0) by (unfold Rdiv; ring). rewrite Z0. tauto.
  - split; [now rewrite CAN|]. intros l' P. unfold query_entropy. rewrite (pl_entropy_norm dec) by (try exact U; intro Z; subst; apply Permutation_sym, Permutation_nil in P; easy).
    now rewrite (shannon_perm dec _ _ P).
Qed.
Lemma entropy_rename {A B : Type} (da : forall a b : A, {a = b} + {a <> b}) (db : forall a b : B, {a = b} + {a <> b})
  ua ub (f : A -> B) l base : counts_ok da ua -> counts_ok db ub -> l <> [] -> 1 < base ->
  (forall v w, In v l -> In w l -> f v = f w -> v = w) ->
  query_entropy ub (map f l) base true = query_entropy ua l base true.
Proof.
  intros UA UB N _ I. unfold query_entropy. rewrite (pl_entropy_norm da), (pl_entropy_norm db); try assumption; [|now apply map_ne]. now rewrite (shannon_inj da db).
Qed.
Lemma entropy_case : counts_ok Z.eq_dec (fun l => map (count_occ Z.eq_dec l) (nodup Z.eq_dec l)) /\
  ~ uniform Z.eq_dec [1; 2; 1]%Z /\ uniform Z.eq_dec [1; 2; 2; 1]%Z.
Proof.
  split; [intro l; apply Permutation_refl|]. split.
  - intro U. specialize (U 1 2)%Z. cbn in U. specialize (U ltac:(auto) ltac:(auto)). discriminate.
  - intros v w Hv Hw. cbn in Hv, Hw. destruct Hv as [<-|[<-|[<-|[<-|[]]]]], Hw as [<-|[<-|[<-|[<-|[]]]]]; reflexivity.
Qed.
Lemma entropy_raw {A : Type} (dec : forall a b : A, {a = b} + {a <> b}) uc (l : list A) base :
  counts_ok dec uc -> 1 < base -> query_entropy uc l base false <= 0.
Proof.
  intros U B. pose proof (lnb base B) as LB. unfold query_entropy, pl_entropy. rewrite map_map.
  assert (0 <= total (fun c => INR c * (ln (INR c) / ln base)) (uc l)); [|unfold total in *; lra].
  apply total_ge0. intros c I. eapply Permutation_in in I; [|apply U]. apply in_map_iff in I. destruct I as [v [<- I]]. rewrite nodup_In in I.
  apply (count_occ_In dec) in I. assert (1 <= INR (count_occ dec l v)) by (apply (le_INR 1); lia).
  apply Rmult_le_pos; [lra|]. apply Rmult_le_pos; [rewrite <- ln_1; apply ln_mono; lra|apply Rlt_le, Rinv_0_lt_compat, LB].
Qed.
Lemma cond_thm {A B : Type} (da : forall a b : A, {a = b} + {a <> b}) (db : forall a b : B, {a = b} + {a <> b})
  gb (rows : list (A * B)) : groups_ok (dpair da db) gb -> rows <> [] ->
  let v := pl_conditional_entropy db gb rows in
  v = cond_entropy da db rows /\
  v = shannon (dpair da db) rows - shannon db (map snd rows) /\
  0 <= v <= shannon da (map fst rows) /\
  (v = 0 <-> determines rows) /\
  (v = shannon da (map fst rows) <-> independent da db rows).
Proof.
  intros G N v. assert (E : v = cond_entropy da db rows) by now apply cond_model. clearbody v. subst v. split; [easy|]. split; [now apply chain|].
  destruct (cond_ge0 da db rows N) as [C1 C2], (mutual da db rows N) as [M1 M2]. repeat split; try tauto.
Qed.
Lemma cond_case : determines [(1, 2); (1, 3); (1, 2)]%Z /\ ~ determines [(1, 2); (2, 2)]%Z.
Proof.
  split.
  - intros x x' y H H'. cbn in H, H'. assert (x = 1%Z) by intuition congruence. assert (x' = 1%Z) by intuition congruence. congruence.
  - intro D. specialize (D 1 2 2)%Z. cbn in D. specialize (D ltac:(auto) ltac:(auto)). discriminate.
Qed.
Lemma permute_rejects argsort uc t tau d base : (d <= 1)%nat \/ (tau < 1)%nat -> query_permute_entropy argsort uc t tau d base = None.
Proof. intro H. unfold query_permute_entropy, windows. destruct (Nat.leb_spec d 1); [easy|]. destruct (Nat.ltb_spec tau 1); [easy|lia]. Qed.
Lemma tau_refuted : exists l : list R,
  (forall r, (r + 2 < length l)%nat -> nth r l 0 < nth (r + 2) l 0) /\
  forall argsort uc base, argsort_ok argsort -> counts_ok (list_eq_dec Nat.eq_dec) uc ->
    query_permute_entropy argsort uc (map Some l) 2 2 base = Some (ln 2 / ln base).
Proof.
  exists [0; 1; 3; 2]. split; [|intros; now apply tau_ex]. intros r H. cbn in H. destruct r as [|[|r]]; cbn; [lra|lra|lia].
Qed.
Lemma past_end_refuted : exists l : list R,
  (forall i j, (i < j < length l)%nat -> nth i l 0 < nth j l 0) /\
  forall argsort uc base, argsort_ok argsort -> counts_ok (list_eq_dec Nat.eq_dec) uc ->
    query_permute_entropy argsort uc (map Some l) 3 2 base = Some (ln 2 / ln base).
Proof.
  exists [0; 1; 2; 3]. split; [|intros; now apply null_ex]. intros i j H. cbn in H. destruct i as [|[|[|i]]], j as [|[|[|[|j]]]]; cbn; try lia; lra.
Qed.
(** An argsort: insertion sort of the positions. *)
Definition oleb (a b : option R) : bool := match a, b with None, _ => true | Some _, None => false | Some x, Some y => if Rle_dec x y then true else false end.
Fixpoint ains (w : rcol) (i : nat) (p : list nat) : list nat :=
  match p with [] => [i] | j :: p' => if oleb (nth_opt w i) (nth_opt w j) then i :: p else j :: ains w i p' end.
Definition asort (w : rcol) : list nat := fold_right (ains w) [] (seq 0 (length w)).
Lemma oleb_ok a b : if oleb a b then ole a b else ole b a.
Proof. destruct a as [x|], b as [y|]; cbn; auto. destruct (Rle_dec x y); cbn; [easy|lra]. Qed.
Lemma ole_trans a b c : ole a b -> ole b c -> ole a c.
Proof. destruct a, b, c; cbn; try easy. lra. Qed.
Lemma ains_perm w i p : Permutation (ains w i p) (i :: p).
Proof. induction p as [|j p IH]; cbn; [easy|]. destruct (oleb _ _); [easy|]. rewrite IH. apply perm_swap. Qed.
From Coq Require Import Sorted.
Lemma ains_sorted w i p : StronglySorted (fun a b => ole (nth_opt w a) (nth_opt w b)) p -> StronglySorted (fun a b => ole (nth_opt w a) (nth_opt w b)) (ains w i p).
Proof.
  induction 1 as [|j p S IH F]; cbn; [repeat constructor|]. pose proof (oleb_ok (nth_opt w i) (nth_opt w j)) as O. destruct (oleb _ _).
  - constructor; [now constructor|]. constructor; [exact O|]. eapply Forall_impl; [|exact F]. intros a Ha. eapply ole_trans; eassumption.
  - constructor; [exact IH|]. apply (Permutation_Forall (Permutation_sym (ains_perm w i p))). now constructor.
Qed.
Lemma asort_ok : argsort_ok asort.
Proof.
  intro w. assert (G : forall s, Permutation (fold_right (ains w) [] s) s /\ StronglySorted (fun a b => ole (nth_opt w a) (nth_opt w b)) (fold_right (ains w) [] s)).
  { induction s as [|a s [P S]]; cbn; [split; constructor|]. split; [rewrite ains_perm; now constructor|now apply ains_sorted]. }
  destruct (G (seq 0 (length w))) as [P S]. fold (asort w) in P, S. split; [exact P|]. assert (L : length (asort w) = length w) by (rewrite (Permutation_length P); apply seq_length).
  rewrite <- L. clear - S. induction S as [|a s S IH F]; intros i j H; [cbn in H; lia|]. destruct i, j; cbn; cbn in H; try lia.
  - rewrite Forall_forall in F. apply F, nth_In. lia.
  - apply IH. lia.
Qed.
Lemma permute_case : tie_free [1; 3; 2] 2 /\ exists argsort, argsort_ok argsort.
Proof.
  split; [|exists asort; apply asort_ok]. intro r. destruct r as [|[|[|r]]]; cbn; repeat constructor; cbn; try (intros [H|[]]; lra); try easy. destruct r; cbn; constructor.
Qed.
