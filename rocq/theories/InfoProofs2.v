From Coq Require Import Reals List ZArith Arith Lra Lia Psatz Permutation Sorted.
From Verif Require Import WStatsSpec WStatsModel WStatsProofs MetricSpec MetricProofs LagSpec LagModel LagProofs InfoSpec InfoModel InfoProofs.
Import ListNotations.
Open Scope R_scope.

Notation dpat := (list_eq_dec Nat.eq_dec).
Lemma get_some (l : list R) i : get (map Some l) i = nth_error l i.
Proof. unfold get. rewrite nth_error_map. now destruct (nth_error l i). Qed.
Lemma firstn_map_seq {A} (f : nat -> A) k n : (k <= n)%nat -> firstn k (map f (seq 0 n)) = map f (seq 0 k).
Proof. intro H. rewrite firstn_map. f_equal. replace n with (k + (n - k))%nat by lia. rewrite seq_app, firstn_app, seq_length, Nat.sub_diag, firstn_all2 by now rewrite seq_length. cbn. now rewrite app_nil_r. Qed.
Lemma window_cells (l : list R) : forall d i, (i + d <= length l)%nat -> map (fun j => get (map Some l) (i + j)) (seq 0 d) = map Some (firstn d (skipn i l)).
Proof.
  intros d i. revert l. induction i as [|i IHi]; intros l H.
  - cbn [skipn plus]. revert l H. induction d as [|d IH]; intros l H; [easy|]. destruct l as [|a l]; [cbn in H; lia|]. cbn [seq map firstn]. f_equal.
    rewrite <- (IH l) by (cbn in H; lia). rewrite <- seq_shift, map_map. reflexivity.
  - destruct l as [|a l]; [cbn in H; lia|]. cbn [skipn]. rewrite <- IHi by (cbn in H; lia). reflexivity.
Qed.
Lemma windows_one l d : (2 <= d <= length l)%nat -> (Z.of_nat (length l) < 2 ^ 32)%Z ->
  windows (map Some l) 1 d = Some (map (fun r => map Some (firstn d (skipn r l))) (seq 0 (length l - d + 1))).
Proof.
  intros H B. unfold windows. destruct (Nat.leb_spec d 1); [lia|]. change (1 <? 1)%nat with false. change (1 =? 1)%nat with true. cbn match. f_equal.
  rewrite map_length. unfold head_u32. rewrite Z.mod_small by lia. unfold concat_list. rewrite map_length, seq_length, map_length.
  rewrite Z.min_l by lia. replace (Z.to_nat (Z.of_nat (length l) - Z.of_nat d + 1)) with (length l - d + 1)%nat by lia. rewrite firstn_map_seq by lia.
  apply map_ext_in. intros i I. apply in_seq in I. rewrite <- window_cells by lia. destruct d as [|d]; [lia|]. cbn [seq map]. rewrite Nat.add_0_r. f_equal.
  rewrite map_map. replace (S d - 1)%nat with d by lia. apply map_ext. intro j. now rewrite get_up, Nat.add_comm, Nat.add_comm.
Qed.
Lemma pat_of argsort w : argsort_ok argsort -> order_pattern w (argsort (map Some w)).
Proof.
  intro A. destruct (A (map Some w)) as [P S]. rewrite map_length in P, S. split; [exact P|]. intros i j H. specialize (S i j H).
  assert (B : forall i, (i < length w)%nat -> (nth i (argsort (map Some w)) 0 < length w)%nat).
  { intros k K. assert (In (nth k (argsort (map Some w)) 0%nat) (argsort (map Some w))) as J by (apply nth_In; rewrite (Permutation_length P), seq_length; exact K).
    eapply Permutation_in in J; [|exact P]. apply in_seq in J. lia. }
  unfold nth_opt in S. rewrite !(nth_indep (map Some w) None (Some 0)) in S by (rewrite map_length; apply B; lia). rewrite !(map_nth Some w 0) in S. exact S.
Qed.
Lemma nth_sorted (l : list R) : (forall i j, (i < j < length l)%nat -> nth i l 0 <= nth j l 0) -> StronglySorted Rle l.
Proof.
  induction l as [|a l IH]; intro H; [constructor|]. constructor.
  - apply IH. intros i j K. apply (H (S i) (S j)). cbn. lia.
  - apply Forall_forall. intros x I. apply (In_nth _ _ 0) in I. destruct I as [k [K <-]]. apply (H 0%nat (S k)). cbn. lia.
Qed.
Lemma sorted_unique (l l' : list R) : StronglySorted Rle l -> StronglySorted Rle l' -> Permutation l l' -> l = l'.
Proof.
  intro S. revert l'. induction S as [|a l S IH F]; intros l' S' P; [now apply Permutation_nil in P|].
  destruct l' as [|b l']; [now apply Permutation_sym, Permutation_nil in P|]. inversion S' as [|? ? S1 F1]; subst.
  assert (E : a = b).
  { apply Rle_antisym.
    - assert (I : In b (a :: l)) by (eapply Permutation_in; [symmetry; exact P|now left]). destruct I as [->|I]; [lra|]. rewrite Forall_forall in F. now apply F.
    - assert (I : In a (b :: l')) by (eapply Permutation_in; [exact P|now left]). destruct I as [->|I]; [lra|]. rewrite Forall_forall in F1. now apply F1. }
  subst b. f_equal. apply IH; [exact S1|]. now apply Permutation_cons_inv in P.
Qed.
Lemma seq_nth_self (w : list R) : map (fun i => nth i w 0) (seq 0 (length w)) = w.
Proof. induction w as [|a w IH]; [easy|]. cbn [length seq map nth]. f_equal. rewrite <- seq_shift, map_map. exact IH. Qed.
Lemma pat_sorted w p : order_pattern w p -> StronglySorted Rle (map (fun i => nth i w 0) p) /\ Permutation (map (fun i => nth i w 0) p) w.
Proof.
  intros [P S]. assert (L : length p = length w) by (rewrite (Permutation_length P); apply seq_length). split.
  - apply nth_sorted. rewrite map_length, L. intros i j H. assert (Q : forall k, (k < length w)%nat -> nth k (map (fun i => nth i w 0) p) 0 = nth (nth k p 0%nat) w 0).
    { intros k K. rewrite (nth_indep _ 0 (nth 0 w 0)) by (rewrite map_length; lia). apply (map_nth (fun i => nth i w 0) p 0%nat). }
    rewrite !Q by lia. now apply S.
  - transitivity (map (fun i => nth i w 0) (seq 0 (length w))); [now apply Permutation_map|]. now rewrite seq_nth_self.
Qed.
Lemma pat_range w p : order_pattern w p -> length p = length w /\ forall i, In i p -> (i < length w)%nat.
Proof. intros [P _]. split; [rewrite (Permutation_length P); apply seq_length|]. intros i I. eapply Permutation_in in I; [|exact P]. apply in_seq in I. lia. Qed.
Lemma map_inj_on {A B} (f : A -> B) : forall p q, (forall a b, In a p -> In b q -> f a = f b -> a = b) -> map f p = map f q -> p = q.
Proof.
  induction p as [|a p IH]; intros [|b q] H E; try easy. cbn in E. injection E as E1 E2. f_equal; [apply H; auto with datatypes|]. apply IH; [|exact E2]. intros; apply H; auto with datatypes.
Qed.
Lemma pat_unique w p q : NoDup w -> order_pattern w p -> order_pattern w q -> p = q.
Proof.
  intros N HP HQ. destruct (pat_sorted w p HP) as [S1 P1], (pat_sorted w q HQ) as [S2 P2]. destruct (pat_range w p HP) as [_ R1], (pat_range w q HQ) as [_ R2].
  apply (map_inj_on (fun i => nth i w 0)).
  - intros a b Ia Ib E. apply (proj1 (NoDup_nth w 0) N); auto.
  - apply sorted_unique; [exact S1|exact S2|]. rewrite P1. now symmetry.
Qed.
Lemma pat_mono f w p : (forall a b, In a w -> In b w -> a < b -> f a < f b) -> order_pattern w p -> order_pattern (map f w) p.
Proof.
  intros M HP. destruct (pat_range w p HP) as [L R]. destruct HP as [P S]. split; [now rewrite map_length|]. rewrite map_length. intros i j H. specialize (S i j H).
  assert (B : forall k, (k < length w)%nat -> (nth k p 0 < length w)%nat) by (intros; apply R, nth_In; lia).
  rewrite !(nth_indep (map f w) 0 (f 0)) by (rewrite map_length; apply B; lia). rewrite !map_nth.
  destruct (Req_dec (nth (nth i p 0%nat) w 0) (nth (nth j p 0%nat) w 0)) as [->|N]; [lra|]. apply Rlt_le, M; [apply nth_In, B; lia|apply nth_In, B; lia|lra].
Qed.
Lemma pat_anti f w p : (forall a b, In a w -> In b w -> a < b -> f b < f a) -> order_pattern w p -> order_pattern (map f w) (rev p).
Proof.
  intros M HP. destruct (pat_range w p HP) as [L R]. destruct HP as [P S]. split; [rewrite map_length, <- Permutation_rev; exact P|]. rewrite map_length. intros i j H.
  rewrite !rev_nth by lia. rewrite L. set (i' := (length w - Datatypes.S i)%nat). set (j' := (length w - Datatypes.S j)%nat). specialize (S j' i' ltac:(lia)).
  assert (B : forall k, (k < length w)%nat -> (nth k p 0 < length w)%nat) by (intros; apply R, nth_In; lia).
  rewrite !(nth_indep (map f w) 0 (f 0)) by (rewrite map_length; apply B; lia). rewrite !map_nth.
  destruct (Req_dec (nth (nth j' p 0%nat) w 0) (nth (nth i' p 0%nat) w 0)) as [->|N]; [lra|]. apply Rlt_le, M; [apply nth_In, B; lia|apply nth_In, B; lia|lra].
Qed.

(** All permutations of a list. *)
Fixpoint inserts (a : nat) (l : list nat) : list (list nat) := match l with [] => [[a]] | b :: l' => (a :: l) :: map (cons b) (inserts a l') end.
Fixpoint perms (l : list nat) : list (list nat) := match l with [] => [[]] | a :: l' => flat_map (inserts a) (perms l') end.
Lemma inserts_in a p1 p2 : In (p1 ++ a :: p2) (inserts a (p1 ++ p2)).
Proof. induction p1 as [|b p1 IH]; cbn; [destruct p2; now left|]. right. now apply in_map. Qed.
Lemma perms_in l : forall p, Permutation p l -> In p (perms l).
Proof.
  induction l as [|a l IH]; intros p P; [apply Permutation_sym, Permutation_nil in P; subst; now left|]. assert (I : In a p) by (eapply Permutation_in; [symmetry; exact P|now left]).
  apply in_split in I. destruct I as [p1 [p2 ->]]. cbn. apply in_flat_map. exists (p1 ++ p2). split; [|apply inserts_in].
  apply IH. apply (Permutation_cons_inv (a := a)). rewrite <- P. apply Permutation_middle.
Qed.
Lemma inserts_len a l : length (inserts a l) = S (length l) /\ forall m, In m (inserts a l) -> length m = S (length l).
Proof.
  induction l as [|b l [L E]]; cbn; [split; [easy|intros m [<-|[]]; easy]|]. rewrite map_length, L. split; [easy|]. intros m [<-|I]; [easy|]. apply in_map_iff in I. destruct I as [m' [<- I]]. cbn. now rewrite E.
Qed.
Lemma perms_len l : length (perms l) = fact (length l) /\ forall m, In m (perms l) -> length m = length l.
Proof.
  induction l as [|a l [L E]]; cbn [perms]; [split; [easy|intros m [<-|[]]; easy]|]. split.
  - change (fact (length (a :: l))) with (S (length l) * fact (length l))%nat. rewrite <- L. clear L. induction (perms l) as [|m ms IH]; [cbn; lia|].
    cbn [flat_map length]. rewrite app_length, IH by (intros; apply E; now right). rewrite (proj1 (inserts_len a m)), (E m) by now left. lia.
  - intros m I. apply in_flat_map in I. destruct I as [m' [I J]]. apply inserts_len in J. rewrite J. cbn. f_equal. now apply E.
Qed.
Definition pats argsort (l : list R) (d : nat) : list (list nat) := map (fun r => argsort (map Some (firstn d (skipn r l)))) (seq 0 (length l - d + 1)).
Lemma pats_len argsort l d : length (pats argsort l d) = (length l - d + 1)%nat.
Proof. unfold pats. now rewrite map_length, seq_length. Qed.
Lemma pats_ne argsort l d : pats argsort l d <> [].
Proof. intro E. pose proof (pats_len argsort l d) as L. rewrite E in L. cbn in L. lia. Qed.
Lemma win_len (l : list R) d r : (r + d <= length l)%nat -> length (firstn d (skipn r l)) = d.
Proof. intro H. rewrite firstn_length, skipn_length. lia. Qed.
Lemma permute_val argsort uc l d base : argsort_ok argsort -> counts_ok dpat uc -> (2 <= d <= length l)%nat -> (Z.of_nat (length l) < 2 ^ 32)%Z ->
  query_permute_entropy argsort uc (map Some l) 1 d base = Some (shannon dpat (pats argsort l d) / ln base).
Proof.
  intros A U H B. unfold query_permute_entropy. rewrite windows_one by assumption. cbn [option_map]. f_equal. rewrite map_map.
  apply pl_entropy_norm; [exact U|apply pats_ne].
Qed.
Lemma ndist_fact argsort l d : argsort_ok argsort -> (2 <= d <= length l)%nat -> (ndist dpat (pats argsort l d) <= fact d)%nat.
Proof.
  intros A H. destruct (perms_len (seq 0 d)) as [L _]. rewrite seq_length in L. rewrite <- L. apply NoDup_incl_length; [apply NoDup_nodup|].
  intros p I. rewrite nodup_In in I. apply in_map_iff in I. destruct I as [r [<- I]]. apply in_seq in I. apply perms_in.
  destruct (pat_of argsort (firstn d (skipn r l)) A) as [P _]. rewrite win_len in P by lia. exact P.
Qed.
Lemma ln_mono a b : 0 < a -> a <= b -> ln a <= ln b.
Proof. intros P [H| ->]; [now apply Rlt_le, ln_increasing|lra]. Qed.
Lemma permute_thm argsort uc l d base : argsort_ok argsort -> counts_ok dpat uc -> (2 <= d <= length l)%nat -> (Z.of_nat (length l) < 2 ^ 32)%Z -> 1 < base ->
  exists v ps, query_permute_entropy argsort uc (map Some l) 1 d base = Some v /\
    length ps = (length l - d + 1)%nat /\ (forall r, (r <= length l - d)%nat -> order_pattern (firstn d (skipn r l)) (nth r ps [])) /\
    v = shannon dpat ps / ln base /\ 0 <= v <= ln (INR (fact d)) / ln base /\ (v = 0 <-> forall p q, In p ps -> In q ps -> p = q).
Proof.
  intros A U H B Hb. exists (shannon dpat (pats argsort l d) / ln base), (pats argsort l d). rewrite (permute_val argsort uc) by assumption.
  assert (LB : 0 < ln base) by (rewrite <- ln_1; apply ln_increasing; lra). assert (IB : 0 < / ln base) by now apply Rinv_0_lt_compat.
  pose proof (pats_ne argsort l d) as N. split; [easy|]. split; [apply pats_len|]. split.
  { intros r Hr. unfold pats. rewrite (nth_indep _ [] (argsort (map Some (firstn d (skipn 0 l))))) by (rewrite map_length, seq_length; lia).
    rewrite (map_nth (fun r => argsort (map Some (firstn d (skipn r l)))) _ 0%nat). rewrite seq_nth by lia. now apply pat_of. }
  split; [easy|]. split.
  - split; [apply Rmult_le_pos; [now apply shannon_ge0|lra]|]. apply Rmult_le_compat_r; [lra|]. eapply Rle_trans; [apply (shannon_max dpat _ N)|].
    apply ln_mono; [exact (inr_pos _ (nodup_ne dpat _ N))|apply le_INR, ndist_fact; assumption].
  - rewrite <- (shannon_zero dpat _ N). split; intro Z; [apply Rmult_integral in Z; destruct Z; [assumption|lra]|rewrite Z; unfold Rdiv; ring].
Qed.
Lemma In_win (l : list R) d r x : In x (firstn d (skipn r l)) -> In x l.
Proof.
  intro I. rewrite <- (firstn_skipn r l). apply in_or_app. right. rewrite <- (firstn_skipn d (skipn r l)). apply in_or_app. now left.
Qed.
Lemma win_map (f : R -> R) (l : list R) d r : firstn d (skipn r (map f l)) = map f (firstn d (skipn r l)).
Proof. now rewrite skipn_map, firstn_map. Qed.
Lemma anti_mono_win (f : R -> R) (w : list R) : (forall a b, In a w -> In b w -> a < b -> f a <> f b) -> NoDup w -> NoDup (map f w).
Proof.
  intros M N. induction N as [|a w NA N IH]; cbn; [constructor|]. constructor.
  - intro I. apply in_map_iff in I. destruct I as [b [E I]]. destruct (Rtotal_order a b) as [Q|[Q|Q]].
    + symmetry in E. revert E. apply M; [now left|now right|exact Q].
    + now subst.
    + revert E. apply M; [now right|now left|exact Q].
  - apply IH. intros; apply M; auto with datatypes.
Qed.
Lemma permute_mono argsort uc l d base f : argsort_ok argsort -> counts_ok dpat uc -> (2 <= d <= length l)%nat -> (Z.of_nat (length l) < 2 ^ 32)%Z ->
  tie_free l d -> (forall a b, In a l -> In b l -> a < b -> f a < f b) \/ (forall a b, In a l -> In b l -> a < b -> f b < f a) ->
  query_permute_entropy argsort uc (map Some (map f l)) 1 d base = query_permute_entropy argsort uc (map Some l) 1 d base.
Proof.
  intros A U H B T M. rewrite !(permute_val argsort uc) by (try assumption; rewrite map_length; assumption). do 2 f_equal. unfold pats. rewrite map_length.
  destruct M as [M|M].
  - f_equal. apply map_ext. intro r. rewrite win_map. apply (pat_unique (map f (firstn d (skipn r l)))).
    + apply anti_mono_win; [|apply T]. intros a b Ia Ib L. apply Rlt_not_eq, M; [eapply In_win; exact Ia|eapply In_win; exact Ib|exact L].
    + now apply pat_of.
    + apply pat_mono; [|now apply pat_of]. intros a b Ia Ib. apply M; [eapply In_win; exact Ia|eapply In_win; exact Ib].
  - symmetry. rewrite <- (shannon_inj dpat dpat (@rev nat)); [|intros v w _ _ E; rewrite <- (rev_involutive v), E; apply rev_involutive].
    rewrite map_map. f_equal. apply map_ext. intro r. symmetry. rewrite win_map. apply (pat_unique (map f (firstn d (skipn r l)))).
    + apply anti_mono_win; [|apply T]. intros a b Ia Ib L. apply Rgt_not_eq, M; [eapply In_win; exact Ia|eapply In_win; exact Ib|exact L].
    + now apply pat_of.
    + apply pat_anti; [|now apply pat_of]. intros a b Ia Ib. apply M; [eapply In_win; exact Ia|eapply In_win; exact Ib].
Qed.

(** Counterexamples. *)
Lemma two_pats uc base : counts_ok dpat uc -> pl_entropy base true (uc [[0; 1]; [1; 0]]%nat) = ln 2 / ln base.
Proof.
  intro U. rewrite (pl_entropy_norm dpat) by (try exact U; discriminate). f_equal. destruct (shannon_max dpat [[0; 1]; [1; 0]]%nat) as [_ E]; [discriminate|].
  replace 2 with (INR (ndist dpat [[0; 1]; [1; 0]]%nat)) by (cbn; lra). apply E. intros v w [<-|[<-|[]]] [<-|[<-|[]]]; reflexivity.
Qed.
Lemma up argsort a b : argsort_ok argsort -> ~ ole b a -> argsort [a; b] = [0; 1]%nat.
Proof.
  intros A N. destruct (A [a; b]) as [P S]. apply Permutation_sym, Permutation_length_2_inv in P. destruct P as [E|E]; [exact E|]. specialize (S 0 1)%nat. rewrite E in S. exfalso. apply N. apply S. cbn. lia.
Qed.
Lemma down argsort a b : argsort_ok argsort -> ~ ole a b -> argsort [a; b] = [1; 0]%nat.
Proof.
  intros A N. destruct (A [a; b]) as [P S]. apply Permutation_sym, Permutation_length_2_inv in P. destruct P as [E|E]; [|exact E]. specialize (S 0 1)%nat. rewrite E in S. exfalso. apply N. apply S. cbn. lia.
Qed.
Lemma tau_ex argsort uc base : argsort_ok argsort -> counts_ok dpat uc ->
  query_permute_entropy argsort uc [Some 0; Some 1; Some 3; Some 2] 2 2 base = Some (ln 2 / ln base).
Proof.
  intros A U. unfold query_permute_entropy. assert (W : windows [Some 0; Some 1; Some 3; Some 2] 2 2 = Some [[Some 0; Some 1]; [Some 3; Some 2]]) by reflexivity.
  rewrite W. cbn [option_map map]. rewrite (up argsort), (down argsort) by (try exact A; cbn; lra). now rewrite two_pats.
Qed.
Lemma null_ex argsort uc base : argsort_ok argsort -> counts_ok dpat uc ->
  query_permute_entropy argsort uc [Some 0; Some 1; Some 2; Some 3] 3 2 base = Some (ln 2 / ln base).
Proof.
  intros A U. unfold query_permute_entropy. assert (W : windows [Some 0; Some 1; Some 2; Some 3] 3 2 = Some [[Some 0; Some 1]; [Some 3; None]]) by reflexivity.
  rewrite W. cbn [option_map map]. rewrite (up argsort), (down argsort) by (try exact A; cbn; lra || auto). now rewrite two_pats.
Qed.
