(** Proofs for C113: validation reports, probabilities, cached answers. *)
From Coq Require Import String Bool List Arith ZArith QArith Sorted Permutation Lia.
From Verif Require Import DiaModel DiaSpec DiaProofs.
Import ListNotations.
Open Scope nat_scope.

Lemma has_dup_iff l : has_dup l = false <-> NoDup l.
Proof.
  induction l as [|x l IH]; cbn; [split; [constructor|easy]|]. rewrite orb_false_iff, IH, <- not_true_iff_false, memb_In. split.
  - intros [a b]; now constructor.
  - intro N. inversion N; now subst.
Qed.
Lemma has_dup_true l : ~ NoDup l -> has_dup l = true.
Proof. intro H. destruct (has_dup l) eqn:E; [easy|]. now apply has_dup_iff in E. Qed.

Definition froot (r : string * option bool * string) := (fst (fst r), snd r).
Lemma col_ok rules : NoDup (map (fun r => fst (fst r)) rules) ->
  exists out, col_validation rules = Value out /\
    forall c m, In (c, m) out <-> In (c, Some false, m) rules.
Proof.
  intro N. unfold col_validation. apply has_dup_iff in N. rewrite N. eexists. split; [reflexivity|]. intros c m. rewrite in_map_iff. split.
  - intros ([[c' v] m'] & E & I). cbn in E. injection E as -> ->. apply filter_In in I. destruct I as [I K]. cbn in K. destruct v as [[]|]; easy.
  - intro I. exists (c, Some false, m). split; [easy|]. apply filter_In. easy.
Qed.
Lemma col_dup rules : ~ NoDup (map (fun r => fst (fst r)) rules) -> col_validation rules = Raise.
Proof. intro H. unfold col_validation. now rewrite has_dup_true. Qed.

(** Kleene conjunction. *)
Lemma all_false l : all_horizontal l = Some false <-> In (Some false) l.
Proof.
  unfold all_horizontal. assert (G : forall l a, fold_left kand l a = Some false <-> a = Some false \/ In (Some false) l).
  { induction l0 as [|x l0 IH]; intro a; cbn; [tauto|]. rewrite IH. destruct a as [[]|], x as [[]|]; cbn; intuition congruence. }
  rewrite G. intuition congruence.
Qed.
Lemma first_idx_spec b l : forall i j, first_idx b i l = Some j -> exists k, j = i + k /\ nth_error l k = Some (Some b) /\ forall k', k' < k -> nth_error l k' <> Some (Some b).
Proof.
  induction l as [|[c|] l IH]; intros i j H; cbn in H; [easy| |].
  - destruct (Bool.eqb b c) eqn:E.
    + injection H as <-. exists 0. apply eqb_prop in E. subst. split; [lia|]. split; [easy|]. lia.
    + apply IH in H. destruct H as (k & -> & H & K). exists (S k). split; [lia|]. split; [easy|]. intros [|k'] L; cbn; [|apply K; lia].
      intro X. injection X as ->. now rewrite eqb_reflx in E.
  - apply IH in H. destruct H as (k & -> & H & K). exists (S k). split; [lia|]. split; [easy|]. intros [|k'] L; cbn; [easy|apply K; lia].
Qed.
Lemma first_idx_none b l : forall i, first_idx b i l = None -> ~ In (Some b) l.
Proof.
  induction l as [|[c|] l IH]; intros i H; cbn in *; [tauto| |].
  - destruct (Bool.eqb b c) eqn:E; [easy|]. apply IH in H. intros [X|X]; [injection X as ->; now rewrite eqb_reflx in E|tauto].
  - apply IH in H. intros [X|X]; [easy|tauto].
Qed.
Lemma arg_min_false l : In (Some false) l -> exists k, arg_min l = Some k /\ nth_error l k = Some (Some false) /\ forall k', k' < k -> nth_error l k' <> Some (Some false).
Proof.
  intro I. unfold arg_min. destruct (first_idx false 0 l) as [j|] eqn:E.
  - apply first_idx_spec in E. destruct E as (k & -> & E). exists k. easy.
  - apply first_idx_none in E. easy.
Qed.
(** The sort. *)
Lemma leb_total a b : String.leb a b = false -> String.leb b a = true.
Proof. destruct (String.leb_total a b) as [h|h]; rewrite h; congruence. Qed.
Lemma sinsert_perm x l : Permutation (sinsert x l) (x :: l).
Proof. induction l as [|y l IH]; cbn; [easy|]. destruct (String.leb x y); [easy|]. rewrite IH. apply perm_swap. Qed.
Lemma ssort_perm l : Permutation (ssort l) l.
Proof. induction l as [|x l IH]; cbn; [easy|]. rewrite sinsert_perm. now constructor. Qed.
Notation srt := (LocallySorted (fun a b => String.leb a b = true)).
Lemma sinsert_sorted x l : srt l -> srt (sinsert x l).
Proof.
  induction 1 as [|a|a b l H IH L]; cbn; [constructor| |].
  - destruct (String.leb x a) eqn:E; repeat constructor; auto. now apply leb_total.
  - destruct (String.leb x a) eqn:E; [repeat constructor; auto|]. cbn in IH. destruct (String.leb x b) eqn:F; constructor; auto.
    now apply leb_total.
Qed.
Lemma ssort_sorted l : srt (ssort l).
Proof. induction l as [|x l IH]; cbn; [constructor|now apply sinsert_sorted]. Qed.

Lemma forall2_map {A B C} (R : B -> C -> Prop) (f : A -> B) (g : A -> C) l : (forall p, In p l -> R (f p) (g p)) -> Forall2 R (map f l) (map g l).
Proof. induction l as [|a l IH]; intro H; cbn; constructor; [apply H; now left|apply IH; intros p h; apply H; now right]. Qed.
Section Rows.
Context {I : Type} (keep : list string) (ids : list I) (rules : list (string * list (option bool))).
Hypothesis ND : NoDup (keep ++ map fst rules).
Hypothesis LEN : Forall (fun r => length (snd r) = length ids) rules.
Notation row := (fun i => map (fun r : string * list (option bool) => nth i (snd r) None) rules).
Notation n := (length ids).
Lemma cell_at i r : i < n -> In r rules -> nth_error (snd r) i = Some (nth i (snd r) None).
Proof. intros L J. apply nth_error_nth'. rewrite Forall_forall in LEN. now rewrite (LEN r J). Qed.
Lemma row_false i : i < n -> (In (Some false) (row i) <-> exists r, In r rules /\ fails i r).
Proof.
  intro L. rewrite in_map_iff. split; intros (r & A & B); exists r.
  - split; [easy|]. unfold fails. now rewrite (cell_at i r L B), A.
  - split; [|easy]. unfold fails in B. rewrite (cell_at i r L A) in B. congruence.
Qed.
Notation bad := (filter (fun p => match all_horizontal (row (snd p)) with Some b => negb b | None => false end) (combine ids (seq 0 n))).
Lemma bad_iff (p : I * nat) : In p bad <-> nth_error ids (snd p) = Some (fst p) /\ exists r, In r rules /\ fails (snd p) r.
Proof.
  rewrite filter_In. assert (C : forall (l : list I) a p, In p (combine l (seq a (length l))) <-> a <= snd p /\ nth_error l (snd p - a) = Some (fst p)).
  { induction l as [|x l IH]; intros a q; cbn; [split; [tauto|intros [_ H]; destruct (snd q - a); discriminate]|]. rewrite IH. destruct q as [y j]; cbn. split.
    - intros [e|[h e]]; [injection e as -> ->; rewrite Nat.sub_diag; easy|]. split; [lia|]. replace (j - a) with (S (j - S a)) by lia. easy.
    - intros [h e]. destruct (j - a) as [|k] eqn:E; [left; cbn in e; injection e as ->; f_equal; lia|]. right. split; [lia|]. replace (j - S a) with k by lia. easy. }
  rewrite C, Nat.sub_0_r. assert (L : nth_error ids (snd p) = Some (fst p) -> snd p < n) by (intro h; apply nth_error_Some; congruence).
  split.
  - intros [[_ h] k]. split; [easy|]. apply row_false; [auto|]. apply all_false. destruct (all_horizontal (row (snd p))) as [[]|]; easy.
  - intros [h k]. split; [split; [lia|easy]|]. apply row_false in k; [|auto]. apply all_false in k. now rewrite k.
Qed.
Lemma bad_sorted : StronglySorted lt (map snd bad).
Proof.
  assert (G : forall (f : I * nat -> bool) (l : list I) a, StronglySorted lt (map snd (filter f (combine l (seq a (length l))))) /\ Forall (fun j => a <= j) (map snd (filter f (combine l (seq a (length l)))))).
  { intros f. induction l as [|x l IH]; intro a; cbn; [now split; constructor|]. destruct (IH (S a)) as [A B].
    assert (B' : Forall (fun j => a <= j) (map snd (filter f (combine l (seq (S a) (length l)))))) by (eapply Forall_impl; [|exact B]; cbn; lia).
    destruct (f (x, a)); cbn; split; auto. constructor; auto. }
  apply G.
Qed.
Lemma rows_ok : exists idxs, StronglySorted lt idxs /\ (forall i, In i idxs <-> i < n /\ exists r, In r rules /\ fails i r) /\
  (exists out, row_validation keep ids rules false = Value out /\
     Forall2 (fun i e => nth_error ids i = Some (fst e) /\ exists s, snd e = One (Some s) /\ first_failing i rules s) idxs out) /\
  (exists out, row_validation keep ids rules true = Value out /\
     Forall2 (fun i e => nth_error ids i = Some (fst e) /\ exists l, snd e = All l /\ names_of (not_true i) rules l) idxs out).
Proof.
  exists (map snd bad). split; [apply bad_sorted|]. split; [|].
  { intro i. rewrite in_map_iff. split.
    - intros (p & <- & B). apply bad_iff in B. destruct B as [h k]. split; [apply nth_error_Some; congruence|easy].
    - intros [h k]. destruct (nth_error ids i) as [x|] eqn:E; [|apply nth_error_None in E; lia]. exists (x, i). split; [easy|]. now apply bad_iff. }
  assert (N2 : NoDup (map fst rules)). { clear - ND. induction keep as [|a l IH]; [easy|]. cbn in ND. inversion ND; auto. }
  assert (H1 : has_dup (map fst rules) = false) by now apply has_dup_iff.
  assert (H2 : has_dup (keep ++ map fst rules) = false) by now apply has_dup_iff.
  unfold row_validation. rewrite H1, H2. split; eexists; (split; [reflexivity|]).
  - apply forall2_map. intros p Bp. apply bad_iff in Bp. destruct Bp as [h k]. cbn [fst snd]. split; [easy|].
      assert (L : snd p < n) by (apply nth_error_Some; congruence). apply row_false in k; [|easy]. apply arg_min_false in k.
      destruct k as (j & E & F & G). rewrite E. rewrite nth_error_map in F. destruct (nth_error rules j) as [r|] eqn:R; [|discriminate]. cbn in F.
      exists (fst r). rewrite nth_error_map, R. split; [easy|]. exists j, (snd r). rewrite <- surjective_pairing. split; [easy|].
      assert (Ir : In r rules) by (eapply nth_error_In; eauto). split; [unfold fails; rewrite (cell_at _ _ L Ir); congruence|].
      intros j' r' Lj R' Fl. apply (G j' Lj). rewrite nth_error_map, R'. cbn. unfold fails in Fl. rewrite (cell_at _ _ L (nth_error_In _ _ R')) in Fl. congruence.
  - apply forall2_map. intros p Bp. apply bad_iff in Bp. destruct Bp as [h k]. cbn [fst snd]. split; [easy|].
      assert (L : snd p < n) by (apply nth_error_Some; congruence). eexists. split; [reflexivity|].
      set (raw := flat_map _ _).
      assert (RI : forall (rs : list (string * list (option bool))), incl rs rules -> NoDup (map fst rs) ->
        let w := flat_map (fun q : string * option bool => match snd q with Some true => [] | _ => [fst q] end) (combine (map fst rs) (map (fun r => nth (snd p) (snd r) None) rs)) in
        NoDup w /\ forall s, In s w <-> exists r, In r rs /\ fst r = s /\ not_true (snd p) r).
      { induction rs as [|r rs IHr]; intros Inc Nr; [cbn; split; [constructor|]; firstorder|]. cbn [map combine flat_map].
        cbn in Nr. inversion Nr as [|? ? Nr1 Nr2]; subst. destruct (IHr (fun x h => Inc x (or_intror h)) Nr2) as [W1 W2]. clear IHr.
        assert (Lr : snd p < length (snd r)) by (rewrite Forall_forall in LEN; rewrite (LEN r (Inc r (or_introl eq_refl))); easy).
        assert (Cr := cell_at _ _ L (Inc r (or_introl eq_refl))).
        assert (X : (match nth (snd p) (snd r) None with Some true => @nil string | _ => [fst r] end = [] /\ ~ not_true (snd p) r) \/
                    (match nth (snd p) (snd r) None with Some true => @nil string | _ => [fst r] end = [fst r] /\ not_true (snd p) r)).
        { unfold not_true. rewrite Cr. destruct (nth (snd p) (snd r) None) as [[]|]; [left|right|right]; (split; [easy|]); [tauto| |]; split; easy. }
        cbn [snd fst]. split.
        - destruct X as [[-> _]|[-> _]]; cbn; [easy|]. constructor; [|easy]. rewrite W2. intros (r' & J & E & _). apply Nr1. rewrite <- E. now apply in_map.
        - intro s. rewrite in_app_iff, W2. destruct X as [[-> Q]|[-> Q]]; cbn; split.
          + intros [[]|(r' & J)]. exists r'. tauto.
          + intros (r' & [->|J] & E & K); [tauto|]. right. eauto.
          + intros [[<-|[]]|(r' & J)]; [exists r; tauto|exists r'; tauto].
          + intros (r' & [->|J] & E & K); [left; now left|]. right. eauto. }
      destruct (RI rules (fun x h => h) N2) as [W1 W2]. fold raw in W1, W2. repeat split.
      * apply (Permutation_NoDup (Permutation_sym (ssort_perm raw)) W1).
      * apply ssort_sorted.
      * intro J. apply W2. apply (Permutation_in _ (ssort_perm raw) J).
      * intro J. apply W2 in J. apply (Permutation_in _ (Permutation_sym (ssort_perm raw)) J).
Qed.
Lemma row_dup : ~ NoDup (keep ++ map fst rules) -> forall b, row_validation keep ids rules b = Raise.
Proof. intros H b. unfold row_validation. now rewrite (has_dup_true (keep ++ _) H); destruct (has_dup (map fst rules)). Qed.
End Rows.
Lemma names_exact i rules l : (forall r, In r rules -> nth_error (snd r) i <> Some None) -> names_of (not_true i) rules l -> names_of (fails i) rules l.
Proof.
  intros H (A & B & C). repeat split; auto; intro h.
  - apply C in h. destruct h as (r & I & E & L & K). exists r. repeat split; auto. unfold fails. specialize (H r I).
    destruct (nth_error (snd r) i) as [[[]|]|] eqn:F; try easy. apply nth_error_None in F. lia.
  - apply C. destruct h as (r & I & E & F). exists r. repeat split; auto; unfold fails in F; [apply nth_error_Some|]; congruence.
Qed.

(** Probabilities. *)
Lemma prob_col_iff l : prob_col l = true <-> Forall (fun x => exists q, x = Val q /\ (0 <= q <= 1)%Q) (known l).
Proof.
  unfold prob_col. rewrite forallb_forall, Forall_forall. split.
  - intros H x I. apply known_In in I. specialize (H _ I). cbn in H. destruct x as [q|]; [|easy]. cbn in H. apply andb_true_iff in H.
    rewrite !Qle_bool_iff in H. eauto.
  - intros H o I. destruct o as [x|]; [|easy]. apply known_In in I. destruct (H x I) as (q & -> & K). cbn. apply andb_true_iff. now rewrite !Qle_bool_iff.
Qed.
Lemma prob_list_iff l : prob_list l = true <-> class_probs l.
Proof.
  unfold prob_list, class_probs. change (somes l) with (known l). generalize (known l). clear l. intro v. rewrite !andb_true_iff, !qlt_iff.
  assert (S : forallb finite v = true -> qsum (map value v) = fold_right (fun x s => match x with Val q => q + s | Bad => s end)%Q 0%Q v).
  { unfold qsum. induction v as [|[q|] v IH]; cbn; intro H; [easy|now rewrite IH|easy]. }
  assert (P : forallb (fun x => match x with Val q => Qle_bool 0%Q q | Bad => true end) v = true /\ forallb finite v = true <-> Forall (fun x => exists q, x = Val q /\ (0 <= q)%Q) v).
  { clear S. induction v as [|x v IH]; cbn; [split; [constructor|easy]|]. rewrite Forall_cons_iff, <- IH, !andb_true_iff. destruct x as [q|]; cbn.
    - rewrite Qle_bool_iff. split; [intros [[a b] [c d]]; repeat split; eauto|intros [(q' & E & a) [b c]]; injection E as <-; easy].
    - split; [intros [_ [a _]]; discriminate|intros [(q' & E & _) _]; discriminate]. }
  rewrite <- P. split.
  - intros [a [[b c] d]]. rewrite <- (S b). easy.
  - intros [[a b] [c d]]. rewrite (S b). easy.
Qed.
Lemma filter_chosen {T} (g : T -> bool) (P : string * T -> Prop) (l : list (string * T)) : (forall c, In c l -> g (snd c) = true <-> P c) ->
  chosen fst P l (map fst (filter snd (map (fun c => (fst c, g (snd c))) l))).
Proof.
  induction l as [|c l IH]; intro H; cbn; [constructor|]. assert (K := IH (fun x h => H x (or_intror h))). destruct (g (snd c)) eqn:E; cbn; constructor; auto.
  - now apply H; [left|].
  - intro X. apply H in X; [congruence|now left].
Qed.
Lemma same_len_all l n : Forall (fun x => length x = n) (known l) -> same_len l = true.
Proof.
  unfold same_len. change (somes l) with (known l). generalize (known l). clear l. intros v F. apply Nat.eqb_eq.
  destruct v as [|x v]; [easy|]. inversion F as [|? ? E F']; subst. cbn.
  induction v as [|y v IH]; cbn; [easy|]. inversion F' as [|? ? E' F2]; subst. rewrite E', Nat.min_id, Nat.max_id. apply IH; [|easy]. now constructor.
Qed.
Lemma nmin_le r : forall x a, In a (x :: r) -> fold_left Nat.min r x <= a.
Proof. induction r as [|y r IH]; cbn; intros x a H; [intuition lia|]. destruct H as [->|[->|H]]; [| |apply IH; now right];
  (eapply Nat.le_trans; [apply IH; now left|lia]). Qed.
Lemma nmax_ge r : forall x a, In a (x :: r) -> a <= fold_left Nat.max r x.
Proof. induction r as [|y r IH]; cbn; intros x a H; [intuition lia|]. destruct H as [->|[->|H]]; [| |apply IH; now right];
  (eapply Nat.le_trans; [|apply IH; now left]; lia). Qed.
Lemma same_len_iff l : same_len l = true <-> one_length l.
Proof.
  split; [|intros (n & F); exact (same_len_all l n F)]. unfold same_len, one_length. change (somes l) with (known l). generalize (known l). clear l.
  intros v E. apply Nat.eqb_eq in E. destruct v as [|x v]; [now exists 0|]. exists (length x). cbn in E. apply Forall_forall. intros y I.
  pose proof (nmin_le (map (@length _) v) (length x)) as A. pose proof (nmax_ge (map (@length _) v) (length x)) as B.
  assert (J : forall z, In z (x :: v) -> In (length z) (length x :: map (@length _) v)) by (intros z h; apply (in_map (@length _)) in h; exact h).
  pose proof (A _ (J y I)). pose proof (B _ (J y I)). pose proof (A _ (J x (or_introl eq_refl))). pose proof (B _ (J x (or_introl eq_refl))). lia.
Qed.
Lemma prob_out fs ls h : (fs <> [] \/ ls <> []) -> (ls <> [] -> 0 < h) -> exists a b,
  infer_prob fs ls h = Value (a ++ b) /\
  chosen fst (fun c => Forall (fun x => exists q, x = Val q /\ (0 <= q <= 1)%Q) (known (snd c))) fs a /\
  chosen fst (fun c => exists l, nth 0 (snd c) None = Some l /\ class_probs l /\ one_length (snd c)) ls b.
Proof.
  intros N H. unfold infer_prob.
  replace (_ || _) with false.
  2:{ symmetry. apply orb_false_iff. split; [destruct fs, ls; try easy; destruct N; easy|]. destruct ls; [easy|]. cbn. apply Nat.eqb_neq. specialize (H ltac:(easy)). lia. }
  rewrite filter_app, map_app. eexists _, _. split; [reflexivity|]. split.
  - apply (filter_chosen prob_col). intros c _. apply prob_col_iff.
  - apply (filter_chosen (fun v => match nth 0 v None with Some l => prob_list l && same_len v | None => false end)). intros c _.
    destruct (nth 0 (snd c) None) as [l|]; split.
    + intro X. apply andb_true_iff in X. destruct X as [X Y]. apply prob_list_iff in X. apply same_len_iff in Y. eauto.
    + intros (l' & E & X & Y). injection E as <-. apply andb_true_iff. now rewrite prob_list_iff, same_len_iff.
    + discriminate.
    + intros (l' & E & _). discriminate.
Qed.
Lemma prob_found fs nm v rest h l : 0 < h -> nth 0 v None = Some l -> Forall class_probs (known v) -> one_length v ->
  exists a b, infer_prob fs ((nm, v) :: rest) h = Value (a ++ nm :: b).
Proof.
  intros H E C L. destruct (prob_out fs ((nm, v) :: rest) h) as (a & b & R & _ & K); [now right|easy|].
  exists a. rewrite R. inversion K as [|? ? o P Q|? ? o P Q]; subst; [now exists o|]. destruct P. exists l. split; [exact E|]. split; [|easy].
  rewrite Forall_forall in C. apply C. apply known_In. destruct v as [|x v]; [discriminate|]. cbn in E. subst. now left.
Qed.

(** Cached answers. *)
Section C.
Context {Key : Type} (keq : forall a b : Key, {a = b} + {a <> b}) (compute : Key -> list string).
Definition good (m : cache) := forall k v, lookup keq k m = Some v -> v = compute k.
Lemma lookup_In k (m : cache) v : lookup keq k m = Some v -> In (k, v) m.
Proof. induction m as [|[k' w] m IH]; cbn; [easy|]. destruct (keq k k') as [->|]; [intro E; injection E as ->; now left|]. intro E. right. auto. Qed.
Lemma calls_ok h : forall m : cache, (forall k v, In (k, v) m -> v = compute k) ->
  Forall (fun o => exists k keep, o = Call k keep) h ->
  Forall2 (fun o a => forall k keep, o = Call k keep -> a = Some (compute k)) h (answers keq compute m h).
Proof.
  induction h as [|o h IH]; intros m G F; cbn; [constructor|]. inversion F as [|? ? (k & keep & ->) F']; subst. cbn [step].
  destruct (lookup keq k (filter (fun e => keep (fst e)) m)) as [v|] eqn:E.
  - constructor.
    + intros ? ? X. injection X as <- <-. apply lookup_In in E. apply filter_In in E. destruct E as [E _]. f_equal. now apply G.
    + apply IH; [|easy]. intros k' v' I. apply filter_In in I. now apply G.
  - constructor.
    + intros ? ? X. now injection X as <- <-.
    + apply IH; [|easy]. intros k' v' [I|I]; [injection I as <- <-; easy|]. apply filter_In in I. now apply G.
Qed.
End C.
