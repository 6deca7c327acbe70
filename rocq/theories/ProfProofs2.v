(** Proofs about the rows of null_corr. *)
From Coq Require Import String Bool List Arith ZArith Reals Lra Lia Permutation Sorted.
From Verif Require Import WStatsSpec WStatsProofs MetricSpec DiaModel DiaSpec DiaProofs DepModel DepSpec DepProofs ProfModel ProfSpec ProfProofs.
Import ListNotations.
Open Scope nat_scope.
Open Scope list_scope.

Lemma combine_map2 {A B C D} (f : A -> C) (g : B -> D) (x : list A) : forall y : list B, combine (map f x) (map g y) = map (fun r => (f (fst r), g (snd r))) (combine x y).
Proof. induction x as [|a x IH]; intros [|b y]; cbn [map combine]; [reflexivity..|]. now rewrite IH. Qed.
Lemma filter_map_len {A B} (g : A -> B) p l : length (filter p (map g l)) = length (filter (fun a => p (g a)) l).
Proof. induction l as [|a l IH]; [reflexivity|]. cbn [map filter]. destruct (p (g a)); cbn [length]; now rewrite IH. Qed.
Lemma rows_cells {V} p q (x y : column V) : rows_where p q x y = cells2 p q (combine (map missing (vals x)) (map missing (vals y))).
Proof. unfold rows_where, cells2, how_many. rewrite combine_map2, filter_map_len. reflexivity. Qed.
Lemma cells_x p : forall x y : list bool, length x = length y -> cells2 p true (combine x y) + cells2 p false (combine x y) = how_many (Bool.eqb p) x.
Proof.
  unfold cells2, how_many. induction x as [|a x IH]; intros [|b y] L; try discriminate; [reflexivity|]. injection L as L. specialize (IH y L).
  cbn [combine filter fst snd]. destruct p, a, b; cbn [Bool.eqb andb]; cbn [length]; lia.
Qed.
Lemma cells_y p : forall x y : list bool, length x = length y -> cells2 true p (combine x y) + cells2 false p (combine x y) = how_many (Bool.eqb p) y.
Proof.
  unfold cells2, how_many. induction x as [|a x IH]; intros [|b y] L; try discriminate; [reflexivity|]. injection L as L. specialize (IH y L).
  cbn [combine filter fst snd]. destruct p, a, b; cbn [Bool.eqb andb]; cbn [length]; lia.
Qed.
Lemma how_pos {A} (p : A -> bool) l : (0 < how_many p l) <-> exists a, In a l /\ p a = true.
Proof.
  unfold how_many. split.
  - destruct (filter p l) as [|a r] eqn:E; cbn [length]; [lia|]. intros _. exists a. apply filter_In. rewrite E. now left.
  - intros (a & I & P). assert (J : In a (filter p l)) by now apply filter_In. destruct (filter p l); [contradiction|]. cbn [length]. lia.
Qed.
Lemma partly_counts {V} (c : column V) : partly c <-> 0 < how_many (Bool.eqb true) (map missing (vals c)) /\ 0 < how_many (Bool.eqb false) (map missing (vals c)).
Proof.
  rewrite !how_pos. unfold partly. split.
  - intros [(o & I & M) (o' & I' & M')]. split; [exists true|exists false]; (split; [apply in_map_iff; eauto|reflexivity]).
  - intros [(b & I & E) (b' & I' & E')]. apply in_map_iff in I, I'. destruct I as (o & M & I), I' as (o' & M' & I'). split; [exists o|exists o']; split; auto.
    + destruct b; [exact M|discriminate E]. + destruct b'; [discriminate E'|exact M'].
Qed.
Lemma sum_missing (l : list bool) : how_many (Bool.eqb true) l + how_many (Bool.eqb false) l = length l.
Proof. unfold how_many. induction l as [|[|] l IH]; [reflexivity| |]; cbn [filter Bool.eqb]; cbn [length]; lia. Qed.
Lemma null_len {V} (l : list (option V)) : length (filter is_null l) = how_many (Bool.eqb true) (map missing l).
Proof. unfold how_many. rewrite filter_map_len. f_equal. apply filter_ext. now intros [|]. Qed.
Lemma invalid_iff {V} (c : column V) : invalid c = false <-> partly c.
Proof.
  rewrite partly_counts. unfold invalid, null_count. pose proof (null_len (vals c)) as E. unfold cell in *. rewrite E.
  assert (S := sum_missing (map missing (vals c))). rewrite map_length in S. rewrite orb_false_iff, !Nat.eqb_neq. unfold cell in *. lia.
Qed.
Lemma null_pearson {V} (x y : column V) : length (vals x) = length (vals y) -> partly x -> partly y ->
  pearson (null_ind x) (null_ind y) = null_phi x y /\
  (0 < rows_where true true x y + rows_where true false x y /\ 0 < rows_where false true x y + rows_where false false x y /\
   0 < rows_where true true x y + rows_where false true x y /\ 0 < rows_where true false x y + rows_where false false x y).
Proof.
  intros L Px Py. apply partly_counts in Px. apply partly_counts in Py. unfold null_phi. rewrite !rows_cells.
  assert (L' : length (map missing (vals x)) = length (map missing (vals y))) by now rewrite !map_length.
  rewrite <- (cells_x true _ _ L'), <- (cells_x false _ _ L') in Px. rewrite <- (cells_y true _ _ L'), <- (cells_y false _ _ L') in Py.
  destruct Px, Py. split; [|now repeat split].
  assert (N : forall c : column V, null_ind c = map ind (map missing (vals c))) by (intro c; unfold null_ind; rewrite map_map; apply map_ext; now intros [|]).
  rewrite !N. now apply pearson_phi.
Qed.
Lemma same_pattern : forall x y : list bool, length x = length y -> (cells2 true false (combine x y) = 0 /\ cells2 false true (combine x y) = 0 <-> x = y).
Proof.
  unfold cells2, how_many. induction x as [|a x IH]; intros [|b y] L; try discriminate; [now split|]. injection L as L. specialize (IH y L).
  cbn [combine filter fst snd]. destruct a, b; cbn [Bool.eqb andb]; cbn [length]; split; intro H.
  - f_equal. now apply IH. - apply IH. now injection H. - destruct H; lia. - discriminate. - destruct H; lia. - discriminate. - f_equal. now apply IH. - apply IH. now injection H.
Qed.
Lemma opposite_pattern : forall x y : list bool, length x = length y -> (cells2 true true (combine x y) = 0 /\ cells2 false false (combine x y) = 0 <-> x = map negb y).
Proof.
  unfold cells2, how_many. induction x as [|a x IH]; intros [|b y] L; try discriminate; [now split|]. injection L as L. specialize (IH y L).
  cbn [combine filter fst snd map]. destruct a, b; cbn [Bool.eqb andb negb]; cbn [length]; split; intro H.
  - destruct H; lia. - discriminate. - f_equal. now apply IH. - apply IH. now injection H. - f_equal. now apply IH. - apply IH. now injection H. - destruct H; lia. - discriminate.
Qed.
Lemma phi_meaning {V} (x y : column V) : length (vals x) = length (vals y) -> partly x -> partly y ->
  (-1 <= null_phi x y <= 1)%R /\
  (null_phi x y = 1%R <-> map missing (vals x) = map missing (vals y)) /\
  (null_phi x y = (-1)%R <-> map missing (vals x) = map negb (map missing (vals y))) /\
  (null_phi x y = 0%R <-> rows_where true true x y * length (vals x) = how_many missing (vals x) * how_many missing (vals y)).
Proof.
  intros L Px Py. destruct (null_pearson x y L Px Py) as [_ (H1 & H2 & H3 & H4)].
  destruct (phi_bounds _ _ _ _ H1 H2 H3 H4) as (B & E1 & E2 & E0). unfold null_phi.
  assert (L' : length (map missing (vals x)) = length (map missing (vals y))) by now rewrite !map_length.
  split; [exact B|]. split; [rewrite E1, !rows_cells; now apply same_pattern|]. split; [rewrite E2, !rows_cells; now apply opposite_pattern|].
  rewrite E0. assert (X := cells_x true _ _ L'). assert (X' := cells_x false _ _ L'). assert (Y := cells_y true _ _ L'). assert (S := sum_missing (map missing (vals x))).
  rewrite map_length in S. rewrite <- !rows_cells in X, X', Y.
  assert (M : forall c : column V, how_many missing (vals c) = how_many (Bool.eqb true) (map missing (vals c))).
  { intro c. unfold how_many. rewrite filter_map_len. f_equal. apply filter_ext. intro o. now destruct (missing o). }
  rewrite !M. unfold cell in *. rewrite <- X, <- Y. match goal with |- context [@length ?T (vals x)] => replace (@length T (vals x)) with (rows_where true true x y + rows_where true false x y + rows_where false true x y + rows_where false false x y) by (change T with (option V); lia) end.
  reflexivity.
Qed.

Lemma map_pairs {A B} (g : A -> B) l : map (fun p => (g (fst p), g (snd p))) (pairs l) = pairs (map g l).
Proof. induction l as [|a l IH]; [reflexivity|]. cbn [pairs map]. rewrite map_app, !map_map, IH. f_equal. Qed.
Lemma pairs_left {A} (l : list A) x y : In (x, y) (pairs l) -> In x l /\ In y l.
Proof. rewrite pairs_In. intros (a & b & c & ->). split; [apply in_elt|]. rewrite in_app_iff. right. right. apply in_elt. Qed.
Lemma nodup_app {A} (a b : list A) : NoDup a -> NoDup b -> (forall x, In x a -> ~ In x b) -> NoDup (a ++ b).
Proof.
  induction 1 as [|x a N D IH]; intros NB H; [exact NB|]. cbn [app]. constructor.
  - rewrite in_app_iff. intros [I|I]; [contradiction|]. exact (H x (or_introl eq_refl) I).
  - apply IH; [exact NB|]. intros y I. apply H. now right.
Qed.
Lemma pairs_nodup {A} (l : list A) : NoDup l -> NoDup (pairs l).
Proof.
  induction 1 as [|x l N D IH]; [constructor|]. cbn [pairs]. apply nodup_app; [|exact IH|].
  - apply FinFun.Injective_map_NoDup; [intros u v E; now injection E|assumption].
  - intros p I J. apply in_map_iff in I. destruct I as (z & <- & _). apply pairs_left in J. now destruct J.
Qed.
Lemma nodup_map_filter {A B} (g : A -> B) p l : NoDup (map g l) -> NoDup (map g (filter p l)).
Proof.
  induction l as [|a l IH]; cbn [map filter]; [constructor|]. intro H. inversion H as [|? ? N D]; subst. destruct (p a); [|auto]. cbn [map]. constructor; [|auto].
  intro I. apply N. apply in_map_iff in I. destruct I as (b & E & J). apply in_map_iff. exists b. split; [exact E|]. now apply filter_In in J.
Qed.
Section Rows.
Context {V : Type} (sort : list (string * string * R) -> list (string * string * R)) (h : nat) (f : frame V).
Hypothesis S : sort_key_ok (fun r => (- Rabs (snd r))%R) sort.
Hypothesis T : table h f.
Definition raw : list (string * string * R) :=
  map (fun p : column V * column V => (name (fst p), name (snd p), pearson (null_ind (fst p)) (null_ind (snd p)))) (filter (fun p => negb (invalid (fst p) || invalid (snd p))) (pairs f)).
Lemma corr_perm : Permutation (null_corr sort f) raw.
Proof.
  unfold null_corr, raw. destruct (filter _ (pairs f)) as [|p r] eqn:E; [cbn; constructor|]. cbn [length Nat.eqb]. apply S.
Qed.
Lemma corr_sorted : StronglySorted (fun r s => (Rabs (snd s) <= Rabs (snd r))%R) (null_corr sort f).
Proof.
  unfold null_corr. destruct (Nat.eqb _ 0); [constructor|]. destruct (S (map (fun p : column V * column V => (name (fst p), name (snd p), pearson (null_ind (fst p)) (null_ind (snd p)))) (filter (fun p => negb (invalid (fst p) || invalid (snd p))) (pairs f)))) as [_ H].
  revert H. generalize (sort (map (fun p : column V * column V => (name (fst p), name (snd p), pearson (null_ind (fst p)) (null_ind (snd p)))) (filter (fun p => negb (invalid (fst p) || invalid (snd p))) (pairs f)))). intros l H.
  induction H as [|a l H IH F]; constructor; [exact IH|]. revert F. apply Forall_impl. intros b. lra.
Qed.
Lemma corr_names : NoDup (map fst (null_corr sort f)).
Proof.
  apply (Permutation_NoDup (l := map fst raw)); [apply Permutation_map; symmetry; exact corr_perm|].
  unfold raw. rewrite map_map. cbn [fst]. apply (nodup_map_filter (fun p : column V * column V => (name (fst p), name (snd p)))). rewrite map_pairs. apply pairs_nodup, T.
Qed.
Lemma corr_rows a b v : In (a, b, v) (null_corr sort f) <->
  exists l x m y r, f = l ++ x :: m ++ y :: r /\ name x = a /\ name y = b /\ partly x /\ partly y /\ v = null_phi x y.
Proof.
  assert (LEN : forall x y, In (x, y) (pairs f) -> length (vals x) = length (vals y)).
  { intros x y I. apply pairs_left in I. destruct T as [_ F]. rewrite Forall_forall in F. rewrite (F x), (F y); [reflexivity|apply I..]. }
  transitivity (In (a, b, v) raw).
  - split; apply Permutation_in; [|symmetry]; exact corr_perm.
  - unfold raw. rewrite in_map_iff. split.
    + intros ([x y] & E & I). cbn [fst snd] in E. injection E as E1 E2 E3. apply filter_In in I. destruct I as [I N]. cbn [fst snd] in N.
      apply negb_true_iff, orb_false_iff in N. destruct N as [N1 N2]. apply invalid_iff in N1. apply invalid_iff in N2.
      assert (J := I). apply pairs_In in J. destruct J as (l & m & r & J). exists l, x, m, y, r. repeat (split; [assumption|]).
      rewrite <- E3. apply null_pearson; auto.
    + intros (l & x & m & y & r & J & E1 & E2 & P1 & P2 & ->). assert (I : In (x, y) (pairs f)) by (apply pairs_In; eauto).
      exists (x, y). cbn [fst snd]. split; [rewrite E1, E2; f_equal; apply null_pearson; auto|]. apply filter_In. split; [exact I|]. cbn [fst snd].
      apply invalid_iff in P1. apply invalid_iff in P2. now rewrite P1, P2.
Qed.
End Rows.
