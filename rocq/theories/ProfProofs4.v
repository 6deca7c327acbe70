(** Proofs about the outliers of numeric_profile and the special values report; sample inputs. *)
From Coq Require Import String Bool List Arith ZArith Reals Lra Lia Permutation Sorted.
From Verif Require Import MetricSpec WinsProofs DiaModel DepModel ProfModel ProfSpec ProfProofs2 ProfProofs3.
Import ListNotations.
Open Scope nat_scope.
Open Scope list_scope.

Definition farb (q1 q3 m x : R) : bool :=
  (if Rlt_dec x (q1 - m * (q3 - q1)) then true else false) || (if Rlt_dec (q3 + m * (q3 - q1)) x then true else false).
Lemma farb_iff q1 q3 m x : farb q1 q3 m x = true <-> (x < q1 - m * (q3 - q1) \/ q3 + m * (q3 - q1) < x)%R.
Proof. unfold farb. rewrite orb_true_iff. destruct (Rlt_dec x _), (Rlt_dec _ x); split; intro; try tauto; destruct H; try congruence; try contradiction. Qed.
Lemma count_present (p : R -> bool) c : count (fun o => match o with Some x => p x | None => false end) c = count p (present c).
Proof. induction c as [|[x|] c IH]; [reflexivity| |]; cbn [present flat_map app]; rewrite !count_cons, IH; reflexivity. Qed.
Lemma count_perm {A} (p : A -> bool) l l' : Permutation l l' -> count p l = count p l'.
Proof. induction 1; rewrite ?count_cons; try lia. Qed.
Section Out.
Context (sort : list R -> list R) (k1 k3 : nat -> nat) (m : R) (c : list (option R)).
Hypothesis S : sort_key_ok (fun x => x) sort.
Lemma sort_is s : Permutation s (numbers c) -> StronglySorted Rle s -> sort (present c) = s.
Proof. intros P O. destruct (S (present c)) as [Q O']. apply sorted_unique; auto. rewrite Q. symmetry. exact P. Qed.
Lemma out_exact s : Permutation s (numbers c) -> StronglySorted Rle s ->
  exactly (outlier_cnt sort k1 k3 m c) (far (nth (k1 (length s)) s 0%R) (nth (k3 (length s)) s 0%R) m) c.
Proof.
  intros P O. unfold outlier_cnt. rewrite (sort_is s P O). set (q1 := nth _ s _). set (q3 := nth (k3 _) s _).
  exists (fun o => match o with Some x => farb q1 q3 m x | None => false end). split; [|reflexivity].
  intros [x|]; [rewrite farb_iff|]; unfold far; split; try discriminate.
  - intro H. now exists x.
  - intros (y & E & H). injection E as <-. exact H.
  - intros (y & E & _). discriminate.
Qed.
Lemma sorted_nth s : StronglySorted Rle s -> forall i j, i <= j -> j < length s -> (nth i s 0 <= nth j s 0)%R.
Proof.
  induction 1 as [|a s O IH F]; intros i j I J; [cbn in J; lia|]. cbn [length] in J. destruct i, j; cbn [nth]; [lra| |lia|apply IH; lia].
  rewrite Forall_forall in F. apply F. apply nth_In. lia.
Qed.
Lemma out_len : length (sort (present c)) = length (numbers c).
Proof. apply Permutation_length. apply S. Qed.
Lemma out_bound : let n := length (numbers c) in k1 n <= k3 n -> k3 n < n -> (0 <= m)%R -> outlier_cnt sort k1 k3 m c <= k1 n + (n - 1 - k3 n).
Proof.
  intros n H1 H2 M. unfold outlier_cnt. rewrite out_len. fold n. destruct (S (present c)) as [P O]. assert (L := out_len). fold n in L. set (s := sort (present c)) in *.
  set (q1 := nth (k1 n) s 0%R). set (q3 := nth (k3 n) s 0%R). change (count (fun o => match o with Some x => farb q1 q3 m x | None => false end) c <= k1 n + (n - 1 - k3 n)).
  rewrite count_present, <- (count_perm _ _ _ P).
  assert (Q : (q1 <= q3)%R) by (apply sorted_nth; auto; lia).
  assert (Z : forall i, k1 n <= i -> i <= k3 n -> farb q1 q3 m (nth i s 0%R) = false).
  { intros i A B. destruct (farb _ _ _ _) eqn:E; [|reflexivity]. apply farb_iff in E. assert (q1 <= nth i s 0)%R by (apply sorted_nth; auto; lia). assert (nth i s 0 <= q3)%R by (apply sorted_nth; auto; lia).
    assert (0 <= m * (q3 - q1))%R by (apply Rmult_le_pos; lra). lra. }
  rewrite <- (firstn_skipn (k1 n) s), count_app. assert (A := count_le (farb q1 q3 m) (firstn (k1 n) s)). rewrite firstn_length in A.
  rewrite <- (firstn_skipn (k3 n - k1 n + 1) (skipn (k1 n) s)), count_app. assert (B := count_le (farb q1 q3 m) (skipn (k3 n - k1 n + 1) (skipn (k1 n) s))). rewrite !skipn_length in B.
  rewrite (count_none _ (firstn (k3 n - k1 n + 1) (skipn (k1 n) s))); [lia|].
  intros x I. destruct (In_nth _ _ 0%R I) as (i & J & <-). rewrite firstn_length, skipn_length in J.
  assert (E : nth i (firstn (k3 n - k1 n + 1) (skipn (k1 n) s)) 0%R = nth (k1 n + i) s 0%R).
  { rewrite <- (firstn_skipn (k1 n) s) at 2. rewrite app_nth2; rewrite firstn_length; [|lia]. replace (k1 n + i - Nat.min (k1 n) (length s)) with i by lia.
    rewrite <- (firstn_skipn (k3 n - k1 n + 1) (skipn (k1 n) s)) at 2. rewrite app_nth1; [reflexivity|]. rewrite firstn_length, skipn_length. lia. }
  rewrite E. apply Z; lia.
Qed.
Lemma out_wider m' : let n := length (numbers c) in k1 n <= k3 n -> k3 n < n -> (m <= m')%R -> outlier_cnt sort k1 k3 m' c <= outlier_cnt sort k1 k3 m c.
Proof.
  intros n H1 H2 M. unfold outlier_cnt. rewrite out_len. fold n. destruct (S (present c)) as [P O]. assert (L := out_len). fold n in L. set (s := sort (present c)) in *.
  set (q1 := nth (k1 n) s 0%R). set (q3 := nth (k3 n) s 0%R). change (count (fun o => match o with Some x => farb q1 q3 m' x | None => false end) c <= count (fun o => match o with Some x => farb q1 q3 m x | None => false end) c).
  assert (Q : (q1 <= q3)%R) by (apply sorted_nth; auto; lia). assert (m * (q3 - q1) <= m' * (q3 - q1))%R by (apply Rmult_le_compat_r; lra).
  apply count_mono. intros [x|] _; [|auto]. rewrite !farb_iff. lra.
Qed.
Lemma present_map (g : R -> R) d : present (map (option_map g) d) = map g (present d).
Proof. induction d as [|[x|] d IH]; [reflexivity| |]; cbn [map option_map present flat_map app]; [f_equal|]; exact IH. Qed.
Lemma sorted_map_inc (g : R -> R) s : (forall x y, (x <= y)%R -> (g x <= g y)%R) -> StronglySorted Rle s -> StronglySorted Rle (map g s).
Proof. intros G. induction 1 as [|a s O IH F]; constructor; [exact IH|]. apply Forall_map. revert F. apply Forall_impl. auto. Qed.
Lemma out_affine a b : (0 < a)%R -> let n := length (numbers c) in (n = 0 \/ k1 n < n /\ k3 n < n) ->
  outlier_cnt sort k1 k3 m (map (option_map (fun x => a * x + b)%R) c) = outlier_cnt sort k1 k3 m c.
Proof.
  intros A n H. unfold outlier_cnt. rewrite present_map. set (g := fun x : R => (a * x + b)%R).
  destruct (S (present c)) as [P O]. assert (L := out_len). fold n in L.
  assert (E : sort (map g (present c)) = map g (sort (present c))).
  { destruct (S (map g (present c))) as [P' O']. apply sorted_unique; [exact O'|apply sorted_map_inc; [intros; unfold g; nra|exact O]|]. rewrite P'. apply Permutation_map. now symmetry. }
  rewrite E, map_length, L. set (s := sort (present c)) in *.
  set (q1 := nth (k1 n) s 0%R). set (q3 := nth (k3 n) s 0%R). 
  change (count (fun o => match o with Some x => farb (nth (k1 n) (map g s) 0%R) (nth (k3 n) (map g s) 0%R) m x | None => false end) (map (option_map g) c) = count (fun o => match o with Some x => farb q1 q3 m x | None => false end) c).
  rewrite !count_present, present_map, count_map. destruct H as [H|[H1 H2]].
  - rewrite !count_none; [reflexivity| |]; intros x I; assert (Z : length (present c) = 0) by exact H; destruct (present c); (contradiction || discriminate).
  - assert (E1 : nth (k1 n) (map g s) 0%R = g q1) by (rewrite (nth_indep _ _ (g 0%R)); [apply map_nth|rewrite map_length; lia]).
    assert (E3 : nth (k3 n) (map g s) 0%R = g q3) by (rewrite (nth_indep _ _ (g 0%R)); [apply map_nth|rewrite map_length; lia]).
    rewrite E1, E3. apply count_ext. intros x _. apply eq_true_iff_eq. rewrite !farb_iff. unfold g.
    assert (F1 : (a * x + b < a * q1 + b - m * (a * q3 + b - (a * q1 + b)) <-> x < q1 - m * (q3 - q1))%R).
    { replace (a * q1 + b - m * (a * q3 + b - (a * q1 + b)))%R with (a * (q1 - m * (q3 - q1)) + b)%R by ring. generalize (q1 - m * (q3 - q1))%R. intro t. split; intro; nra. }
    assert (F2 : (a * q3 + b + m * (a * q3 + b - (a * q1 + b)) < a * x + b <-> q3 + m * (q3 - q1) < x)%R).
    { replace (a * q3 + b + m * (a * q3 + b - (a * q1 + b)))%R with (a * (q3 + m * (q3 - q1)) + b)%R by ring. generalize (q3 + m * (q3 - q1))%R. intro t. split; intro; nra. }
    rewrite F1, F2. reflexivity.
Qed.
End Out.

Lemma special_sum c : let '(a, b, d) := special_values c in a + b + d + how_many is_fin c = length c /\
  exactly a (fun o => o = None) c /\ exactly b (fun o => o = Some NaN) c /\ exactly d (fun o => o = Some PInf \/ o = Some NInf) c.
Proof.
  unfold special_values. split; [|split; [|split]].
  - change (@how_many) with (@count). induction c as [|[[]|] c IH]; [reflexivity|..]; rewrite !count_cons; cbn [is_null isnan isinf is_fin]; cbn [length]; unfold cell in *; lia.
  - exists is_null. split; [|reflexivity]. intros [|]; cbn; split; congruence.
  - exists isnan. split; [|reflexivity]. intros [[]|]; cbn; split; congruence.
  - exists isinf. split; [|reflexivity]. intros [[]|]; cbn; split; try congruence; try (now left); try (now right); intros [H|H]; discriminate.
Qed.

(** Samples. *)
Lemma sample_least (l : list R) a b : In a l -> In b l -> Forall (fun x => a <= x <= b)%R l -> least l a /\ greatest l b.
Proof. rewrite Forall_forall. intros I J F. split; (split; [assumption|]); intros x K; apply F in K; lra. Qed.
Ltac bins := unfold how_many, in_bin, edge; cbn [filter seq Nat.eqb Nat.sub negb andb orb length map INR];
  repeat match goal with |- context [Rle_dec ?a ?b] => destruct (Rle_dec a b); try (exfalso; lra) end;
  repeat match goal with |- context [Rlt_dec ?a ?b] => destruct (Rlt_dec a b); try (exfalso; lra) end; cbn [filter andb orb length]; try reflexivity.
Lemma sample_empty : histogram 4 [Some (Fin 0); Some (Fin 0); None; Some (Fin 1)] = Some [2; 1].
Proof.
  destruct (sample_least [0; 0; 1]%R 0 1) as [L G]; [now left|right; right; now left|repeat constructor; lra|].
  rewrite (hist_bins 4 _ 0 1); [|lia|intros [|[|[|[|[]]]]]; discriminate|intros [|[|[|[|[]]]]]; discriminate|exact L|exact G|lra].
  cbn [fin_values flat_map app]. do 2 f_equal. bins.
Qed.
Lemma sample_half : histogram 2 [Some (Fin 0); Some (Fin (1 / 2)); Some (Fin 1)] = Some [2; 1].
Proof.
  destruct (sample_least [0; 1 / 2; 1]%R 0 1) as [L G]; [now left|right; right; now left|repeat constructor; lra|].
  rewrite (hist_bins 2 _ 0 1); [|lia|intros [|[|[|[]]]]; discriminate|intros [|[|[|[]]]]; discriminate|exact L|exact G|lra].
  cbn [fin_values flat_map app]. do 2 f_equal. bins.
Qed.
