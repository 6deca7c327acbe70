From Coq Require Import Bool List Arith ZArith Lia Permutation Sorted Reals Lra.
From Flocq Require Import Core IEEE754.BinarySingleNaN.
From Verif Require Import Num F64 F64Facts KdDemo KdProofs KsModel KsSpec.
Import ListNotations.
Open Scope nat_scope.

Notation L64 := (f64_laws).
Notation srt := (StronglySorted (A:=f64) (fun a b : f64 => nle f64_ops a b = true)).
Notation nonan := (Forall (A:=f64) (fun x : f64 => nnan f64_ops x = false)).

Lemma SS_nth {X} (R : X -> X -> Prop) l i j a b : StronglySorted R l -> i < j ->
  nth_error l i = Some a -> nth_error l j = Some b -> R a b.
Proof.
  intros S. revert i j. induction S as [|x l S IH F]; intros [|i] [|j] H A B; simpl in *; try lia; try discriminate.
  - injection A as ->. rewrite Forall_forall in F. apply F. eapply nth_error_In; eassumption.
  - eapply IH; [|eassumption|eassumption]. lia.
Qed.

Lemma srt_nth l i j a b : srt l -> i < j ->
  nth_error l i = Some a -> nth_error l j = Some b -> nle f64_ops a b = true.
Proof. exact (SS_nth (fun a b => nle f64_ops a b = true) l i j a b). Qed.
Lemma nlt_negb t a : nnan f64_ops t = false -> nnan f64_ops a = false -> nlt f64_ops t a = negb (nle f64_ops a t).
Proof.
  intros Ht Ha. destruct (nle f64_ops a t) eqn:E; cbn [negb].
  - apply (nle_nlt f64_ops L64). exact E.
  - apply (lt_le f64_ops L64). auto.
Qed.

Lemma bsr_loop_ok arr t : srt arr -> nonan arr -> nnan f64_ops t = false ->
  forall fuel left right, right - left <= fuel -> left <= right <= length arr ->
  (forall i (a : f64), i < left -> nth_error arr i = Some a -> nle f64_ops a t = true) ->
  (forall i (a : f64), right <= i -> nth_error arr i = Some a -> nle f64_ops a t = false) ->
  exists r, bsr_loop fuel arr t left right = Some r /\ r <= length arr /\
    (forall i (a : f64), i < r -> nth_error arr i = Some a -> nle f64_ops a t = true) /\
    (forall i (a : f64), r <= i -> nth_error arr i = Some a -> nle f64_ops a t = false).
Proof.
  intros S NN Ht. induction fuel as [|fuel IH]; intros left right Hf B Lo Hi; cbn [bsr_loop].
  - destruct (Nat.ltb_spec left right); [lia|]. exists left. replace right with left in Hi by lia. repeat split; try assumption; lia.
  - destruct (Nat.ltb_spec left right) as [C|C].
    2:{ exists left. replace right with left in Hi by lia. repeat split; try assumption; lia. }
    set (mid := left + (right - left) / 2).
    assert (Hm : left <= mid < right).
    { unfold mid. pose proof (Nat.div_lt (right - left) 2 ltac:(lia) ltac:(lia)). lia. }
    destruct (nth_error arr mid) as [a|] eqn:E; [|apply nth_error_None in E; lia].
    assert (Na : nnan f64_ops a = false) by (rewrite Forall_forall in NN; apply NN; eapply nth_error_In; eassumption).
    rewrite (nlt_negb t a Ht Na). destruct (nle f64_ops a t) eqn:El; cbn [negb].
    + apply IH; try lia; [|exact Hi]. intros i b Hi' Eb.
      destruct (Nat.eq_dec i mid) as [->|Ne]; [congruence|].
      apply (le_trans f64_ops L64 _ a _); [|exact El]. eapply srt_nth; [exact S| |exact Eb|exact E]. lia.
    + apply IH; try lia; [exact Lo|]. intros i b Hi' Eb.
      destruct (Nat.eq_dec i mid) as [->|Ne]; [congruence|].
      destruct (nle f64_ops b t) eqn:Eb'; [|reflexivity].
      assert (nle f64_ops a b = true) by (eapply srt_nth; [exact S| |exact E|exact Eb]; lia).
      rewrite (le_trans f64_ops L64 a b t H Eb') in El. discriminate.
Qed.

Lemma filter_prefix {X} (p : X -> bool) l r : r <= length l ->
  (forall i a, i < r -> nth_error l i = Some a -> p a = true) ->
  (forall i a, r <= i -> nth_error l i = Some a -> p a = false) -> length (filter p l) = r.
Proof.
  revert r. induction l as [|x l IH]; intros r L Lo Hi; simpl in *; [lia|]. destruct r as [|r].
  - rewrite (Hi 0 x) by (simpl; auto; lia). apply IH; [lia|intros; lia|]. intros i a _ E. apply (Hi (S i) a); [lia|exact E].
  - rewrite (Lo 0 x) by (simpl; auto; lia). simpl. f_equal. apply IH; [lia| |].
    + intros i a Hi' E. apply (Lo (S i) a); [lia|exact E].
    + intros i a Hi' E. apply (Hi (S i) a); [lia|exact E].
Qed.

Lemma bsr_ok arr t : srt arr -> nonan arr -> nnan f64_ops t = false ->
  binary_search_right arr t = Some (length (filter (fun x => nle f64_ops x t) arr)).
Proof.
  intros S NN Ht. unfold binary_search_right.
  destruct (bsr_loop_ok arr t S NN Ht (length arr) 0 (length arr)) as (r & E & Lr & Lo & Hi); try lia.
  { intros i a H E. assert (C : nth_error arr i <> None) by congruence. apply nth_error_Some in C. lia. }
  rewrite E. f_equal. symmetry. now apply filter_prefix.
Qed.

Lemma cdf_gap_ok v1 v2 t : srt v1 -> srt v2 -> nonan v1 -> nonan v2 -> nnan f64_ops t = false ->
  cdf_gap v1 v2 t = Some (gap v1 v2 t).
Proof. intros. unfold cdf_gap. rewrite !bsr_ok by assumption. reflexivity. Qed.

Lemma fold_gap_ok v1 v2 xs : srt v1 -> srt v2 -> nonan v1 -> nonan v2 -> nonan xs -> forall acc,
  fold_gap v1 v2 xs acc = Some (fold_left (nmax f64_ops) (map (gap v1 v2) xs) acc).
Proof.
  intros S1 S2 N1 N2 NX. induction NX as [|x xs Hx NX IH]; intros acc; [reflexivity|].
  cbn [fold_gap map fold_left]. rewrite cdf_gap_ok by assumption. apply IH.
Qed.

Lemma fold_max_ok l : nonan l -> forall acc, nnan f64_ops acc = false ->
  let r := fold_left (nmax f64_ops) l acc in
  In r (acc :: l) /\ (forall x, In x (acc :: l) -> nle f64_ops x r = true).
Proof.
  induction 1 as [|x l Hx NX IH]; intros acc Ha; cbn [fold_left].
  - split; [now left|]. intros y [<-|[]]. now apply (le_refl f64_ops L64).
  - assert (M : nmax f64_ops acc x = acc \/ nmax f64_ops acc x = x).
    { unfold nmax. rewrite Ha, Hx. destruct (nlt f64_ops acc x); auto. }
    assert (Nm : nnan f64_ops (nmax f64_ops acc x) = false) by (destruct M as [-> | ->]; assumption).
    destruct (IH _ Nm) as [I1 I2]. split.
    + destruct I1 as [<-|I1]; [destruct M as [-> | ->]; simpl; auto|simpl; auto].
    + assert (U : nle f64_ops acc (nmax f64_ops acc x) = true /\ nle f64_ops x (nmax f64_ops acc x) = true).
      { unfold nmax. rewrite Ha, Hx. destruct (nlt f64_ops acc x) eqn:E.
        - split; [now apply (lt_le_weak f64_ops L64)|now apply (le_refl f64_ops L64)].
        - split; [now apply (le_refl f64_ops L64)|]. now apply (lt_false f64_ops L64). }
      destruct U as [U1 U2]. intros y [<-|[<-|Hy]].
      * exact (le_trans f64_ops L64 _ _ _ U1 (I2 _ (or_introl eq_refl))).
      * exact (le_trans f64_ops L64 _ _ _ U2 (I2 _ (or_introl eq_refl))).
      * apply I2. now right.
Qed.

Lemma count_le {X} (p : X -> bool) l : length (filter p l) <= length l.
Proof. induction l as [|x l IH]; simpl; [lia|]. destruct (p x); simpl; lia. Qed.

Lemma fin_ecdf v t : 0 < length v -> (Z.of_nat (length v) <= 2 ^ 53)%Z ->
  exists r, fin (ecdf v t) r /\ (0 <= r <= 1)%R.
Proof.
  intros H B.
  assert (G : forall c n, c <= n -> 0 < n -> (Z.of_nat n <= 2 ^ 53)%Z ->
    exists r, fin (fdiv (fi (Z.of_nat c)) (fi (Z.of_nat n))) r /\ (0 <= r <= 1)%R).
  { intros c n C Hn Bn. destruct (fin_ratio (Z.of_nat c) (Z.of_nat n)) as [F1 R1]; [lia|lia|]. eauto. }
  exact (G _ _ (count_le (fun x => nle f64_ops x t) v) H B).
Qed.
Lemma gap_finite v1 v2 t : 0 < length v1 -> 0 < length v2 ->
  (Z.of_nat (length v1) <= 2 ^ 53)%Z -> (Z.of_nat (length v2) <= 2 ^ 53)%Z ->
  exists r, fin (gap v1 v2 t) r /\ (0 <= r)%R.
Proof.
  intros H1 H2 B1 B2. unfold gap.
  destruct (fin_ecdf v1 t H1 B1) as (r1 & F1 & R1). destruct (fin_ecdf v2 t H2 B2) as (r2 & F2 & R2).
  eexists. split.
  - apply fin_abs. apply (fin_sub _ _ _ _ 0%Z ltac:(lia) F1 F2). simpl. apply Rabs_le. lra.
  - apply Rabs_pos.
Qed.

Lemma max_below (l : list f64) t : nonan l ->
  (forall x, In x l -> nle f64_ops x t = false) \/
  exists m, In m l /\ nle f64_ops m t = true /\ forall x, In x l -> nle f64_ops x t = true -> nle f64_ops x m = true.
Proof.
  induction 1 as [|a l Ha NN IH]; [left; intros x []|]. destruct (nle f64_ops a t) eqn:E.
  - right. destruct IH as [IH|(m & Hm & Em & M)].
    + exists a. split; [now left|]. split; [exact E|]. intros x [<-|Hx] Ex; [now apply (le_refl f64_ops L64)|].
      rewrite (IH x Hx) in Ex. discriminate.
    + assert (Nm : nnan f64_ops m = false) by (rewrite Forall_forall in NN; now apply NN).
      destruct (le_total f64_ops L64 a m Ha Nm) as [C|C].
      * exists m. split; [now right|]. split; [exact Em|]. intros x [<-|Hx] Ex; [exact C|now apply M].
      * exists a. split; [now left|]. split; [exact E|]. intros x [<-|Hx] Ex; [now apply (le_refl f64_ops L64)|].
        exact (le_trans f64_ops L64 _ _ _ (M x Hx Ex) C).
  - destruct IH as [IH|(m & Hm & Em & M)].
    + left. intros x [<-|Hx]; [exact E|now apply IH].
    + right. exists m. split; [now right|]. split; [exact Em|]. intros x [<-|Hx] Ex; [congruence|now apply M].
Qed.

Lemma ecdf_same v t m : (forall x, In x v -> nle f64_ops x t = true -> nle f64_ops x m = true) ->
  nle f64_ops m t = true -> ecdf v t = ecdf v m.
Proof.
  intros H E. unfold ecdf. do 4 f_equal. apply filter_ext_in. intros x Hx.
  destruct (nle f64_ops x t) eqn:E1.
  - symmetry. now apply H.
  - destruct (nle f64_ops x m) eqn:E2; [|reflexivity]. rewrite (le_trans f64_ops L64 _ _ _ E2 E) in E1. discriminate.
Qed.
Lemma filter_none {X} (p : X -> bool) l : (forall x, In x l -> p x = false) -> filter p l = [].
Proof.
  induction l as [|x l IH]; intros H; simpl; [reflexivity|]. rewrite H by now left. apply IH. intros; apply H. now right.
Qed.
Lemma ecdf_below v t : (forall x, In x v -> nle f64_ops x t = false) -> ecdf v t = fdiv (fi 0) (fi (Z.of_nat (length v))).
Proof.
  intros H. unfold ecdf. rewrite (filter_none (fun x => nle f64_ops x t) v H). reflexivity.
Qed.

Lemma ks_sup v1 v2 : srt v1 -> srt v2 -> nonan v1 -> nonan v2 -> 0 < length v1 -> 0 < length v2 ->
  (Z.of_nat (length v1) <= 2 ^ 53)%Z -> (Z.of_nat (length v2) <= 2 ^ 53)%Z ->
  exists s, fold_gap v1 v2 (v1 ++ v2) (nminv f64_ops) = Some s /\ is_sup_gap v1 v2 s.
Proof.
  intros S1 S2 N1 N2 P1 P2 B1 B2.
  assert (NA : nonan (v1 ++ v2)) by (apply Forall_app; auto).
  rewrite fold_gap_ok by assumption. eexists. split; [reflexivity|].
  set (gs := map (gap v1 v2) (v1 ++ v2)).
  assert (GF : forall t, exists r, fin (gap v1 v2 t) r /\ (0 <= r)%R) by (intros t; now apply gap_finite).
  assert (NG : nonan gs).
  { apply Forall_forall. intros g Hg. apply in_map_iff in Hg. destruct Hg as (t & <- & _).
    destruct (GF t) as (r & Fr & _). exact (fin_nan _ _ Fr). }
  destruct (fold_max_ok gs NG (nminv f64_ops)) as [I M].
  { apply (finite_nan f64_ops L64), (min_finite f64_ops L64). }
  set (s := fold_left (nmax f64_ops) gs (nminv f64_ops)) in *.
  destruct v1 as [|a0 v1']; [simpl in P1; lia|].
  assert (S0 : nle f64_ops (nzero f64_ops) s = true).
  { destruct (GF a0) as (r & Fr & Hr). apply (le_trans f64_ops L64 _ (gap (a0 :: v1') v2 a0) _).
    - rewrite (fin_le _ _ _ _ fin_zero Fr). now apply Rle_bool_true.
    - apply M. right. unfold gs. now left. }
  assert (Is : In s gs).
  { destruct I as [E|I]; [|exact I]. exfalso. rewrite <- E in S0. vm_compute in S0. discriminate. }
  split.
  - intros t Ht. destruct (max_below ((a0 :: v1') ++ v2) t NA) as [H|(m & Hm & Em & MM)].
    + unfold gap. rewrite (ecdf_below (a0 :: v1') t), (ecdf_below v2 t) by (intros x Hx; apply H, in_or_app; auto).
      destruct (fin_ratio 0 (Z.of_nat (length (a0 :: v1')))) as [F1 R1]; [lia|lia|].
      destruct (fin_ratio 0 (Z.of_nat (length v2))) as [F2 R2]; [lia|lia|].
      assert (Z0 : forall b, rnd64 (IZR 0 / IZR b) = 0%R).
      { intros b. unfold Rdiv. rewrite Rmult_0_l. apply round_0. typeclasses eauto. }
      rewrite Z0 in *.
      assert (Fg : fin (fabs (fsub (fdiv (fi 0) (fi (Z.of_nat (length (a0 :: v1'))))) (fdiv (fi 0) (fi (Z.of_nat (length v2)))))) 0).
      { pose proof (fin_abs _ _ (fin_sub _ _ _ _ 0%Z ltac:(lia) F1 F2 ltac:(simpl; rewrite Rminus_0_r, Rabs_R0; lra))) as Fg.
        rewrite Rminus_0_r, round_0, Rabs_R0 in Fg by typeclasses eauto. exact Fg. }
      apply (le_trans f64_ops L64 _ (nzero f64_ops) _); [|exact S0].
      refine (eq_trans (fin_le _ _ _ _ Fg fin_zero) _). apply Rle_bool_true. lra.
    + unfold gap. rewrite (ecdf_same (a0 :: v1') t m), (ecdf_same v2 t m); try exact Em.
      * fold (gap (a0 :: v1') v2 m). apply M. right. unfold gs. now apply in_map.
      * intros x Hx. apply MM, in_or_app. now right.
      * intros x Hx. apply MM, in_or_app. now left.
  - unfold gs in Is. apply in_map_iff in Is. destruct Is as (t & E & Ht). exists t. auto.
Qed.

Lemma finite_values_nonan col : nonan (finite_values col).
Proof.
  apply Forall_forall. intros x Hx. apply in_flat_map in Hx. destruct Hx as ([y|] & _ & H); [|destruct H].
  destruct (nfinite f64_ops y) eqn:E; [|destruct H]. destruct H as [<-|[]]. now apply (finite_nan f64_ops L64).
Qed.
Lemma where_spec y1 v y2 : where_eq y1 v y2 = rows_where y1 v y2.
Proof.
  unfold where_eq, rows_where. generalize (combine y1 y2); intros c; induction c as [|[[a|] b] l IH]; simpl; [reflexivity| |exact IH].
  destruct (a =? v)%Z; simpl; now rewrite IH.
Qed.
Lemma gap_perm v1 v2 w1 w2 t : Permutation v1 w1 -> Permutation v2 w2 -> gap v1 v2 t = gap w1 w2 t.
Proof.
  intros P1 P2. unfold gap, ecdf.
  rewrite (Permutation_length (filter_perm (fun x => nle f64_ops x t) _ _ P1)), (Permutation_length P1).
  rewrite (Permutation_length (filter_perm (fun x => nle f64_ops x t) _ _ P2)), (Permutation_length P2). reflexivity.
Qed.

Lemma pl_ks_ok sort ln z1 z2 alpha : float_sort_ok sort -> nonan z1 -> nonan z2 ->
  (Z.of_nat (length z1) <= 2 ^ 53)%Z -> (Z.of_nat (length z2) <= 2 ^ 53)%Z ->
  exists s p, pl_ks_2samp ln (sort z1) (sort z2) alpha = Some (s, p) /\
    if (length z1 <=? 30) || (length z2 <=? 30) then s = nzero f64_ops /\ p = nnanv f64_ops
    else is_sup_gap z1 z2 s.
Proof.
  intros SO N1 N2 B1 B2. destruct (SO z1) as [P1 S1], (SO z2) as [P2 S2].
  unfold pl_ks_2samp. rewrite (Permutation_length P1), (Permutation_length P2).
  destruct ((length z1 <=? 30) || (length z2 <=? 30)) eqn:C; [eauto|].
  apply orb_false_iff in C. destruct C as [C1 C2]. apply Nat.leb_gt in C1, C2.
  unfold ks_2samp.
  destruct (ks_sup (sort z1) (sort z2)) as (s & E & [U A]); rewrite ?(Permutation_length P1), ?(Permutation_length P2);
    try lia; auto.
  { eapply Forall_perm; [symmetry; exact P1|exact N1]. }
  { eapply Forall_perm; [symmetry; exact P2|exact N2]. }
  rewrite E. eexists s, _. split; [reflexivity|]. split.
  - intros t Ht. rewrite <- (gap_perm _ _ _ _ t P1 P2). now apply U.
  - destruct A as (t & Ht & Es). exists t. split.
    + apply (Permutation_in _ (Permutation_app P1 P2)). exact Ht.
    + rewrite Es. now apply gap_perm.
Qed.

Lemma ks_ok sort ln var1 var2 alpha : float_sort_ok sort ->
  (Z.of_nat (length var1) <= 2 ^ 53)%Z -> (Z.of_nat (length var2) <= 2 ^ 53)%Z ->
  exists s p, py_ks_2samp sort ln var1 var2 alpha = Some (s, p) /\
    if (length (finite_values var1) <=? 30) || (length (finite_values var2) <=? 30)
    then s = nzero f64_ops /\ p = nnanv f64_ops
    else is_sup_gap (finite_values var1) (finite_values var2) s.
Proof.
  intros SO B1 B2.
  assert (L : forall c : list (option f64), length (finite_values c) <= length c).
  { induction c as [|[x|] c IH]; simpl; [lia| |lia]. destruct (is_finite x); simpl; lia. }
  apply pl_ks_ok; try apply finite_values_nonan; try assumption.
  - specialize (L var1). lia.
  - specialize (L var2). lia.
Qed.
Lemma ks_binary_ok sort ln var1 var2 alpha : float_sort_ok sort ->
  (Z.of_nat (length var2) <= 2 ^ 53)%Z ->
  exists s p, py_ks_2samp_binary sort ln var1 var2 alpha = Some (s, p) /\
    let z1 := finite_values (rows_where var1 1 var2) in
    let z2 := finite_values (rows_where var1 0 var2) in
    if (length z1 <=? 30) || (length z2 <=? 30)
    then s = nzero f64_ops /\ p = nnanv f64_ops
    else is_sup_gap z1 z2 s.
Proof.
  intros SO B.
  assert (L : forall c : list (option f64), length (finite_values c) <= length c).
  { induction c as [|[x|] c IH]; simpl; [lia| |lia]. destruct (is_finite x); simpl; lia. }
  assert (L2 : forall v, length (rows_where var1 v var2) <= length var2).
  { intros v. unfold rows_where. clear. revert var1. induction var2 as [|y l IH]; intros [|[x|] v1]; simpl; try lia.
    - destruct (x =? v)%Z; simpl; specialize (IH v1); lia.
    - specialize (IH v1). lia. }
  unfold py_ks_2samp_binary. rewrite !where_spec. apply pl_ks_ok; try apply finite_values_nonan; try assumption.
  - specialize (L (rows_where var1 1 var2)). specialize (L2 1%Z). lia.
  - specialize (L (rows_where var1 0 var2)). specialize (L2 0%Z). lia.
Qed.

(** Doc: "less than 30 values" gives 0; the code also gives 0 for exactly 30. *)
Definition thirty (z : Z) : list (option f64) := repeat (Some (fi z)) 30.
Lemma ks_thirty sort ln : float_sort_ok sort ->
  exists p, py_ks_2samp sort ln (thirty 0) (thirty 1) half = Some (nzero f64_ops, p) /\
    length (finite_values (thirty 0)) = 30 /\ length (finite_values (thirty 1)) = 30 /\
    nlt f64_ops (nzero f64_ops) (gap (finite_values (thirty 0)) (finite_values (thirty 1)) (fi 0)) = true.
Proof.
  intros SO. destruct (ks_ok sort ln (thirty 0) (thirty 1) half SO) as (s & p & E & H); [simpl; lia|simpl; lia|].
  assert (L0 : length (finite_values (thirty 0)) = 30) by reflexivity.
  assert (L1 : length (finite_values (thirty 1)) = 30) by reflexivity.
  rewrite L0, L1 in H. destruct H as [-> ->]. exists (nnanv f64_ops). split; [exact E|].
  split; [reflexivity|]. split; [reflexivity|]. vm_compute. reflexivity.
Qed.
