From Coq Require Import Bool List ZArith Arith Lia Permutation Sorted ZifyBool.
From Verif Require Import Num F64 KdDemo PairSums KendallModel KendallSpec.
Import ListNotations.
Open Scope Z_scope.

Lemma tie2_half c : 0 <= c -> 2 * tie2 c = c * (c - 1).
Proof.
  intros H. unfold tie2. rewrite Z.shiftr_div_pow2 by lia. change (2 ^ 1) with 2.
  assert (E : (c * (c - 1)) mod 2 = 0).
  { destruct (Z.Even_or_Odd c) as [[k ->]|[k ->]].
    - replace (2 * k * (2 * k - 1)) with ((k * (2 * k - 1)) * 2) by ring. apply Z.mod_mul. lia.
    - replace ((2 * k + 1) * (2 * k + 1 - 1)) with (((2 * k + 1) * k) * 2) by ring. apply Z.mod_mul. lia. }
  pose proof (Z.div_mod (c * (c - 1)) 2 ltac:(lia)). lia.
Qed.
Lemma tie2_succ c : 0 <= c -> tie2 (c + 1) = tie2 c + c.
Proof. intros H. pose proof (tie2_half c H). pose proof (tie2_half (c + 1) ltac:(lia)). nia. Qed.
Lemma tie2_one : tie2 1 = 0. Proof. reflexivity. Qed.

(** ** Runs of equal elements in a sorted list *)
Section Runs.
Context {A : Type} (eqb : A -> A -> bool).
Fixpoint run_ties (rest : list A) (prev : A) (t c : Z) : Z :=
  match rest with
  | [] => t + tie2 c
  | a :: rest' => if eqb a prev then run_ties rest' a t (c + 1) else run_ties rest' a (t + tie2 c) 1
  end.
Definition ties (l : list A) : Z := psum (fun a b => b2z (eqb a b)) l.
Definition copies (p : A) (l : list A) : Z := zsum (fun b => b2z (eqb p b)) l.
(** [gone p l]: once an element differs from p, no later one equals p. *)
Context (R : A -> A -> Prop).
Hypothesis eqb_trans_l : forall p a b, eqb a p = true -> eqb p b = eqb a b.
Hypothesis sep : forall p a b, R p a -> R a b -> eqb a p = false -> eqb p b = false.
Hypothesis eqb_sym : forall a b, eqb a b = eqb b a.

Lemma run_ties_ok : forall rest prev t c, 0 <= c -> StronglySorted R (prev :: rest) ->
  run_ties rest prev t c = t + tie2 c + c * copies prev rest + ties rest.
Proof.
  induction rest as [|a rest IH]; intros prev t c Hc S; cbn [run_ties].
  - unfold copies, ties. simpl. lia.
  - inversion S as [|? ? S1 F1]; subst. inversion S1 as [|? ? S2 F2]; subst.
    unfold copies, ties. cbn [zsum fold_right psum]. fold (zsum (fun b => b2z (eqb prev b)) rest).
    fold (zsum (fun b => b2z (eqb a b)) rest). fold (ties rest).
    destruct (eqb a prev) eqn:E.
    + rewrite IH by (try lia; assumption). rewrite tie2_succ by lia.
      rewrite (eqb_sym prev a), E. unfold copies.
      rewrite (zsum_ext (fun b => b2z (eqb prev b)) (fun b => b2z (eqb a b)) rest).
      2:{ intros b _. now rewrite (eqb_trans_l prev a b E). }
      cbn [b2z]. lia.
    + rewrite IH by (try lia; assumption). rewrite tie2_one, (eqb_sym prev a), E.
      rewrite (zsum_zero (fun b => b2z (eqb prev b)) rest).
      2:{ intros b Hb. rewrite (sep prev a b); [reflexivity| | |exact E].
          - now apply Forall_inv in F1.
          - rewrite Forall_forall in F2. now apply F2. }
      unfold copies. cbn [b2z]. lia.
Qed.
Lemma run_ties_all a rest : StronglySorted R (a :: rest) -> run_ties rest a 0 1 = ties (a :: rest).
Proof.
  intros S. rewrite run_ties_ok by (try lia; exact S). rewrite tie2_one. unfold ties, copies. cbn [psum]. lia.
Qed.
End Runs.

Definition eqx (a b : Z * Z) : bool := fst a =? fst b.
Definition eqxy (a b : Z * Z) : bool := (fst a =? fst b) && (snd a =? snd b).

Lemma tie_loop_runs : forall rest p tx txy cx cxy,
  tie_loop rest (fst p) (snd p) tx txy cx cxy
  = (run_ties eqx rest p tx cx, run_ties eqxy rest p txy cxy).
Proof.
  induction rest as [|[xi yi] rest IH]; intros p tx txy cx cxy; [reflexivity|].
  cbn [tie_loop run_ties]. unfold eqx at 1, eqxy at 1. cbn [fst snd].
  pose proof (IH (xi, yi)) as I. cbn [fst snd] in I.
  destruct (xi =? fst p), (yi =? snd p); cbn [andb]; apply I.
Qed.
Lemma tie_y_runs : forall rest p t c, tie_y_loop rest p t c = run_ties Z.eqb rest p t c.
Proof. induction rest as [|y rest IH]; intros p t c; simpl; [reflexivity|]. destruct (y =? p); apply IH. Qed.

(** ** Merge sort *)
Definition gt (a b : Z) : Z := b2z (b <? a).
Definition inv (l : list Z) : Z := psum gt l.
Definition cross (a b : list Z) : Z := zsum (fun x => zsum (gt x) b) a.
Definition seg (l : list Z) (i e : nat) : list Z := firstn (e - i) (skipn i l).
Notation sorted := (StronglySorted Z.le).

Lemma seg_cons l i e a : (i < e)%nat -> nth_error l i = Some a -> seg l i e = a :: seg l (S i) e.
Proof.
  intros H E. unfold seg. replace (e - i)%nat with (S (e - S i)) by lia.
  assert (S : skipn i l = a :: skipn (S i) l).
  { clear H. revert l E. induction i as [|i IH]; intros [|x l] E; simpl in *; try discriminate.
    - now injection E as ->.
    - rewrite (IH l E). reflexivity. }
  rewrite S. reflexivity.
Qed.
Lemma seg_nil l i e : (e <= i)%nat -> seg l i e = [].
Proof. intros H. unfold seg. now replace (e - i)%nat with 0%nat by lia. Qed.
Lemma seg_len l i e : (e <= length l)%nat -> length (seg l i e) = (e - i)%nat.
Proof. intros H. unfold seg. rewrite firstn_length, skipn_length. lia. Qed.

Lemma sorted_cons a l : sorted (a :: l) -> sorted l /\ (forall x, In x l -> a <= x).
Proof. intros S. inversion S as [|? ? S1 F]; subst. rewrite Forall_forall in F. auto. Qed.
Lemma sorted_mk a l : sorted l -> (forall x, In x l -> a <= x) -> sorted (a :: l).
Proof. intros S F. constructor; [exact S|]. now apply Forall_forall. Qed.

Lemma cross_nil_r a : cross a [] = 0. Proof. unfold cross. simpl. apply zsum_zero. reflexivity. Qed.
Lemma cross_cons_r a y b : cross a (y :: b) = zsum (fun x => gt x y) a + cross a b.
Proof. unfold cross. cbn [zsum fold_right]. rewrite <- zsum_add. reflexivity. Qed.
Lemma cross_cons_l x a b : cross (x :: a) b = zsum (gt x) b + cross a b.
Proof. reflexivity. Qed.

Lemma merge_loop_ok yy i_end j_end : (i_end <= length yy)%nat -> (j_end <= length yy)%nat ->
  forall fuel i j out swaps, (i <= i_end)%nat -> (j <= j_end)%nat ->
  (i_end - i + (j_end - j) <= fuel)%nat ->
  sorted (seg yy i i_end) -> sorted (seg yy j j_end) ->
  exists m swaps', merge_loop fuel yy i i_end j j_end out swaps = Some (out ++ m, swaps') /\
    sorted m /\ Permutation m (seg yy i i_end ++ seg yy j j_end) /\
    Z.of_nat swaps' = Z.of_nat swaps + cross (seg yy i i_end) (seg yy j j_end).
Proof.
  intros Hi Hj. induction fuel as [|fuel IH]; intros i j out swaps Li Lj Lf Si Sj; cbn [merge_loop].
  { destruct (Nat.ltb_spec i i_end); [lia|]. destruct (Nat.ltb_spec j j_end); [lia|]. cbn [orb].
    exists [], swaps. rewrite (seg_nil yy i i_end), (seg_nil yy j j_end) by lia. rewrite app_nil_r.
    repeat split; try constructor. unfold cross. simpl. lia. }
  destruct (Nat.ltb_spec i i_end) as [Ci|Ci]; destruct (Nat.ltb_spec j j_end) as [Cj|Cj]; cbn [orb].
  - destruct (nth_error yy i) as [a|] eqn:Ea; [|apply nth_error_None in Ea; lia].
    destruct (nth_error yy j) as [b|] eqn:Eb; [|apply nth_error_None in Eb; lia].
    rewrite (seg_cons yy i i_end a Ci Ea) in *. rewrite (seg_cons yy j j_end b Cj Eb) in *.
    destruct (sorted_cons _ _ Si) as [Si' Fa]. destruct (sorted_cons _ _ Sj) as [Sj' Fb].
    destruct (Z.leb_spec a b) as [L|L].
    + destruct (IH (S i) j (out ++ [a]) swaps) as (m & s & E & Sm & Pm & Es); try lia; [exact Si'| |].
      { rewrite (seg_cons yy j j_end b Cj Eb). exact Sj. }
      rewrite (seg_cons yy j j_end b Cj Eb) in *.
      exists (a :: m), s. rewrite <- app_assoc in E. split; [exact E|]. split.
      { apply sorted_mk; [exact Sm|]. intros x Hx. apply (Permutation_in _ Pm), in_app_or in Hx.
        destruct Hx as [Hx|[<-|Hx]]; [now apply Fa|lia|]. specialize (Fb x Hx). lia. }
      split; [simpl; now constructor|]. rewrite Es, cross_cons_l. rewrite zsum_zero; [lia|].
      intros x Hx. unfold gt. assert (a <= x) by (destruct Hx as [<-|Hx]; [lia|]; specialize (Fb x Hx); lia).
      replace (x <? a) with false by lia. reflexivity.
    + destruct (IH i (S j) (out ++ [b]) (swaps + (i_end - i))%nat) as (m & s & E & Sm & Pm & Es); try lia; [|exact Sj'|].
      { rewrite (seg_cons yy i i_end a Ci Ea). exact Si. }
      rewrite (seg_cons yy i i_end a Ci Ea) in *.
      exists (b :: m), s. rewrite <- app_assoc in E. split; [exact E|]. split.
      { apply sorted_mk; [exact Sm|]. intros x Hx. apply (Permutation_in _ Pm), in_app_or in Hx.
        destruct Hx as [[<-|Hx]|Hx]; [lia| |now apply Fb]. specialize (Fa x Hx). lia. }
      split.
      { rewrite Pm. change ((a :: seg yy (S i) i_end) ++ b :: seg yy (S j) j_end)
          with (([a] ++ seg yy (S i) i_end) ++ b :: seg yy (S j) j_end). rewrite <- Permutation_middle. reflexivity. }
      rewrite Es, cross_cons_r.
      assert (Z1 : zsum (fun x => gt x b) (a :: seg yy (S i) i_end) = Z.of_nat (i_end - i)).
      { rewrite (zsum_ext _ (fun _ => 1)).
        - rewrite zsum_const. unfold zlen. cbn [length]. rewrite seg_len by lia. lia.
        - intros x Hx. unfold gt. assert (a <= x) by (destruct Hx as [<-|Hx]; [lia|]; now apply Fa).
          replace (b <? x) with true by lia. reflexivity. }
      rewrite Z1. lia.
  - destruct (nth_error yy i) as [a|] eqn:Ea; [|apply nth_error_None in Ea; lia].
    rewrite (seg_cons yy i i_end a Ci Ea) in *. rewrite (seg_nil yy j j_end) in * by lia.
    destruct (sorted_cons _ _ Si) as [Si' Fa].
    destruct (IH (S i) j (out ++ [a]) swaps) as (m & s & E & Sm & Pm & Es); try lia; [exact Si'| |].
    { rewrite (seg_nil yy j j_end) by lia. constructor. }
    rewrite (seg_nil yy j j_end) in * by lia. rewrite app_nil_r in *.
    exists (a :: m), s. rewrite <- app_assoc in E. split; [exact E|]. split.
    { apply sorted_mk; [exact Sm|]. intros x Hx. apply Fa. now apply (Permutation_in _ Pm). }
    split; [now constructor|]. rewrite Es, !cross_nil_r. reflexivity.
  - destruct (nth_error yy j) as [b|] eqn:Eb; [|apply nth_error_None in Eb; lia].
    rewrite (seg_cons yy j j_end b Cj Eb) in *. rewrite (seg_nil yy i i_end) in * by lia.
    destruct (sorted_cons _ _ Sj) as [Sj' Fb].
    destruct (IH i (S j) (out ++ [b]) swaps) as (m & s & E & Sm & Pm & Es); try lia; [|exact Sj'|].
    { rewrite (seg_nil yy i i_end) by lia. constructor. }
    rewrite (seg_nil yy i i_end) in * by lia. cbn [app] in *.
    exists (b :: m), s. rewrite <- app_assoc in E. split; [exact E|]. split.
    { apply sorted_mk; [exact Sm|]. intros x Hx. apply Fb. now apply (Permutation_in _ Pm). }
    split; [now constructor|]. rewrite Es. unfold cross. simpl. reflexivity.
  - exists [], swaps. rewrite (seg_nil yy i i_end), (seg_nil yy j j_end) by lia. rewrite app_nil_r.
    repeat split; try constructor. unfold cross. simpl. lia.
Qed.

(** [blocks k off l]: from [off] on, consecutive blocks of length [k] (the last may be shorter) are sorted. *)
Definition blocks (k : nat) (l : list Z) : Prop :=
  forall i, sorted (seg l (i * k) (Nat.min (i * k + k) (length l))).

Lemma cross_perm a a' b b' : Permutation a a' -> Permutation b b' -> cross a b = cross a' b'.
Proof.
  intros Pa Pb. unfold cross. rewrite (zsum_perm _ _ _ Pa). apply zsum_ext. intros x _. now apply zsum_perm.
Qed.
Lemma inv_app a b : inv (a ++ b) = inv a + inv b + cross a b.
Proof. apply psum_app. Qed.
Lemma inv_sorted l : sorted l -> inv l = 0.
Proof.
  intros S. unfold inv. rewrite (psum_sorted_ext Z.le gt (fun _ _ => 0) l S).
  - clear S. induction l as [|x l IH]; [reflexivity|]. cbn [psum]. rewrite IH, zsum_zero; reflexivity.
  - intros x y H. unfold gt. replace (y <? x) with false by lia. reflexivity.
Qed.

Lemma skipn_add {X} a b (l : list X) : skipn a (skipn b l) = skipn (b + a) l.
Proof.
  revert l. induction b as [|b IH]; intros l; [reflexivity|]. destruct l as [|x l]; [now rewrite !skipn_nil|]. simpl. apply IH.
Qed.
Lemma seg_split l a b c : (a <= b <= c)%nat -> seg l a c = seg l a b ++ seg l b c.
Proof.
  intros H. unfold seg. rewrite <- (firstn_skipn (b - a) (firstn (c - a) (skipn a l))). f_equal.
  - rewrite firstn_firstn. f_equal. lia.
  - replace (c - a)%nat with ((b - a) + (c - b))%nat by lia. rewrite <- firstn_skipn_comm, skipn_add.
    f_equal. f_equal. lia.
Qed.
Lemma seg_all l : seg l 0 (length l) = l.
Proof. unfold seg. rewrite Nat.sub_0_r. simpl. apply firstn_all. Qed.

(** Elements of [out ++ m] at positions beyond [out]. *)
Lemma seg_app_l l m i e : (e <= length l)%nat -> seg (l ++ m) i e = seg l i e.
Proof.
  intros H. unfold seg. rewrite skipn_app, firstn_app. rewrite skipn_length.
  replace (e - i - (length l - i))%nat with 0%nat by lia. now rewrite firstn_O, app_nil_r.
Qed.
Lemma seg_app_r l m e : seg (l ++ m) (length l) (length l + e) = seg m 0 e.
Proof.
  unfold seg. rewrite skipn_app, skipn_all, Nat.sub_diag. simpl. f_equal. lia.
Qed.

Lemma pass_loop_ok yy k : (0 < k)%nat -> blocks k yy -> let n := length yy in
  forall fuel b out swaps, (n <= fuel * (2 * k) + b * (2 * k))%nat ->
  length out = Nat.min (b * (2 * k)) n ->
  exists out' swaps', pass_loop fuel n k (b * (2 * k)) yy out swaps = Some (out ++ out', swaps') /\
    Permutation out' (seg yy (b * (2 * k)) n) /\
    Z.of_nat swaps' + inv out' = Z.of_nat swaps + inv (seg yy (b * (2 * k)) n) /\
    (forall i, sorted (seg out' (i * (2 * k)) (Nat.min (i * (2 * k) + 2 * k) (length out')))).
Proof.
  intros Hk B n. induction fuel as [|fuel IH]; intros b out swaps Hf Lo; cbn [pass_loop].
  { destruct (Nat.ltb_spec (b * (2 * k)) n) as [C|C]; [lia|].
    exists [], swaps. rewrite app_nil_r, seg_nil by lia. repeat split; try constructor; simpl; try lia.
    intros i. unfold seg. rewrite skipn_nil, firstn_nil. constructor. }
  destruct (Nat.ltb_spec (b * (2 * k)) n) as [C|C].
  2:{ exists [], swaps. rewrite app_nil_r, seg_nil by lia. repeat split; try constructor; simpl; try lia.
      intros i. unfold seg. rewrite skipn_nil, firstn_nil. constructor. }
  set (o := (b * (2 * k))%nat) in *. set (ie := Nat.min (o + k) n). set (je := Nat.min (ie + k) n).
  assert (Hie : (o <= ie <= n)%nat) by (unfold ie; lia). assert (Hje : (ie <= je <= n)%nat) by (unfold je; lia).
  assert (S1 : sorted (seg yy o ie)).
  { pose proof (B (2 * b)%nat) as S. replace (2 * b * k)%nat with o in S by (unfold o; lia). exact S. }
  assert (S2 : sorted (seg yy ie je)).
  { destruct (Nat.le_gt_cases n (o + k)) as [Q|Q].
    - rewrite seg_nil; [constructor|]. unfold je, ie. lia.
    - pose proof (B (2 * b + 1)%nat) as S. replace ((2 * b + 1) * k)%nat with ie in S by (unfold ie, o in *; lia). exact S. }
  destruct (merge_loop_ok yy ie je ltac:(unfold n in *; lia) ltac:(unfold n in *; lia) n o ie out swaps) as (m & s & E & Sm & Pm & Es);
    try lia; try assumption.
  rewrite E. rewrite <- seg_split in Pm by lia.
  assert (Lm : length m = (je - o)%nat) by (rewrite (Permutation_length Pm); apply seg_len; unfold n in *; lia).
  assert (Ej : je = Nat.min ((S b) * (2 * k)) n) by (unfold je, ie, o in *; lia).
  replace (o + 2 * k)%nat with (S b * (2 * k))%nat by (unfold o; lia).
  destruct (IH (S b) (out ++ m) s) as (r & s' & E' & Pr & Er & Sr).
  { lia. }
  { rewrite app_length, Lm. lia. }
  assert (SG : seg yy (S b * (2 * k)) n = seg yy je n).
  { destruct (Nat.le_gt_cases n (S b * (2 * k))) as [Q|Q]; [rewrite !seg_nil by lia; reflexivity|].
    f_equal. lia. }
  rewrite SG in *.
  exists (m ++ r), s'. rewrite app_assoc. split; [exact E'|]. rewrite (seg_split yy o je n) by lia.
  split; [now apply Permutation_app|]. split.
  - rewrite !inv_app. rewrite (cross_perm m (seg yy o je) r (seg yy je n) Pm Pr).
    rewrite (inv_sorted m Sm). rewrite (seg_split yy o ie je) by lia. rewrite inv_app.
    rewrite (inv_sorted _ S1), (inv_sorted _ S2). lia.
  - intros i. destruct i as [|i].
    + change (0 * (2 * k))%nat with 0%nat. rewrite Nat.add_0_l, app_length.
      destruct (Nat.le_gt_cases n (S b * (2 * k))) as [Q|Q].
      * assert (r = []) as ->.
        { rewrite (seg_nil yy je n) in Pr by lia. now apply Permutation_nil, Permutation_sym. }
        rewrite app_nil_r. change (length (@nil Z)) with 0%nat. replace (Nat.min (2 * k) (length m + 0)) with (length m) by lia.
        rewrite seg_all. exact Sm.
      * replace (Nat.min (2 * k) (length m + length r)) with (length m) by lia.
        rewrite seg_app_l by lia. rewrite seg_all. exact Sm.
    + destruct (Nat.le_gt_cases n (S b * (2 * k))) as [Q|Q].
      * assert (r = []) as ->.
        { rewrite (seg_nil yy je n) in Pr by lia. now apply Permutation_nil, Permutation_sym. }
        rewrite app_nil_r. rewrite seg_nil by lia. constructor.
      * assert (L2 : length m = (2 * k)%nat) by lia.
        pose proof (Sr i) as Si. rewrite app_length.
        replace (S i * (2 * k))%nat with (length m + i * (2 * k))%nat by lia.
        unfold seg in *. rewrite skipn_app. rewrite skipn_all2 by lia.
        replace (length m + i * (2 * k) - length m)%nat with (i * (2 * k))%nat by lia. cbn [app].
        replace (Nat.min (length m + i * (2 * k) + 2 * k) (length m + length r) - (length m + i * (2 * k)))%nat
          with (Nat.min (i * (2 * k) + 2 * k) (length r) - i * (2 * k))%nat by lia. exact Si.
Qed.

Lemma sort_loop_ok n : forall fuel k yy swaps, length yy = n -> (0 < k)%nat -> blocks k yy ->
  (n <= k + fuel)%nat ->
  exists yy' swaps', sort_loop fuel n k yy swaps = Some (yy', swaps') /\ Permutation yy' yy /\ sorted yy' /\
    Z.of_nat swaps' = Z.of_nat swaps + inv yy.
Proof.
  induction fuel as [|fuel IH]; intros k yy swaps L Hk B Hf; cbn [sort_loop].
  - destruct (Nat.ltb_spec k n); [lia|]. exists yy, swaps.
    assert (S : sorted yy).
    { pose proof (B 0%nat) as S. cbn [Nat.mul Nat.add] in S. rewrite Nat.min_r in S by lia. now rewrite seg_all in S. }
    rewrite (inv_sorted yy S). repeat split; [reflexivity|exact S|lia].
  - destruct (Nat.ltb_spec k n) as [C|C].
    + destruct (pass_loop_ok yy k Hk B n 0 [] swaps) as (out & s & E & P & Es & Sb).
      { rewrite L. nia. } { simpl. lia. }
      rewrite L in E. cbn [Nat.mul app] in E. rewrite E. rewrite L in *.
      assert (SG : seg yy (0 * (2 * k)) n = yy) by (rewrite <- L; apply seg_all). rewrite SG in *.
      assert (Lo : length out = n) by (rewrite (Permutation_length P); exact L).
      destruct (IH (2 * k)%nat out s Lo ltac:(lia)) as (yy' & s' & E' & P' & S' & Es').
      { intros i. rewrite Lo. specialize (Sb i). rewrite Lo in Sb. exact Sb. } { lia. }
      exists yy', s'. replace (k + (k + 0))%nat with (2 * k)%nat by lia.
      split; [exact E'|]. split; [now rewrite P'|]. split; [exact S'|]. lia.
    + exists yy, swaps.
      assert (S : sorted yy).
      { pose proof (B 0%nat) as S. cbn [Nat.mul Nat.add] in S. rewrite Nat.min_r in S by lia. now rewrite seg_all in S. }
      rewrite (inv_sorted yy S). repeat split; [reflexivity|exact S|lia].
Qed.

Lemma blocks_one l : blocks 1 l.
Proof.
  intros i. assert (length (seg l (i * 1) (Nat.min (i * 1 + 1) (length l))) <= 1)%nat.
  { unfold seg. rewrite firstn_length. lia. }
  destruct (seg l (i * 1) (Nat.min (i * 1 + 1) (length l))) as [|a [|b r]]; [constructor|repeat constructor|simpl in *; lia].
Qed.

(** ** Putting it together *)
Lemma b2z_negb b : b2z (negb b) = 1 - b2z b. Proof. destruct b; reflexivity. Qed.

Lemma psum_swap_neg {A} (f : A -> A -> bool) l :
  psum (fun a b => b2z (negb (f a b))) l = psum (fun _ _ => 1) l - psum (fun a b => b2z (f a b)) l.
Proof.
  rewrite (psum_ext _ (fun a b => 1 + (-1) * b2z (f a b)) l).
  - rewrite psum_add, psum_mul. lia.
  - intros x y _ _. rewrite b2z_negb. lia.
Qed.

Lemma concord_sorted a b : lex a b ->
  concord a b = 1 - b2z (eqx a b) - b2z (snd a =? snd b) + b2z (eqxy a b) - 2 * gt (snd a) (snd b).
Proof.
  intros L. unfold concord, eqx, eqxy, gt, lex in *. destruct a as [xa ya], b as [xb yb]. cbn [fst snd] in *.
  destruct L as [L|[-> L]].
  - replace (Z.sgn (xa - xb)) with (-1) by lia. replace (xa =? xb) with false by lia.
    destruct (Z.compare_spec ya yb) as [->|H|H].
    + rewrite Z.sub_diag, Z.eqb_refl, Z.ltb_irrefl. reflexivity.
    + replace (Z.sgn (ya - yb)) with (-1) by lia. replace (ya =? yb) with false by lia.
      replace (yb <? ya) with false by lia. reflexivity.
    + replace (Z.sgn (ya - yb)) with 1 by lia. replace (ya =? yb) with false by lia.
      replace (yb <? ya) with true by lia. reflexivity.
  - rewrite Z.sub_diag, Z.eqb_refl. replace (yb <? ya) with false by lia. destruct (ya =? yb); reflexivity.
Qed.

Lemma lex_sorted_x_sep p a b : lex p a -> lex a b -> eqx a p = false -> eqx p b = false.
Proof. unfold lex, eqx. intros; lia. Qed.
Lemma lex_sorted_xy_sep p a b : lex p a -> lex a b -> eqxy a p = false -> eqxy p b = false.
Proof. unfold lex, eqxy. intros; lia. Qed.

Lemma kendall_ints_ok l : StronglySorted lex l -> (2 <= length l)%nat ->
  kendall_ints l = Some (Some (concordant_minus_discordant l, untied_x l, untied_y l)).
Proof.
  intros S L. destruct l as [|[x0 y0] [|p1 rest]]; [simpl in L; lia|simpl in L; lia|].
  set (l := (x0, y0) :: p1 :: rest) in *.
  assert (E0 : kendall_ints l =
      (let n := length l in
      let n_pairs := Z.shiftr (Z.of_nat n * (Z.of_nat n - 1)) 1 in
      let '(tied_x, tied_xy) := tie_loop (p1 :: rest) x0 y0 0 0 1 1 in
      match sort_loop n n 1 (map snd l) 0 with
      | None => None
      | Some (yy, swaps) =>
          match yy with
          | [] => None
          | prev :: yrest =>
              let tied_y := tie_y_loop yrest prev 0 1 in
              Some (Some (n_pairs - tied_x - tied_y + tied_xy - Z.shiftl (Z.of_nat swaps) 1,
                          n_pairs - tied_x, n_pairs - tied_y))
          end
      end)) by reflexivity.
  rewrite E0. clear E0. cbv zeta.
  pose proof (tie_loop_runs (p1 :: rest) (x0, y0) 0 0 1 1) as TL. cbn [fst snd] in TL. rewrite TL. clear TL.
  rewrite (run_ties_all eqx lex) by
    (try exact S; try (unfold eqx; intros; lia); exact lex_sorted_x_sep).
  rewrite (run_ties_all eqxy lex) by
    (try exact S; try (unfold eqxy; intros; lia); exact lex_sorted_xy_sep).
  fold l.
  destruct (sort_loop_ok (length l) (length l) 1 (map snd l) 0) as (yy & s & E & P & Sy & Es).
  { apply map_length. } { lia. } { apply blocks_one. } { lia. }
  rewrite E. destruct yy as [|prev yrest].
  { exfalso. apply Permutation_nil in P. discriminate. }
  rewrite tie_y_runs. rewrite (run_ties_all Z.eqb Z.le) by (try exact Sy; intros; lia).
  assert (T : ties Z.eqb (prev :: yrest) = psum (fun a b => b2z (snd a =? snd b)) l).
  { unfold ties. rewrite (psum_perm _ _ _ (fun x y => f_equal b2z (Z.eqb_sym x y)) P). apply psum_map. }
  assert (I : inv (map snd l) = psum (fun a b => gt (snd a) (snd b)) l) by apply psum_map.
  assert (NP : Z.shiftr (Z.of_nat (length l) * (Z.of_nat (length l) - 1)) 1 = psum (fun _ _ => 1) l).
  { pose proof (psum_one l). pose proof (tie2_half (Z.of_nat (length l)) ltac:(lia)). unfold tie2 in *. unfold zlen in *. lia. }
  rewrite NP, T. rewrite Z.shiftl_mul_pow2 by lia. change (2 ^ 1) with 2. do 3 f_equal; [f_equal|].
  - unfold concordant_minus_discordant. rewrite (psum_sorted_ext lex concord (fun a b => 1 + ((-1) * b2z (eqx a b) + ((-1) * b2z (snd a =? snd b) + (b2z (eqxy a b) + (-2) * gt (snd a) (snd b))))) l S).
    2:{ intros a b H. rewrite (concord_sorted a b H). ring. }
    rewrite !psum_add, !psum_mul. unfold ties. lia.
  - unfold untied_x. rewrite psum_swap_neg. reflexivity.
  - unfold untied_y. rewrite psum_swap_neg. reflexivity.
Qed.

(** ** Ranks preserve order *)
Lemma complete_spec {X Y} (xs : list (option X)) (ys : list (option Y)) : complete xs ys = complete_rows xs ys.
Proof.
  unfold complete_rows. revert ys. induction xs as [|[x|] xs IH]; intros [|[y|] ys]; simpl; try reflexivity; rewrite ?IH; reflexivity.
Qed.
Lemma complete_map {X Y X' Y'} (f : X -> X') (g : Y -> Y') xs ys :
  complete (map (option_map f) xs) (map (option_map g) ys) = map (fun p => (f (fst p), g (snd p))) (complete xs ys).
Proof.
  revert ys. induction xs as [|[x|] xs IH]; intros [|[y|] ys]; simpl; try reflexivity; rewrite ?IH; reflexivity.
Qed.
Lemma complete_in {X Y} (xs : list (option X)) (ys : list (option Y)) x y :
  In (x, y) (complete xs ys) -> In (Some x) xs /\ In (Some y) ys.
Proof.
  revert ys. induction xs as [|[x0|] xs IH]; intros [|[y0|] ys]; simpl; try tauto.
  - intros [H|H]; [injection H as -> ->; auto|]. destruct (IH _ H); auto.
  - intros H. destruct (IH _ H); auto.
  - intros H. destruct (IH _ H); auto.
  - intros H. destruct (IH _ H); auto.
Qed.

Definition rk (col : list (option Z)) (v : Z) : Z :=
  1 + Z.of_nat (length (filter (fun o => match o with Some w => w <? v | None => false end) col)).
Lemma rk_mono col v w : v <= w -> rk col v <= rk col w.
Proof.
  intros H. unfold rk. induction col as [|[u|] col IH]; cbn [filter]; [lia| |exact IH].
  destruct (u <? v) eqn:E1; destruct (u <? w) eqn:E2; cbn [length]; rewrite ?Nat2Z.inj_succ; lia.
Qed.
Lemma rk_strict col v w : In (Some v) col -> v < w -> rk col v < rk col w.
Proof.
  intros Hin H. induction col as [|u col IH]; [destruct Hin|]. pose proof (rk_mono col v w ltac:(lia)) as M.
  unfold rk in *. cbn [filter]. destruct Hin as [->|Hin].
  - replace (v <? v) with false by lia. replace (v <? w) with true by lia. cbn [length]. rewrite ?Nat2Z.inj_succ. lia.
  - specialize (IH Hin). destruct u as [u|]; [|exact IH].
    destruct (u <? v) eqn:E1; destruct (u <? w) eqn:E2; cbn [length]; rewrite ?Nat2Z.inj_succ; lia.
Qed.
Lemma rk_sgn col v w : In (Some v) col -> In (Some w) col -> Z.sgn (rk col v - rk col w) = Z.sgn (v - w).
Proof.
  intros Hv Hw. destruct (Z.compare_spec v w) as [->|H|H].
  - now rewrite !Z.sub_diag.
  - pose proof (rk_strict col v w Hv H). lia.
  - pose proof (rk_strict col w v Hw H). lia.
Qed.
Lemma rk_eqb col v w : In (Some v) col -> In (Some w) col -> (rk col v =? rk col w) = (v =? w).
Proof. intros Hv Hw. pose proof (rk_sgn col v w Hv Hw). lia. Qed.

Lemma kendall_tau_ok sort x y : lex_sort_ok sort ->
  kendall_tau sort x y = Some (if (length (complete_rows x y) <=? 1)%nat then nnanv f64_ops else tau_b (complete_rows x y)).
Proof.
  intros SO. unfold kendall_tau. rewrite <- complete_spec.
  assert (EC : complete (rank_min x) (rank_min y) = map (fun p => (rk x (fst p), rk y (snd p))) (complete x y)) by apply complete_map.
  rewrite EC. set (rows := complete x y). set (g := fun p : Z * Z => (rk x (fst p), rk y (snd p))).
  destruct (SO (map g rows)) as [P S].
  assert (L : length (sort (map g rows)) = length rows) by (rewrite (Permutation_length P); apply map_length).
  destruct (Nat.leb_spec (length rows) 1) as [C|C].
  - destruct (sort (map g rows)) as [|[a b] [|q r]]; try reflexivity. simpl in L. lia.
  - rewrite (kendall_ints_ok _ S ltac:(lia)).
    assert (IN : forall p, In p rows -> In (Some (fst p)) x /\ In (Some (snd p)) y).
    { intros [a b] Hp. now apply complete_in in Hp. }
    assert (E1 : concordant_minus_discordant (sort (map g rows)) = concordant_minus_discordant rows).
    { unfold concordant_minus_discordant. rewrite (psum_perm concord _ _ ltac:(unfold concord; intros; lia) P), psum_map.
      apply psum_ext. intros p q Hp Hq. destruct (IN p Hp), (IN q Hq). unfold concord, g. cbn [fst snd].
      rewrite !rk_sgn by assumption. reflexivity. }
    assert (E2 : untied_x (sort (map g rows)) = untied_x rows).
    { unfold untied_x. rewrite (psum_perm _ _ (map g rows)) by (try exact P; intros; rewrite Z.eqb_sym; reflexivity).
      rewrite psum_map. apply psum_ext. intros p q Hp Hq. destruct (IN p Hp), (IN q Hq). unfold g. cbn [fst snd].
      rewrite rk_eqb by assumption. reflexivity. }
    assert (E3 : untied_y (sort (map g rows)) = untied_y rows).
    { unfold untied_y. rewrite (psum_perm _ _ (map g rows)) by (try exact P; intros; rewrite Z.eqb_sym; reflexivity).
      rewrite psum_map. apply psum_ext. intros p q Hp Hq. destruct (IN p Hp), (IN q Hq). unfold g. cbn [fst snd].
      rewrite rk_eqb by assumption. reflexivity. }
    rewrite E1, E2, E3. reflexivity.
Qed.

(** |numerator| is at most each factor of the denominator, so tau is in [-1, 1] and its square at most 1. *)
Lemma concord_bound rows : let c := concordant_minus_discordant rows in
  Z.abs c <= untied_x rows /\ Z.abs c <= untied_y rows.
Proof.
  assert (G : forall f : Z * Z -> Z * Z -> Z, (forall a b, Z.abs (concord a b) <= f a b) -> Z.abs (psum concord rows) <= psum f rows).
  { intros f H. pose proof (psum_le concord f rows (fun a b _ _ => ltac:(specialize (H a b); cbv beta; lia))).
    pose proof (psum_le (fun a b => (-1) * concord a b) f rows (fun a b _ _ => ltac:(specialize (H a b); cbv beta; lia))).
    rewrite psum_mul in H1. lia. }
  split; apply G; intros [xa ya] [xb yb]; unfold concord, b2z; cbn [fst snd].
  - destruct (Z.eqb_spec xa xb) as [->|]; [rewrite Z.sub_diag; simpl; lia|]. cbn [negb].
    destruct (Z.sgn_spec (xa - xb)) as [[? ->]|[[? ->]|[? ->]]]; destruct (Z.sgn_spec (ya - yb)) as [[? ->]|[[? ->]|[? ->]]]; simpl; lia.
  - destruct (Z.eqb_spec ya yb) as [->|]; [rewrite Z.sub_diag, Z.mul_0_r; simpl; lia|]. cbn [negb].
    destruct (Z.sgn_spec (xa - xb)) as [[? ->]|[[? ->]|[? ->]]]; destruct (Z.sgn_spec (ya - yb)) as [[? ->]|[[? ->]|[? ->]]]; simpl; lia.
Qed.
Lemma pairs_bound rows : untied_x rows <= zlen rows * (zlen rows - 1) / 2 /\ untied_y rows <= zlen rows * (zlen rows - 1) / 2.
Proof.
  assert (H : zlen rows * (zlen rows - 1) / 2 = psum (fun _ _ => 1) rows).
  { pose proof (psum_one rows). rewrite <- H, Z.mul_comm, Z.div_mul; lia. }
  rewrite H. split; apply psum_le; intros a b _ _; match goal with |- b2z ?b <= 1 => destruct b; simpl; lia end.
Qed.
