(** find_among / find_among_b: the entry found is really in the text. *)
From Coq Require Import String Ascii Bool List ZArith Lia ZifyBool.
From Verif Require Import StrModel SnowballSpec SnowballModel SnowballProofs.
Import ListNotations.
Open Scope Z_scope.

Fixpoint lexle (a b : bytes) : bool :=
  match a, b with
  | [], _ => true
  | _ :: _, [] => false
  | x :: a', y :: b' => (x <? y) || ((x =? y) && lexle a' b')
  end.

Lemma sandwich : forall P a b c, lexle a b = true -> lexle b c = true ->
  firstn (length P) a = P -> firstn (length P) c = P -> firstn (length P) b = P.
Proof.
  induction P as [|p P IH]; intros a b c Hab Hbc Ha Hc; [reflexivity|].
  destruct a as [|x a]; [discriminate|]. destruct c as [|z c]; [discriminate|].
  cbn in Ha, Hc. injection Ha as -> Ha. injection Hc as -> Hc.
  destruct b as [|y b]; [discriminate|]. cbn in Hab, Hbc |- *.
  assert (y = p) as -> by lia.
  rewrite Z.ltb_irrefl, Z.eqb_refl in Hab, Hbc. cbn in Hab, Hbc. f_equal. eauto.
Qed.

(** The text ahead of the cursor, in reading direction, and the comparison against it. *)
Fixpoint cmp_pure (w t : bytes) (common : Z) : Z * Z :=
  match w with
  | [] => (0, common)
  | x :: w' =>
      match t with
      | [] => (-1, common)
      | y :: t' => if y - x =? 0 then cmp_pure w' t' (common + 1) else (y - x, common)
      end
  end.

Lemma cmp_pure_agrees : forall w t common, exists d n, cmp_pure w t common = (d, common + Z.of_nat n) /\
  (n <= length w)%nat /\ (n <= length t)%nat /\ firstn n w = firstn n t.
Proof.
  induction w as [|x w IH]; intros t common.
  - exists 0, 0%nat. cbn. rewrite Z.add_0_r. repeat split; lia.
  - destruct t as [|y t]; cbn [cmp_pure].
    + exists (-1), 0%nat. rewrite Z.add_0_r. repeat split; cbn; lia.
    + destruct (Z.eqb_spec (y - x) 0) as [E|E].
      * destruct (IH t (common + 1)) as (d & n & -> & L1 & L2 & F). exists d, (S n).
        split; [f_equal; lia|]. cbn. repeat split; try lia. f_equal; [lia|auto].
      * exists (y - x), 0%nat. rewrite Z.add_0_r. repeat split; cbn; lia.
Qed.

Lemma firstn_plus {A} n k (l : list A) : firstn (n + k) l = firstn n l ++ firstn k (skipn n l).
Proof. revert l. induction n as [|n IH]; intros [|x l]; cbn; auto; [now rewrite firstn_nil|now rewrite IH]. Qed.

Section Search.
Variables (tab : list among) (key : among -> bytes) (T : bytes) (cmp : bytes -> Z -> option (Z * Z)).
Hypothesis key_len : forall w, length (key w) = length (a_str w).
(** The comparison skips [common] bytes of both sides. *)
Hypothesis cmp_ok : forall w common, 0 <= common <= zlen (key w) -> common <= zlen T ->
  cmp (a_str w) common = Some (cmp_pure (skipn (Z.to_nat common) (key w)) (skipn (Z.to_nat common) T) common).
Hypothesis sorted : forall i j a b, (i <= j)%nat -> nth_error tab i = Some a -> nth_error tab j = Some b ->
  lexle (key a) (key b) = true.

Definition agree (w : among) (n : Z) : Prop :=
  0 <= n <= zlen (key w) /\ n <= zlen T /\ firstn (Z.to_nat n) (key w) = firstn (Z.to_nat n) T.

Lemma agree_le w n m : agree w n -> 0 <= m <= n -> agree w m.
Proof.
  intros ((N1 & N2) & N3 & F) Hm. repeat split; try lia.
  replace (Z.to_nat m) with (Nat.min (Z.to_nat m) (Z.to_nat n)) by lia. rewrite <- !firstn_firstn. now rewrite F.
Qed.
Lemma agree_0 w : agree w 0.
Proof. pose proof (zlen_nn (key w)). pose proof (zlen_nn T). repeat split; lia. Qed.

Lemma cmp_agree w n : agree w n -> exists d m, cmp (a_str w) n = Some (d, m) /\ agree w m.
Proof.
  intros ((N1 & N2) & N3 & F). rewrite cmp_ok by lia.
  destruct (cmp_pure_agrees (skipn (Z.to_nat n) (key w)) (skipn (Z.to_nat n) T) n) as (d & k & -> & K1 & K2 & K3).
  exists d, (n + Z.of_nat k). split; auto. rewrite skipn_length in K1, K2. unfold agree, zlen in *.
  repeat split; try lia.
  replace (Z.to_nat (n + Z.of_nat k)) with (Z.to_nat n + k)%nat by lia.
  rewrite !firstn_plus. congruence.
Qed.

Lemma search_ok : forall fuel i j ci cj (inspected : bool),
  (i < j <= length tab)%nat ->
  (j - i + (if inspected then 0 else 1) < fuel)%nat ->
  (forall w, nth_error tab i = Some w -> agree w ci) ->
  match nth_error tab j with None => cj = 0 | Some w => agree w cj end ->
  0 <= ci ->
  exists i' ci' w, among_search fuel tab cmp i j ci cj inspected = SFound i' ci' /\
    nth_error tab i' = Some w /\ agree w ci'.
Proof.
  induction fuel as [|fuel IH]; intros i j ci cj insp Hij Hf Hi Hj Ci; [lia|].
  cbn [among_search]. set (k := (i + (j - i) / 2)%nat).
  assert (Hk : (i <= k < j)%nat) by (unfold k; pose proof (Nat.div_lt (j - i) 2); lia).
  assert (Hk2 : (j - i >= 2 -> i < k)%nat) by (intro; unfold k; pose proof (Nat.div_str_pos (j - i) 2); lia).
  destruct (nth_error tab k) as [w|] eqn:Ek; [|apply nth_error_None in Ek; lia].
  destruct (nth_error tab i) as [wi|] eqn:Ei; [|apply nth_error_None in Ei; lia].
  specialize (Hi wi eq_refl).
  assert (Ak : agree w (Z.min ci cj)).
  { destruct (nth_error tab j) as [wj|] eqn:Ej.
    2:{ subst cj. rewrite Z.min_r by lia. apply agree_0. }
    assert (Cj : 0 <= cj) by (destruct Hj; lia).
    pose proof (agree_le _ _ (Z.min ci cj) Hi ltac:(lia)) as ((_ & A1) & A2 & A3).
    pose proof (agree_le _ _ (Z.min ci cj) Hj ltac:(lia)) as ((_ & B1) & _ & B3).
    set (P := firstn (Z.to_nat (Z.min ci cj)) T) in *.
    assert (LP : length P = Z.to_nat (Z.min ci cj)) by (unfold P; rewrite firstn_length; unfold zlen in A2; lia).
    rewrite <- LP in A3, B3.
    pose proof (sandwich P (key wi) (key w) (key wj) (sorted i k wi w ltac:(lia) Ei Ek) (sorted k j w wj ltac:(lia) Ek Ej) A3 B3) as S.
    assert (LW : (length P <= length (key w))%nat).
    { rewrite <- S at 1. rewrite firstn_length. lia. }
    rewrite LP in LW. unfold agree. fold P. rewrite <- LP, S. repeat split; auto; unfold zlen; lia. }
  assert (Hz : zlen (a_str w) <? Z.min ci cj = false).
  { destruct Ak as ((_ & A1) & _). unfold zlen in *. rewrite key_len in A1. lia. }
  rewrite Hz. destruct (cmp_agree w (Z.min ci cj) Ak) as (d & m & -> & Am).
  assert (Hm : 0 <= m) by (destruct Am; lia).
  destruct (d <? 0).
  - (* j := k *)
    destruct (Nat.leb_spec (k - i) 1) as [L|L].
    + destruct (Nat.ltb_spec 0 i); [do 3 eexists; split; [reflexivity|]; eauto|].
      destruct (Nat.eqb_spec k i); [do 3 eexists; split; [reflexivity|]; eauto|].
      destruct insp; [do 3 eexists; split; [reflexivity|]; eauto|].
      apply IH; auto; try lia.
      * intros w0 E0. rewrite Ei in E0. injection E0 as <-. auto.
      * rewrite Ek. auto.
    + apply IH; auto; try lia.
      * intros w0 E0. rewrite Ei in E0. injection E0 as <-. auto.
      * rewrite Ek. auto.
  - (* i := k *)
    destruct (Nat.leb_spec (j - k) 1) as [L|L].
    + destruct (Nat.ltb_spec 0 k); [do 3 eexists; split; [reflexivity|]; eauto|].
      destruct (Nat.eqb_spec j k); [do 3 eexists; split; [reflexivity|]; eauto|].
      destruct insp; [do 3 eexists; split; [reflexivity|]; eauto|].
      apply IH; auto; try lia.
      intros w0 E0. rewrite Ek in E0. injection E0 as <-. auto.
    + apply IH; auto; try lia.
      intros w0 E0. rewrite Ek in E0. injection E0 as <-. auto.
Qed.

(** Links lead to earlier entries whose key is a prefix of the key. *)
Hypothesis links : forall i w, nth_error tab i = Some w -> 0 <= a_link w ->
  a_link w < Z.of_nat i /\
  exists v, nth_error tab (Z.to_nat (a_link w)) = Some v /\ firstn (length (key v)) (key w) = key v.

Lemma chain_ok : forall fuel i ci w, (i < fuel)%nat -> nth_error tab i = Some w -> 0 <= ci <= zlen T ->
  (let n := Nat.min (Z.to_nat ci) (length (key w)) in firstn n (key w) = firstn n T) ->
  among_chain fuel tab (Z.of_nat i) ci = CNone \/
  exists v, among_chain fuel tab (Z.of_nat i) ci = CFound v /\ In v tab /\
    (length (key v) <= length T)%nat /\ key v = firstn (length (key v)) T.
Proof.
  induction fuel as [|fuel IH]; intros i ci w Hf Ei Hc Ha; [lia|]. cbn [among_chain].
  rewrite Nat2Z.id, Ei. destruct (Z.leb_spec (zlen (a_str w)) ci) as [L|L].
  - right. exists w. split; auto. unfold zlen in *. rewrite <- key_len in L.
    split; [eapply nth_error_In; eauto|]. split; [lia|].
    cbv zeta in Ha. rewrite Nat.min_r in Ha by lia. rewrite firstn_all in Ha. auto.
  - destruct (Z.ltb_spec (a_link w) 0); [auto|].
    destruct (links i w Ei H) as (L1 & v & Ev & Pv).
    rewrite <- (Z2Nat.id (a_link w)) by lia. apply (IH _ ci v); auto; try lia.
    cbv zeta in Ha |- *. rewrite <- Pv at 2.
    assert (Lv : (length (key v) <= length (key w))%nat) by (rewrite <- Pv, firstn_length; lia).
    rewrite firstn_firstn. rewrite Nat.min_l by lia.
    transitivity (firstn (Nat.min (Z.to_nat ci) (length (key v))) (firstn (Nat.min (Z.to_nat ci) (length (key w))) (key w))).
    { rewrite firstn_firstn. f_equal. lia. }
    rewrite Ha, firstn_firstn. f_equal. lia.
Qed.

Lemma among_ok : tab <> [] ->
  exists i ci, among_search (among_fuel tab) tab cmp 0 (length tab) 0 0 false = SFound i ci /\
   (among_chain (among_fuel tab) tab (Z.of_nat i) ci = CNone \/
    exists v, among_chain (among_fuel tab) tab (Z.of_nat i) ci = CFound v /\ In v tab /\
      (length (key v) <= length T)%nat /\ key v = firstn (length (key v)) T).
Proof.
  intro NE. assert (NL : (0 < length tab)%nat) by (destruct tab; [congruence|cbn; lia]).
  destruct (search_ok (among_fuel tab) 0 (length tab) 0 0 false) as (i & ci & w & E & Ei & A); try lia.
  - unfold among_fuel. lia.
  - intros w _. apply agree_0.
  - rewrite (proj2 (nth_error_None tab (length tab)) ltac:(lia)). reflexivity.
  - exists i, ci. split; auto. assert (Hi : (i < length tab)%nat) by (apply nth_error_Some; congruence).
    destruct A as ((A1 & A2) & A3 & A4).
    apply (chain_ok (among_fuel tab) i ci w); auto; [unfold among_fuel; lia|].
    cbv zeta. unfold zlen in A2. rewrite Nat.min_l by lia. auto.
Qed.
End Search.

(** ** Table checks, by computation *)
Definition table_check (key : among -> bytes) (tab : list among) : bool :=
  let n := length tab in
  forallb (fun i => forallb (fun j =>
    match nth_error tab i, nth_error tab j with
    | Some a, Some b => negb (i <=? j)%nat || lexle (key a) (key b)
    | _, _ => false
    end) (seq 0 n)) (seq 0 n)
  && forallb (fun i =>
    match nth_error tab i with
    | Some w => (a_link w <? 0) ||
        ((a_link w <? Z.of_nat i) &&
         match nth_error tab (Z.to_nat (a_link w)) with
         | Some v => if list_eq_dec Z.eq_dec (firstn (length (key v)) (key w)) (key v) then true else false
         | None => false
         end)
    | None => false
    end) (seq 0 n)
  && forallb (fun w => forallb (fun b => (0 <=? b) && (b <? 128)) (a_str w)) tab
  && negb (n =? 0)%nat.

Lemma table_check_ok key tab : table_check key tab = true ->
  (forall i j a b, (i <= j)%nat -> nth_error tab i = Some a -> nth_error tab j = Some b -> lexle (key a) (key b) = true) /\
  (forall i w, nth_error tab i = Some w -> 0 <= a_link w ->
    a_link w < Z.of_nat i /\
    exists v, nth_error tab (Z.to_nat (a_link w)) = Some v /\ firstn (length (key v)) (key w) = key v) /\
  (forall w, In w tab -> Forall (fun b => 0 <= b < 128) (a_str w)) /\ tab <> [].
Proof.
  unfold table_check. rewrite !andb_true_iff. intros [[[H1 H2] H3] H4]. rewrite !forallb_forall in *. repeat split.
  - intros i j a b L Ea Eb. assert (i < length tab /\ j < length tab)%nat by (split; apply nth_error_Some; congruence).
    specialize (H1 i ltac:(apply in_seq; lia)). rewrite forallb_forall in H1.
    specialize (H1 j ltac:(apply in_seq; lia)). rewrite Ea, Eb in H1.
    destruct (Nat.leb_spec i j); [|lia]. exact H1.
  - assert (i < length tab)%nat by (apply nth_error_Some; congruence).
    specialize (H2 i ltac:(apply in_seq; lia)). rewrite H in H2. lia.
  - assert (i < length tab)%nat by (apply nth_error_Some; congruence).
    specialize (H2 i ltac:(apply in_seq; lia)). rewrite H in H2.
    destruct (Z.ltb_spec (a_link w) 0); [lia|]. cbn [orb] in H2. apply andb_true_iff in H2 as [_ H2].
    destruct (nth_error tab (Z.to_nat (a_link w))) as [v|]; [|discriminate]. exists v. split; auto.
    destruct list_eq_dec; [auto|discriminate].
  - intros w Hw. specialize (H3 w Hw). rewrite forallb_forall in H3. apply Forall_forall. intros b Hb. specialize (H3 b Hb). lia.
  - intro E. subst tab. discriminate.
Qed.

Definition fkey (w : among) : bytes := a_str w.
Definition bkey (w : among) : bytes := rev (a_str w).

Lemma A_0_ok : table_check fkey A_0 = true. Proof. vm_compute. reflexivity. Qed.
Lemma A_10_ok : table_check fkey A_10 = true. Proof. vm_compute. reflexivity. Qed.
Lemma A_1_ok : table_check bkey A_1 = true. Proof. vm_compute. reflexivity. Qed.
Lemma A_2_ok : table_check bkey A_2 = true. Proof. vm_compute. reflexivity. Qed.
Lemma A_3_ok : table_check bkey A_3 = true. Proof. vm_compute. reflexivity. Qed.
Lemma A_4_ok : table_check bkey A_4 = true. Proof. vm_compute. reflexivity. Qed.
Lemma A_5_ok : table_check bkey A_5 = true. Proof. vm_compute. reflexivity. Qed.
Lemma A_6_ok : table_check bkey A_6 = true. Proof. vm_compute. reflexivity. Qed.
Lemma A_7_ok : table_check bkey A_7 = true. Proof. vm_compute. reflexivity. Qed.
Lemma A_8_ok : table_check bkey A_8 = true. Proof. vm_compute. reflexivity. Qed.
Lemma A_9_ok : table_check bkey A_9 = true. Proof. vm_compute. reflexivity. Qed.

(** ** The two comparisons against the text *)
Lemma cmp_fwd_pure t c : 0 <= c <= zlen t -> forall w common, 0 <= common -> c + common <= zlen t ->
  cmp_fwd t c (zlen t) w common = Some (cmp_pure w (skipn (Z.to_nat (c + common)) t) common).
Proof.
  intros Hc w. induction w as [|x w IH]; intros common H0 Hl; [reflexivity|]. cbn [cmp_fwd cmp_pure].
  destruct (Z.eqb_spec (c + common) (zlen t)) as [E|E].
  - rewrite E. unfold zlen at 1. rewrite Nat2Z.id, skipn_all. reflexivity.
  - rewrite byte_at_nn by lia. destruct (nth_error t (Z.to_nat (c + common))) as [y|] eqn:N.
    2:{ apply nth_error_None in N. unfold zlen in *. lia. }
    destruct (skipn_head _ _ _ N) as (tl & Et). rewrite Et.
    destruct (y - x =? 0); [|reflexivity]. rewrite IH by lia. do 2 f_equal.
    replace (Z.to_nat (c + (common + 1))) with (S (Z.to_nat (c + common))) by lia.
    clear - Et. revert Et. generalize (Z.to_nat (c + common)). intros n. revert t.
    induction n as [|n IHn]; intros [|z t] H; cbn in *; try discriminate; [congruence|auto].
Qed.

Lemma skipn_skipn_add {A} n m (l : list A) : skipn n (skipn m l) = skipn (m + n) l.
Proof. revert l. induction m as [|m IH]; intros [|x l]; cbn; auto. now rewrite skipn_nil. Qed.

Lemma find_among_run tab t c br kt : table_check fkey tab = true -> utf8 t -> bnd t c ->
  find_among tab (mkEnv t c (zlen t) 0 br kt) = Done 0 (mkEnv t c (zlen t) 0 br kt) \/
  exists w, In w tab /\ find_among tab (mkEnv t c (zlen t) 0 br kt)
      = Done (a_res w) (mkEnv t (c + zlen (a_str w)) (zlen t) 0 br kt) /\
    bnd t (c + zlen (a_str w)) /\ firstn (length (a_str w)) (skipn (Z.to_nat c) t) = a_str w.
Proof.
  intros Tk U B. destruct (table_check_ok _ _ Tk) as (So & Li & As & NE). unfold find_among. cbn [cur cursor limit lb bra ket].
  set (cmp := fun w common => cmp_fwd t c (zlen t) (skipn (Z.to_nat common) w) common).
  destruct (among_ok tab fkey (skipn (Z.to_nat c) t) cmp) as (i & ci & E & Ch); auto.
  - intros w common H1 H2. unfold cmp. assert (Hc := proj1 B). rewrite zlen_skipn in H2 by lia.
    rewrite cmp_fwd_pure by lia. do 2 f_equal. rewrite skipn_skipn_add. f_equal. lia.
  - rewrite E. destruct Ch as [->|(v & -> & Iv & Lv & Ev)]; [left; reflexivity|]. right.
    exists v. split; auto. split; [reflexivity|]. unfold fkey in *. split; [|congruence].
    (* the byte before c + |v| is ASCII *)
    specialize (As v Iv). destruct (a_str v) as [|x0 s0] eqn:Es using rev_ind.
    + unfold zlen. cbn. rewrite Z.add_0_r. auto.
    + clear IHs0. rewrite <- Es in *. apply Forall_forall with (x := x0) in As.
      2:{ rewrite Es. apply in_elt. }
      assert (Hc := proj1 B). rewrite skipn_length in Lv. unfold zlen in Hc.
      assert (N : nth_error t (Z.to_nat (c + zlen (a_str v) - 1)) = Some x0).
      { assert (Hl : (length (a_str v) = S (length s0))%nat) by (rewrite Es, app_length; cbn; lia).
        assert (N' : nth_error (a_str v) (length s0) = Some x0) by (rewrite Es, nth_error_app2, Nat.sub_diag by lia; reflexivity).
        rewrite Ev in N'. rewrite <- (firstn_skipn (length (a_str v)) (skipn (Z.to_nat c) t)) in Ev.
        rewrite <- (firstn_skipn (Z.to_nat c) t) at 1. rewrite nth_error_app2 by (rewrite firstn_length; unfold zlen; lia).
        rewrite firstn_length. rewrite <- (firstn_skipn (length (a_str v)) (skipn (Z.to_nat c) t)).
        rewrite nth_error_app1 by (rewrite firstn_length, skipn_length; unfold zlen; lia).
        rewrite <- N'. f_equal. unfold zlen. lia. }
      assert (Hl : (length (a_str v) = S (length s0))%nat) by (rewrite Es, app_length; cbn; lia).
      assert (Hz : 0 <= c + zlen (a_str v) - 1) by (unfold zlen; lia).
      destruct (ascii_bnd t _ _ U Hz N As) as [_ K].
      now replace (c + zlen (a_str v) - 1 + 1) with (c + zlen (a_str v)) in K by lia.
Qed.

Lemma rev_firstn_S {A} (l : list A) n y : nth_error l n = Some y -> rev (firstn (S n) l) = y :: rev (firstn n l).
Proof.
  revert n. induction l as [|x l IH]; intros [|n] H; cbn in *; try discriminate; [congruence|].
  rewrite (IH n H). reflexivity.
Qed.
Lemma skipn_rev_firstn {A} (l : list A) n m : (m <= n <= length l)%nat -> skipn m (rev (firstn n l)) = rev (firstn (n - m) l).
Proof.
  intro H. rewrite skipn_rev. f_equal. rewrite firstn_firstn. f_equal. rewrite firstn_length. lia.
Qed.

Lemma cmp_bwd_pure t c : 0 <= c <= zlen t -> forall w common, 0 <= common <= c ->
  cmp_bwd t c 0 w common = Some (cmp_pure w (rev (firstn (Z.to_nat (c - common)) t)) common).
Proof.
  intros Hc w. induction w as [|x w IH]; intros common H0; [reflexivity|]. cbn [cmp_bwd cmp_pure].
  destruct (Z.eqb_spec (c - common) 0) as [E|E].
  - rewrite E. reflexivity.
  - rewrite byte_at_nn by lia. destruct (nth_error t (Z.to_nat (c - common - 1))) as [y|] eqn:N.
    2:{ apply nth_error_None in N. unfold zlen in *. lia. }
    replace (Z.to_nat (c - common)) with (S (Z.to_nat (c - common - 1))) by lia.
    rewrite (rev_firstn_S _ _ _ N).
    destruct (y - x =? 0); [|reflexivity]. rewrite IH by lia. do 2 f_equal.
    replace (c - (common + 1)) with (c - common - 1) by lia. reflexivity.
Qed.

Lemma find_among_b_run tab t c br kt : table_check bkey tab = true -> utf8 t -> bnd t c ->
  find_among_b tab (mkEnv t c (zlen t) 0 br kt) = Done 0 (mkEnv t c (zlen t) 0 br kt) \/
  exists w, In w tab /\ find_among_b tab (mkEnv t c (zlen t) 0 br kt)
      = Done (a_res w) (mkEnv t (c - zlen (a_str w)) (zlen t) 0 br kt) /\
    bnd t (c - zlen (a_str w)) /\
    firstn (length (a_str w)) (skipn (Z.to_nat (c - zlen (a_str w))) t) = a_str w.
Proof.
  intros Tk U B. destruct (table_check_ok _ _ Tk) as (So & Li & As & NE). unfold find_among_b. cbn [cur cursor limit lb bra ket].
  set (cmp := fun w common => cmp_bwd t c 0 (skipn (Z.to_nat common) (rev w)) common).
  assert (Hc := proj1 B).
  assert (LT : length (rev (firstn (Z.to_nat c) t)) = Z.to_nat c) by (rewrite rev_length, firstn_length; unfold zlen in Hc; lia).
  destruct (among_ok tab bkey (rev (firstn (Z.to_nat c) t)) cmp) as (i & ci & E & Ch); auto.
  - intro w. apply rev_length.
  - intros w common H1 H2. unfold cmp. unfold zlen in H2 at 1. rewrite LT in H2.
    rewrite cmp_bwd_pure by lia. do 2 f_equal. rewrite skipn_rev_firstn by (unfold zlen in Hc; lia). do 2 f_equal. lia.
  - rewrite E. destruct Ch as [->|(v & -> & Iv & Lv & Ev)]; [left; reflexivity|]. right.
    exists v. split; auto. split; [reflexivity|]. unfold bkey in *. rewrite LT, rev_length in Lv. rewrite rev_length in Ev.
    assert (F : firstn (length (a_str v)) (skipn (Z.to_nat (c - zlen (a_str v))) t) = a_str v).
    { apply (f_equal (@rev Z)) in Ev. rewrite rev_involutive in Ev. rewrite Ev at 3.
      rewrite firstn_rev, rev_involutive. rewrite firstn_length. rewrite Nat.min_l by (unfold zlen in Hc; lia).
      rewrite skipn_firstn_comm. f_equal; [lia|f_equal; unfold zlen; lia]. }
    split; auto.
    destruct (a_str v) as [|x0 s0] eqn:Es.
    + unfold zlen. cbn. rewrite Z.sub_0_r. auto.
    + specialize (As v Iv). rewrite Es in As. inversion As as [|? ? Hx _]; subst.
      assert (N : nth_error t (Z.to_nat (c - zlen (x0 :: s0))) = Some x0).
      { destruct (skipn (Z.to_nat (c - zlen (x0 :: s0))) t) as [|y tl] eqn:Sk; [discriminate|].
        cbn in F. injection F as -> _. rewrite <- (firstn_skipn (Z.to_nat (c - zlen (x0 :: s0))) t), Sk.
        assert (Lf : length (firstn (Z.to_nat (c - zlen (x0 :: s0))) t) = Z.to_nat (c - zlen (x0 :: s0))).
        { rewrite firstn_length. unfold zlen in *. lia. }
        rewrite nth_error_app2 by lia. rewrite Lf, Nat.sub_diag. reflexivity. }
      apply (ascii_bnd t _ x0 U); auto. unfold zlen in *. lia.
Qed.
