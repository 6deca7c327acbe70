From Coq Require Import Bool List ZArith Reals Lia Lra Arith Sorted.
From Verif Require Import PairSums MwProofs RocModel RocSpec RocProofs PsiModel PsiSpec.
Import ListNotations.
Open Scope Z_scope.

(** Contributions. *)
Lemma ln_div b a : (0 < b -> 0 < a -> ln (b / a) = ln b - ln a)%R.
Proof. intros Hb Ha. unfold Rdiv. rewrite ln_mult, ln_Rinv; auto using Rinv_0_lt_compat; ring. Qed.
Lemma share_pos c n : (0 < share c n)%R.
Proof. unfold share. pose proof (Rmax_r (IZR c / IZR n) (1 / 10000)). lra. Qed.
Lemma contribution_nonneg b a : (0 < b -> 0 < a -> 0 <= contribution b a)%R.
Proof.
  intros Hb Ha. unfold contribution. rewrite ln_div by assumption.
  destruct (Rtotal_order a b) as [L|[->|L]].
  - assert (ln a < ln b)%R by now apply ln_increasing. apply Rmult_le_pos; lra.
  - right. ring.
  - assert (ln b < ln a)%R by now apply ln_increasing.
    replace ((b - a) * (ln b - ln a))%R with ((a - b) * (ln a - ln b))%R by ring. apply Rmult_le_pos; lra.
Qed.
Lemma contribution_zero b a : (0 < b -> 0 < a -> contribution b a = 0 -> b = a)%R.
Proof.
  intros Hb Ha. unfold contribution. rewrite ln_div by assumption. intros E. apply Rmult_integral in E. destruct E as [E|E]; [lra|].
  apply ln_inv; [assumption..|lra].
Qed.
Lemma contribution_refl a : (0 < a -> contribution a a = 0)%R.
Proof. intros Ha. unfold contribution. ring. Qed.

Section P.
Context {K : Type} (leb : K -> K -> bool) (TO : total_order leb).
Notation lt a b := (leb a b = true /\ leb b a = false).

Lemma asc_sorted bp : ascending leb bp -> sorted_lt leb bp.
Proof.
  induction bp as [|b bp IH]; intros A; constructor.
  - apply IH. intros i j x y L Hi Hj. apply (A (S i) (S j)); auto; lia.
  - apply Forall_forall. intros y Hy. apply In_nth_error in Hy. destruct Hy as (j & Hj). apply (A 0%nat (S j)); auto; lia.
Qed.
Lemma sorted_asc bp : sorted_lt leb bp -> ascending leb bp.
Proof.
  induction 1 as [|b bp S IH F]; intros i j x y L Hi Hj; [destruct i; discriminate|].
  destruct i as [|i], j as [|j]; cbn in Hi, Hj; try lia.
  - injection Hi as <-. rewrite Forall_forall in F. apply F. eapply nth_error_In; eassumption.
  - apply (IH i j); auto; lia.
Qed.
Lemma klt_true a b : klt leb a b = true <-> leb b a = false.
Proof.
  unfold klt. destruct (leb b a) eqn:E; cbn; [rewrite andb_false_r; split; discriminate|]. rewrite andb_true_r.
  split; intros _; [reflexivity|now apply (leb_false leb TO)].
Qed.

(** The bucket of [x] is the only bin containing it. *)
Lemma bucket_bin bp x j : sorted_lt leb bp -> in_bin leb bp j x = (bucket leb bp x =? j)%nat && (j <? length bp)%nat.
Proof.
  intros S0. revert j. induction S0 as [|b bp S0 IH F]; intros j.
  - unfold in_bin. destruct j; cbn; now rewrite ?andb_false_r.
  - unfold bucket in *. cbn [filter]. destruct (klt leb b x) eqn:E.
    + apply klt_true in E. cbn [length]. destruct j as [|j]; [unfold in_bin; cbn; rewrite E; reflexivity|].
      specialize (IH j). unfold in_bin in *. cbn [nth_error firstn forallb]. rewrite E. cbn [negb andb Nat.eqb].
      change (S j <? S (length bp))%nat with (j <? length bp)%nat. exact IH.
    + apply not_true_iff_false in E. rewrite klt_true in E. apply not_false_is_true in E.
      assert (Z0 : filter (fun b0 => klt leb b0 x) bp = []).
      { clear IH S0. induction F as [|c bp C F IHF]; [reflexivity|]. cbn [filter].
        assert (X : klt leb c x = false).
        { apply not_true_iff_false. intros X. apply klt_true in X. rewrite (to_trans _ TO x b c E (proj1 C)) in X. discriminate. }
        rewrite X. exact IHF. }
      rewrite Z0. cbn [length]. destruct j as [|j].
      * unfold in_bin. cbn. now rewrite E.
      * unfold in_bin. cbn [nth_error firstn forallb]. rewrite E. cbn [negb andb]. destruct (nth_error bp j); now rewrite ?andb_false_r.
Qed.

Lemma bump_length i c : length (bump i c) = length c.
Proof. revert i. induction c as [|a c IH]; intros [|i]; cbn; auto. Qed.
Lemma bump_nth i c j : nth_error (bump i c) j = option_map (fun a => if (i =? j)%nat then u32 (a + 1) else a) (nth_error c j).
Proof.
  revert i j. induction c as [|a c IH]; intros [|i] [|j]; cbn; auto. now destruct (nth_error c j).
Qed.

(** The counting loop. *)
Lemma counts_fold bp : sorted_lt leb bp -> forall s c, length c = length bp ->
  (forall x, In x s -> (bucket leb bp x < length bp)%nat) -> (forall a, In a c -> 0 <= a /\ a + zlen s < 2 ^ 32) ->
  exists c', fold_left (fun acc x => match acc with
    | None => None
    | Some c => if (bucket leb bp x <? length c)%nat then Some (bump (bucket leb bp x) c) else None
    end) s (Some c) = Some c' /\ length c' = length bp /\
    forall j a, nth_error c j = Some a -> nth_error c' j = Some (a + bin_count leb bp s j).
Proof.
  intros S0. induction s as [|x s IH]; intros c L B W.
  - exists c. split; [reflexivity|]. split; [exact L|]. intros j a H. rewrite H. unfold bin_count, zlen. cbn. f_equal. ring.
  - cbn [fold_left]. assert (Bx : (bucket leb bp x < length c)%nat) by (rewrite L; apply B; now left).
    rewrite (proj2 (Nat.ltb_lt _ _) Bx).
    destruct (IH (bump (bucket leb bp x) c)) as (c' & R & L' & N).
    + now rewrite bump_length.
    + intros y Hy. apply B. now right.
    + intros a Ha. apply In_nth_error in Ha. destruct Ha as (j & Hj). rewrite bump_nth in Hj.
      destruct (nth_error c j) as [a0|] eqn:Ej; [|discriminate]. cbn in Hj. injection Hj as <-.
      destruct (W a0) as [W1 W2]; [eapply nth_error_In; eassumption|].
      assert (zlen (x :: s) = zlen s + 1) by (unfold zlen; cbn [length]; lia).
      pose proof (zlen_nonneg s). destruct (bucket leb bp x =? j)%nat; [rewrite u32_small by lia|]; lia.
    + exists c'. split; [exact R|]. split; [exact L'|]. intros j a Hj.
      assert (zlen (x :: s) = zlen s + 1) by (unfold zlen; cbn [length]; lia).
      pose proof (zlen_nonneg s). destruct (W a) as [W1 W2]; [eapply nth_error_In; eassumption|].
      rewrite (N j (if (bucket leb bp x =? j)%nat then u32 (a + 1) else a)) by (now rewrite bump_nth, Hj).
      assert (Lj : (j <? length bp)%nat = true) by (apply Nat.ltb_lt; rewrite <- L; apply nth_error_Some; congruence).
      unfold bin_count. cbn [filter]. rewrite (bucket_bin bp x j S0), Lj, andb_true_r.
      destruct (bucket leb bp x =? j)%nat; [rewrite u32_small by lia|reflexivity].
      f_equal. unfold zlen. cbn [length]. lia.
Qed.
Lemma counts_panic bp : forall s c, length c = length bp -> (exists x, In x s /\ (length bp <= bucket leb bp x)%nat) ->
  fold_left (fun acc x => match acc with
    | None => None
    | Some c => if (bucket leb bp x <? length c)%nat then Some (bump (bucket leb bp x) c) else None
    end) s (Some c) = None.
Proof.
  induction s as [|y s IH]; intros c L (x & Hx & B); [destruct Hx|]. cbn [fold_left].
  destruct (bucket leb bp y <? length c)%nat eqn:E.
  - apply IH; [now rewrite bump_length|]. destruct Hx as [<-|Hx]; [apply Nat.ltb_lt in E; lia|eauto].
  - clear. induction s as [|z s IH]; [reflexivity|exact IH].
Qed.
Lemma bucket_bound bp x : (bucket leb bp x <= length bp)%nat.
Proof. unfold bucket. induction bp as [|b bp IH]; cbn; [lia|]. destruct (klt leb b x); cbn; lia. Qed.
Lemma bucket_in bp x : (exists b, In b bp /\ leb x b = true) -> (bucket leb bp x < length bp)%nat.
Proof.
  intros (b & Hb & Lb). unfold bucket. induction bp as [|c bp IH]; [destruct Hb|]. cbn [filter].
  assert (Bd : (length (filter (fun b0 => klt leb b0 x) bp) <= length bp)%nat) by apply bucket_bound.
  destruct (klt leb c x) eqn:E; cbn [length]; [|lia]. apply klt_true in E.
  destruct Hb as [->|Hb]; [congruence|]. specialize (IH Hb). lia.
Qed.
Lemma bucket_out bp x : (forall b, In b bp -> leb x b = false) -> bucket leb bp x = length bp.
Proof.
  intros H. unfold bucket. induction bp as [|b bp IH]; [reflexivity|]. cbn [filter].
  assert (E : klt leb b x = true) by (apply klt_true, H; now left). rewrite E. cbn. f_equal. apply IH. intros c Hc. apply H. now right.
Qed.

Theorem psi_counts_ok bp s : ascending leb bp -> zlen s < 2 ^ 32 -> (forall x, In x s -> exists b, In b bp /\ leb x b = true) ->
  psi_counts leb s bp = Some (map (bin_count leb bp s) (seq 0 (length bp))).
Proof.
  intros A L H. unfold psi_counts.
  destruct (counts_fold bp (asc_sorted bp A) s (repeat 0 (length bp))) as (c' & R & L' & N).
  - apply repeat_length.
  - intros x Hx. now apply bucket_in, H.
  - intros a Ha. apply repeat_spec in Ha. subst a. lia.
  - rewrite R. f_equal.
    assert (NE : forall (l1 l2 : list Z), length l1 = length l2 -> (forall j, (j < length l1)%nat -> nth_error l1 j = nth_error l2 j) -> l1 = l2).
    { induction l1 as [|a l1 IH]; intros [|b l2] E G; try discriminate; [reflexivity|]. f_equal.
      - specialize (G 0%nat ltac:(cbn; lia)). cbn in G. congruence.
      - apply IH; [cbn in E; lia|]. intros j Hj. apply (G (S j)). cbn. lia. }
    apply NE; [now rewrite map_length, seq_length|]. intros j Hj. rewrite L' in Hj.
    rewrite (N j 0) by (rewrite nth_error_repeat by exact Hj; reflexivity).
    rewrite nth_error_map. assert (E : nth_error (seq 0 (length bp)) j = Some j) by (rewrite nth_error_nth' with (d := 0%nat) by (now rewrite seq_length); now rewrite seq_nth).
    rewrite E. reflexivity.
Qed.
Theorem psi_counts_panics bp s : (exists x, In x s /\ forall b, In b bp -> leb x b = false) -> psi_counts leb s bp = None.
Proof.
  intros (x & Hx & H). apply counts_panic; [apply repeat_length|]. exists x. split; [exact Hx|]. rewrite (bucket_out bp x H). lia.
Qed.

(** Bins partition the data. *)
Lemma bins_total bp s : ascending leb bp -> (forall x, In x s -> exists b, In b bp /\ leb x b = true) ->
  zsum (bin_count leb bp s) (seq 0 (length bp)) = zlen s.
Proof.
  intros A H. induction s as [|x s IH].
  - unfold bin_count. cbn. clear. induction (seq 0 (length bp)); cbn; auto.
  - assert (E : zsum (bin_count leb bp (x :: s)) (seq 0 (length bp)) =
               zsum (fun j => b2z (bucket leb bp x =? j)%nat) (seq 0 (length bp)) + zsum (bin_count leb bp s) (seq 0 (length bp))).
    { rewrite <- zsum_add. apply zsum_ext. intros j Hj. apply in_seq in Hj. unfold bin_count. cbn [filter].
      rewrite (bucket_bin bp x j (asc_sorted bp A)). rewrite (proj2 (Nat.ltb_lt j (length bp))) by lia. rewrite andb_true_r.
      unfold zlen. destruct (bucket leb bp x =? j)%nat; cbn [length b2z]; lia. }
    rewrite E, IH by (intros y Hy; apply H; now right).
    assert (O : zsum (fun j => b2z (bucket leb bp x =? j)%nat) (seq 0 (length bp)) = 1).
    { assert (B : (bucket leb bp x < length bp)%nat) by (apply bucket_in, H; now left). revert B. generalize (bucket leb bp x) as k. generalize (length bp) as n. clear.
      assert (G : forall n a k, (a <= k < a + n)%nat -> zsum (fun j => b2z (k =? j)%nat) (seq a n) = 1).
      { induction n as [|n IH]; intros a k B; [lia|]. cbn [seq]. unfold zsum in *. cbn [fold_right].
        destruct (Nat.eqb_spec k a) as [->|N0].
        - cbn [b2z]. assert (Z0 : fold_right (fun x acc => b2z (a =? x)%nat + acc) 0 (seq (S a) n) = 0).
          { clear. assert (G : forall m b, (a < b)%nat -> fold_right (fun x acc => b2z (a =? x)%nat + acc) 0 (seq b m) = 0).
            { induction m as [|m IH]; intros b L; [reflexivity|]. cbn [seq fold_right]. rewrite (proj2 (Nat.eqb_neq a b)) by lia. rewrite IH by lia. reflexivity. }
            apply G. lia. }
          rewrite Z0. reflexivity.
        - cbn [b2z]. rewrite IH by lia. reflexivity. }
      intros n k B. apply G. lia. }
    rewrite O. unfold zlen. cbn [length]. lia.
Qed.
End P.

(** The report. *)
Lemma combine_nth_error {A B} (l : list A) (m : list B) j a b : nth_error l j = Some a -> nth_error m j = Some b -> nth_error (combine l m) j = Some (a, b).
Proof. revert m j. induction l as [|x l IH]; intros [|y m] [|j]; cbn; try discriminate; [congruence|apply IH]. Qed.
Lemma pct_share t c : t <> 0 -> pct t c = Some (share c t).
Proof. intros H. unfold pct, share. now rewrite (proj2 (Z.eqb_neq t 0) H). Qed.
Lemma frame_nth {K} (bp : list K) c1 c2 j b x y : nth_error bp j = Some b -> nth_error c1 j = Some x -> nth_error c2 j = Some y ->
  zsum (fun z => z) c1 <> 0 -> zsum (fun z => z) c2 <> 0 ->
  nth_error (psi_frame bp c1 c2) j =
  Some (mkpsi b (Some (share x (zsum (fun z => z) c1))) (Some (share y (zsum (fun z => z) c2)))
          (Some (contribution (share x (zsum (fun z => z) c1)) (share y (zsum (fun z => z) c2))))).
Proof.
  intros Hb Hx Hy N1 N2. unfold psi_frame. rewrite nth_error_map.
  rewrite (combine_nth_error bp (combine c1 c2) j b (x, y)); [|exact Hb|now apply combine_nth_error].
  cbn [option_map]. now rewrite !pct_share.
Qed.
Lemma zsum_map_id {A} (f : A -> Z) l : zsum (fun z => z) (map f l) = zsum f l.
Proof. induction l as [|a l IH]; cbn; [reflexivity|]. fold (zsum f l). rewrite <- IH. reflexivity. Qed.

Lemma rsum_nonneg {A} (p : A -> option R) (l : list A) : (forall r, In r l -> exists v, p r = Some v /\ (0 <= v)%R) ->
  exists t, rsum (map p l) = Some t /\ (0 <= t)%R /\ (t = 0%R <-> forall r, In r l -> p r = Some 0%R).
Proof.
  induction l as [|a l IH]; intros H.
  - exists 0%R. split; [reflexivity|]. split; [lra|]. split; [intros _ r []|reflexivity].
  - destruct (H a (or_introl eq_refl)) as (v & E & V). destruct IH as (t & Et & T & Z0); [intros r Hr; apply H; now right|].
    exists (v + t)%R. cbn [map rsum]. rewrite E, Et. split; [reflexivity|]. split; [lra|]. split.
    + intros S0. assert (v = 0%R) by lra. assert (t = 0%R) by lra. subst v. intros r [<-|Hr]; [exact E|]. now apply Z0.
    + intros Q. assert (v = 0%R) by (rewrite (Q a (or_introl eq_refl)) in E; congruence).
      assert (t = 0%R) by (apply Z0; intros r Hr; apply Q; now right). lra.
Qed.

Section Report.
Context {K : Type} (leb : K -> K -> bool) (TO : total_order leb).
Lemma frame_report bp base new : ascending leb bp -> base <> [] -> new <> [] ->
  (forall x, In x base -> exists b, In b bp /\ leb x b = true) -> (forall x, In x new -> exists b, In b bp /\ leb x b = true) ->
  report_rows leb bp base new
    (psi_frame bp (map (bin_count leb bp base) (seq 0 (length bp))) (map (bin_count leb bp new) (seq 0 (length bp)))).
Proof.
  intros A Nb Nn Hb Hn.
  assert (NZ : forall s : list K, s <> [] -> zlen s <> 0) by (intros [|? ?] H; [congruence|unfold zlen; cbn [length]; lia]).
  assert (T1 := bins_total leb TO bp base A Hb). assert (T2 := bins_total leb TO bp new A Hn).
  rewrite <- zsum_map_id in T1, T2. split.
  - unfold psi_frame. rewrite map_length, !combine_length, !map_length, seq_length. lia.
  - intros j row Hj. cbv zeta.
    assert (Lj : (j < length bp)%nat).
    { assert (X : nth_error (psi_frame bp (map (bin_count leb bp base) (seq 0 (length bp))) (map (bin_count leb bp new) (seq 0 (length bp)))) j <> None) by congruence.
      apply nth_error_Some in X. unfold psi_frame in X. rewrite map_length, !combine_length, !map_length, seq_length in X. lia. }
    destruct (nth_error bp j) as [b|] eqn:Eb; [|apply nth_error_None in Eb; lia].
    assert (Es : forall s : list K, nth_error (map (bin_count leb bp s) (seq 0 (length bp))) j = Some (bin_count leb bp s j)).
    { intros s. rewrite nth_error_map. rewrite nth_error_nth' with (d := 0%nat) by (now rewrite seq_length). now rewrite seq_nth. }
    rewrite (frame_nth bp _ _ j b _ _ Eb (Es base) (Es new)) in Hj; [|rewrite T1; auto|rewrite T2; auto].
    injection Hj as <-. cbn [p_brk p_base p_act p_psi]. rewrite T1, T2. repeat split; reflexivity.
Qed.

Lemma report_total bp base new rep : report_rows leb bp base new rep ->
  exists t, psi_total rep = Some t /\ (0 <= t)%R /\
    (t = 0%R <-> forall j, (j < length bp)%nat -> share (bin_count leb bp base j) (zlen base) = share (bin_count leb bp new j) (zlen new)).
Proof.
  intros [L H]. destruct (rsum_nonneg p_psi rep) as (t & E & T & Z0).
  - intros r Hr. apply In_nth_error in Hr. destruct Hr as (j & Hj). destruct (H j r Hj) as (_ & _ & _ & P).
    eexists. split; [exact P|]. apply contribution_nonneg; apply share_pos.
  - exists t. split; [exact E|]. split; [exact T|]. rewrite Z0. split.
    + intros Q j Lj. rewrite <- L in Lj. destruct (nth_error rep j) as [r|] eqn:Ej; [|apply nth_error_None in Ej; lia].
      destruct (H j r Ej) as (_ & _ & _ & P). rewrite (Q r (nth_error_In _ _ Ej)) in P. injection P as P.
      apply contribution_zero; try apply share_pos. now symmetry.
    + intros Q r Hr. apply In_nth_error in Hr. destruct Hr as (j & Hj). destruct (H j r Hj) as (_ & _ & _ & P).
      rewrite P, Q by (rewrite <- L; apply nth_error_Some; congruence). now rewrite contribution_refl by apply share_pos.
Qed.

Theorem psi_w_breakpoints_ok inf bps base new : (forall x, leb x inf = true) -> ascending leb (bps ++ [inf]) ->
  base <> [] -> new <> [] -> zlen base < 2 ^ 32 -> zlen new < 2 ^ 32 ->
  exists rep, psi_w_breakpoints leb inf base new bps = Some rep /\ report_rows leb (bps ++ [inf]) base new rep.
Proof.
  intros Top A Nb Nn Lb Ln. unfold psi_w_breakpoints.
  assert (H : forall (s : list K) x, In x s -> exists b, In b (bps ++ [inf]) /\ leb x b = true).
  { intros s x _. exists inf. split; [apply in_or_app; right; now left|apply Top]. }
  rewrite !(psi_counts_ok leb TO) by (auto; eapply H; eassumption).
  eexists. split; [reflexivity|]. apply frame_report; auto; eapply H; eassumption.
Qed.

(** Learned breakpoints. *)
Section Learned.
Variable inf : K.
Variable qs ref : list K.
Hypothesis Qsorted : StronglySorted (fun a b => leb a b = true) qs.
Hypothesis Top : forall x, leb x inf = true.
Notation brk := (psi_brk leb inf qs ref).
Lemma qlabel_ge x : leb x (qlabel leb inf qs x) = true.
Proof.
  unfold qlabel. destruct (filter (fun b => leb x b) qs) as [|b l] eqn:E; [apply Top|].
  assert (In b (filter (fun b => leb x b) qs)) by (rewrite E; now left). now apply filter_In in H.
Qed.
Lemma qlabel_mem x : qlabel leb inf qs x = inf \/ In (qlabel leb inf qs x) qs.
Proof.
  unfold qlabel. destruct (filter (fun b => leb x b) qs) as [|b l] eqn:E; [now left|]. right.
  assert (In b (filter (fun b => leb x b) qs)) by (rewrite E; now left). now apply filter_In in H.
Qed.
Lemma qlabel_least x c : (In c qs \/ c = inf) -> leb x c = true -> leb (qlabel leb inf qs x) c = true.
Proof.
  unfold qlabel. intros [Hc| ->] L; [|apply Top].
  assert (I : In c (filter (fun b => leb x b) qs)) by (apply filter_In; auto).
  assert (SF : StronglySorted (fun a b => leb a b = true) (filter (fun b => leb x b) qs)).
  { clear - Qsorted. revert Qsorted. generalize qs. intros l0 H0. induction H0 as [|a l S IH F]; cbn; [constructor|]. destruct (leb x a); [|exact IH]. constructor; [exact IH|].
    apply Forall_forall. intros y Hy. apply filter_In in Hy. rewrite Forall_forall in F. now apply F. }
  destruct (filter (fun b => leb x b) qs) as [|b l]; [destruct I|]. inversion SF as [|? ? S F]; subst.
  destruct I as [->|I]; [apply (leb_refl leb TO)|]. rewrite Forall_forall in F. now apply F.
Qed.
Lemma brk_in c : In c brk <-> exists x, In x ref /\ c = qlabel leb inf qs x.
Proof.
  unfold psi_brk. rewrite (keys_in leb TO). split.
  - intros (z & H). apply in_map_iff in H. destruct H as (x & E & Hx). injection E as <- _. eauto.
  - intros (x & Hx & ->). exists 0. apply in_map_iff. eauto.
Qed.
Lemma brk_ascending : ascending leb brk.
Proof. apply sorted_asc. apply keys_sorted. exact TO. Qed.
Lemma ref_bin j b x : nth_error brk j = Some b -> In x ref -> keq leb (qlabel leb inf qs x) b = in_bin leb brk j x.
Proof.
  intros Hj Hx. apply eq_true_iff_eq. rewrite (keq_eq leb TO). unfold in_bin. rewrite Hj, andb_true_iff, forallb_forall. split.
  - intros <-. split; [apply qlabel_ge|]. intros a Ha. apply negb_true_iff. destruct (leb x a) eqn:E; [|reflexivity]. exfalso.
    apply In_nth_error in Ha. destruct Ha as (i & Hi).
    assert (Li : (i < j)%nat) by (assert (X : nth_error (firstn j brk) i <> None) by congruence; apply nth_error_Some in X; rewrite firstn_length in X; lia).
    assert (Hi' : nth_error brk i = Some a) by (rewrite <- Hi; symmetry; clear - Li; revert i Li; generalize brk; induction j; intros [|? l] [|i] L; cbn; auto; try lia; apply IHj; lia).
    destruct (brk_ascending i j a _ Li Hi' Hj) as [_ N]. rewrite qlabel_least in N; [discriminate| |exact E].
    apply nth_error_In in Hi'. apply brk_in in Hi'. destruct Hi' as (y & _ & ->). destruct (qlabel_mem y); auto.
  - intros [L P]. assert (Hq : In (qlabel leb inf qs x) brk) by (apply brk_in; eauto).
    assert (Lq : leb (qlabel leb inf qs x) b = true).
    { apply qlabel_least; [|exact L]. apply nth_error_In in Hj. apply brk_in in Hj. destruct Hj as (y & _ & ->). destruct (qlabel_mem y); auto. }
    apply In_nth_error in Hq. destruct Hq as (i & Hi). destruct (Nat.lt_trichotomy i j) as [Lt|[->|Gt]].
    + exfalso. assert (Ha : In (qlabel leb inf qs x) (firstn j brk)).
      { assert (Hi' : nth_error (firstn j brk) i = nth_error brk i) by (clear - Lt; revert i Lt; generalize brk; induction j; intros [|? l] [|i] L; cbn; auto; try lia; apply IHj; lia).
        rewrite Hi in Hi'. eapply nth_error_In; eassumption. }
      apply P in Ha. rewrite qlabel_ge in Ha. discriminate.
    + congruence.
    + destruct (brk_ascending j i _ _ Gt Hj Hi) as [_ N]. congruence.
Qed.
Lemma map_nth_seq {A B} (f : A -> B) (g : nat -> B) l : (forall j a, nth_error l j = Some a -> f a = g j) -> map f l = map g (seq 0 (length l)).
Proof.
  assert (G : forall l k, (forall j a, nth_error l j = Some a -> f a = g (k + j)%nat) -> map f l = map g (seq k (length l))).
  { clear. induction l as [|a l IH]; intros k H; [reflexivity|]. cbn. f_equal; [rewrite (H 0%nat a eq_refl); f_equal; lia|].
    apply IH. intros j x Hj. rewrite (H (S j) x Hj). f_equal. lia. }
  intros H. apply G. exact H.
Qed.
Lemma ref_counts_ok : psi_ref_counts leb inf qs ref = map (bin_count leb brk ref) (seq 0 (length brk)).
Proof.
  unfold psi_ref_counts. apply map_nth_seq. intros j b Hj. unfold bin_count. f_equal.
  apply filter_ext_in. intros x Hx. now apply ref_bin.
Qed.
Theorem psi_ok new : new <> [] -> ref <> [] -> zlen new < 2 ^ 32 -> (forall x, In x new -> exists b, In b brk /\ leb x b = true) ->
  exists rep, psi leb inf qs new ref = Some rep /\ report_rows leb brk ref new rep.
Proof.
  intros Nn Nr L H. unfold psi. rewrite (psi_counts_ok leb TO brk new brk_ascending L H), ref_counts_ok.
  eexists. split; [reflexivity|]. apply frame_report; auto; [apply brk_ascending|].
  intros x Hx. exists (qlabel leb inf qs x). split; [apply brk_in; eauto|apply qlabel_ge].
Qed.
(** Data above every learned breakpoint. *)
Theorem psi_panics new : (exists x, In x new /\ forall b, In b brk -> leb x b = false) -> psi leb inf qs new ref = None.
Proof. intros H. unfold psi. now rewrite (psi_counts_panics leb TO). Qed.
End Learned.
End Report.
