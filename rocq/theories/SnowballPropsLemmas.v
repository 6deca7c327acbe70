(** The stemmer as a whole. *)
From Coq Require Import String Ascii Bool List ZArith Lia ZifyBool.
From Verif Require Import StrModel SnowballSpec SnowballModel SnowballProofs SnowballAmong SnowballSteps.
Import ListNotations.
Open Scope Z_scope.

Lemma create_small s : zlen s < 2 ^ 31 -> create s = mk s 0 0 (zlen s).
Proof.
  intro H. unfold create, i32_of. pose proof (zlen_nn s).
  rewrite Z.mod_small by lia. now replace (zlen s + 2 ^ 31 - 2 ^ 31) with (zlen s) by lia.
Qed.

Lemma snowball_total pf isw s no_sw : utf8 s -> zlen s < 2 ^ 31 ->
  exists r, snowball pf isw s no_sw = Some r /\ utf8 r /\ zlen r <= zlen s.
Proof.
  intros U L. unfold snowball. destruct (pf s || no_sw && isw s).
  - exists []. split; auto. split; [apply utf8_nil|]. pose proof (zlen_nn s). change (zlen []) with 0. lia.
  - rewrite (create_small s L). pose proof (stem_ok s U) as W. unfold wp in W.
    destruct (stem (mk s 0 0 (zlen s))) as [b e| |]; try contradiction.
    destruct W as (t & c & br & kt & -> & U' & L'). exists t. auto.
Qed.

Lemma snowball_removed pf isw s no_sw : pf s = true \/ (no_sw = true /\ isw s = true) -> snowball pf isw s no_sw = Some [].
Proof. intro H. unfold snowball. destruct H as [->|[-> ->]]; [reflexivity|]. now rewrite orb_true_r. Qed.

(** Words of fewer than three characters. *)
Lemma hop_up_char a ch b : utf8_char ch -> utf8 b ->
  let s := a ++ ch ++ b in
  forall fuel i, zlen a < i <= zlen a + zlen ch -> zlen a + zlen ch - i < Z.of_nat fuel ->
    hop_up fuel s (zlen s) i = Some (zlen a + zlen ch).
Proof.
  intros Hc Hb s. destruct (char_shape ch Hc) as (h & tl & -> & Hh & Ht & _).
  induction fuel as [|fuel IH]; intros i Hi Hf; [lia|]. cbn [hop_up].
  assert (Zs : zlen s = zlen a + zlen (h :: tl) + zlen b) by (unfold s; rewrite !zlen_app; lia).
  destruct (Z.eq_dec i (zlen a + zlen (h :: tl))) as [->|N].
  - assert (B : bnd s (zlen a + zlen (h :: tl))).
    { unfold s. rewrite app_assoc, <- zlen_app. now apply bnd_app. }
    destruct B as [_ B]. rewrite B. now rewrite andb_false_r.
  - assert (is_char_boundary s i = false) as ->.
    { unfold is_char_boundary. pose proof (zlen_nn a). pose proof (zlen_nn b).
      destruct (Z.eqb_spec i 0); [lia|]. destruct (Z.eqb_spec i (zlen s)); [lia|].
      rewrite byte_at_nn by lia. unfold s.
      destruct (nth_error tl (Z.to_nat (i - zlen a - 1))) as [x|] eqn:E.
      2:{ apply nth_error_None in E. unfold zlen in *. cbn [length] in *. lia. }
      assert (nth_error (a ++ (h :: tl) ++ b) (Z.to_nat i) = Some x) as ->.
      { rewrite nth_error_app2 by (unfold zlen in *; lia).
        replace (Z.to_nat i - length a)%nat with (S (Z.to_nat (i - zlen a - 1))) by (unfold zlen in *; lia).
        cbn. rewrite nth_error_app1; auto. apply nth_error_Some. congruence. }
      rewrite Forall_forall in Ht. rewrite (Ht x); auto. eapply nth_error_In; eauto. }
    destruct (Z.ltb_spec i (zlen s)); [|pose proof (zlen_nn b); lia]. cbn [andb negb]. apply IH; lia.
Qed.

Lemma hop_loop_char d a ch b : utf8_char ch -> utf8 b ->
  let s := a ++ ch ++ b in hop_loop (S d) s (zlen s) (zlen a) = hop_loop d s (zlen s) (zlen a + zlen ch).
Proof.
  intros Hc Hb s. cbn [hop_loop]. assert (P : 0 < zlen ch) by (destruct (char_shape ch Hc) as (h & tl & -> & _); unfold zlen; cbn [length]; lia).
  assert (Zs : zlen s = zlen a + zlen ch + zlen b) by (unfold s; rewrite !zlen_app; lia). pose proof (zlen_nn b). pose proof (zlen_nn a).
  destruct (Z.leb_spec (zlen s) (zlen a)); [lia|].
  unfold s at 2 3. rewrite (hop_up_char a ch b Hc Hb); auto; [lia|]. fold s. unfold zlen in *. lia.
Qed.
Lemma hop_loop_end d s : hop_loop (S d) s (zlen s) (zlen s) = Some None.
Proof. cbn [hop_loop]. now rewrite Z.leb_refl. Qed.

Lemma hop_short cs br kt : Forall utf8_char cs -> (length cs < 3)%nat ->
  hop 3 (mk (concat cs) 0 br kt) = Done false (mk (concat cs) 0 br kt).
Proof.
  intros F L. unfold hop. cbn [cur limit cursor lb bra ket].
  assert (hop_loop 3 (concat cs) (zlen (concat cs)) 0 = Some None) as ->; [|reflexivity].
  destruct cs as [|c1 [|c2 [|c3 cs]]]; cbn [length] in L; try lia; cbn [concat]; rewrite ?app_nil_r.
  - reflexivity.
  - inversion F; subst. pose proof (hop_loop_char 2 [] c1 [] H1 utf8_nil) as H. cbn [app] in H. rewrite app_nil_r in H.
    change (zlen []) with 0 in H. rewrite Z.add_0_l in H. rewrite H. apply hop_loop_end.
  - inversion F; subst. inversion H2; subst.
    assert (Uc : utf8 c2) by (exists [c2]; cbn; rewrite app_nil_r; split; auto).
    pose proof (hop_loop_char 2 [] c1 c2 H1 Uc) as H. cbn [app] in H. change (zlen []) with 0 in H. rewrite Z.add_0_l in H. rewrite H.
    pose proof (hop_loop_char 1 c1 c2 [] H3 utf8_nil) as H'. rewrite app_nil_r in H'. rewrite H'. rewrite <- zlen_app. apply hop_loop_end.
Qed.

Lemma exception1_short cs br kt : Forall utf8_char cs -> (length cs < 3)%nat ->
  exists c br' kt', r_exception1 (mk (concat cs) 0 br kt) = Done false (mk (concat cs) c br' kt').
Proof.
  intros F L. assert (U : utf8 (concat cs)) by (exists cs; auto). unfold r_exception1. rewrite bind_mark_bra.
  destruct (find_among_run A_10 (concat cs) 0 0 kt A_10_ok U (bnd_0 _)) as [E|(w & I & E & _ & Ew)]; rewrite (bind_done _ _ _ _ _ E).
  - do 3 eexists. reflexivity.
  - destruct (a_res w =? 0); [do 3 eexists; reflexivity|]. rewrite bind_mark_ket, bind_get. cbn [cursor limit].
    destruct (Z.ltb_spec (0 + zlen (a_str w)) (zlen (concat cs))) as [L'|L']; [do 3 eexists; reflexivity|]. exfalso.
    (* then the whole text is an ASCII entry of at least three bytes *)
    assert (A : forallb (fun w => (3 <=? zlen (a_str w)) && forallb (fun b => (0 <=? b) && (b <? 128)) (a_str w)) A_10 = true) by reflexivity.
    rewrite forallb_forall in A. specialize (A w I). apply andb_true_iff in A as [A1 A2].
    change (Z.to_nat 0) with O in Ew. cbn [skipn] in Ew.
    assert (Et : concat cs = a_str w).
    { rewrite <- Ew, firstn_all2; auto. unfold zlen in L'. lia. }
    rewrite <- Et in A1, A2. clear - F L A1 A2.
    assert (Q : forall ch, In ch cs -> zlen ch = 1).
    { intros ch Hc. rewrite Forall_forall in F. destruct (char_shape ch (F ch Hc)) as (h & tl & -> & _ & _ & Hs).
      rewrite Hs; [reflexivity|]. rewrite forallb_forall in A2.
      assert (In h (concat cs)) by (apply in_concat; exists (h :: tl); split; [auto|left; auto]). specialize (A2 h H). lia. }
    assert (zlen (concat cs) = Z.of_nat (length cs)); [|lia].
    clear - Q. induction cs as [|c cs IH]; [reflexivity|]. cbn [concat length]. rewrite zlen_app, IH by (intros; apply Q; right; auto).
    rewrite (Q c (or_introl eq_refl)). lia.
Qed.

Lemma snowball_short pf isw cs : Forall utf8_char cs -> (length cs < 3)%nat -> zlen (concat cs) < 2 ^ 31 ->
  pf (concat cs) = false -> snowball pf isw (concat cs) false = Some (concat cs).
Proof.
  intros F L Lz Hp. unfold snowball. rewrite Hp. cbn [orb andb]. rewrite (create_small _ Lz). unfold stem. rewrite bind_get_cursor.
  destruct (exception1_short cs 0 (zlen (concat cs)) F L) as (c & br & kt & E). rewrite (bind_done _ _ _ _ _ E).
  rewrite bind_set_cursor, bind_get_cursor. rewrite (bind_done _ _ _ _ _ (hop_short cs br kt F L)). reflexivity.
Qed.
