From Coq Require Import String Ascii Bool List Arith ZArith Lia Permutation.
From Verif Require Import Num KdModel PyKdModel KnnExprModel KnnExprSpec KnnExprProofs StrSpec StopWords StrModel.
Import ListNotations.
Open Scope nat_scope.

(** ** Byte order and binary search *)
Lemma str_cmp_refl a : str_cmp a a = Eq.
Proof. induction a as [|x a IH]; cbn; auto. now rewrite Nat.compare_refl. Qed.
Lemma str_cmp_eq a : forall b, str_cmp a b = Eq -> a = b.
Proof.
  induction a as [|x a IH]; intros [|y b] H; cbn in H; try discriminate; auto.
  destruct (Nat.compare_spec x y); try discriminate. subst. f_equal. auto.
Qed.
Lemma str_cmp_anti a : forall b, str_cmp a b = CompOpp (str_cmp b a).
Proof.
  induction a as [|x a IH]; intros [|y b]; cbn; auto.
  rewrite (Nat.compare_antisym y x). destruct (Nat.compare y x); cbn; auto.
Qed.
Lemma str_cmp_trans a : forall b c, str_cmp a b = Lt -> str_cmp b c = Lt -> str_cmp a c = Lt.
Proof.
  induction a as [|x a IH]; intros [|y b] [|z c]; cbn; try discriminate; auto.
  destruct (Nat.compare_spec x y); try discriminate; destruct (Nat.compare_spec y z); try discriminate;
    intros H1 H2; destruct (Nat.compare_spec x z); try lia; auto. eapply IH; eauto.
Qed.

Definition strictly_sorted (l : list (list nat)) : Prop :=
  forall i j, i < j < length l -> str_cmp (nth i l []) (nth j l []) = Lt.

Fixpoint sorted_b (l : list (list nat)) : bool :=
  match l with
  | a :: (b :: _) as l' => match str_cmp a b with Lt => sorted_b l' | _ => false end
  | _ => true
  end.

Lemma sorted_b_ok l : sorted_b l = true -> strictly_sorted l.
Proof.
  induction l as [|a l IH]; intros H i j Hij; [cbn in Hij; lia|].
  destruct l as [|b l]; [cbn in Hij; lia|].
  cbn [sorted_b] in H. destruct (str_cmp a b) eqn:E; try discriminate. specialize (IH H).
  destruct j as [|j]; [lia|]. destruct i as [|i].
  - change (nth 0 (a :: b :: l) []) with a. change (nth (S j) (a :: b :: l) []) with (nth j (b :: l) []).
    destruct j as [|j]; [exact E|]. apply str_cmp_trans with b; auto.
    apply (IH 0 (S j)). cbn in Hij |- *. lia.
  - apply (IH i j). cbn in Hij |- *. lia.
Qed.

Lemma bs_loop_spec f p : forall fuel base size, size <= fuel -> base <= p < base + size ->
  (forall i, i < p -> f i = Lt) -> f p = Eq -> (forall i, p < i -> i < base + size -> f i = Gt) ->
  bs_loop fuel f base size = p.
Proof.
  induction fuel as [|fuel IH]; intros base size Hf Hp Hl He Hg; [lia|].
  cbn [bs_loop]. destruct (Nat.ltb_spec 1 size) as [Hs|Hs]; [|lia].
  assert (H2 : 0 < size / 2 < size) by (split; [apply Nat.div_str_pos; lia|apply Nat.div_lt; lia]).
  destruct (lt_eq_lt_dec (base + size / 2) p) as [[K|K]|K].
  - rewrite (Hl _ K). apply IH; auto; try lia. intros i I1 I2. apply Hg; lia.
  - rewrite K, He. apply IH; auto; try lia. intros i I1 I2. apply Hg; lia.
  - rewrite Hg by lia. assert (size / 2 + size / 2 <= size). { pose proof (Nat.mul_div_le size 2). lia. }
    assert (K2 : size - size / 2 >= size / 2) by lia. apply IH; auto; try lia.
    intros i I1 I2. apply Hg; auto; lia.
Qed.

Lemma binary_search_spec l x : strictly_sorted l ->
  (match binary_search l x with Some _ => true | None => false end) = true <-> In x l.
Proof.
  intro Hs. split.
  - unfold binary_search. destruct (length l) as [|n] eqn:L; [discriminate|].
    destruct (str_cmp _ x) eqn:E; try discriminate. intros _. apply str_cmp_eq in E.
    set (b := bs_loop _ _ _ _) in *.
    destruct (Nat.lt_ge_cases b (length l)) as [K|K]; [rewrite <- E; now apply nth_In|].
    exfalso. clear E. assert (Hb : forall f fuel base size, size <> 0 -> bs_loop fuel f base size < base + size).
    { intros f fuel. induction fuel as [|fuel IH]; intros base size Hz; cbn [bs_loop]; [lia|].
      destruct (Nat.ltb_spec 1 size) as [Q|Q]; [|lia].
      assert (H2 : 0 < size / 2 < size) by (split; [apply Nat.div_str_pos; lia|apply Nat.div_lt; lia]).
      destruct (f (base + size / 2)); (eapply Nat.lt_le_trans; [apply IH; lia|lia]). }
    specialize (Hb (fun i => str_cmp (nth i l []) x) (S n) 0 (S n)). fold b in Hb. lia.
  - intro I. destruct (In_nth l x [] I) as (p & Hp & Np).
    unfold binary_search. destruct (length l) as [|n] eqn:L; [lia|].
    rewrite (bs_loop_spec _ p); [rewrite Np, str_cmp_refl; reflexivity|lia|lia| | |].
    + intros i Hi. rewrite <- Np. apply Hs. lia.
    + rewrite Np. apply str_cmp_refl.
    + intros i Hi Hi2. rewrite str_cmp_anti, <- Np. rewrite Hs by lia. reflexivity.
Qed.

Lemma stopwords_sorted : strictly_sorted (map bytes_of EN_STOPWORDS).
Proof. apply sorted_b_ok. vm_compute. reflexivity. Qed.

Lemma is_stop_spec s : is_stop s = true <-> exists w, In w EN_STOPWORDS /\ bytes_of w = s.
Proof.
  unfold is_stop. rewrite (binary_search_spec _ _ stopwords_sorted), in_map_iff.
  split; intros (w & A & B); exists w; split; assumption.
Qed.

Lemma pl_is_stopword_spec c :
  map (@length _) (pl_is_stopword c) = map (@length _) c /\
  forall i, nth_error (cells (pl_is_stopword c)) i =
    option_map (option_map is_stop) (nth_error (cells c) i).
Proof.
  split.
  - unfold pl_is_stopword. rewrite map_map. apply map_ext. intro a. apply map_length.
  - intro i. unfold cells, pl_is_stopword. rewrite <- concat_map. now rewrite nth_error_map.
Qed.

Lemma pl_is_stopword_cell c i s :
  nth_error (cells c) i = Some (Some s) ->
  exists b, nth_error (cells (pl_is_stopword c)) i = Some (Some b) /\
    (b = true <-> exists w, In w EN_STOPWORDS /\ bytes_of w = s).
Proof.
  intro H. destruct (pl_is_stopword_spec c) as [_ E]. rewrite E, H. exists (is_stop s). split; [reflexivity|apply is_stop_spec].
Qed.

(** ** nearest_str *)
Lemma nearest_loop_spec dist : forall l best cutoff nearest,
  match best with
  | None => nearest = None
  | Some b => cutoff = b /\ 0 < b /\ exists w, nearest = Some w
  end ->
  match best with
  | None => nearest_within dist l cutoff (nearest_loop dist l best cutoff nearest)
  | Some b =>
      (exists i d w, nth_error l i = Some w /\ nearest_loop dist l best cutoff nearest = Some w /\
         dist w = Some d /\ d < b /\
         forall j w' d', nth_error l j = Some w' -> dist w' = Some d' -> d <= d' /\ (j < i -> d < d'))
      \/ (nearest_loop dist l best cutoff nearest = nearest /\
          forall w d, In w l -> dist w = Some d -> b <= d)
  end /\ True.
Proof.
  induction l as [|w l IH]; intros best cutoff nearest H; (split; [|exact I]).
  - destruct best as [b|]; cbn.
    + right. split; auto. intros ? ? [].
    + subst. cbn. intros ? ? [].
  - cbn [nearest_loop]. destruct (dist w) as [d|] eqn:D; cbn [with_cutoff].
    2:{ destruct best as [b|].
        - destruct (IH (Some b) cutoff nearest H) as [[(i & d & w' & N & E & Dw & Lt & M)|[E M]] _].
          + left. exists (S i), d, w'. repeat split; auto. { destruct j as [|j]; cbn in H0; [congruence|]. eapply M; eauto. }
            intro J. destruct j as [|j]; cbn in H0; [congruence|]. eapply M; eauto. lia.
          + right. split; auto. intros w' d [<-|I] Q; [congruence|eauto].
        - destruct (IH None cutoff nearest H) as [Q _]. unfold nearest_within in *.
          destruct (nearest_loop dist l None cutoff nearest) as [w'|].
          + destruct Q as (i & d & N & Dw & Lc & M). exists (S i), d. repeat split; auto.
            * destruct j as [|j]; cbn in H0; [congruence|]. eapply M; eauto.
            * intro J. destruct j as [|j]; cbn in H0; [congruence|]. eapply M; eauto. lia.
          + intros w' d [<-|I] E; [congruence|eauto]. }
    destruct (Nat.leb_spec d cutoff) as [L|L].
    2:{ destruct best as [b|].
        - destruct H as (-> & Hb & Hn).
          destruct (IH (Some b) b nearest (conj eq_refl (conj Hb Hn))) as [[(i & d' & w' & N & E & Dw & Lt & M)|[E M]] _].
          + left. exists (S i), d', w'. repeat split; auto.
            * destruct j as [|j]; cbn in H; [injection H as <-; assert (d'0 = d) by congruence; lia|]. eapply M; eauto.
            * intro J. destruct j as [|j]; cbn in H; [injection H as <-; assert (d'0 = d) by congruence; lia|]. eapply M; eauto. lia.
          + right. split; auto. intros w' d' [<-|I] Q; [assert (d' = d) by congruence; lia|eauto].
        - destruct (IH None cutoff nearest H) as [Q _]. unfold nearest_within in *.
          destruct (nearest_loop dist l None cutoff nearest) as [w'|].
          + destruct Q as (i & d' & N & Dw & Lc & M). exists (S i), d'. repeat split; auto.
            * destruct j as [|j]; cbn in H0; [injection H0 as <-; assert (d'0 = d) by congruence; lia|]. eapply M; eauto.
            * intro J. destruct j as [|j]; cbn in H0; [injection H0 as <-; assert (d'0 = d) by congruence; lia|]. eapply M; eauto. lia.
          + intros w' d' [<-|I] E; [assert (d' = d) by congruence; lia|eauto]. }
    destruct (Nat.eqb_spec d 0) as [Z|Z].
    + subst d. destruct best as [b|].
      * destruct H as (-> & Hb & Hn). left. exists 0, 0, w. repeat split; auto; lia.
      * exists 0, 0. repeat split; auto; try lia.
    + destruct best as [b|].
      * destruct H as (-> & Hb & w0 & ->). destruct (Nat.ltb_spec d b) as [K|K].
        -- assert (P : 0 < d) by lia.
           destruct (IH (Some d) d (Some w) (conj eq_refl (conj P (ex_intro _ w eq_refl)))) as [[(i & d' & w' & N & E & Dw & Lt & M)|[E M]] _].
           ++ left. exists (S i), d', w'. repeat split; auto; try lia.
              ** destruct j as [|j]; cbn in H; [injection H as <-; assert (d'0 = d) by congruence; lia|]. eapply M; eauto.
              ** intro J. destruct j as [|j]; cbn in H; [injection H as <-; assert (d'0 = d) by congruence; lia|]. eapply M; eauto. lia.
           ++ left. exists 0, d, w. repeat split; auto; try lia.
              destruct j as [|j]; cbn in H; [injection H as <-; assert (d' = d) by congruence; lia|]. apply nth_error_In in H. eauto.
        -- assert (d = b) as -> by lia.
           destruct (IH (Some b) b (Some w0) (conj eq_refl (conj Hb (ex_intro _ w0 eq_refl)))) as [[(i & d' & w' & N & E & Dw & Lt & M)|[E M]] _].
           ++ left. exists (S i), d', w'. repeat split; auto.
              ** destruct j as [|j]; cbn in H; [injection H as <-; assert (d'0 = b) by congruence; lia|]. eapply M; eauto.
              ** intro J. destruct j as [|j]; cbn in H; [injection H as <-; assert (d'0 = b) by congruence; lia|]. eapply M; eauto. lia.
           ++ right. split; auto. intros w' d' [<-|I] Q; [assert (d' = b) by congruence; lia|eauto].
      * assert (P : 0 < d) by lia.
        destruct (IH (Some d) d (Some w) (conj eq_refl (conj P (ex_intro _ w eq_refl)))) as [[(i & d' & w' & N & E & Dw & Lt & M)|[E M]] _].
        -- rewrite E. exists (S i), d'. repeat split; auto; try lia.
           ** destruct j as [|j]; cbn in H0; [injection H0 as <-; assert (d'0 = d) by congruence; lia|]. eapply M; eauto.
           ** intro J. destruct j as [|j]; cbn in H0; [injection H0 as <-; assert (d'0 = d) by congruence; lia|]. eapply M; eauto. lia.
        -- rewrite E. exists 0, d. repeat split; auto; try lia.
           destruct j as [|j]; cbn in H0; [injection H0 as <-; assert (d' = d) by congruence; lia|]. apply nth_error_In in H0. eauto.
Qed.

Lemma nearest_spec dist c cutoff :
  nearest_within dist (concat (map (map snd) c)) cutoff (pl_nearest_str dist c cutoff).
Proof. apply (nearest_loop_spec dist _ None cutoff None eq_refl). Qed.

Lemma nearest_no_nulls dist c cutoff vocab :
  c = map (map (fun w => (true, w))) vocab ->
  nearest_within dist (concat vocab) cutoff (pl_nearest_str dist c cutoff).
Proof.
  intros ->. replace (concat vocab) with (concat (map (map snd) (map (map (fun w : chars => (true, w))) vocab))).
  - apply nearest_spec.
  - rewrite map_map. f_equal. rewrite <- (map_id vocab) at 2. apply map_ext. intro a. rewrite map_map. now rewrite map_id.
Qed.

(** ** Cleaning *)
Lemma amortized_map f c : forall buf, apply_amortized f c buf = map (option_map (fun s => f s [])) c.
Proof. induction c as [|[s|] c IH]; intro buf; cbn; rewrite ?IH; auto. Qed.

Lemma split_ws_words : forall s cur, no_ws cur ->
  (cur <> [] -> words_of (cur ++ s) (split_ws cur s)) /\ (cur = [] -> words_of s (split_ws [] s)).
Proof.
  induction s as [|c s IH]; intros cur Hc.
  - split; intro H; cbn.
    + destruct cur as [|x cur]; [congruence|].
      apply (words_cons [] (x :: cur) [] []); auto.
      * intros ? [].
      * constructor. intros ? [].
    + constructor. intros ? [].
  - assert (N0 : no_ws []) by (intros ? []).
    cbn [split_ws]. destruct (is_whitespace c) eqn:W.
    + destruct (IH [] N0) as [_ I]. specialize (I eq_refl).
      assert (Wc : words_of (c :: s) (split_ws [] s)).
      { inversion I as [gap G E1 E2|gap w rest l G Wn Nw R Wr E1 E2].
        - constructor. intros x [<-|X]; auto.
        - change (c :: gap ++ w ++ rest) with ((c :: gap) ++ w ++ rest). constructor; auto. intros x [<-|X]; auto. }
      split; intro H.
      * destruct cur as [|x cur]; [congruence|].
        apply (words_cons [] (x :: cur) (c :: s) (split_ws [] s)); auto.
        -- intros ? [].
        -- right. eauto.
      * exact Wc.
    + destruct (IH (cur ++ [c])) as [I _].
      { intros x X. apply in_app_iff in X as [X|[<-|[]]]; auto. }
      split; intro H.
      * specialize (I ltac:(destruct cur; discriminate)). now rewrite <- app_assoc in I.
      * subst cur. specialize (I ltac:(discriminate)). exact I.
Qed.

Lemma split_whitespace_words s : words_of s (split_whitespace s).
Proof. apply (split_ws_words s [] ltac:(intros ? [])). reflexivity. Qed.

(** The words of a string are unique, so [words_of] is a specification of [split_whitespace]. *)
Lemma words_head_ws c s l : is_whitespace c = true -> words_of (c :: s) l -> words_of s l.
Proof.
  intros W H. inversion H as [gap G E1 E2|gap w rest l' G Wn Nw R Wr E1 E2]; subst.
  - constructor. intros x X. apply G. right; auto.
  - destruct gap as [|g gap].
    + destruct w as [|x w]; [congruence|]. cbn in E1. injection E1 as -> E1.
      exfalso. specialize (Nw c (or_introl eq_refl)). congruence.
    + cbn in E1. injection E1 as -> <-. constructor; auto. intros x X. apply G. right; auto.
Qed.

Lemma words_split : forall s l, words_of s l -> l = split_whitespace s.
Proof.
  assert (Aux : forall w cur rest, no_ws w -> split_ws cur (w ++ rest) = split_ws (cur ++ w) rest).
  { induction w as [|c w IH]; intros cur rest N; cbn [app split_ws].
    - now rewrite app_nil_r.
    - rewrite (N c (or_introl eq_refl)). rewrite IH by (intros x X; apply N; right; auto).
      now rewrite <- app_assoc. }
  assert (Gap : forall g s, all_ws g -> split_ws [] (g ++ s) = split_ws [] s).
  { induction g as [|c g IH]; intros s G; cbn [app split_ws]; auto.
    rewrite (G c (or_introl eq_refl)). apply IH. intros x X; apply G; right; auto. }
  intros s l H. induction H as [gap G|gap w rest l G Wn Nw R Wr IH]; unfold split_whitespace in *.
  - rewrite <- (app_nil_r gap), Gap by auto. reflexivity.
  - rewrite Gap by auto. rewrite Aux by auto. cbn [app].
    destruct R as [->|(c & rest' & -> & W)].
    + cbn. destruct w; [congruence|]. f_equal. rewrite IH. reflexivity.
    + cbn [split_ws]. rewrite W. destruct w; [congruence|]. f_equal. rewrite IH.
      cbn [split_ws]. now rewrite W.
Qed.

Definition good_word (w : chars) : Prop := w <> [] /\ no_ws w.

Lemma words_good s l : words_of s l -> Forall good_word l.
Proof. induction 1; constructor; auto. split; auto. Qed.

Lemma space_ws : is_whitespace 32 = true. Proof. reflexivity. Qed.

Lemma words_ws_cons c s l : is_whitespace c = true -> words_of s l -> words_of (c :: s) l.
Proof.
  intros W I. inversion I as [gap G E1 E2|gap w rest l' G Wn Nw R Wr E1 E2].
  - constructor. intros x [<-|X]; auto.
  - change (c :: gap ++ w ++ rest) with ((c :: gap) ++ w ++ rest). constructor; auto. intros x [<-|X]; auto.
Qed.

Lemma join_words l : Forall good_word l -> words_of (join_sp l) l.
Proof.
  induction 1 as [|w l [Wn Nw] F IH]; cbn [join_sp].
  - constructor. intros ? [].
  - destruct l as [|v l].
    + rewrite <- (app_nil_r w) at 1. apply (words_cons [] w [] []); auto; try (constructor; intros ? []); intros ? [].
    + apply (words_cons [] w (32%Z :: join_sp (v :: l)) (v :: l)); auto.
      * intros ? [].
      * right. exists 32%Z, (join_sp (v :: l)). split; auto.
      * apply words_ws_cons; auto.
Qed.

Lemma join_ends l : Forall good_word l -> l <> [] ->
  (exists y b, join_sp l = y :: b /\ is_whitespace y = false) /\
  (exists a x, join_sp l = a ++ [x] /\ is_whitespace x = false).
Proof.
  induction 1 as [|w l [Wn Nw] F IH]; intro NE; [congruence|]. cbn [join_sp].
  assert (Hd : exists y b, w = y :: b /\ is_whitespace y = false).
  { destruct w as [|y b]; [congruence|]. exists y, b. split; auto. apply Nw. left; auto. }
  destruct l as [|v l].
  - split; auto. destruct (exists_last Wn) as (a & x & E). exists a, x. split; auto. apply Nw. rewrite E. apply in_elt.
  - destruct IH as [_ (a & x & E & W)]; [discriminate|]. rewrite E.
    destruct Hd as (y & b & -> & Wy). split.
    + cbn. eauto.
    + exists ((y :: b) ++ 32%Z :: a), x. split; auto. now rewrite <- app_assoc.
Qed.

Lemma join_tidy l : Forall good_word l -> tidy (join_sp l).
Proof.
  induction 1 as [|w l [Wn Nw] F IH]; cbn [join_sp]; intros a c b E W.
  - destruct a; discriminate.
  - destruct l as [|v l].
    + exfalso. assert (I : In c w) by (rewrite E; apply in_elt). apply Nw in I. congruence.
    + (* where does c fall? *)
      revert a E. induction w as [|x w IHw]; intros a E; [congruence|]. clear Wn.
      destruct a as [|a0 a].
      * cbn in E. injection E as -> E. exfalso. specialize (Nw c (or_introl eq_refl)). congruence.
      * cbn in E. injection E as -> E.
        destruct w as [|x' w].
        -- cbn in E. destruct a as [|a1 a].
           ++ cbn in E. injection E as <- <-. split; auto. split.
              ** exists [], a0. split; auto. apply Nw. left; auto.
              ** destruct (join_ends (v :: l) F) as [(y & b' & Ey & Wy) _]; [discriminate|]. eauto.
           ++ cbn in E. injection E as <- E. destruct (IH a c b E W) as (C1 & (a' & z & -> & Wz) & C3).
              split; auto. split; auto. exists (a0 :: 32%Z :: a'), z. split; auto.
        -- destruct (IHw) with (a := a) as (C1 & (a' & z & -> & Wz) & C3); auto; try discriminate.
           { intros y Y. apply Nw. right; auto. }
           split; auto. split; auto. exists (a0 :: a'), z. split; auto.
Qed.

Lemma normalize_rows c :
  normalize_whitespace c = map (option_map (fun s => join_sp (split_whitespace s))) c.
Proof. apply amortized_map. Qed.

Lemma normalize_spec c : length (normalize_whitespace c) = length c /\
  forall i s, nth_error c i = Some (Some s) ->
    exists t, nth_error (normalize_whitespace c) i = Some (Some t) /\ tidy t /\
      forall l, words_of s l <-> words_of t l.
Proof.
  rewrite normalize_rows. split; [apply map_length|]. intros i s H.
  rewrite nth_error_map, H. cbn. eexists; split; [reflexivity|].
  pose proof (split_whitespace_words s) as Hs. pose proof (words_good _ _ Hs) as G.
  split; [now apply join_tidy|]. intro l. split; intro Hl.
  - rewrite (words_split _ _ Hl). now apply join_words.
  - rewrite (words_split _ _ Hl). rewrite <- (words_split _ _ (join_words _ G)). exact Hs.
Qed.

Lemma normalize_idem c : normalize_whitespace (normalize_whitespace c) = normalize_whitespace c.
Proof.
  rewrite !normalize_rows, map_map. apply map_ext. intros [s|]; cbn [option_map]; auto. f_equal.
  pose proof (words_good _ _ (split_whitespace_words s)) as G.
  now rewrite <- (words_split _ _ (join_words _ G)).
Qed.

(** A string that is already tidy is left alone. *)
Lemma tidy_fixed s : tidy s -> join_sp (split_whitespace s) = s.
Proof.
  intro T. assert (Aux : forall l s, words_of s l -> tidy s -> (s = [] \/ exists c s', s = c :: s' /\ is_whitespace c = false) -> join_sp l = s).
  { clear. induction l as [|w l IH]; intros s H T Hd; inversion H as [gap G E1 E2|gap w' rest l' G Wn Nw R Wr E1 E2]; subst.
    - destruct Hd as [->|(c & s' & -> & W)]; auto. specialize (G c (or_introl eq_refl)). congruence.
    - destruct gap as [|g gap].
      2:{ exfalso. destruct Hd as [E|(c & s' & E & W)]; [discriminate|]. cbn in E. injection E as -> _.
          specialize (G c (or_introl eq_refl)). congruence. }
      cbn [app] in *. destruct R as [->|(c & rest' & -> & W)].
      + pose proof (words_split _ _ Wr) as E. cbn in E. subst l. cbn. now rewrite app_nil_r.
      + destruct (T w c rest' eq_refl W) as (-> & _ & (y & b' & -> & Wy)).
        assert (X : join_sp l = y :: b').
        { apply IH.
          - eapply words_head_ws; [|exact Wr]. exact space_ws.
          - intros a c b E Wc. destruct (T (w ++ 32%Z :: a) c b) as (C1 & (a' & x & Ea & Wx) & C3); auto.
            { rewrite E. now rewrite <- app_assoc. }
            split; auto. split; auto.
            destruct a as [|a0 a] using rev_ind.
            + cbn in E. injection E as -> _. congruence.
            + exists a, a0. split; auto. rewrite app_comm_cons, app_assoc in Ea. apply app_inj_tail in Ea as [_ ->]. exact Wx.
          - right. eauto. }
        cbn [join_sp]. destruct l; [cbn in X; discriminate|]. now rewrite X. }
  apply Aux; auto; [apply split_whitespace_words|].
  destruct s as [|c s']; [auto|]. right. exists c, s'. split; auto.
  destruct (is_whitespace c) eqn:W; auto. destruct (T [] c s' eq_refl W) as (_ & (a' & x & E & _) & _).
  destruct a'; discriminate.
Qed.

Lemma kept_filter s : kept (fun c => (c < 128)%Z) s (filter is_ascii s).
Proof.
  induction s as [|c s IH]; cbn; [constructor|]. unfold is_ascii at 1. destruct (Z.ltb_spec c 128); constructor; auto. lia.
Qed.

Lemma remove_non_ascii_spec c : length (remove_non_ascii c) = length c /\
  (forall i, nth_error c i = Some None -> nth_error (remove_non_ascii c) i = Some None) /\
  forall i s, nth_error c i = Some (Some s) ->
    exists t, nth_error (remove_non_ascii c) i = Some (Some t) /\ kept (fun x => (x < 128)%Z) s t.
Proof.
  unfold remove_non_ascii. rewrite amortized_map. split; [apply map_length|]. split.
  - intros i H. now rewrite nth_error_map, H.
  - intros i s H. rewrite nth_error_map, H. cbn. eexists; split; [reflexivity|apply kept_filter].
Qed.

Lemma filter_idem {A} (f : A -> bool) l : filter f (filter f l) = filter f l.
Proof. induction l as [|x l IH]; cbn; auto. destruct (f x) eqn:E; cbn; rewrite ?E, IH; auto. Qed.

Lemma remove_non_ascii_idem c : remove_non_ascii (remove_non_ascii c) = remove_non_ascii c.
Proof.
  unfold remove_non_ascii. rewrite !amortized_map, map_map. apply map_ext. intros [s|]; cbn [option_map]; auto. now rewrite filter_idem.
Qed.

Lemma remove_diacritics_spec nfd c : length (remove_diacritics nfd c) = length c /\
  (forall i, nth_error c i = Some None -> nth_error (remove_diacritics nfd c) i = Some None) /\
  forall i s, nth_error c i = Some (Some s) ->
    exists t, nth_error (remove_diacritics nfd c) i = Some (Some t) /\ kept (fun x => (x < 128)%Z) (nfd s) t.
Proof.
  unfold remove_diacritics. rewrite amortized_map. split; [apply map_length|]. split.
  - intros i H. now rewrite nth_error_map, H.
  - intros i s H. rewrite nth_error_map, H. cbn. eexists; split; [reflexivity|apply kept_filter].
Qed.

Lemma remove_diacritics_idem nfd c :
  (forall s, Forall (fun x => (x < 128)%Z) s -> nfd s = s) ->
  remove_diacritics nfd (remove_diacritics nfd c) = remove_diacritics nfd c.
Proof.
  intro Hn. unfold remove_diacritics. rewrite !amortized_map, map_map. apply map_ext. intros [s|]; cbn [option_map]; auto.
  f_equal. rewrite Hn; [apply filter_idem|].
  apply Forall_forall. intros x X. apply filter_In in X as [_ X]. unfold is_ascii in X. lia.
Qed.

Lemma map_words_spec mapping c : length (map_words mapping c) = length c /\
  (forall i, nth_error c i = Some None -> nth_error (map_words mapping c) i = Some None) /\
  forall i s l, nth_error c i = Some (Some s) -> words_of s l ->
    nth_error (map_words mapping c) i =
      Some (Some (join_sp (map (fun w => match mapping w with Some v => v | None => w end) l))).
Proof.
  unfold map_words. rewrite amortized_map. split; [apply map_length|]. split.
  - intros i H. now rewrite nth_error_map, H.
  - intros i s l H Hl. rewrite nth_error_map, H. cbn. now rewrite (words_split _ _ Hl).
Qed.

Lemma map_words_words mapping c i s l t :
  (forall w v, mapping w = Some v -> v <> [] /\ no_ws v) ->
  nth_error c i = Some (Some s) -> words_of s l -> nth_error (map_words mapping c) i = Some (Some t) ->
  words_of t (map (fun w => match mapping w with Some v => v | None => w end) l).
Proof.
  intros M H Hl Ht. destruct (map_words_spec mapping c) as (_ & _ & E). rewrite (E i s l H Hl) in Ht.
  injection Ht as <-. apply join_words. apply words_good in Hl.
  apply Forall_map. eapply Forall_impl; [|exact Hl]. intros w G. destruct (mapping w) eqn:K; auto. exact (M _ _ K).
Qed.

(** ** Pairwise distances *)
Lemma traverse_map {X Y} (g : X -> Y) l : traverse (fun x => Some (g x)) l = Some (map g l).
Proof. induction l as [|x l IH]; cbn; rewrite ?IH; auto. Qed.

Lemma combine_firstn_skipn {X Y} (a : list X) (b : list Y) o l :
  combine (firstn l (skipn o a)) (firstn l (skipn o b)) = firstn l (skipn o (combine a b)).
Proof.
  rewrite <- combine_firstn. f_equal. revert a b. induction o as [|o IH]; intros [|x a] [|y b]; cbn; auto.
  now rewrite combine_nil.
Qed.

(** What each row must be. *)
Definition cell_spec {A Y} (f : A -> A -> option Y) (a b : option A) : option Y :=
  match a, b with Some x, Some y => f x y | _, _ => None end.

Lemma pairwise_spec {A Y} (f : A -> A -> option Y) c1 c2 par : par_ok par ->
  pairwise f c1 c2 par =
    match cells c2 with
    | [Some r] => Ok (map (fun a => cell_spec f a (Some r)) (cells c1))
    | [None] => Panic
    | _ => if length (cells c1) =? length (cells c2)
           then Ok (map (fun p => cell_spec f (fst p) (snd p)) (combine (cells c1) (cells c2)))
           else ShapeMismatch
    end.
Proof.
  intro PO. unfold pairwise.
  assert (A1 : forall r, apply1 f r (cells c1) = map (fun a => cell_spec f a (Some r)) (cells c1)) by reflexivity.
  assert (P1 : forall r, match par with
      | Some (n, sched) => of_option (chunked n sched (length (cells c1))
            (fun offset len => Some (apply1 f r (firstn len (skipn offset (cells c1))))))
      | None => Ok (apply1 f r (cells c1)) end = Ok (map (fun a => cell_spec f a (Some r)) (cells c1))).
  { intro r. destruct par as [[n sched]|]; [|reflexivity]. destruct PO as [Hn Hp].
    rewrite (chunked_seq n sched (cells c1) (fun a => Some (cell_spec f a (Some r)))); auto.
    - rewrite traverse_map. reflexivity.
    - intros o l _. rewrite traverse_map. reflexivity. }
  assert (P2 : length (cells c1) = length (cells c2) -> match par with
      | Some (n, sched) => of_option (chunked n sched (length (cells c1))
            (fun offset len => Some (apply2 f (firstn len (skipn offset (cells c1))) (firstn len (skipn offset (cells c2))))))
      | None => Ok (apply2 f (cells c1) (cells c2)) end
      = Ok (map (fun p => cell_spec f (fst p) (snd p)) (combine (cells c1) (cells c2)))).
  { intro L. assert (E : forall l, map (fun p : option A * option A => match p with (Some a, Some b) => f a b | _ => None end) l
        = map (fun p => cell_spec f (fst p) (snd p)) l).
    { intro l. apply map_ext. intros [[x|] [y|]]; reflexivity. }
    destruct par as [[n sched]|]; [|unfold apply2; now rewrite E]. destruct PO as [Hn Hp].
    replace (length (cells c1)) with (length (combine (cells c1) (cells c2))) by (rewrite combine_length; lia).
    rewrite (chunked_seq n sched (combine (cells c1) (cells c2)) (fun p => Some (cell_spec f (fst p) (snd p)))); auto.
    - rewrite traverse_map. reflexivity.
    - intros o l _. rewrite traverse_map. unfold apply2. now rewrite E, combine_firstn_skipn. }
  destruct (cells c2) as [|[r|] [|b l2]] eqn:E2; cbn [length Nat.eqb].
  - destruct (length (cells c1) =? 0) eqn:E; auto. apply Nat.eqb_eq in E. auto.
  - apply P1.
  - destruct (length (cells c1) =? S (S (length l2))) eqn:E; auto. apply Nat.eqb_eq in E. auto.
  - reflexivity.
  - destruct (length (cells c1) =? S (S (length l2))) eqn:E; auto. apply Nat.eqb_eq in E. auto.
Qed.
