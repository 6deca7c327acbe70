From Coq Require Import List Arith Bool Reals Lia Lra Permutation.
From Verif Require Import WStatsSpec StreakSpec StreakModel.
Import ListNotations.
Open Scope nat_scope.

Definition dec (bs : list (nat * option bool)) : list (option bool) := flat_map (fun b => repeat (snd b) (fst b)) bs.
Inductive alt : list (nat * option bool) -> Prop :=
| alt0 : alt []
| alt1 n v : 0 < n -> alt [(n, v)]
| alt2 n v m w r : 0 < n -> v <> w -> alt ((m, w) :: r) -> alt ((n, v) :: (m, w) :: r).
Lemma oeqb_eq a b : oeqb a b = true <-> a = b.
Proof. destruct a as [[|]|], b as [[|]|]; cbn; split; congruence. Qed.
Lemma rle_ok c : dec (rle c) = c /\ alt (rle c).
Proof.
  induction c as [|a c [E A]]; [split; [easy|constructor]|]. cbn [rle]. destruct (rle c) as [|[n b] r] eqn:R.
  - cbn in E. subst c. split; [easy|constructor; lia].
  - destruct (oeqb a b) eqn:O.
    + apply oeqb_eq in O. subst a. split; [cbn in *; now rewrite E|]. inversion A; subst; constructor; auto; lia.
    + split; [cbn in *; now rewrite E|]. constructor; [lia| |exact A]. intros ->. assert (oeqb b b = true) by now apply oeqb_eq. congruence.
Qed.
Fixpoint offs (o : nat) (bs : list (nat * option bool)) : list (nat * nat) :=
  match bs with
  | [] => []
  | (n, v) :: bs' => (match v with Some true => [(o, n)] | _ => [] end) ++ offs (o + n) bs'
  end.
Lemma offs_lens bs : forall o, map snd (offs o bs) = map fst (filter (fun b => match snd b with Some true => true | _ => false end) bs).
Proof.
  induction bs as [|[n v] bs IH]; intro o; [easy|]. cbn. rewrite map_app, IH. destruct v as [[|]|]; reflexivity.
Qed.
Lemma offs_ge bs : forall o s n, In (s, n) (offs o bs) -> o <= s.
Proof.
  induction bs as [|[m v] bs IH]; intros o s n; [easy|]. cbn. rewrite in_app_iff. intros [H|H].
  - destruct v as [[|]|]; [destruct H as [H|[]]; injection H; lia|easy..].
  - apply IH in H. lia.
Qed.
Lemma offs_nodup bs : alt bs -> forall o, NoDup (offs o bs).
Proof.
  induction bs as [|[m v] bs IH]; intros A o; [constructor|]. cbn.
  assert (A' : alt bs) by (inversion A; [constructor|assumption]). specialize (IH A' (o + m)).
  destruct v as [[|]|]; [|exact IH..]. constructor; [|exact IH]. intro H. apply offs_ge in H. inversion A; lia.
Qed.
Lemma nth_pre {A} (pre l : list A) i : length pre <= i -> nth_error (pre ++ l) i = nth_error l (i - length pre).
Proof. apply nth_error_app2. Qed.
Lemma nth_rep {A} (v : A) m l i : i < m -> nth_error (repeat v m ++ l) i = Some v.
Proof. intro H. rewrite nth_error_app1 by now rewrite repeat_length. now apply nth_error_repeat. Qed.
Lemma holds_rep pre v m l i : length pre <= i < length pre + m -> holds (pre ++ repeat v m ++ l) i <-> v = Some true.
Proof. intro H. unfold holds. rewrite nth_pre by lia. rewrite nth_rep by lia. split; [now intros [= ->]|now intros ->]. Qed.
Definition hd_ne (v : option bool) (bs : list (nat * option bool)) : Prop := match bs with (_, w) :: _ => v <> w | [] => True end.
Lemma holds_next pre bs : alt bs -> hd_ne (Some true) bs -> ~ holds (pre ++ dec bs) (length pre).
Proof.
  intros A N H. unfold holds in H. rewrite nth_pre in H by lia. rewrite Nat.sub_diag in H.
  destruct bs as [|[n w] bs]; [discriminate|]. cbn in *. assert (0 < n) by now inversion A. destruct n; [lia|]. cbn in H. injection H. congruence.
Qed.
Lemma runs_iff bs : alt bs -> forall pre, (forall p, length pre = S p -> hd_ne (Some true) bs \/ ~ holds pre p) ->
  forall s n, length pre <= s -> maximal_streak (pre ++ dec bs) s n <-> In (s, n) (offs (length pre) bs).
Proof.
  induction bs as [|[m v] bs IH]; intros A pre HP s n LE.
  - split; [|easy]. intros (P & S & _). specialize (S s ltac:(lia)). unfold holds in S. rewrite nth_pre in S by lia. cbn in S.
    destruct (s - length pre); discriminate.
  - cbn [dec flat_map fst snd]. fold (dec bs). assert (A' : alt bs) by (inversion A; [constructor|assumption]).
    assert (M : 0 < m) by (inversion A; assumption). assert (HN : hd_ne v bs) by (inversion A; cbn; auto).
    cbn [offs]. rewrite in_app_iff.
    assert (HH : forall i, length pre <= i < length pre + m -> holds (pre ++ repeat v m ++ dec bs) i <-> v = Some true) by (intros; now apply holds_rep).
    destruct (le_lt_dec (length pre + m) s) as [L|L].
    + assert (L2 : length (pre ++ repeat v m) = length pre + m) by (rewrite app_length, repeat_length; lia).
      rewrite app_assoc. rewrite (IH A' (pre ++ repeat v m)); [| |lia].
      * rewrite L2. split; [now right|]. intros [H|H]; [|exact H]. destruct v as [[|]|]; [destruct H as [H|[]]; injection H; lia|easy..].
      * intros p E. rewrite L2 in E. destruct (oeqb v (Some true)) eqn:O.
        -- apply oeqb_eq in O. left. now rewrite <- O.
        -- right. intro H. unfold holds in H. rewrite nth_pre in H by lia. rewrite <- (app_nil_r (repeat v m)), nth_rep in H by lia.
           injection H as ->. cbn in O. discriminate.
    + split.
      * intros (P & S & B & E). assert (v = Some true) as -> by (apply (HH s); [lia|]; apply S; lia). left. cbn. left.
        assert (s = length pre).
        { destruct (Nat.eq_dec s (length pre)) as [Q|Q]; [exact Q|]. exfalso. apply (B (s - 1)); [lia|]. apply HH; [lia|easy]. }
        subst s. f_equal. destruct (lt_eq_lt_dec n m) as [[Q|Q]|Q]; [|easy|].
        -- exfalso. apply E. apply HH; [lia|easy].
        -- exfalso. assert (H : holds (pre ++ repeat (Some true) m ++ dec bs) (length pre + m)) by (apply S; lia).
           rewrite app_assoc in H. assert (L2 : length pre + m = length (pre ++ repeat (Some true) m)) by (rewrite app_length, repeat_length; lia).
           rewrite L2 in H. now apply holds_next in H.
      * intros [H|H]; [|apply offs_ge in H; lia]. destruct v as [[|]|]; [|easy..]. destruct H as [H|[]]. injection H as <- <-.
        split; [exact M|]. split; [intros i I; now apply HH|]. split.
        -- intros p E. destruct (HP p E) as [Q|Q]; [now cbn in Q|]. unfold holds in *. rewrite nth_error_app1 by lia. exact Q.
        -- rewrite app_assoc. assert (L2 : length pre + m = length (pre ++ repeat (Some true) m)) by (rewrite app_length, repeat_length; lia).
           rewrite L2. now apply holds_next.
Qed.
Lemma runs_all c s n : maximal_streak c s n <-> In (s, n) (offs 0 (rle c)).
Proof.
  destruct (rle_ok c) as [E A]. rewrite <- E at 1. apply (runs_iff (rle c) A []); [easy|cbn; lia].
Qed.

(** Every streak lies in a maximal one. *)
Lemma holds_dec c i : holds c i \/ ~ holds c i.
Proof. unfold holds. destruct (nth_error c i) as [[[|]|]|]; [now left|right; easy..]. Qed.
Lemma extend_right c s n : streak c s n -> exists m, n <= m /\ streak c s m /\ ~ holds c (s + m).
Proof.
  intro H. remember (length c - (s + n)) as k. revert n Heqk H. induction k as [|k IH]; intros n E H.
  - exists n. split; [lia|]. split; [exact H|]. unfold holds. assert (nth_error c (s + n) = None) as -> by (apply nth_error_None; lia). easy.
  - destruct (holds_dec c (s + n)) as [Q|Q]; [|exists n; auto].
    destruct (IH (S n)) as [m [L R]]; [lia| |exists m; split; [lia|exact R]].
    intros i I. destruct (Nat.eq_dec i (s + n)) as [->|]; [exact Q|]. apply H. lia.
Qed.
Lemma extend_left c : forall s n, streak c s n -> exists t, t <= s /\ streak c t (n + (s - t)) /\ forall p, t = S p -> ~ holds c p.
Proof.
  induction s as [|s IH]; intros n H.
  - exists 0. split; [lia|]. split; [intros i I; apply H; lia|]. easy.
  - destruct (holds_dec c s) as [Q|Q].
    + destruct (IH (S n)) as [t [L [R B]]].
      { intros i I. destruct (Nat.eq_dec i s) as [->|]; [exact Q|]. apply H. lia. }
      exists t. split; [lia|]. split; [|exact B]. intros i I. apply R. lia.
    + exists (S s). split; [lia|]. split; [intros i I; apply H; lia|]. now intros p [= <-].
Qed.
Lemma in_maximal c s n : 0 < n -> streak c s n -> exists t m, maximal_streak c t m /\ t <= s /\ s + n <= t + m.
Proof.
  intros P H. destruct (extend_left c s n H) as [t [L [R B]]]. destruct (extend_right c t _ R) as [m [L2 [R2 E]]].
  exists t, m. split; [|lia]. split; [lia|]. split; [exact R2|]. split; [exact B|exact E].
Qed.
Lemma fold_max l : forall a, In (fold_left Nat.max l a) (a :: l) /\ forall x, In x (a :: l) -> x <= fold_left Nat.max l a.
Proof.
  induction l as [|b l IH]; intro a; cbn; [split; [now left|]; intros x [->|[]]; lia|].
  destruct (IH (Nat.max a b)) as [I G]. split.
  - destruct I as [I|I]; [|now right; right]. rewrite <- I. destruct (Nat.max_spec a b) as [[_ ->]|[_ ->]]; auto.
  - assert (Nat.max a b <= fold_left Nat.max l (Nat.max a b)) by (apply G; now left). intros x [->|[->|J]]; [lia|lia|apply G; now right].
Qed.
Lemma longest_thm c : let L := query_longest_streak c in
  (exists s, streak c s L) /\ forall s n, streak c s n -> n <= L.
Proof.
  cbn. unfold query_longest_streak, true_lens. rewrite <- (offs_lens (rle c) 0). destruct (offs 0 (rle c)) as [|[s0 n0] r] eqn:E.
  - cbn. split; [exists 0; intros i I; lia|]. intros s n H. destruct n; [lia|]. exfalso. destruct (in_maximal c s (S n)) as [t [m [M _]]]; [lia|exact H|].
    apply runs_all in M. now rewrite E in M.
  - cbn [map]. destruct (fold_max (map snd r) (snd (s0, n0))) as [I G]. set (L := fold_left Nat.max (map snd r) (snd (s0, n0))) in *. split.
    + change (snd (s0, n0) :: map snd r) with (map snd ((s0, n0) :: r)) in I. rewrite <- E in I. apply in_map_iff in I. destruct I as [[s n] [Q I]].
      cbn in Q. subst n. apply runs_all in I. exists s. apply I.
    + intros s n H. destruct n; [lia|]. destruct (in_maximal c s (S n)) as [t [m [M B]]]; [lia|exact H|]. apply runs_all in M. rewrite E in M.
      assert (m <= L); [|lia]. apply G. change (snd (s0, n0) :: map snd r) with (map snd ((s0, n0) :: r)). apply in_map_iff. now exists (t, m).
Qed.
Lemma avg_thm c : exists runs, NoDup runs /\ (forall s n, In (s, n) runs <-> maximal_streak c s n) /\
  (runs = [] -> query_avg_streak c = 0%R) /\ (runs <> [] -> query_avg_streak c = mean_of (map (fun r => INR (snd r)) runs)) /\
  Permutation (true_rows c) (flat_map (fun r => seq (fst r) (snd r)) runs).
Proof.
  destruct (rle_ok c) as [E A]. exists (offs 0 (rle c)). split; [now apply offs_nodup|]. split; [intros; symmetry; apply runs_all|].
  unfold query_avg_streak, true_lens. rewrite <- (offs_lens (rle c) 0). split; [now intros ->|]. split.
  - intro N. destruct (offs 0 (rle c)) as [|r rs] eqn:Q; [easy|]. unfold mean_of. rewrite !map_length.
    assert (F : forall l, fold_right Rplus 0%R l = Rsum l) by (induction l; cbn; congruence). rewrite <- (map_map snd INR), <- F. cbn. now rewrite map_length.
  - assert (G : forall bs o, filter (fun i => match nth_error (repeat (None : option bool) o ++ dec bs) i with Some (Some true) => true | _ => false end) (seq o (length (dec bs)))
       = flat_map (fun r => seq (fst r) (snd r)) (offs o bs)).
    { clear. induction bs as [|[n v] bs IH]; intro o; [easy|]. cbn [dec flat_map fst snd]. fold (dec bs). rewrite app_length, repeat_length, seq_app, filter_app.
      cbn [offs]. rewrite flat_map_app. rewrite <- IH. f_equal.
      - assert (forall i, In i (seq o n) -> nth_error (repeat None o ++ repeat v n ++ dec bs) i = Some v).
        { intros i I. apply in_seq in I. rewrite nth_pre by (rewrite repeat_length; lia). apply nth_rep. rewrite repeat_length. lia. }
        rewrite (filter_ext_in _ (fun _ => match v with Some true => true | _ => false end)) by (intros i I; now rewrite H).
        destruct v as [[|]|]; cbn; rewrite ?app_nil_r; clear; induction (seq o n) as [|a l IHl]; cbn; congruence.
      - apply filter_ext_in. intros i I. apply in_seq in I. rewrite !nth_pre by (rewrite ?repeat_length; lia). rewrite !repeat_length.
        now replace (i - o - n) with (i - (o + n)) by lia. }
    specialize (G (rle c) 0). cbn [repeat app] in G. rewrite E in G. unfold true_rows. now rewrite G.
Qed.
Lemma streak_ex : exists c, query_streak c = [2; 3] /\ forall s n, maximal_streak c s n -> n = 2.
Proof.
  exists [Some true; Some true; Some false; Some false; Some false]. split; [reflexivity|]. intros s n H. apply runs_all in H. cbn in H.
  destruct H as [H|[]]. now injection H.
Qed.
