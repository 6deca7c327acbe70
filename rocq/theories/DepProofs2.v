(** Proofs for C114: plot_dependency. *)
From Coq Require Import String Bool List Arith ZArith Reals Permutation Sorted Relations Lia Lra.
From Verif Require Import InfoModel InfoSpec InfoProofs InfoPropsLemmas DiaModel DiaSpec DiaProofs DepModel DepSpec DepProofs.
Import ListNotations.
Open Scope nat_scope.
Open Scope list_scope.

Section G.
Variable df : list (string * string).
Lemma parents_In c p : In p (parents df c) <-> In (c, p) df.
Proof.
  unfold parents. rewrite in_map_iff. split.
  - intros ([a b] & E & I). cbn in E. subst. apply filter_In in I. destruct I as [I K]. apply String.eqb_eq in K. cbn in K. now subst.
  - intro I. exists (c, p). split; [easy|]. apply filter_In. split; [easy|apply String.eqb_refl].
Qed.
Lemma children_In c p : In c (children df p) <-> In (c, p) df.
Proof.
  unfold children. rewrite in_map_iff. split.
  - intros ([a b] & E & I). cbn in E. subst. apply filter_In in I. destruct I as [I K]. apply String.eqb_eq in K. cbn in K. now subst.
  - intro I. exists (c, p). split; [easy|]. apply filter_In. split; [easy|apply String.eqb_refl].
Qed.
Lemma prune_incl par : forall cur x, In x (prune df par cur) -> In x cur.
Proof.
  induction par as [|p r IH]; intros cur x I; cbn in I; [easy|]. apply IH in I. destruct (existsb (memb cur) (children df p)); [|easy]. now apply filter_In in I.
Qed.
Lemma prune_removed par : forall cur x, In x cur -> ~ In x (prune df par cur) -> exists q, In q cur /\ In (q, x) df.
Proof.
  induction par as [|p r IH]; intros cur x I N; cbn in N; [easy|]. destruct (existsb (memb cur) (children df p)) eqn:E.
  - destruct (String.eqb_spec x p) as [->|ne].
    + apply existsb_exists in E. destruct E as (q & A & B). apply memb_In in B. apply children_In in A. now exists q.
    + apply IH in N.
      * destruct N as (q & A & B). exists q. apply filter_In in A. tauto.
      * apply filter_In. split; [easy|]. now apply negb_true_iff, String.eqb_neq.
  - now apply IH in N.
Qed.
Lemma prune_kept par : forall cur p q, In p par -> In q (prune df par cur) -> In (q, p) df -> ~ In p (prune df par cur).
Proof.
  induction par as [|a r IH]; intros cur p q I Q E; [destruct I|]. cbn in *. destruct I as [->|I]; [|exact (IH _ _ _ I Q E)].
  destruct (existsb (memb cur) (children df p)) eqn:X.
  - intro K. apply prune_incl in K. apply filter_In in K. destruct K as [_ K]. now rewrite String.eqb_refl in K.
  - exfalso. apply prune_incl in Q. apply not_true_iff_false in X. apply X. apply existsb_exists. exists q. split; [now apply children_In|now apply memb_In].
Qed.
Lemma arrows_In p c : In (p, c) (arrows df) <-> In p (prune df (parents df c) (nodup String.string_dec (parents df c))).
Proof.
  unfold arrows. rewrite in_flat_map. split.
  - intros (c' & _ & I). apply in_map_iff in I. destruct I as (p' & E & I). injection E as -> ->. easy.
  - intro I. exists c. split; [|apply in_map_iff; now exists p]. apply nodup_In. apply prune_incl in I. apply nodup_In, parents_In in I. apply in_map_iff. now exists (c, p).
Qed.
Lemma arrows_sub p c : In (p, c) (arrows df) -> In (c, p) df.
Proof. rewrite arrows_In. intro I. apply prune_incl in I. now apply nodup_In, parents_In in I. Qed.
Definition dep_path := clos_trans _ (fun p c => In (c, p) df).
Variable rank : string -> nat.
Hypothesis RK : forall c p, In (c, p) df -> rank c < rank p.
Lemma arrow_path n : forall p c, rank p - rank c <= n -> In (c, p) df -> path (arrows df) p c.
Proof.
  induction n as [|n IH]; intros p c L E; [pose proof (RK _ _ E); lia|].
  destruct (in_dec String.string_dec p (prune df (parents df c) (nodup String.string_dec (parents df c)))) as [I|N].
  - apply t_step. now apply arrows_In.
  - apply prune_removed in N; [|now apply nodup_In, parents_In]. destruct N as (q & A & B). apply nodup_In, parents_In in A.
    pose proof (RK _ _ A). pose proof (RK _ _ B). pose proof (RK _ _ E). apply t_trans with q; apply IH; auto; lia.
Qed.
Lemma arrows_reach p c : path (arrows df) p c <-> dep_path p c.
Proof.
  split; intro H; induction H as [a b E|a b d _ IH1 _ IH2].
  - apply t_step. now apply arrows_sub.
  - eapply t_trans; eauto.
  - now apply (arrow_path (rank a - rank b)).
  - eapply t_trans; eauto.
Qed.
Hypothesis TR : forall a b c, In (b, a) df -> In (c, b) df -> In (c, a) df.
Lemma arrows_cover p c : In (p, c) (arrows df) <-> In (c, p) df /\ ~ exists q, In (q, p) df /\ In (c, q) df.
Proof.
  split.
  - intro I. split; [now apply arrows_sub|]. intros (q & A & B). apply arrows_In in I.
    assert (G : forall n q, rank q <= n -> In (q, p) df -> In (c, q) df -> False); [|exact (G (rank q) q (le_n _) A B)].
    clear q A B. induction n as [|n IH]; intros q L A B.
    + pose proof (RK _ _ B). lia.
    + destruct (in_dec String.string_dec q (prune df (parents df c) (nodup String.string_dec (parents df c)))) as [J|J].
      * apply (prune_kept _ _ p q) in J; [easy|apply prune_incl in I; now apply nodup_In in I|easy].
      * apply prune_removed in J; [|now apply nodup_In, parents_In]. destruct J as (r & X & Y). apply nodup_In, parents_In in X.
        pose proof (RK _ _ Y). apply (IH r); [lia| |easy]. exact (TR _ _ _ A Y).
  - intros [I N]. apply arrows_In. destruct (in_dec String.string_dec p (prune df (parents df c) (nodup String.string_dec (parents df c)))) as [J|J]; [easy|].
    apply prune_removed in J; [|now apply nodup_In, parents_In]. destruct J as (q & X & Y). destruct N. exists q. split; [easy|]. now apply nodup_In, parents_In in X.
Qed.
End G.

(** Position of a name. *)
Fixpoint pos (s : string) (l : list string) : nat := match l with [] => 0 | x :: r => if String.eqb x s then 0 else S (pos s r) end.
Lemma pos_at a s b : ~ In s a -> pos s (a ++ s :: b) = length a.
Proof.
  induction a as [|x a IH]; cbn; intro N; [now rewrite String.eqb_refl|]. destruct (String.eqb_spec x s) as [->|]; [tauto|]. rewrite IH; tauto.
Qed.
Lemma pos_pairs l x y : NoDup l -> In (x, y) (pairs l) -> pos x l < pos y l.
Proof.
  intros N I. apply pairs_In in I. destruct I as (a & b & c & ->). assert (Na := NoDup_remove_2 _ _ _ N). rewrite pos_at by (intro h; apply Na, in_app_iff; tauto).
  replace (a ++ x :: b ++ y :: c) with ((a ++ x :: b) ++ y :: c) by now rewrite <- app_assoc. rewrite pos_at.
  - rewrite app_length. cbn. lia.
  - replace (a ++ x :: b ++ y :: c) with ((a ++ x :: b) ++ y :: c) in N by now rewrite <- app_assoc. apply NoDup_remove_2 in N. intro h. apply N, in_app_iff. now left.
Qed.
Lemma pairs_map {A B} (g : A -> B) l : pairs (map g l) = map (fun p => (g (fst p), g (snd p))) (pairs l).
Proof. induction l as [|x l IH]; cbn; [easy|]. now rewrite map_app, IH, !map_map. Qed.

Section Plot.
Context {V : Type} (veq : forall a b : V, {a = b} + {a <> b}).
Notation ce := (ceq veq).
Variable gb : list (option V * option V) -> list ((option V * option V) * nat).
Variable sort_cols : list (column V) -> list (column V).
Variable sort_out : list (string * string * R) -> list (string * string * R).
Hypothesis GB : groups_ok (dpair ce ce) gb.
Hypothesis SC : sort_key_ok (fun c => INR (n_unique veq c)) sort_cols.
Hypothesis SO : sort_key_ok snd sort_out.
Context (h : nat) (f : frame V).
Hypothesis T : table h f.
Notation check := (to_check veq sort_cols f).
Notation rows := (dep_rows veq gb sort_cols sort_out f).
Lemma below_In thr c p : In (c, p) (below thr rows) <-> exists v, In (c, p, v) rows /\ (v < thr)%R.
Proof.
  unfold below. rewrite in_map_iff. split.
  - intros ([[c' p'] v] & E & I). cbn in E. injection E as -> ->. apply filter_In in I. destruct I as [I K]. cbn in K. exists v. destruct (Rlt_dec v thr); easy.
  - intros (v & I & L). exists (c, p, v). split; [easy|]. apply filter_In. split; [easy|]. cbn. destruct (Rlt_dec v thr); easy.
Qed.
Lemma check_names : NoDup (map name check).
Proof.
  pose proof (check_nodup veq sort_cols SC h f T) as N. assert (I : forall c, In c check -> In c f) by (intros c J; apply (check_In veq sort_cols SC f) in J; apply J).
  induction check as [|x l IH]; cbn; [constructor|]. inversion N as [|? ? N1 N2]; subst. constructor; [|apply IH; auto; intros; apply I; now right].
  rewrite in_map_iff. intros (y & E & J). apply N1. rewrite <- (name_inj h f T y x); auto; apply I; [now right|now left].
Qed.
Lemma rows_rank c p v : In (c, p, v) rows -> pos c (map name check) < pos p (map name check).
Proof.
  intro I. apply (dep_rows_In veq gb sort_cols sort_out SO f) in I. destruct I as (x & y & I & -> & -> & _). apply pos_pairs; [apply check_names|].
  rewrite pairs_map. apply in_map_iff. now exists (x, y).
Qed.
Lemma plot_run thr : (exists c, In c f /\ discrete_type (ty c)) -> exists rs out, infer_dependency veq gb sort_cols sort_out f = Value rs /\
  plot_dependency veq gb sort_cols sort_out thr f = Value out /\
  (forall p c, In (p, c) out -> exists v, In (c, p, v) rs /\ (v < thr)%R) /\
  (forall p c, path out p c <-> clos_trans _ (fun p c => exists v, In (c, p, v) rs /\ (v < thr)%R) p c) /\
  (forall p c, path out p c -> p <> c).
Proof.
  intro H. exists rows, (arrows (below thr rows)). unfold plot_dependency. rewrite (dep_run veq gb sort_cols sort_out SO f H). split; [easy|]. split; [easy|].
  assert (RK : forall c p, In (c, p) (below thr rows) -> pos c (map name check) < pos p (map name check)).
  { intros c p I. apply below_In in I. destruct I as (v & I & _). exact (rows_rank c p v I). }
  split; [intros p c I; apply arrows_sub in I; now apply below_In|]. split.
  - intros p c. rewrite (arrows_reach _ _ RK). unfold dep_path. split; intro P; induction P as [a b E|a b d _ IH1 _ IH2];
      solve [apply t_step; now apply below_In|eapply t_trans; eauto].
  - intros p c P. apply (arrows_reach _ _ RK) in P. assert (L : pos c (map name check) < pos p (map name check)); [|intros ->; lia].
    unfold dep_path in P. induction P as [a b E|a b d _ IH1 _ IH2]; [now apply RK|lia].
Qed.
(** When only exact dependencies are below the threshold, the arrows are the direct ones. *)
Lemma plot_cover thr : (exists c, In c f /\ discrete_type (ty c)) -> (0 < thr)%R -> exists rs out, infer_dependency veq gb sort_cols sort_out f = Value rs /\
  plot_dependency veq gb sort_cols sort_out thr f = Value out /\
  ((forall c p v, In (c, p, v) rs -> (v < thr)%R -> v = 0%R) ->
   forall p c, In (p, c) out <-> In (c, p, 0%R) rs /\ ~ exists q, In (q, p, 0%R) rs /\ In (c, q, 0%R) rs).
Proof.
  intros H TH. exists rows, (arrows (below thr rows)). unfold plot_dependency. rewrite (dep_run veq gb sort_cols sort_out SO f H). split; [easy|]. split; [easy|].
  intro Z. assert (B : forall c p, In (c, p) (below thr rows) <-> In (c, p, 0%R) rows).
  { intros c p. rewrite below_In. split; [intros (v & I & L); now rewrite <- (Z _ _ _ I L)|intro I; now exists 0%R]. }
  assert (RK : forall c p, In (c, p) (below thr rows) -> pos c (map name check) < pos p (map name check)).
  { intros c p I. apply B in I. exact (rows_rank c p _ I). }
  assert (TR : forall a b c, In (b, a) (below thr rows) -> In (c, b) (below thr rows) -> In (c, a) (below thr rows)).
  { intros a b c I J. pose proof (RK _ _ I) as R1. pose proof (RK _ _ J) as R2. rewrite B in *.
    destruct (dep_sound veq gb sort_cols sort_out GB SC SO h f T _ _ _ I) as (xb & xa & Ub & Ua & _ & <- & <- & _ & _ & F1).
    destruct (dep_sound veq gb sort_cols sort_out GB SC SO h f T _ _ _ J) as (xc & xb' & Uc & Ub' & _ & <- & Nb & _ & _ & F2).
    assert (xb' = xb) by (apply (name_inj h f T); [apply Ub'|apply Ub|easy]). subst xb'.
    assert (F : fixes xa xc). { apply fixes_trans with xb; [rewrite (height h f T xb), (height h f T xc); [easy|apply Uc|apply Ub]|now apply F1|now apply F2]. }
    destruct (dep_complete veq gb sort_cols sort_out GB SC SO h f T xc xa Uc Ua) as [K|[K _]]; [intros ->; lia|easy|exact K|].
    apply rows_rank in K. lia. }
  intros p c. rewrite (arrows_cover _ _ RK TR), B. split; intros [I N]; (split; [easy|]); intros (q & X & Y); apply N; exists q; rewrite !B in *; easy.
Qed.
End Plot.

(** Demonstration oracles. *)
Definition demo_gb {A} (dec : forall a b : A, {a = b} + {a <> b}) (l : list A) : list (A * nat) := map (fun v => (v, count_occ dec l v)) (nodup dec l).
Lemma demo_gb_ok {A} (dec : forall a b : A, {a = b} + {a <> b}) : groups_ok dec (demo_gb dec).
Proof. intro l. apply Permutation_refl. Qed.
Section Srt.
Context {A : Type} (key : A -> R).
Fixpoint kins (x : A) (l : list A) : list A := match l with [] => [x] | y :: r => if Rle_dec (key x) (key y) then x :: y :: r else y :: kins x r end.
Fixpoint ksort (l : list A) : list A := match l with [] => [] | x :: r => kins x (ksort r) end.
Lemma kins_perm x l : Permutation (kins x l) (x :: l).
Proof. induction l as [|y l IH]; cbn; [easy|]. destruct (Rle_dec (key x) (key y)); [easy|]. rewrite IH. apply perm_swap. Qed.
Lemma kins_sorted x l : StronglySorted (fun a b => (key a <= key b)%R) l -> StronglySorted (fun a b => (key a <= key b)%R) (kins x l).
Proof.
  induction 1 as [|y l S IH F]; cbn; [repeat constructor|]. destruct (Rle_dec (key x) (key y)).
  - constructor; [now constructor|]. constructor; [easy|]. eapply Forall_impl; [|exact F]. cbn. intros; lra.
  - constructor; [easy|]. apply (Permutation_Forall (Permutation_sym (kins_perm x l))). constructor; [lra|easy].
Qed.
Lemma ksort_ok : sort_key_ok key ksort.
Proof.
  intro l. split.
  - induction l as [|x l IH]; cbn; [easy|]. rewrite kins_perm. now constructor.
  - induction l as [|x l IH]; cbn; [constructor|now apply kins_sorted].
Qed.
End Srt.
