(** Lemmas on pipelines. *)
From Coq Require Import Reals String Bool Lia.
From Coq Require Import List.
From Verif Require Import MetricSpec PipeModel PipeSpec TtestModel.
Import ListNotations.
Open Scope list_scope.
Open Scope nat_scope.

Lemma mem_iff c l : mem c l = true <-> In c l.
Proof. unfold mem. rewrite existsb_exists. split; [intros (x & I & E); apply String.eqb_eq in E; now subst|intros I; exists c; split; [easy|apply String.eqb_refl]]. Qed.
Lemma mem_false c l : mem c l = false <-> ~ In c l.
Proof. rewrite <- mem_iff. destruct (mem c l); split; intros; try easy; try congruence. Qed.
Lemma distinct_iff l : distinct l = true <-> NoDup l.
Proof.
  induction l as [|a l IH]; cbn; [split; [constructor|easy]|]. rewrite andb_true_iff, negb_true_iff, mem_false, IH. split; [now constructor|]. now inversion 1.
Qed.
Lemma lookup_none c f : lookup c f = None <-> ~ In c (names f).
Proof.
  unfold lookup. induction f as [|[n v] f IH]; cbn; [easy|]. destruct (String.eqb_spec n c); cbn; [split; [easy|intros H; exfalso; apply H; now left]|].
  rewrite IH. split; intros H; [intros [E|I]; [easy|now apply H]|intros I; apply H; now right].
Qed.
Lemma lookup_in c f v : lookup c f = Some v -> In (c, v) f.
Proof.
  unfold lookup. destruct (find _ f) as [[n w]|] eqn:E; [|easy]. cbn. intros H. inversion H; subst. apply find_some in E. destruct E as (I & E).
  apply String.eqb_eq in E. cbn in E. now subst.
Qed.
Lemma lookup_some c f v : NoDup (names f) -> In (c, v) f -> lookup c f = Some v.
Proof.
  intros N I. unfold lookup. induction f as [|[n w] f IH]; [easy|]. cbn in *. inversion N as [|? ? N1 N2]; subst. destruct (String.eqb_spec n c) as [->|NE].
  - destruct I as [E|I]; [now inversion E|]. exfalso. apply N1. change c with (fst (c, v)). now apply in_map.
  - destruct I as [E|I]; [inversion E; easy|]. now apply IH.
Qed.
Lemma lookup_app c f g : lookup c (f ++ g) = match lookup c f with Some v => Some v | None => lookup c g end.
Proof. unfold lookup. induction f as [|[n v] f IH]; cbn; [easy|]. destruct (String.eqb n c); [easy|exact IH]. Qed.
Lemma put_names o f : names (put o f) = names f ++ filter (fun c => negb (mem c (names f))) (names o).
Proof.
  unfold put, names. rewrite map_app, map_map. f_equal.
  - apply map_ext. intros [n v]. cbn. now destruct (lookup n o).
  - induction o as [|[n v] o IH]; cbn; [easy|]. destruct (negb (mem n (map fst f))); cbn; now rewrite IH.
Qed.
Lemma nodup_app {A} (l l' : list A) : NoDup l -> NoDup l' -> (forall x, In x l -> ~ In x l') -> NoDup (l ++ l').
Proof.
  induction 1 as [|a l N1 N2 IH]; intros N' D; cbn; [easy|]. constructor.
  - rewrite in_app_iff. intros [I|I]; [easy|]. apply (D a); [now left|easy].
  - apply IH; [easy|]. intros x I. apply D. now right.
Qed.
Lemma put_proper o f : proper o -> proper f -> proper (put o f).
Proof.
  unfold proper. intros O F. rewrite put_names. apply nodup_app; [easy|now apply NoDup_filter|]. intros x I H. apply filter_In in H.
  destruct H as (_ & H). apply negb_true_iff, mem_false in H. easy.
Qed.
Lemma put_lookup o f c : lookup c (put o f) = match lookup c o with Some v => Some v | None => lookup c f end.
Proof.
  unfold put. rewrite lookup_app.
  assert (lookup c (map (fun p => match lookup (fst p) o with Some v => (fst p, v) | None => p end) f) = match lookup c f with Some v => Some (match lookup c o with Some w => w | None => v end) | None => None end) as ->.
  { unfold lookup at 1 3. induction f as [|[n v] f IH]; cbn; [easy|]. destruct (lookup n o) eqn:L; cbn; destruct (String.eqb_spec n c) as [->|NE]; cbn; try easy; now rewrite L. }
  destruct (lookup c f) eqn:F; [now destruct (lookup c o)|].
  assert (lookup c (filter (fun p => negb (mem (fst p) (names f))) o) = lookup c o) as ->; [|now destruct (lookup c o)].
  apply lookup_none in F. apply mem_false in F. unfold lookup. induction o as [|[n v] o IH]; cbn; [easy|].
  destruct (String.eqb_spec n c) as [->|NE]; cbn.
  - rewrite F. cbn. now rewrite String.eqb_refl.
  - destruct (negb (mem n (names f))); cbn; [|exact IH]. destruct (String.eqb_spec n c); [easy|exact IH].
Qed.
Lemma pick_names m f : names (map (fun p => (fst p, pick m (snd p))) f) = names f.
Proof. unfold names. rewrite map_map. now apply map_ext. Qed.
Lemma sel_cols cs : forall f o, evals (map col_expr cs) f = Some o -> names o = cs /\ forall c, In c cs -> lookup c o = lookup c f.
Proof.
  induction cs as [|c cs IH]; cbn; intros f o H; [inversion H; easy|]. unfold col_expr at 1 in H. destruct (lookup c f) as [v|] eqn:L; [|discriminate]. cbn in H.
  destruct (evals (map col_expr cs) f) as [o'|] eqn:E; [|discriminate]. inversion H; subst. destruct (IH f o' E) as (A & B). split; [cbn; f_equal; exact A|].
  intros d Hd. unfold lookup at 1. cbn. destruct (String.eqb_spec c d) as [->|NE]; [now rewrite L|]. destruct Hd as [E'|I]; [easy|]. now apply B.
Qed.
Lemma sel_all f : NoDup (names f) -> evals (map col_expr (names f)) f = Some f.
Proof.
  intros N. assert (forall l, incl l f -> evals (map col_expr (names l)) f = Some l) as G; [|apply G; easy].
  induction l as [|[n v] l IH]; intros I; cbn; [easy|]. unfold col_expr at 1. rewrite (lookup_some n f v N) by (apply I; now left). cbn.
  change (map fst l) with (names l). rewrite IH by (intros x Hx; apply I; now right). easy.
Qed.
Lemma select_out g : proper g -> select (map col_expr (names g)) g = Some g.
Proof. intros N. unfold select. rewrite sel_all by easy. unfold proper in N. apply distinct_iff in N. now rewrite N. Qed.
Lemma rename_proper g f o : rename_all g f = Some o -> proper o.
Proof. unfold rename_all. destruct (distinct _) eqn:D; [|easy]. intros H. inversion H; subst. now apply distinct_iff. Qed.
Lemma select_proper es f o : select es f = Some o -> proper o.
Proof. unfold select. destruct (evals es f); [|easy]. destruct (distinct _) eqn:D; [|easy]. intros H. inversion H; subst. now apply distinct_iff. Qed.
Lemma with_proper es f o : proper f -> with_columns es f = Some o -> proper o.
Proof. intros F. unfold with_columns. destruct (evals es f); [|easy]. destruct (distinct _) eqn:D; [|easy]. intros H. inversion H; subst. apply put_proper; [now apply distinct_iff|easy]. Qed.
Lemma apply_proper sql s f g : sql_ok sql -> proper f -> apply_df sql s f = Some g -> proper g.
Proof.
  intros Q F. destruct s; cbn; [apply select_proper|now apply with_proper|now apply Q|].
  unfold filter_by. destruct (e f) as [[|[n m] [|]]|]; try discriminate. intros H. inversion H; subst. unfold proper. now rewrite pick_names.
Qed.
Lemma reaches_proper sql ss f g : sql_ok sql -> reaches sql ss f g -> proper f -> proper g.
Proof. intros Q. induction 1; intros F; [easy| |]; [eauto using apply_proper|eauto using with_proper]. Qed.
Lemma fit_all_iff sql ss : forall f g, reaches sql ss f g <-> exists ts, fit_all sql ss f = Some (ts, g).
Proof.
  induction ss as [|s ss IH]; intros f g.
  - split; [inversion 1; subst; now exists []|]. intros (ts & H). inversion H; subst. constructor.
  - split.
    + intros H. inversion H as [|s' ss' f' g' h' A B|fs es ss' f' g' h' A B C]; subst.
      * apply IH in B. destruct B as (ts & E). exists (s' :: ts). cbn. now rewrite A, E.
      * apply IH in C. destruct C as (ts & E). exists (WithColumns es :: ts). cbn. now rewrite A, B, E.
    + intros (ts & H). cbn in H. destruct s as [fs|p].
      * destruct (fit fs f) as [es|] eqn:E1; [|discriminate]. destruct (with_columns es f) as [h|] eqn:E2; [|discriminate].
        destruct (fit_all sql ss h) as [[ts' k]|] eqn:E3; [|discriminate]. inversion H; subst. econstructor; [exact E1|exact E2|]. apply IH. now exists ts'.
      * destruct (apply_df sql p f) as [h|] eqn:E2; [|discriminate]. destruct (fit_all sql ss h) as [[ts' k]|] eqn:E3; [|discriminate].
        inversion H; subst. econstructor; [exact E2|]. apply IH. now exists ts'.
Qed.
Lemma fit_all_run sql ss : forall f ts g, fit_all sql ss f = Some (ts, g) -> run sql ts f = Some g.
Proof.
  induction ss as [|s ss IH]; cbn; intros f ts g H; [inversion H; easy|]. destruct s as [fs|p].
  - destruct (fit fs f) as [es|]; [|discriminate]. destruct (with_columns es f) as [h|] eqn:E2; [|discriminate].
    destruct (fit_all sql ss h) as [[ts' k]|] eqn:E3; [|discriminate]. inversion H; subst. cbn. rewrite E2. now apply IH.
  - destruct (apply_df sql p f) as [h|] eqn:E2; [|discriminate]. destruct (fit_all sql ss h) as [[ts' k]|] eqn:E3; [|discriminate].
    inversion H; subst. cbn. rewrite E2. now apply IH.
Qed.
Lemma cased_proper lower upper l u f d : proper f -> cased lower upper l u f = Some d -> proper d.
Proof. intros F. unfold cased. destruct l; [apply rename_proper|]. destruct u; [apply rename_proper|]. intros H. inversion H; subst. exact F. Qed.
Lemma named_eq (d d' : frame) : names d = names d' -> map snd d = map snd d' -> d = d'.
Proof.
  revert d'. induction d as [|[a x] d IH]; intros [|[b y] d'] A B; try easy. cbn in A, B. inversion A; inversion B; subst. f_equal. now apply IH.
Qed.
Lemma cased_iff lower upper l u f d : proper f -> cased lower upper l u f = Some d <-> recased lower upper l u f d.
Proof.
  intros F. unfold recased.
  assert (forall g, rename_all g f = Some d <-> names d = map g (names f) /\ map snd d = map snd f /\ proper d) as G.
  { intros g. unfold rename_all. assert (names (map (fun p => (g (fst p), snd p)) f) = map g (names f) /\ map snd (map (fun p => (g (fst p), snd p)) f) = map snd f) as [N S].
    { unfold names. rewrite !map_map. cbn. now split. }
    split.
    - destruct (distinct _) eqn:D; [|easy]. intros H. inversion H. subst d. rewrite N, S. repeat split. now apply distinct_iff.
    - intros (A & B & C). assert (d = map (fun p => (g (fst p), snd p)) f) as -> by (apply named_eq; congruence). unfold proper in C. apply distinct_iff in C. now rewrite C. }
  unfold cased. destruct l; [apply G|]. destruct u; [apply G|]. rewrite map_id. split; [intros H; inversion H; now subst|].
  intros (A & B & _). f_equal. symmetry. now apply named_eq.
Qed.
Lemma casing_thm lower upper df name t ex l u : proper df ->
  (forall b, new_blueprint lower upper df name t ex l u = Some b -> recased lower upper l u df (b_df b) /\ b_in b = names (b_df b)) /\
  ((exists b, new_blueprint lower upper df name t ex l u = Some b) <-> exists d, recased lower upper l u df d) /\
  ((exists d, recased lower upper l u df d) <-> NoDup (map (fun x => if l then lower x else if u then upper x else x) (names df))).
Proof.
  intros F. split; [|split].
  - intros b. unfold new_blueprint. destruct (cased _ _ _ _ _) as [d|] eqn:E; [|easy]. intros H. inversion H. cbn. split; [|easy]. now apply cased_iff.
  - split.
    + intros [b H]. unfold new_blueprint in H. destruct (cased _ _ _ _ _) as [d|] eqn:E; [|easy]. exists d. now apply cased_iff.
    + intros [d H]. apply cased_iff in H; [|easy]. unfold new_blueprint. rewrite H. eexists. reflexivity.
  - split.
    + intros (d & N & _ & P). unfold proper in P. now rewrite <- N.
    + intros H. exists (map (fun p => ((fun x => if l then lower x else if u then upper x else x) (fst p), snd p)) df). unfold recased, proper, names in *. rewrite !map_map in *. cbn in *.
      now split.
Qed.

Lemma fit_transform lower upper sql df name t ex l u steps : sql_ok sql -> proper df ->
  forall b, new_blueprint lower upper df name t ex l u = Some b ->
  exists d, recased lower upper l u df d /\
    (forall p, materialize sql (add b steps) = Some p ->
       exists g, reaches sql steps d g /\ transform lower upper sql p df = Some g /\ p_out p = names g /\ p_target p = t /\ p_in p = names d) /\
    (forall g, reaches sql steps d g -> exists p, materialize sql (add b steps) = Some p).
Proof.
  intros Q F b B. unfold new_blueprint in B. destruct (cased lower upper l u df) as [d|] eqn:C; [|discriminate]. exists d. split; [now apply cased_iff|].
  inversion B; subst b. clear B. assert (proper d) as D by (eapply cased_proper; eassumption). split.
  - unfold materialize, add. cbn. intros p H. destruct (fit_all sql steps d) as [[ts g]|] eqn:E; [|discriminate]. inversion H; subst p. clear H.
    assert (reaches sql steps d g) as RR by (apply fit_all_iff; now exists ts). exists g. split; [easy|]. split; [|easy].
    unfold transform, plan. cbn. rewrite C. rewrite (fit_all_run sql steps d ts g E). apply select_out. eapply reaches_proper; eassumption.
  - intros g RR. apply fit_all_iff in RR. destruct RR as (ts & E). unfold materialize, add. cbn. rewrite E. eauto.
Qed.
Lemma out_names lower upper sql p df g : p_ensure_out p = true -> transform lower upper sql p df = Some g -> names g = p_out p.
Proof.
  intros E. unfold transform, plan. destruct (p_ensure_in p && _); [easy|]. destruct (cased _ _ _ _ df); [|easy]. destruct (run sql (p_steps p) f) as [h|]; [|easy].
  rewrite E. unfold select. destruct (evals (map col_expr (p_out p)) h) as [o|] eqn:V; [|easy]. destruct (distinct _); [|easy]. intros H. inversion H; subst. now apply (sel_cols (p_out p) h).
Qed.
Lemma ensure_in_iff lower upper sql p df : p_ensure_in p = true ->
  ((exists c, In c (names df) /\ ~ In c (p_in p)) \/ (exists c, In c (p_in p) /\ ~ In c (names df)) -> transform lower upper sql p df = None) /\
  ((forall c, In c (names df) <-> In c (p_in p)) -> transform lower upper sql p df = transform lower upper sql (ensure_features_io p false (p_ensure_out p)) df).
Proof.
  intros E. unfold transform, plan, ensure_features_io. cbn. rewrite E. cbn [andb]. split.
  - intros H. assert (forallb (fun c => mem c (p_in p)) (names df) && forallb (fun c => mem c (names df)) (p_in p) = false) as ->; [|easy].
    apply andb_false_iff. destruct H as [(c & A & B)|(c & A & B)]; [left|right]; apply not_true_iff_false; intros H; apply B; rewrite forallb_forall in H; apply mem_iff; now apply H.
  - intros H. assert (forallb (fun c => mem c (p_in p)) (names df) = true) as ->. { apply forallb_forall. intros c I. apply mem_iff. now apply H. }
    assert (forallb (fun c => mem c (names df)) (p_in p) = true) as ->. { apply forallb_forall. intros c I. apply mem_iff. now apply H. } easy.
Qed.
Lemma ensure_in_cased : exists df b p, new_blueprint lowercase lowercase df "p" None [] true false = Some b /\
  materialize (fun _ _ => None) b = Some p /\ transform lowercase lowercase (fun _ _ => None) p df <> None /\
  transform lowercase lowercase (fun _ _ => None) (ensure_features_io p true true) df = None.
Proof. exists [("A"%string, [Null])]. do 2 eexists. split; [reflexivity|]. split; [reflexivity|]. split; [easy|reflexivity]. Qed.

(** ** The target. *)
Lemma target_kept sql ss t : forall f g, reaches sql ss f g -> Forall (protects t) ss -> lookup t g = lookup t f.
Proof.
  induction 1 as [f|s ss f g h A RR IH|fs es ss f g h A B RR IH]; intros P; [easy| |]; inversion P as [|? ? P1 P2]; subst; rewrite IH by easy.
  - destruct s; try easy. cbn in A. unfold with_columns in A. destruct (evals es f) as [o|] eqn:E; [|easy]. destruct (distinct _); [|easy]. inversion A; subst.
    rewrite put_lookup. specialize (P1 f o E). apply lookup_none in P1. now rewrite P1.
  - destruct P1 as (W & I & C). unfold with_columns in B. destruct (evals es f) as [o|] eqn:E; [|easy]. destruct (distinct _); [|easy]. inversion B; subst.
    rewrite put_lookup. unfold fit in A. destruct (cols fs) as [e|]; [|easy]. destruct (select [e] f); [|easy]. specialize (W _ _ _ A _ _ E).
    assert (~ In t (names o)) as NI. { intros H. apply W in H. apply filter_In in H. destruct H as (_ & H). apply negb_true_iff, mem_false in H. easy. }
    apply lookup_none in NI. now rewrite NI.
Qed.
Lemma separate_thm lower upper sql p df g t : transform lower upper sql p df = Some g -> proper g -> p_target p = Some t ->
  (In t (names g) -> exists x y v, transform_separate lower upper sql p df = Some (x, y) /\ names x = filter (fun c => negb (String.eqb c t)) (names g) /\
     (forall c, c <> t -> lookup c x = lookup c g) /\ lookup t g = Some v /\ y = [(t, v)]) /\
  (~ In t (names g) -> transform_separate lower upper sql p df = None).
Proof.
  intros T N P. unfold transform_separate. unfold transform in T. rewrite T, P. unfold select, all_exclude. cbn [evals].
  assert (names (filter (fun q => negb (mem (fst q) [t])) g ++ []) = filter (fun c => negb (String.eqb c t)) (names g)) as NN.
  { rewrite app_nil_r. unfold names. clear. induction g as [|[n v] g IH]; cbn; [easy|]. rewrite orb_false_r. destruct (String.eqb n t); cbn; [|f_equal]; exact IH. }
  rewrite NN. assert (distinct (filter (fun c => negb (String.eqb c t)) (names g)) = true) as -> by (apply distinct_iff; now apply NoDup_filter).
  split.
  - intros I. destruct (lookup t g) as [v|] eqn:L; [|apply lookup_none in L; easy]. unfold col_expr. rewrite L. cbn [option_map evals app names map fst distinct mem existsb negb andb]. do 3 eexists. split; [reflexivity|].
    split; [exact NN|]. split; [|easy]. intros c NE. rewrite app_nil_r. unfold lookup. clear - NE. induction g as [|[n w] g IH]; cbn; [easy|]. rewrite orb_false_r.
    destruct (String.eqb_spec n t) as [->|N2]; cbn; [destruct (String.eqb_spec t c); [now subst|exact IH]|]. destruct (String.eqb_spec n c); [easy|exact IH].
  - intros I. apply lookup_none in I. unfold col_expr. now rewrite I.
Qed.
(** The one-hot step drops the target although it never encodes it; lower-casing hides it. *)
Lemma one_hot_drops : exists df b p g, new_blueprint lowercase lowercase df "p" (Some "y"%string) [] false false = Some b /\
  materialize (fun _ _ => None) (one_hot_step b (fun _ cs => match cs with Some cs => Some (map col_expr cs) | None => None end) ["x"; "y"]%string true) = Some p /\
  transform lowercase lowercase (fun _ _ => None) p df = Some g /\ In "y"%string (names df) /\ ~ In "y"%string (names g).
Proof.
  exists [("x"%string, [Null]); ("y"%string, [Null]); ("z"%string, [Null])]. do 3 eexists. split; [reflexivity|]. split; [reflexivity|]. split; [reflexivity|].
  split; [right; now left|]. cbn. intros [H|H]; [discriminate|easy].
Qed.
Lemma lower_unprotected : forall fn, (forall f cs, fn f (Some cs) = Some (map (fun c => alias (fun g => option_map (fun v => [(c, map (fun _ => Null) v)]) (lookup c g)) c) cs)) ->
  writes_only fn /\ exists df b p g, new_blueprint lowercase lowercase df "p" (Some "Y"%string) [] true false = Some b /\
  materialize (fun _ _ => None) (add_fit b fn (all_exclude [])) = Some p /\ transform lowercase lowercase (fun _ _ => None) p df = Some g /\
  lookup "Y" df = Some [Num (Fin 1)] /\ lookup "y" g = Some [Null].
Proof.
  intros fn H. split.
  - intros f cs es E g o V. rewrite H in E. inversion E; subst. clear - V. revert o V. induction cs as [|c cs IH]; cbn; intros o V; [inversion V; easy|].
    unfold alias at 1 in V. destruct (lookup c g); [|discriminate]. cbn in V. destruct (evals _ g) as [o'|] eqn:E; [|discriminate]. inversion V; subst.
    intros x [<-|I]; [now left|]. right. now apply (IH o' eq_refl).
  - exists [("Y"%string, [Num (Fin 1)])]. do 2 eexists. exists [("y"%string, [Null])]. split; [reflexivity|]. unfold materialize, add_fit, add. cbn [b_steps b_df app fit_all fit cols func exclude b_exclude].
    cbn [select evals all_exclude filter mem existsb fst negb names map distinct andb app]. rewrite H. split; [reflexivity|]. split; [reflexivity|]. easy.
Qed.
Lemma cast_changes : exists df b p g, new_blueprint lowercase lowercase df "p" (Some "y"%string) [] false false = Some b /\
  materialize (fun _ _ => None) (cast_bools b (fun _ => true) (fun _ => Num (Fin 1))) = Some p /\
  transform lowercase lowercase (fun _ _ => None) p df = Some g /\ lookup "y" df = Some [BoolC true] /\ lookup "y" g = Some [Num (Fin 1)].
Proof. exists [("y"%string, [BoolC true])]. do 2 eexists. exists [("y"%string, [Num (Fin 1)])]. split; [reflexivity|]. split; [reflexivity|]. split; [reflexivity|]. easy. Qed.

(** ** Renaming. *)
Lemma evals_alias d : forall f o, evals (map (fun kv => alias (col_expr (fst kv)) (snd kv)) d) f = Some o ->
  names o = map snd d /\ (NoDup (map snd d) -> forall k v, In (k, v) d -> lookup v o = lookup k f).
Proof.
  induction d as [|[k v] d IH]; cbn; intros f o H; [inversion H; easy|]. unfold alias at 1, col_expr at 1 in H. destruct (lookup k f) as [w|] eqn:L; [|discriminate]. cbn in H.
  destruct (evals _ f) as [o'|] eqn:E; [|discriminate]. inversion H; subst. destruct (IH f o' E) as (A & B). split; [cbn; f_equal; exact A|].
  intros N k' v' I. inversion N as [|? ? N1 N2]; subst. unfold lookup at 1. cbn. destruct I as [I|I].
  - inversion I; subst. rewrite String.eqb_refl. now rewrite L.
  - destruct (String.eqb_spec v v') as [->|NE]; [exfalso; apply N1; change v' with (snd (k', v')); now apply in_map|]. now apply B.
Qed.
Lemma evals_alias_ok d : forall f, incl (map fst d) (names f) -> exists o, evals (map (fun kv => alias (col_expr (fst kv)) (snd kv)) d) f = Some o.
Proof.
  induction d as [|[k v] d IH]; cbn; intros f I; [eauto|]. destruct (IH f) as (o & E). { intros x Hx. apply I. now right. }
  unfold alias at 1, col_expr at 1. destruct (lookup k f) as [w|] eqn:L; [cbn; rewrite E; eauto|]. apply lookup_none in L. exfalso. apply L, I. now left.
Qed.
Lemma lookup_filter c (q : string -> bool) f : lookup c (filter (fun p => q (fst p)) f) = if q c then lookup c f else None.
Proof.
  unfold lookup. induction f as [|[n v] f IH]; cbn; [now destruct (q c)|]. destruct (q n) eqn:Q; cbn.
  - destruct (String.eqb_spec n c) as [->|NE]; [now rewrite Q|exact IH].
  - rewrite IH. destruct (String.eqb_spec n c) as [->|NE]; [now rewrite Q|easy].
Qed.
Lemma rename_thm sql b d f : proper f -> b_df b = f -> b_steps b = [] -> incl (map fst d) (names f) -> NoDup (map snd d) ->
  (forall v, In v (map snd d) -> ~ In v (names f)) ->
  exists p g, materialize sql (rename b d) = Some p /\ reaches sql (b_steps (rename b d)) f g /\
    (forall k v, In (k, v) d -> lookup v g = lookup k f) /\
    (forall c, In c (names f) -> ~ In c (map fst d) -> lookup c g = lookup c f) /\
    (forall c, In c (names g) <-> In c (map snd d) \/ (In c (names f) /\ ~ In c (map fst d))).
Proof.
  intros N BD BS I ND FR. destruct (evals_alias_ok d f I) as (o & E). destruct (evals_alias d f o E) as (NO & LO). specialize (LO ND).
  assert (with_columns (map (fun kv => alias (col_expr (fst kv)) (snd kv)) d) f = Some (put o f)) as W.
  { unfold with_columns. rewrite E, NO. apply distinct_iff in ND. now rewrite ND. }
  assert (proper (put o f)) as P. { apply put_proper; [unfold proper; now rewrite NO|easy]. }
  set (g := filter (fun p => negb (mem (fst p) (map fst d))) (put o f)).
  assert (names g = filter (fun c => negb (mem c (map fst d))) (names (put o f))) as NG.
  { unfold g, names. clear. induction (put o f) as [|[n v] q IH]; cbn; [easy|]. destruct (negb (mem n (map fst d))); cbn; now rewrite IH. }
  assert (select [all_exclude (map fst d)] (put o f) = Some g) as SE.
  { unfold select, all_exclude. cbn. rewrite app_nil_r. fold g. rewrite NG. assert (NoDup (filter (fun c => negb (mem c (map fst d))) (names (put o f)))) as D by now apply NoDup_filter.
    apply distinct_iff in D. now rewrite D. }
  assert (reaches sql (b_steps (rename b d)) f g) as RR.
  { unfold rename, drop, add. cbn. rewrite BS. cbn. econstructor; [exact W|]. econstructor; [exact SE|constructor]. }
  apply fit_all_iff in RR as R2. destruct R2 as (ts & FA).
  assert (exists p, materialize sql (rename b d) = Some p) as (p & MP). { unfold materialize. rewrite <- BD in FA. unfold rename, drop, add in *. cbn in *. rewrite FA. eauto. }
  exists p, g. split; [exact MP|]. split; [exact RR|]. split; [|split].
  - intros k v H. assert (In v (map snd d)) as Hv by (change v with (snd (k, v)); now apply in_map). unfold g. rewrite (lookup_filter _ (fun c => negb (mem c (map fst d)))), put_lookup.
    assert (mem v (map fst d) = false) as ->. { apply mem_false. intros H'. apply (FR v Hv). now apply I. } cbn. rewrite (LO k v H).
    destruct (lookup k f) eqn:L; [easy|]. apply lookup_none. now apply FR.
  - intros c Hc Hn. unfold g. rewrite (lookup_filter _ (fun c => negb (mem c (map fst d)))), put_lookup. apply mem_false in Hn. rewrite Hn. cbn.
    assert (lookup c o = None) as ->; [|easy]. apply lookup_none. rewrite NO. intros H. now apply (FR c H).
  - intros c. rewrite NG, filter_In, put_names, in_app_iff, filter_In, NO, !negb_true_iff, !mem_false. split.
    + intros ([H|(H & _)] & K); [now right|now left].
    + intros [H|(H & K)]; [|now split; [left|]]. split; [right; split; [easy|now apply FR]|]. intros K. apply (FR c H). now apply I.
Qed.
Lemma rename_swap : exists df b p g, new_blueprint lowercase lowercase df "p" None [] false false = Some b /\
  materialize (fun _ _ => None) (rename b [("a", "b"); ("b", "a")]%string) = Some p /\ transform lowercase lowercase (fun _ _ => None) p df = Some g /\
  names df = ["a"; "b"; "c"]%string /\ names g = ["c"%string].
Proof. exists [("a"%string, [Null]); ("b"%string, [Null]); ("c"%string, [Null])]. do 3 eexists. repeat split; reflexivity. Qed.

(** ** JSON. *)
Lemma traverse_map {A B C} (g : B -> option C) (h : A -> B) (k : A -> C) l : (forall a, In a l -> g (h a) = Some (k a)) -> traverse g (map h l) = Some (map k l).
Proof. induction l as [|a l IH]; cbn; intros H; [easy|]. rewrite H by now left. rewrite IH; [easy|]. intros; apply H; now right. Qed.
Lemma step_json ser deser s : (forall e, In e (step_exprs s) -> deser (ser e) = Some e) -> step_from_json deser (step_to_json ser s) = Some s.
Proof.
  destruct s; cbn; intros H.
  - unfold step_from_json. cbn. rewrite (traverse_map _ _ (fun e => e)) by (intros; cbn; now apply H). cbn. now rewrite map_id.
  - unfold step_from_json. cbn. rewrite (traverse_map _ _ (fun e => e)) by (intros; cbn; now apply H). cbn. now rewrite map_id.
  - reflexivity.
  - unfold step_from_json. cbn. rewrite H by now left. reflexivity.
Qed.
Lemma json_thm ser deser p : (forall s e, In s (p_steps p) -> In e (step_exprs s) -> deser (ser e) = Some e) -> from_dict deser (to_dict ser p) = Some p.
Proof.
  intros H. unfold from_dict, to_dict. cbn. assert (forall l, traverse as_str (map JStr l) = Some l) as AS.
  { intros l. rewrite (traverse_map _ _ (fun s => s)) by easy. now rewrite map_id. }
  assert (as_opt_str (match p_target p with Some t => JStr t | None => JNull end) = Some (p_target p)) as AT by (now destruct (p_target p)).
  rewrite AT. cbn. rewrite !AS. cbn. rewrite (traverse_map _ _ (fun s => s)). 2:{ intros s I. apply step_json. intros e. now apply H. }
  cbn. rewrite map_id. now destruct p.
Qed.
Lemma json_old deser n t i o ts ei eo p : from_dict deser (JObj [("name"%string, n); ("target"%string, t); ("feature_names_in_"%string, i); ("feature_names_out_"%string, o);
   ("transforms"%string, ts); ("ensure_features_in"%string, ei); ("ensure_features_out"%string, eo)]) = Some p -> p_lower p = false /\ p_upper p = false.
Proof.
  unfold from_dict, flag. cbn. repeat (match goal with |- context [obind ?x _] => destruct x; cbn; [|easy] end). intros H. now inversion H.
Qed.

(** ** Batches. *)
Lemma vs_names f g : names f = names g -> names (vstack f g) = names f.
Proof.
  revert g. induction f as [|[n v] f IH]; intros [|[m w] g] H; cbn in *; try easy. inversion H. f_equal. now apply IH.
Qed.
Lemma vs_app f f' g g' : length f = length g -> vstack (f ++ f') (g ++ g') = vstack f g ++ vstack f' g'.
Proof. revert g. induction f as [|p f IH]; intros [|q g] H; cbn in *; try easy. inversion H. f_equal. now apply IH. Qed.
Lemma names_len f g : names f = names g -> length f = length g.
Proof. intros H. apply (f_equal (@length _)) in H. unfold names in H. now rewrite !map_length in H. Qed.
Lemma names_app f g : names (f ++ g) = names f ++ names g. Proof. apply map_app. Qed.
Lemma vs_lookup c f g : names f = names g -> lookup c (vstack f g) = match lookup c f, lookup c g with Some v, Some w => Some (v ++ w) | _, _ => None end.
Proof.
  revert g. unfold lookup. induction f as [|[n v] f IH]; intros [|[m w] g] H; cbn in *; try easy. inversion H; subst. destruct (String.eqb m c); [easy|now apply IH].
Qed.
Lemma lookup_same c f g : names f = names g -> (lookup c f = None <-> lookup c g = None).
Proof. intros H. now rewrite !lookup_none, H. Qed.
Lemma evals_rw es : Forall rowwise es -> forall f g h k o o', names f = names g -> height h f -> height k g -> evals es f = Some o -> evals es g = Some o' ->
  height h o /\ height k o' /\ names o = names o' /\ evals es (vstack f g) = Some (vstack o o').
Proof.
  induction 1 as [|e es E ES IH]; intros f g h k o o' N HF HG V V'; cbn in *; [inversion V; inversion V'; subst; split; [constructor|split; [constructor|easy]]|].
  destruct (e f) as [o1|] eqn:E1; [|discriminate]. destruct (evals es f) as [o2|] eqn:E2; [|discriminate]. inversion V; subst.
  destruct (e g) as [o1'|] eqn:E1'; [|discriminate]. destruct (evals es g) as [o2'|] eqn:E2'; [|discriminate]. inversion V'; subst.
  destruct (E f g h k o1 o1' N HF HG E1 E1') as (A1 & B1 & C1 & D1). destruct (IH f g h k o2 o2' N HF HG E2 E2') as (A2 & B2 & C2 & D2).
  split; [apply Forall_app; easy|]. split; [apply Forall_app; easy|]. rewrite D1, D2. split; [rewrite !names_app; now f_equal|].
  rewrite vs_app; [easy|now apply names_len].
Qed.
Lemma vs_put o f o' f' : names o = names o' -> names f = names f' -> vstack (put o f) (put o' f') = put (vstack o o') (vstack f f').
Proof.
  intros NO NF. unfold put. rewrite vs_app by (rewrite !map_length; now apply names_len). f_equal.
  - assert (forall q q', names q = names q' -> vstack (map (fun p => match lookup (fst p) o with Some v => (fst p, v) | None => p end) q)
        (map (fun p => match lookup (fst p) o' with Some v => (fst p, v) | None => p end) q') =
      map (fun p => match lookup (fst p) (vstack o o') with Some v => (fst p, v) | None => p end) (vstack q q')) as G; [|now apply G].
    induction q as [|[n v] q IH]; intros [|[m w] q'] H; cbn in *; try easy. inversion H; subst. f_equal; [|now apply IH]. rewrite vs_lookup by easy.
    pose proof (lookup_same m o o' NO) as LS. destruct (lookup m o), (lookup m o'); cbn; try easy; [now destruct LS as (_ & LS); specialize (LS eq_refl)|now destruct LS as (LS & _); specialize (LS eq_refl)].
  - rewrite vs_names by easy. rewrite <- NF. clear NF. revert o' NO. induction o as [|[n v] o IH]; intros [|[m w] o'] H; cbn in *; try easy. inversion H; subst.
    destruct (negb (mem m (names f))); cbn; [f_equal|]; now apply IH.
Qed.
Lemma put_height h o f : height h o -> height h f -> height h (put o f).
Proof.
  intros O F. unfold put, height in *. apply Forall_app. rewrite !Forall_forall in *. split; intros p I.
  - apply in_map_iff in I. destruct I as ([n v] & <- & I). cbn. destruct (lookup n o) eqn:L; [apply lookup_in in L; now apply (O _ L)|now apply (F _ I)].
  - apply filter_In in I. now apply O.
Qed.
Lemma pick_app m m' c c' : length m = length c -> pick (m ++ m') (c ++ c') = pick m c ++ pick m' c'.
Proof.
  unfold pick. revert c. induction m as [|a m IH]; intros [|b c] H; cbn in *; try easy. inversion H. destruct a as [| | |[]]; cbn; rewrite IH; easy.
Qed.
Lemma pick_len m c d : length c = length d -> length (pick m c) = length (pick m d).
Proof. unfold pick. revert c d. induction m as [|a m IH]; intros [|b c] [|e d] H; cbn in *; try easy. inversion H. destruct a as [| | |[]]; cbn; rewrite (IH c d); easy. Qed.
Lemma step_rw sql s : rowwise_step s -> forall f g h k o o', names f = names g -> height h f -> height k g -> apply_df sql s f = Some o -> apply_df sql s g = Some o' ->
  names o = names o' /\ apply_df sql s (vstack f g) = Some (vstack o o') /\ (exists h', height h' o) /\ (exists k', height k' o').
Proof.
  intros RS f g h k o o' N HF HG A B. destruct s as [es|es|q|e]; cbn in *; [| |easy|].
  - unfold select in *. destruct (evals es f) as [p|] eqn:E; [|easy]. destruct (distinct (names p)) eqn:D; [|easy]. inversion A; subst p.
    destruct (evals es g) as [p'|] eqn:E'; [|easy]. destruct (evals_rw es RS f g h k o p' N HF HG E E') as (H1 & H2 & NN & V). rewrite <- NN, D in B. inversion B; subst p'.
    split; [easy|]. rewrite V, vs_names, D by easy. eauto.
  - unfold with_columns in *. destruct (evals es f) as [p|] eqn:E; [|easy]. destruct (distinct (names p)) eqn:D; [|easy]. inversion A; subst.
    destruct (evals es g) as [p'|] eqn:E'; [|easy]. destruct (evals_rw es RS f g h k p p' N HF HG E E') as (H1 & H2 & NN & V). rewrite <- NN, D in B. inversion B; subst.
    split; [rewrite !put_names; now rewrite N, NN|]. rewrite V, vs_names, D by easy. rewrite vs_put by easy. split; [easy|]. split; [exists h|exists k]; now apply put_height.
  - inversion RS as [|? ? RE _]; subst. unfold filter_by in *. destruct (e f) as [[|[n m] [|]]|] eqn:E; try discriminate. inversion A; subst. clear A.
    destruct (e g) as [[|[n' m'] [|]]|] eqn:E'; try discriminate. inversion B; subst. clear B.
    destruct (RE f g h k _ _ N HF HG E E') as (H1 & H2 & NN & V). split; [now rewrite !pick_names|]. rewrite V. cbn.
    inversion H1 as [|? ? L1 _]; subst. inversion H2 as [|? ? L2 _]; subst. cbn in *. split.
    + f_equal. clear - N HF HG. revert g N HG. induction f as [|[a v] f IH]; intros [|[b w] g] N HG; cbn in *; try easy. inversion HF; inversion HG; inversion N; subst. cbn in *.
      f_equal; [f_equal; apply pick_app; congruence|now apply IH].
    + assert (forall (mm : PipeModel.column) (ff : frame) hh, height hh ff -> exists h', height h' (map (fun p => (fst p, pick mm (snd p))) ff)) as G; [|split; eapply G; eassumption].
      intros mm ff hh HH. exists (length (pick mm (repeat Null hh))). unfold height in *. rewrite Forall_forall in *. intros p I. apply in_map_iff in I. destruct I as ([a v] & <- & I).
      cbn. apply pick_len. rewrite repeat_length. now apply (HH _ I).
Qed.
Lemma run_rw sql ss : Forall rowwise_step ss -> forall f g h k o o', names f = names g -> height h f -> height k g -> run sql ss f = Some o -> run sql ss g = Some o' ->
  names o = names o' /\ run sql ss (vstack f g) = Some (vstack o o').
Proof.
  induction 1 as [|s ss S SS IH]; cbn; intros f g h k o o' N HF HG A B; [inversion A; inversion B; now subst|].
  destruct (apply_df sql s f) as [p|] eqn:E; [|easy]. destruct (apply_df sql s g) as [p'|] eqn:E'; [|easy].
  destruct (step_rw sql s S f g h k p p' N HF HG E E') as (N' & V & (h' & H1) & (k' & H2)). rewrite V. eapply IH; eassumption.
Qed.
Lemma vs_map q f g : vstack (map (fun p => (q (fst p), snd p)) f) (map (fun p => (q (fst p), snd p)) g) = map (fun p => (q (fst p), snd p)) (vstack f g).
Proof. revert g. induction f as [|[n v] f IH]; intros [|[m w] g]; cbn in *; try easy. f_equal. apply IH. Qed.
Lemma cased_vs lower upper l u f g o o' h k : names f = names g -> height h f -> height k g -> cased lower upper l u f = Some o -> cased lower upper l u g = Some o' ->
  names o = names o' /\ height h o /\ height k o' /\ cased lower upper l u (vstack f g) = Some (vstack o o').
Proof.
  intros N HF HG. assert (forall q, rename_all q f = Some o -> rename_all q g = Some o' -> names o = names o' /\ height h o /\ height k o' /\ rename_all q (vstack f g) = Some (vstack o o')) as G.
  { intros q A B. unfold rename_all in *. destruct (distinct (names (map (fun p => (q (fst p), snd p)) f))) eqn:D; [|easy]. inversion A; subst.
    assert (forall r, names (map (fun p : string * PipeModel.column => (q (fst p), snd p)) r) = map q (names r)) as NM by (intros r; unfold names; now rewrite !map_map).
    rewrite NM, <- N, <- NM, D in B. inversion B; subst. split; [rewrite !NM; now f_equal|]. split; [|split].
    - unfold height in *. rewrite Forall_map. exact HF.
    - unfold height in *. rewrite Forall_map. exact HG.
    - rewrite <- vs_map, vs_names by (rewrite !NM; now f_equal). now rewrite D. }
  unfold cased. destruct l; [apply G|]. destruct u; [apply G|]. intros A B. inversion A; inversion B; subst. easy.
Qed.
Lemma col_rw c : rowwise (col_expr c).
Proof.
  intros f g h k o o' N HF HG E E'. unfold col_expr in *. destruct (lookup c f) as [v|] eqn:L; [|easy]. destruct (lookup c g) as [w|] eqn:L'; [|easy].
  cbn in *. inversion E; inversion E'; subst. rewrite vs_lookup, L, L' by easy. unfold height in *. rewrite Forall_forall in HF, HG. apply lookup_in in L, L'.
  split; [constructor; [now apply (HF _ L)|constructor]|]. split; [constructor; [now apply (HG _ L')|constructor]|]. easy.
Qed.
Lemma exclude_rw cs : rowwise (all_exclude cs).
Proof.
  intros f g h k o o' N HF HG E E'. unfold all_exclude in *. inversion E; inversion E'; subst. unfold height in *. rewrite !Forall_forall in *.
  split; [intros p I; apply filter_In in I; now apply HF|]. split; [intros p I; apply filter_In in I; now apply HG|]. split.
  - clear - N. revert g N. induction f as [|[a v] f IH]; intros [|[b w] g] N; cbn in *; try easy. inversion N; subst. destruct (negb (mem b cs)); cbn; [f_equal|]; now apply IH.
  - f_equal. clear - N. revert g N. induction f as [|[a v] f IH]; intros [|[b w] g] N; cbn in *; try easy. inversion N; subst. destruct (negb (mem b cs)); cbn; [f_equal|]; now apply IH.
Qed.
Lemma alias_rw e n : rowwise e -> rowwise (alias e n).
Proof.
  intros RE f g h k o o' N HF HG E E'. unfold alias in *. destruct (e f) as [[|[m v] [|]]|] eqn:V; try discriminate. inversion E; subst.
  destruct (e g) as [[|[m' w] [|]]|] eqn:V'; try discriminate. inversion E'; subst.
  destruct (RE f g h k _ _ N HF HG V V') as (H1 & H2 & A & C). rewrite C. cbn. inversion H1. inversion H2. split; [now constructor|]. split; [now constructor|]. easy.
Qed.
Lemma batch_thm lower upper sql p f g h k o o' : Forall rowwise_step (p_steps p) -> names f = names g -> height h f -> height k g ->
  transform lower upper sql p f = Some o -> transform lower upper sql p g = Some o' ->
  transform lower upper sql p (vstack f g) = Some (vstack o o').
Proof.
  intros RS N HF HG A B. unfold transform, plan in *. rewrite vs_names by easy. rewrite <- N in B.
  destruct (p_ensure_in p && _); [easy|]. destruct (cased lower upper (p_lower p) (p_upper p) f) as [d|] eqn:E1; [|easy].
  destruct (cased lower upper (p_lower p) (p_upper p) g) as [d'|] eqn:E2; [|easy].
  destruct (cased_vs _ _ _ _ _ _ _ _ _ _ N HF HG E1 E2) as (N2 & H1 & H2 & ->).
  destruct (run sql (p_steps p) d) as [r|] eqn:R1; [|easy]. destruct (run sql (p_steps p) d') as [r'|] eqn:R2; [|easy].
  destruct (p_ensure_out p).
  - destruct (run_rw sql (p_steps p ++ [Select (map col_expr (p_out p))])) with (f := d) (g := d') (h := h) (k := k) (o := o) (o' := o') as (_ & V); try easy.
    + apply Forall_app. split; [easy|]. constructor; [|constructor]. cbn. apply Forall_forall. intros e I. apply in_map_iff in I. destruct I as (c & <- & _). apply col_rw.
    + clear - R1 A. revert d R1. induction (p_steps p) as [|s ss IH]; cbn; intros d R1; [inversion R1; subst; now rewrite A|]. destruct (apply_df sql s d); [now apply IH|easy].
    + clear - R2 B. revert d' R2. induction (p_steps p) as [|s ss IH]; cbn; intros d R2; [inversion R2; subst; now rewrite B|]. destruct (apply_df sql s d); [now apply IH|easy].
    + destruct (run_rw sql (p_steps p) RS d d' h k r r' N2 H1 H2 R1 R2) as (_ & ->).
      destruct (run_rw sql (p_steps p) RS d d' h k r r' N2 H1 H2 R1 R2) as (_ & RV).
      clear - RV V. revert RV V. generalize (vstack d d'). induction (p_steps p) as [|s ss IH]; cbn; intros dd RV V; [inversion RV; subst|].
      * now destruct (select _ (vstack r r')).
      * destruct (apply_df sql s dd); [now apply (IH f)|easy].
  - inversion A; inversion B; subst. now destruct (run_rw sql (p_steps p) RS d d' h k o o' N2 H1 H2 R1 R2) as (_ & ->).
Qed.

Lemma demo_pipe : let df := [("A"%string, [Num (Fin 1); Null]); ("y"%string, [BoolC true; BoolC false])] in
  exists b p, new_blueprint lowercase lowercase df "p" (Some "y"%string) [] true false = Some b /\ proper df /\ sql_ok (fun _ _ => None) /\
    materialize (fun _ _ => None) (add b [Fit {| func := fun f cs => option_map (map col_expr) cs; cols := Some (all_exclude []); exclude := b_exclude b |};
      Plain (Filter (col_expr "y"))]) = Some p /\
    transform lowercase lowercase (fun _ _ => None) p df = Some [("a"%string, [Num (Fin 1)]); ("y"%string, [BoolC true])] /\
    Forall rowwise_step (p_steps p) /\ (forall deser ser, (forall e, deser (ser e) = Some e) -> from_dict deser (to_dict ser p) = Some p).
Proof.
  cbv zeta. do 2 eexists. split; [reflexivity|]. split; [apply distinct_iff; reflexivity|]. split; [easy|]. split; [reflexivity|]. split; [reflexivity|]. split.
  - cbn [p_steps]. constructor; [|constructor; [|constructor]].
    + unfold rowwise_step, step_exprs. apply Forall_forall. intros e I. apply in_map_iff in I. destruct I as (c & <- & _). apply col_rw.
    + constructor; [apply col_rw|constructor].
  - intros deser ser H. apply json_thm. intros. apply H.
Qed.
