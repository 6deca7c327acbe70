(** The stemmer steps neither panic nor loop, keep the text valid UTF-8 and never lengthen it. *)
From Coq Require Import String Ascii Bool List ZArith Lia ZifyBool.
From Verif Require Import StrModel SnowballSpec SnowballModel SnowballProofs SnowballAmong.
Import ListNotations.
Open Scope Z_scope.

Definition wp {A} (m : M A) (Q : A -> env -> Prop) (e : env) : Prop :=
  match m e with Done a e' => Q a e' | _ => False end.
Notation mk t c br kt := (mkEnv t%list c (zlen t%list) 0 br kt).
Definition Good (n : Z) {A} (_ : A) (e : env) : Prop :=
  exists t c br kt, e = mk t c br kt /\ utf8 t /\ zlen t <= n.

Lemma W_done {A} (m : M A) (Q : A -> env -> Prop) e a e' : m e = Done a e' -> Q a e' -> wp m Q e.
Proof. intros H HQ. unfold wp. now rewrite H. Qed.
Lemma W_bind {A B} (m : M A) (k : A -> M B) Q e : wp m (fun a e' => wp (k a) Q e') e -> wp (bind m k) Q e.
Proof. unfold wp, bind. destruct (m e); auto. Qed.
Lemma W_step {A B} (m : M A) (k : A -> M B) Q e a e' : m e = Done a e' -> wp (k a) Q e' -> wp (bind m k) Q e.
Proof. intros H HQ. apply W_bind. eapply W_done; eauto. Qed.
Lemma W_assoc {A B C} (m : M A) (f : A -> M B) (g : B -> M C) Q e :
  wp (bind m (fun a => bind (f a) g)) Q e -> wp (bind (bind m f) g) Q e.
Proof. unfold wp. now rewrite bind_assoc. Qed.
Lemma W_conseq {A} (m : M A) (P Q : A -> env -> Prop) e : wp m P e -> (forall a e', P a e' -> Q a e') -> wp m Q e.
Proof. unfold wp. destruct (m e); auto. Qed.
Lemma W_ret {A} (a : A) (Q : A -> env -> Prop) e : Q a e -> wp (ret a) Q e.
Proof. auto. Qed.
Lemma W_bind_ret {A B} (a : A) (k : A -> M B) Q e : wp (k a) Q e -> wp (bind (ret a) k) Q e.
Proof. auto. Qed.
Lemma W_get {B} (k : env -> M B) Q e : wp (k e) Q e -> wp (bind get k) Q e.
Proof. auto. Qed.
Section Ops.
Context {B : Type} (Q : B -> env -> Prop) (t : bytes) (c l b br kt : Z).
Let e := mkEnv t c l b br kt.
Lemma W_get_cursor (k : Z -> M B) : wp (k c) Q e -> wp (bind get_cursor k) Q e. Proof. auto. Qed.
Lemma W_get_limit (k : Z -> M B) : wp (k l) Q e -> wp (bind get_limit k) Q e. Proof. auto. Qed.
Lemma W_get_lb (k : Z -> M B) : wp (k b) Q e -> wp (bind get_lb k) Q e. Proof. auto. Qed.
Lemma W_set_cursor x (k : unit -> M B) : wp (k tt) Q (mkEnv t x l b br kt) -> wp (bind (set_cursor x) k) Q e. Proof. auto. Qed.
Lemma W_set_lb x (k : unit -> M B) : wp (k tt) Q (mkEnv t c l x br kt) -> wp (bind (set_lb x) k) Q e. Proof. auto. Qed.
Lemma W_mark_bra (k : unit -> M B) : wp (k tt) Q (mkEnv t c l b c kt) -> wp (bind mark_bra k) Q e. Proof. auto. Qed.
Lemma W_mark_ket (k : unit -> M B) : wp (k tt) Q (mkEnv t c l b br c) -> wp (bind mark_ket k) Q e. Proof. auto. Qed.
Lemma W_from_limit (k : Z -> M B) : wp (k (l - c)) Q e -> wp (bind from_limit k) Q e. Proof. auto. Qed.
Lemma W_restore v (k : unit -> M B) : wp (k tt) Q (mkEnv t (l - v) l b br kt) -> wp (bind (restore v) k) Q e. Proof. auto. Qed.
Lemma W_r_R p (k : bool -> M B) : wp (k (p <=? c)) Q e -> wp (bind (r_R p) k) Q e. Proof. auto. Qed.
End Ops.

Ltac W1 := lazymatch goal with
  | |- wp (bind (bind _ _) _) _ _ => apply W_assoc
  | |- wp (bind (ret _) _) _ _ => apply W_bind_ret
  | |- wp (bind get _) _ _ => apply W_get; cbn [cur cursor limit lb bra ket]
  | |- wp (bind get_cursor _) _ _ => apply W_get_cursor
  | |- wp (bind get_limit _) _ _ => apply W_get_limit
  | |- wp (bind get_lb _) _ _ => apply W_get_lb
  | |- wp (bind (set_cursor _) _) _ _ => apply W_set_cursor
  | |- wp (bind (set_lb _) _) _ _ => apply W_set_lb
  | |- wp (bind mark_bra _) _ _ => apply W_mark_bra
  | |- wp (bind mark_ket _) _ _ => apply W_mark_ket
  | |- wp (bind from_limit _) _ _ => apply W_from_limit
  | |- wp (bind (restore _) _) _ _ => apply W_restore
  | |- wp (bind (r_R _) _) _ _ => apply W_r_R
  | |- wp (ret _) _ _ => apply W_ret
  end.
Ltac W := unfold andthen; repeat (W1; cbv beta).

Lemma good_now n t c br kt (b : bool) : utf8 t -> zlen t <= n -> Good n b (mk t c br kt).
Proof. intros U L. exists t, c, br, kt. auto. Qed.
Ltac good := apply good_now; auto; lia.

Lemma W_bwd {B} m (k : bool -> M B) Q t c br kt : bwd_nav m -> bnd t c ->
  (forall b c', bnd t c' -> (b = false -> c' = c) -> (b = true -> c' < c) -> wp (k b) Q (mk t c' br kt)) ->
  wp (bind m k) Q (mk t c br kt).
Proof. intros N Bc K. destruct (N t c br kt Bc) as (b & c' & E & B' & H1 & H2). eapply W_step; eauto. Qed.

Lemma W_eq_s_b {B} x (k : bool -> M B) Q t c br kt : utf8 t -> bnd t c -> 0 <= x < 128 ->
  (forall b : bool, (b = true -> bnd t (c - 1)) -> wp (k b) Q (mk t (if b then c - 1 else c) br kt)) ->
  wp (bind (eq_s_b [x]) k) Q (mk t c br kt).
Proof. intros U Bc Hx K. destruct (eq_s_b_run t c br kt x U Bc Hx) as (b & E & H). eapply W_step; eauto. Qed.

Lemma W_eq_s {B} x (k : bool -> M B) Q t c br kt : utf8 t -> bnd t c -> 0 <= x < 128 ->
  (forall b : bool, (b = true -> c < zlen t /\ nth_error t (Z.to_nat c) = Some x /\ bnd t (c + 1)) ->
     wp (k b) Q (mk t (if b then c + 1 else c) br kt)) ->
  wp (bind (eq_s [x]) k) Q (mk t c br kt).
Proof. intros U Bc Hx K. destruct (eq_s_run t c br kt x U Bc Hx) as (b & E & H). eapply W_step; eauto. Qed.

Lemma W_slice s (Q : bool -> env -> Prop) t c b k : utf8 t -> utf8 s -> bnd t b -> bnd t k -> b <= k ->
  (forall t' c', t' = firstn (Z.to_nat b) t ++ s ++ skipn (Z.to_nat k) t ->
     c' = (if k <=? c then c + (zlen s - (k - b)) else if b <? c then b else c) ->
     utf8 t' -> zlen t' = zlen t + zlen s - (k - b) -> Q true (mk t' c' b k)) ->
  wp (slice_from s) Q (mk t c b k).
Proof.
  intros U Us Bb Bk L H. destruct (slice_from_run t c b k s U Us Bb Bk L) as (E & U' & Z'). cbv zeta in *.
  eapply W_done; [exact E|]. eapply H; eauto.
Qed.
Lemma W_slice_bind {B} s (K : bool -> M B) Q t c b k : utf8 t -> utf8 s -> bnd t b -> bnd t k -> b <= k ->
  (forall t' c', t' = firstn (Z.to_nat b) t ++ s ++ skipn (Z.to_nat k) t ->
     c' = (if k <=? c then c + (zlen s - (k - b)) else if b <? c then b else c) ->
     utf8 t' -> zlen t' = zlen t + zlen s - (k - b) -> wp (K true) Q (mk t' c' b k)) ->
  wp (bind (slice_from s) K) Q (mk t c b k).
Proof. intros U Us Bb Bk L H. apply W_bind. apply W_slice; auto. Qed.

Lemma W_among_b {B} tab (k : Z -> M B) Q t c br kt : table_check bkey tab = true -> utf8 t -> bnd t c ->
  wp (k 0) Q (mk t c br kt) ->
  (forall w, In w tab -> bnd t (c - zlen (a_str w)) -> wp (k (a_res w)) Q (mk t (c - zlen (a_str w)) br kt)) ->
  wp (bind (find_among_b tab) k) Q (mk t c br kt).
Proof.
  intros T U Bc K0 K1. destruct (find_among_b_run tab t c br kt T U Bc) as [E|(w & I & E & Bw & _)].
  - eapply W_step; eauto.
  - eapply W_step; eauto.
Qed.
Lemma W_among_f {B} tab (k : Z -> M B) Q t c br kt : table_check fkey tab = true -> utf8 t -> bnd t c ->
  wp (k 0) Q (mk t c br kt) ->
  (forall w, In w tab -> bnd t (c + zlen (a_str w)) -> wp (k (a_res w)) Q (mk t (c + zlen (a_str w)) br kt)) ->
  wp (bind (find_among tab) k) Q (mk t c br kt).
Proof.
  intros T U Bc K0 K1. destruct (find_among_run tab t c br kt T U Bc) as [E|(w & I & E & Bw & _)].
  - eapply W_step; eauto.
  - eapply W_step; eauto.
Qed.

Lemma W_prev {B} (k : unit -> M B) Q t c br kt : bnd t c -> 0 < c ->
  (forall c', 0 <= c' < c -> bnd t c' -> wp (k tt) Q (mk t c' br kt)) -> wp (bind previous_char k) Q (mk t c br kt).
Proof. intros Bc L K. destruct (previous_char_run t c br kt Bc L) as (c' & E & H & B' & _). eapply W_step; eauto. Qed.
Lemma W_next {B} (k : unit -> M B) Q t c br kt : bnd t c -> c < zlen t ->
  (forall c', c < c' -> bnd t c' -> wp (k tt) Q (mk t c' br kt)) -> wp (bind next_char k) Q (mk t c br kt).
Proof. intros Bc L K. destruct (next_char_run t c br kt Bc L) as (c' & E & H & B' & _). eapply W_step; eauto. Qed.

(** The search loops. *)
Lemma goto_bwd_run test : bwd_nav test -> forall fuel t c br kt, bnd t c -> (Z.to_nat c < fuel)%nat ->
  exists b c', goto_bwd fuel test (mk t c br kt) = Done b (mk t c' br kt) /\ bnd t c' /\ c' <= c.
Proof.
  intro N. induction fuel as [|fuel IH]; intros t c br kt Bc Hf; [lia|]. cbn [goto_bwd].
  destruct (N t c br kt Bc) as (b & c' & E & B' & H1 & H2). rewrite (bind_done _ _ _ _ _ E).
  destruct b.
  - exists true, c'. split; [reflexivity|]. split; auto. specialize (H2 eq_refl). lia.
  - rewrite (H1 eq_refl). rewrite bind_get. cbn [cursor lb]. destruct (Z.leb_spec c 0).
    + exists false, c. split; [reflexivity|]. split; auto. lia.
    + destruct (previous_char_run t c br kt Bc H) as (c2 & E2 & Hc2 & B2 & _). rewrite (bind_done _ _ _ _ _ E2).
      destruct (IH t c2 br kt B2) as (b3 & c3 & E3 & B3 & L3); [lia|]. exists b3, c3. split; auto. split; auto. lia.
Qed.
Lemma W_goto_bwd {B} test fuel (k : bool -> M B) Q t c br kt : bwd_nav test -> bnd t c -> (length t < fuel)%nat ->
  (forall b c', bnd t c' -> c' <= c -> wp (k b) Q (mk t c' br kt)) ->
  wp (bind (goto_bwd fuel test) k) Q (mk t c br kt).
Proof.
  intros N Bc Hf K. destruct (goto_bwd_run test N fuel t c br kt Bc) as (b & c' & E & B' & L).
  - destruct Bc as [Bc _]. unfold zlen in Bc. lia.
  - eapply W_step; eauto.
Qed.

(** Forward tests may move the marks; [R] is what success establishes. *)
Definition fwd_test (m : M bool) (R : bytes -> Z -> Z -> Z -> Prop) : Prop := forall t c br kt, utf8 t -> bnd t c ->
  exists b c' br' kt', m (mk t c br kt) = Done b (mk t c' br' kt') /\ bnd t c' /\
    (b = false -> c' = c) /\ (b = true -> c <= c' /\ R t c' br' kt').
Lemma fwd_nav_test m : fwd_nav m -> fwd_test m (fun _ _ _ _ => True).
Proof.
  intros N t c br kt _ Bc. destruct (N t c br kt Bc) as (b & c' & E & B' & H1 & H2).
  exists b, c', br, kt. split; auto. split; auto. split; auto. intro X. specialize (H2 X). split; auto. lia.
Qed.
Lemma goto_fwd_run test R : fwd_test test R -> forall fuel t c br kt, utf8 t -> bnd t c -> (Z.to_nat (zlen t - c) < fuel)%nat ->
  exists b c' br' kt', goto_fwd fuel test (mk t c br kt) = Done b (mk t c' br' kt') /\ bnd t c' /\ c <= c' /\
    (b = true -> R t c' br' kt').
Proof.
  intro N. induction fuel as [|fuel IH]; intros t c br kt U Bc Hf; [lia|]. cbn [goto_fwd].
  destruct (N t c br kt U Bc) as (b & c' & br' & kt' & E & B' & H1 & H2). rewrite (bind_done _ _ _ _ _ E).
  destruct b.
  - destruct (H2 eq_refl) as [H3 H4]. exists true, c', br', kt'. split; [reflexivity|]. split; auto.
  - rewrite (H1 eq_refl). rewrite bind_get. cbn [cursor limit]. destruct (Z.leb_spec (zlen t) c).
    + exists false, c, br', kt'. split; [reflexivity|]. split; auto. split; [lia|discriminate].
    + destruct (next_char_run t c br' kt' Bc H) as (c2 & E2 & Hc2 & B2 & _). rewrite (bind_done _ _ _ _ _ E2).
      destruct (IH t c2 br' kt' U B2) as (b3 & c3 & br3 & kt3 & E3 & B3 & L3 & R3); [destruct B2; lia|].
      exists b3, c3, br3, kt3. split; auto. split; auto. split; auto. lia.
Qed.
Lemma W_goto_fwd {B} test R fuel (k : bool -> M B) Q t c br kt : fwd_test test R -> utf8 t -> bnd t c -> (length t < fuel)%nat ->
  (forall b c' br' kt', bnd t c' -> c <= c' -> (b = true -> R t c' br' kt') -> wp (k b) Q (mk t c' br' kt')) ->
  wp (bind (goto_fwd fuel test) k) Q (mk t c br kt).
Proof.
  intros N U Bc Hf K. destruct (goto_fwd_run test R N fuel t c br kt U Bc) as (b & c' & br' & kt' & E & B' & L & HR).
  - destruct Bc as [Bc _]. unfold zlen in *. lia.
  - eapply W_step; eauto.
Qed.

(** Hops. *)
Lemma hop_up_total s lim : forall fuel i, i <= lim + 1 -> lim - i < Z.of_nat fuel -> (0 < fuel)%nat -> exists j, hop_up fuel s lim i = Some j /\ i <= j.
Proof.
  induction fuel as [|fuel IH]; intros i H0 H Hf; [lia|]. cbn [hop_up].
  destruct ((i <? lim) && negb (is_char_boundary s i)) eqn:E; [|exists i; split; auto; lia].
  destruct (IH (i + 1)) as (j & -> & L); try lia. exists j. split; auto. lia.
Qed.
Lemma hop_loop_total s : forall d r, 0 <= r -> exists o, hop_loop d s (zlen s) r = Some o.
Proof.
  induction d as [|d IH]; intros r Hr; cbn [hop_loop]; [eauto|]. destruct (Z.leb_spec (zlen s) r); [eauto|].
  destruct (hop_up_total s (zlen s) (S (length s)) (r + 1)) as (j & -> & L); try (unfold zlen in *; lia).
  apply IH. lia.
Qed.
Lemma hop_run n t c br kt : 0 <= c -> exists b c', hop n (mk t c br kt) = Done b (mk t c' br kt).
Proof.
  intro H. unfold hop. cbn [cur limit cursor lb bra ket]. destruct (hop_loop_total t n c H) as ([r|] & ->); eauto.
Qed.
Lemma hop_down_total s : forall fuel i, i < Z.of_nat fuel -> (0 < fuel)%nat -> exists j, hop_down fuel s 0 i = Some j /\ j <= i.
Proof.
  induction fuel as [|fuel IH]; intros i H Hf; [lia|]. cbn [hop_down].
  destruct ((0 <? i) && negb (is_char_boundary s i)) eqn:E; [|exists i; split; auto; lia].
  destruct (IH (i - 1)) as (j & -> & L); try lia. exists j. split; auto. lia.
Qed.
Lemma hop_back_loop_total s : forall d r, r <= zlen s -> exists o, hop_back_loop d s 0 r = Some o.
Proof.
  induction d as [|d IH]; intros r Hr; cbn [hop_back_loop]; [eauto|]. destruct (Z.leb_spec r 0); [eauto|].
  destruct (hop_down_total s (S (length s)) (r - 1)) as (j & -> & L); try (unfold zlen in *; lia).
  apply IH. lia.
Qed.
Lemma hop_back_run n t c br kt : c <= zlen t -> exists b c', hop_back n (mk t c br kt) = Done b (mk t c' br kt).
Proof.
  intro H. unfold hop_back. cbn [cur limit cursor lb bra ket]. destruct (hop_back_loop_total t n c H) as ([r|] & ->); eauto.
Qed.

Lemma ascii_lit (s : bytes) : forallb (fun b => (0 <=? b) && (b <=? 127)) s = true -> utf8 s.
Proof. intro H. apply utf8_ascii. rewrite forallb_forall in H. apply Forall_forall. intros b Hb. specialize (H b Hb). lia. Qed.
Ltac lits := apply ascii_lit; reflexivity.

Ltac eqs := change (lit "y") with [121]; change (lit "Y") with [89]; change (lit "l") with [108];
  change (lit "s") with [115]; change (lit "t") with [116]; change (lit "'") with [39].

Lemma W_shortv {B} (k : bool -> M B) Q t c br kt : bnd t c ->
  (forall b c', bnd t c' -> wp (k b) Q (mk t c' br kt)) -> wp (bind r_shortv k) Q (mk t c br kt).
Proof.
  intros Bc K. unfold r_shortv. W.
  apply W_bwd; [apply out_grouping_b_run, G_v_WXY_ok|auto|]. intros b1 c1 B1 _ _.
  assert (Second : wp (a <- out_grouping_b G_v ;; x <- (if a then
       b <- in_grouping_b G_v ;; (if b then e' <- get ;; (if lb e' <? cursor e' then ret false else ret true) else ret false)
       else ret false) ;; k x) Q (mk t (zlen t - (zlen t - c)) br kt)).
  { replace (zlen t - (zlen t - c)) with c by lia.
    apply W_bwd; [apply out_grouping_b_run, G_v_ok|auto|]. intros b2 c2 B2 _ _. destruct b2; W; [|auto].
    apply W_bwd; [apply in_grouping_b_run, G_v_ok|auto|]. intros b3 c3 B3 _ _. destruct b3; W; [|auto].
    destruct (0 <? c3); W; auto. }
  destruct b1; W.
  - apply W_bwd; [apply in_grouping_b_run, G_v_ok|auto|]. intros b2 c2 B2 _ _. destruct b2; W.
    + apply W_bwd; [apply out_grouping_b_run, G_v_ok|auto|]. intros b3 c3 B3 _ _. destruct b3; W; [auto|].
      exact Second.
    + exact Second.
  - exact Second.
Qed.

(** ** The steps.  Every step starts with the cursor at the end of the text. *)
Definition step_ok (m : M bool) : Prop := forall t br kt, utf8 t ->
  wp m (Good (zlen t)) (mk t (zlen t) br kt).

(** What a replacement chain may insert in place of a matched entry. *)
Definition cases_fit (tab : list among) (cases : list (Z * bytes)) : bool :=
  forallb (fun w => match case_from cases (a_res w) with
                    | Some s => (zlen s <=? zlen (a_str w)) && forallb (fun b => (0 <=? b) && (b <=? 127)) s
                    | None => true
                    end) tab.
Lemma cases_fit_ok tab cases w s : cases_fit tab cases = true -> In w tab -> case_from cases (a_res w) = Some s ->
  zlen s <= zlen (a_str w) /\ utf8 s.
Proof.
  unfold cases_fit. rewrite forallb_forall. intros H I E. specialize (H w I). rewrite E in H.
  apply andb_true_iff in H as [H1 H2]. split; [lia|]. now apply ascii_lit.
Qed.
Definition min_len (tab : list among) (r n : Z) : bool :=
  forallb (fun w => negb (a_res w =? r) || (n <=? zlen (a_str w))) tab.
Lemma min_len_ok tab r n w : min_len tab r n = true -> In w tab -> a_res w = r -> n <= zlen (a_str w).
Proof. unfold min_len. rewrite forallb_forall. intros H I E. specialize (H w I). lia. Qed.

Lemma insert_run t c br kt b k s : utf8 t -> utf8 s -> bnd t b -> bnd t k -> b <= k ->
  exists t' c' br' kt', insert b k s (mk t c br kt) = Done tt (mk t' c' br' kt') /\ utf8 t' /\ zlen t' = zlen t + zlen s - (k - b).
Proof.
  intros U Us Bb Bk L. destruct (replace_run t c br kt b k s U Us Bb Bk L) as (E & U' & Z'). cbv zeta in *.
  do 4 eexists. split; [|split; [exact U'|exact Z']]. unfold insert. rewrite (bind_done _ _ _ _ _ E). rewrite bind_get. cbn [bra ket].
  instantiate (1 := if b <=? kt then kt + (zlen s - (k - b)) else kt).
  instantiate (1 := if b <=? br then br + (zlen s - (k - b)) else br).
  destruct (b <=? br), (b <=? kt); reflexivity.
Qed.

Lemma W_insert_e n t c br kt : utf8 t -> bnd t c -> zlen t + 1 <= n -> wp insert_e (Good n) (mk t c br kt).
Proof.
  intros U Bc L. unfold insert_e. W.
  destruct (insert_run t c br kt c c (lit "e") U ltac:(lits) Bc Bc ltac:(lia)) as (t' & c' & br' & kt' & E & U' & Z').
  eapply W_step; [exact E|]. W. change (zlen (lit "e")) with 1 in *. good.
Qed.

Lemma step_1a : step_ok r_Step_1a.
Proof.
  intros t br kt U. unfold r_Step_1a. W.
  assert (Main : forall t c br kt n, utf8 t -> c = zlen t -> zlen t <= n ->
    wp (bind mark_ket (fun _ => bind (find_among_b A_2) (fun among_var =>
       if among_var =? 0 then ret false
       else mark_bra ;;;
         if among_var =? 1 then slice_from (lit "ss")
         else if among_var =? 2 then
           v_2 <- from_limit ;;
           b <- hop_back 2 ;;
           if b then slice_from (lit "i") else restore v_2 ;;; slice_from (lit "ie")
         else if among_var =? 3 then
           e <- get ;;
           if cursor e <=? lb e then ret false
           else previous_char ;;;
                e <- get ;;
                b <- goto_bwd (text_fuel e) (in_grouping_b G_v) ;;
                if b then slice_del else ret false
         else ret true))) (Good n) (mk t c br kt)).
  { clear. intros t c br kt n U -> L. W. apply W_among_b; [exact A_2_ok|auto|apply bnd_len| |].
    - cbn [Z.eqb]. W. good.
    - intros w I Bw. destruct (a_res w =? 0); W; [good|].
      destruct (Z.eqb_spec (a_res w) 1) as [R|R].
      { apply W_slice; auto; [lits|apply bnd_len|pose proof (zlen_nn (a_str w)); lia|].
        intros t' c' _ _ U' Z'. pose proof (min_len_ok A_2 1 2 w eq_refl I R). change (zlen (lit "ss")) with 2 in Z'. good. }
      destruct (Z.eqb_spec (a_res w) 2) as [R2|R2].
      { W. destruct (hop_back_run 2 t (zlen t - zlen (a_str w)) (zlen t - zlen (a_str w)) (zlen t)) as (b & c' & E); [pose proof (zlen_nn (a_str w)); lia|].
        eapply W_step; [exact E|]. pose proof (min_len_ok A_2 2 2 w eq_refl I R2).
        destruct b; W; (apply W_slice; auto; [lits|apply bnd_len|pose proof (zlen_nn (a_str w)); lia|]); intros t' c2 _ _ U' Z'.
        - change (zlen (lit "i")) with 1 in Z'. good.
        - change (zlen (lit "ie")) with 2 in Z'. good. }
      destruct (a_res w =? 3); [|W; good].
      W. destruct (Z.leb_spec (zlen t - zlen (a_str w)) 0); [W; good|].
      apply W_prev; auto. intros c' Hc' B'. W.
      apply W_goto_bwd; [apply in_grouping_b_run, G_v_ok|auto|unfold text_fuel; cbn [cur]; lia|].
      intros b c2 B2 L2. destruct b; [|W; good].
      apply W_slice; auto; [lits|apply bnd_len|pose proof (zlen_nn (a_str w)); lia|].
      intros t' c3 _ _ U' Z'. change (zlen []) with 0 in Z'. pose proof (zlen_nn (a_str w)). good. }
  apply W_among_b; [exact A_1_ok|auto|apply bnd_len| |].
  - cbn [Z.eqb]. W. apply Main; auto; lia.
  - intros w I Bw. destruct (a_res w =? 0); [W; apply Main; auto; lia|]. W.
    apply W_slice_bind; auto; [lits|apply bnd_len|pose proof (zlen_nn (a_str w)); lia|].
    intros t' c' _ Ec U' Z'. W. change (zlen []) with 0 in *. pose proof (zlen_nn (a_str w)).
    apply Main; auto; [|lia]. rewrite Ec. destruct (Z.leb_spec (zlen t) (zlen t - zlen (a_str w))); [lia|].
    destruct (Z.ltb_spec (zlen t - zlen (a_str w)) (zlen t - zlen (a_str w))); lia.
Qed.

Lemma step_1b p1 : step_ok (r_Step_1b p1).
Proof.
  intros t br kt U. unfold r_Step_1b. W.
  apply W_among_b; [exact A_4_ok|auto|apply bnd_len| |].
  { cbn [Z.eqb]. W. good. }
  intros w I Bw. pose proof (zlen_nn (a_str w)) as Lw. destruct (a_res w =? 0); W; [good|].
  destruct (Z.eqb_spec (a_res w) 1) as [R|R].
  { W. destruct (p1 <=? zlen t - zlen (a_str w)); [|W; good].
    apply W_slice; auto; [lits|apply bnd_len|lia|].
    intros t' c' _ _ U' Z'. pose proof (min_len_ok A_4 1 2 w eq_refl I R). change (zlen (lit "ee")) with 2 in Z'. good. }
  destruct (Z.eqb_spec (a_res w) 2) as [R2|R2]; [|W; good].
  pose proof (min_len_ok A_4 2 2 w eq_refl I R2) as L2. W.
  apply W_goto_bwd; [apply in_grouping_b_run, G_v_ok|auto|unfold text_fuel; cbn [cur]; lia|].
  intros b c2 B2 Hc2. destruct b; cbn [negb]; [|W; good]. W.
  replace (zlen t - (zlen t - (zlen t - zlen (a_str w)))) with (zlen t - zlen (a_str w)) by lia.
  apply W_slice_bind; auto; [lits|apply bnd_len|lia|].
  intros t' c' _ Ec U' Z'. change (zlen []) with 0 in *.
  assert (c' = zlen t') as ->.
  { rewrite Ec. destruct (Z.leb_spec (zlen t) (zlen t - zlen (a_str w))); [lia|].
    destruct (Z.ltb_spec (zlen t - zlen (a_str w)) (zlen t - zlen (a_str w))); lia. }
  clear Ec. W. apply W_among_b; [exact A_3_ok|auto|apply bnd_len| |].
  { cbn [Z.eqb]. W. good. }
  intros w' I' Bw'. destruct (a_res w' =? 0); W; [good|].
  replace (zlen t' - (zlen t' - zlen t')) with (zlen t') by lia.
  destruct (a_res w' =? 1); [apply W_insert_e; auto; [apply bnd_len|lia]|].
  destruct (a_res w' =? 2).
  { W. destruct (Z.leb_spec (zlen t') 0); [W; good|].
    apply W_prev; [apply bnd_len|auto|]. intros c3 Hc3 B3. W.
    apply W_slice; auto; [lits|apply bnd_len|lia|].
    intros t2 c4 _ _ U2 Z2. change (zlen []) with 0 in *. good. }
  destruct (a_res w' =? 3); [|W; good].
  W. destruct (zlen t' =? p1); cbn [negb]; [|W; good]. W.
  apply W_shortv; [apply bnd_len|]. intros b c3 B3. destruct b; [|W; good]. W.
  replace (zlen t' - (zlen t' - zlen t')) with (zlen t') by lia.
  apply W_insert_e; auto; [apply bnd_len|lia].
Qed.

Lemma step_1c : step_ok r_Step_1c.
Proof.
  intros t br kt U. unfold r_Step_1c. W.
  assert (Rest : forall c, bnd t c -> c = zlen t - 1 -> wp (mark_bra ;;; (b <- out_grouping_b G_v ;;
     if b then e <- get ;; if lb e <? cursor e then slice_from (lit "i") else ret false else ret false)) (Good (zlen t)) (mk t c br (zlen t))).
  { intros c Bc Ec. W. apply W_bwd; [apply out_grouping_b_run, G_v_ok|auto|]. intros b c2 B2 _ _. destruct b; W; [|good].
    destruct (0 <? c2); [|W; good]. apply W_slice; auto; [lits|apply bnd_len|lia|].
    intros t' c' _ _ U' Z'. change (zlen (lit "i")) with 1 in Z'. good. }
  eqs; apply W_eq_s_b; auto; [apply bnd_len|lia|]. intros b Hb. destruct b; W.
  - apply (Rest _ (Hb eq_refl) eq_refl).
  - replace (zlen t - (zlen t - zlen t)) with (zlen t) by lia.
    eqs; apply W_eq_s_b; auto; [apply bnd_len|lia|]. intros b2 Hb2. destruct b2; [|W; good].
    apply (Rest _ (Hb2 eq_refl) eq_refl).
Qed.

Lemma step_2 p1 : step_ok (r_Step_2 p1).
Proof.
  intros t br kt U. unfold r_Step_2. W.
  apply W_among_b; [exact A_5_ok|auto|apply bnd_len| |].
  { cbn [Z.eqb]. W. good. }
  intros w I Bw. pose proof (zlen_nn (a_str w)) as Lw. destruct (a_res w =? 0); W; [good|].
  destruct (p1 <=? zlen t - zlen (a_str w)); [|W; good].
  destruct (case_from step2_cases (a_res w)) as [s|] eqn:C.
  { destruct (cases_fit_ok A_5 step2_cases w s eq_refl I C) as [Ls Us].
    apply W_slice; auto; [apply bnd_len|lia|]. intros t' c' _ _ U' Z'. good. }
  destruct (Z.eqb_spec (a_res w) 13) as [R|R].
  { W. eqs; apply W_eq_s_b; auto; [lia|]. intros b Hb. destruct b; [|W; good].
    apply W_slice; auto; [lits|apply bnd_len|lia|]. intros t' c' _ _ U' Z'.
    pose proof (min_len_ok A_5 13 2 w eq_refl I R). change (zlen (lit "og")) with 2 in Z'. good. }
  destruct (a_res w =? 15); [|W; good].
  W. apply W_bwd; [apply in_grouping_b_run, G_valid_LI_ok|auto|]. intros b c2 B2 _ _. destruct b; [|W; good].
  apply W_slice; auto; [lits|apply bnd_len|lia|]. intros t' c' _ _ U' Z'. change (zlen []) with 0 in *. good.
Qed.

Lemma step_3 p1 p2 : step_ok (r_Step_3 p1 p2).
Proof.
  intros t br kt U. unfold r_Step_3. W.
  apply W_among_b; [exact A_6_ok|auto|apply bnd_len| |].
  { cbn [Z.eqb]. W. good. }
  intros w I Bw. pose proof (zlen_nn (a_str w)) as Lw. destruct (a_res w =? 0); W; [good|].
  destruct (p1 <=? zlen t - zlen (a_str w)); [|W; good].
  destruct (case_from step3_cases (a_res w)) as [s|] eqn:C.
  { destruct (cases_fit_ok A_6 step3_cases w s eq_refl I C) as [Ls Us].
    apply W_slice; auto; [apply bnd_len|lia|]. intros t' c' _ _ U' Z'. good. }
  destruct (a_res w =? 6); [|W; good]. W. destruct (p2 <=? zlen t - zlen (a_str w)); [|W; good].
  apply W_slice; auto; [lits|apply bnd_len|lia|]. intros t' c' _ _ U' Z'. change (zlen []) with 0 in *. good.
Qed.

Lemma step_4 p2 : step_ok (r_Step_4 p2).
Proof.
  intros t br kt U. unfold r_Step_4. W.
  apply W_among_b; [exact A_7_ok|auto|apply bnd_len| |].
  { cbn [Z.eqb]. W. good. }
  intros w I Bw. pose proof (zlen_nn (a_str w)) as Lw. destruct (a_res w =? 0); W; [good|].
  destruct (p2 <=? zlen t - zlen (a_str w)); [|W; good].
  assert (Del : forall c, wp slice_del (Good (zlen t)) (mk t c (zlen t - zlen (a_str w)) (zlen t))).
  { intro c. apply W_slice; auto; [lits|apply bnd_len|lia|]. intros t' c' _ _ U' Z'. change (zlen []) with 0 in *. good. }
  destruct (a_res w =? 1); [apply Del|]. destruct (a_res w =? 2); [|W; good]. W.
  eqs; apply W_eq_s_b; auto; [lia|]. intros b Hb. destruct b; W; [apply Del|].
  replace (zlen t - (zlen t - (zlen t - zlen (a_str w)))) with (zlen t - zlen (a_str w)) by lia.
  eqs; apply W_eq_s_b; auto; [lia|]. intros b2 Hb2. destruct b2; [apply Del|W; good].
Qed.

Lemma step_5 p1 p2 : step_ok (r_Step_5 p1 p2).
Proof.
  intros t br kt U. unfold r_Step_5. W.
  apply W_among_b; [exact A_8_ok|auto|apply bnd_len| |].
  { cbn [Z.eqb]. W. good. }
  intros w I Bw. pose proof (zlen_nn (a_str w)) as Lw. destruct (a_res w =? 0); W; [good|].
  assert (Del : forall c, wp slice_del (Good (zlen t)) (mk t c (zlen t - zlen (a_str w)) (zlen t))).
  { intro c. apply W_slice; auto; [lits|apply bnd_len|lia|]. intros t' c' _ _ U' Z'. change (zlen []) with 0 in *. good. }
  destruct (a_res w =? 1).
  - W. destruct (p2 <=? zlen t - zlen (a_str w)); W; [apply Del|].
    replace (zlen t - (zlen t - (zlen t - zlen (a_str w)))) with (zlen t - zlen (a_str w)) by lia.
    destruct (p1 <=? zlen t - zlen (a_str w)); W; [|good].
    apply W_shortv; auto. intros b c2 B2. destruct b; W; [good|]. apply Del.
  - destruct (a_res w =? 2); [|W; good]. W. destruct (p2 <=? zlen t - zlen (a_str w)); [|W; good].
    eqs; apply W_eq_s_b; auto; [lia|]. intros b Hb. destruct b; [apply Del|W; good].
Qed.

Lemma exception2 : step_ok r_exception2.
Proof.
  intros t br kt U. unfold r_exception2. W.
  apply W_among_b; [exact A_9_ok|auto|apply bnd_len| |].
  { cbn [Z.eqb]. W. good. }
  intros w I Bw. destruct (a_res w =? 0); W; [good|]. destruct (0 <? _); W; good.
Qed.

Lemma exception1 t br kt : utf8 t -> wp r_exception1 (fun b e => Good (zlen t) b e /\
  (b = false -> exists c br' kt', e = mk t c br' kt')) (mk t 0 br kt).
Proof.
  intro U. unfold r_exception1. W. apply W_among_f; [exact A_10_ok|auto|apply bnd_0| |].
  { cbn [Z.eqb]. W. split; [good|eauto]. }
  intros w I Bw. destruct (a_res w =? 0); W; [split; [good|eauto]|].
  destruct (Z.ltb_spec (0 + zlen (a_str w)) (zlen t)); [W; split; [good|eauto]|].
  destruct (case_from exception1_cases (a_res w)) as [s|] eqn:C; [|W; split; [good|discriminate]].
  destruct (cases_fit_ok A_10 exception1_cases w s eq_refl I C) as [Ls Us]. pose proof (zlen_nn (a_str w)).
  apply W_slice; auto; [apply bnd_0|]. intros t' c' _ _ U' Z'. split; [good|discriminate].
Qed.

(** ** The y-marking loops *)
Fixpoint count (x : Z) (l : bytes) : nat :=
  match l with [] => 0 | y :: l' => (if Z.eqb y x then 1 else 0) + count x l' end%nat.
Lemma count_app x a b : count x (a ++ b) = (count x a + count x b)%nat.
Proof. induction a as [|y a IH]; cbn; auto. rewrite IH. lia. Qed.
Lemma count_le x l : (count x l <= length l)%nat.
Proof. induction l as [|y l IH]; cbn; [lia|]. destruct (y =? x); lia. Qed.
Lemma split_nth (t : bytes) p x : 0 <= p -> nth_error t (Z.to_nat p) = Some x ->
  t = firstn (Z.to_nat p) t ++ [x] ++ skipn (Z.to_nat (p + 1)) t.
Proof.
  intros Hp H. rewrite Z2Nat.inj_add by lia. revert H. generalize (Z.to_nat p). clear. change (Z.to_nat 1) with 1%nat.
  intro n. revert t. induction n as [|n IH]; intros [|y t] H; try discriminate; cbn in *; [congruence|]. f_equal. auto.
Qed.

Lemma vowel_y_test : fwd_test vowel_y (fun t c br kt =>
  c <= br /\ bnd t br /\ bnd t kt /\ kt = br + 1 /\ nth_error t (Z.to_nat br) = Some 121).
Proof.
  intros t c br kt U Bc. unfold vowel_y.
  destruct (in_grouping_run G_v G_v_ok t c br kt Bc) as (b & c1 & E1 & B1 & H1 & H2).
  rewrite bind_get_cursor. unfold andthen. rewrite bind_assoc. rewrite (bind_done _ _ _ _ _ E1).
  destruct b.
  2:{ exists false, c, br, kt. split; [rewrite (H1 eq_refl); reflexivity|]. split; auto. split; [auto|discriminate]. }
  specialize (H2 eq_refl). rewrite bind_assoc, bind_mark_bra, bind_assoc.
  destruct (eq_s_run t c1 c1 kt 121 U B1 ltac:(lia)) as (b & E2 & H3). change (lit "y") with [121]. rewrite (bind_done _ _ _ _ _ E2).
  destruct b.
  - destruct (H3 eq_refl) as (K1 & K2 & K3). exists true, c, c1, (c1 + 1). split; [reflexivity|]. split; auto.
    split; [discriminate|]. intros _. split; [lia|]. repeat split; auto; try apply B1; try apply K3; lia.
  - exists false, c, c1, kt. split; [reflexivity|]. split; auto. split; [auto|discriminate].
Qed.

Lemma is_Y_test : fwd_test is_Y (fun t c br kt =>
  c <= br /\ bnd t br /\ bnd t kt /\ kt = br + 1 /\ nth_error t (Z.to_nat br) = Some 89).
Proof.
  intros t c br kt U Bc. unfold is_Y.
  rewrite bind_get_cursor. unfold andthen. rewrite bind_assoc, bind_mark_bra, bind_assoc.
  destruct (eq_s_run t c c kt 89 U Bc ltac:(lia)) as (b & E2 & H3). change (lit "Y") with [89]. rewrite (bind_done _ _ _ _ _ E2).
  destruct b.
  - destruct (H3 eq_refl) as (K1 & K2 & K3). exists true, c, c, (c + 1). split; [reflexivity|]. split; auto.
    split; [discriminate|]. intros _. split; [lia|]. repeat split; auto; try apply Bc; try apply K3; lia.
  - exists false, c, c, kt. split; [reflexivity|]. split; auto. split; [auto|discriminate].
Qed.

(** Replacing one marked byte by another. *)
Lemma swap_byte t br x y : utf8 t -> bnd t br -> bnd t (br + 1) -> 0 <= y < 128 -> x <> y ->
  nth_error t (Z.to_nat br) = Some x ->
  let t' := firstn (Z.to_nat br) t ++ [y] ++ skipn (Z.to_nat (br + 1)) t in
  count x t = S (count x t').
Proof.
  intros U B1 B2 Hy N E t'. rewrite (split_nth t br x ltac:(destruct B1; lia) E) at 1. unfold t'. rewrite !count_app. cbn [count].
  rewrite Z.eqb_refl. destruct (Z.eqb_spec y x); [congruence|]. lia.
Qed.

Lemma prelude_loop : forall fuel t c br kt y, utf8 t -> bnd t c -> (count 121 t < fuel)%nat ->
  wp (prelude_rep fuel y) (Good (zlen t)) (mk t c br kt).
Proof.
  induction fuel as [|fuel IH]; intros t c br kt y U Bc Hf; [lia|]. cbn [prelude_rep]. W.
  eapply W_goto_fwd; [exact vowel_y_test|auto|auto|unfold text_fuel; cbn [cur]; lia|].
  intros b c1 br1 kt1 B1 L1 HR. destruct b; [|W; good].
  destruct (HR eq_refl) as (K1 & K2 & K3 & K4 & K5). subst kt1.
  apply W_slice_bind; auto; [lits|lia|]. intros t' c' Et Ec U' Z'. change (lit "Y") with [89] in *. change (zlen [89]) with 1 in *.
  assert (zlen t' = zlen t) as <- by lia. apply IH; auto.
  - rewrite Ec. destruct (Z.leb_spec (br1 + 1) c1); [lia|]. destruct (Z.ltb_spec br1 c1); [lia|].
    rewrite Et. apply bnd_prefix; auto. apply utf8_app; [lits|]. now apply (utf8_split t (br1 + 1)).
  - pose proof (swap_byte t br1 121 89 U K2 K3 ltac:(lia) ltac:(lia) K5) as S. cbv zeta in S. rewrite <- Et in S. lia.
Qed.

Lemma postlude_loop : forall fuel t c br kt, utf8 t -> bnd t c -> (count 89 t < fuel)%nat ->
  wp (postlude_rep fuel) (Good (zlen t)) (mk t c br kt).
Proof.
  induction fuel as [|fuel IH]; intros t c br kt U Bc Hf; [lia|]. cbn [postlude_rep]. W.
  eapply W_goto_fwd; [exact is_Y_test|auto|auto|unfold text_fuel; cbn [cur]; lia|].
  intros b c1 br1 kt1 B1 L1 HR. destruct b; [|W; good].
  destruct (HR eq_refl) as (K1 & K2 & K3 & K4 & K5). subst kt1.
  apply W_slice_bind; auto; [lits|lia|]. intros t' c' Et Ec U' Z'. change (lit "y") with [121] in *. change (zlen [121]) with 1 in *.
  assert (zlen t' = zlen t) as <- by lia. apply IH; auto.
  - rewrite Ec. destruct (Z.leb_spec (br1 + 1) c1); [lia|]. destruct (Z.ltb_spec br1 c1); [lia|].
    rewrite Et. apply bnd_prefix; auto. apply utf8_app; [lits|]. now apply (utf8_split t (br1 + 1)).
  - pose proof (swap_byte t br1 89 121 U K2 K3 ltac:(lia) ltac:(lia) K5) as S. cbv zeta in S. rewrite <- Et in S. lia.
Qed.
Lemma postlude y t br kt : utf8 t -> wp (r_postlude y) (Good (zlen t)) (mk t 0 br kt).
Proof.
  intro U. unfold r_postlude. destruct y; cbn [negb]; W; [|good].
  apply postlude_loop; auto; [apply bnd_0|]. unfold text_fuel. cbn [cur]. pose proof (count_le 89 t). lia.
Qed.

(** The cursor is back at 0 after the prelude and the region marking. *)
Definition Good0 (n : Z) {A} (_ : A) (e : env) : Prop := exists t br kt, e = mk t 0 br kt /\ utf8 t /\ zlen t <= n.
Lemma good0_now {A} n t br kt (b : A) : utf8 t -> zlen t <= n -> Good0 n b (mk t 0 br kt).
Proof. intros U L. exists t, br, kt. auto. Qed.

Lemma good_unit n t c br kt : utf8 t -> zlen t <= n -> Good n tt (mk t c br kt).
Proof. intros U L. exists t, c, br, kt. auto. Qed.

Lemma prelude t br kt : utf8 t -> wp r_prelude (Good0 (zlen t)) (mk t 0 br kt).
Proof.
  intro U. unfold r_prelude. apply W_get_cursor. apply W_bind.
  eapply W_conseq with (P := Good (zlen t)).
  { W. eqs. apply W_eq_s; auto; [apply bnd_0|lia|]. intros b Hb. destruct b; W; [|apply good_unit; auto; lia].
    destruct (Hb eq_refl) as (H1 & H2 & H3).
    apply W_slice_bind; auto; [lits|apply bnd_0|lia|]. intros t' c' _ _ U' Z'. W. change (zlen []) with 0 in *. apply good_unit; auto. lia. }
  intros _ e (t1 & c1 & br1 & kt1 & -> & U1 & L1). apply W_set_cursor, W_get_cursor. apply W_bind.
  eapply W_conseq with (P := Good (zlen t1)).
  { W. eqs. apply W_eq_s; auto; [apply bnd_0|lia|]. intros b Hb. destruct b; W; [|good].
    destruct (Hb eq_refl) as (H1 & H2 & H3).
    apply W_slice_bind; auto; [lits|apply bnd_0|lia|]. intros t' c' _ _ U' Z'. W. change (zlen [89]) with 1 in *. good. }
  intros y e (t2 & c2 & br2 & kt2 & -> & U2 & L2). W. apply W_bind.
  eapply W_conseq; [apply prelude_loop; auto; [apply bnd_0|unfold text_fuel; cbn [cur]; pose proof (count_le 121 t2); lia]|].
  intros a e (t' & c' & br' & kt' & -> & U' & L'). W. apply good0_now; auto. lia.
Qed.

Lemma W_goto_v {B} test (k : bool -> M B) Q t c br kt fuel : fwd_nav test -> utf8 t -> bnd t c -> (length t < fuel)%nat ->
  (forall b c' br' kt', bnd t c' -> wp (k b) Q (mk t c' br' kt')) ->
  wp (bind (goto_fwd fuel test) k) Q (mk t c br kt).
Proof. intros N U Bc Hf K. eapply W_goto_fwd; [apply fwd_nav_test; exact N|auto|auto|auto|]. intros. now apply K. Qed.

Lemma mark_regions t br kt : utf8 t -> wp r_mark_regions (fun _ e => exists br kt, e = mk t 0 br kt) (mk t 0 br kt).
Proof.
  intro U. unfold r_mark_regions. W.
  assert (Fin : forall c br kt, bnd t c ->
    wp (a <- goto_fwd (S (S (length t))) (in_grouping G_v) ;;
        x <- (if a then goto_fwd (S (S (length t))) (out_grouping G_v) else ret false) ;;
        x0 <- (if x : bool then p2 <- get_cursor ;; ret (c, p2) else ret (c, zlen t)) ;; set_cursor 0 ;;; ret x0)
      (fun _ e => exists br kt, e = mk t 0 br kt) (mk t c br kt)).
  { intros c br1 kt1 Bc. apply W_goto_v; [apply in_grouping_run, G_v_ok|auto|auto|lia|]. intros b c2 br2 kt2 B2. destruct b; W; [|eauto].
    apply W_goto_v; [apply out_grouping_run, G_v_ok|auto|auto|lia|]. intros b c3 br3 kt3 B3. destruct b; W; eauto. }
  apply W_among_f; [exact A_0_ok|auto|apply bnd_0| |].
  - W. cbn [Z.eqb]. W. unfold text_fuel. cbn [cur].
    apply W_goto_v; [apply in_grouping_run, G_v_ok|auto|apply bnd_0|lia|]. intros b c2 br2 kt2 B2. destruct b; W; [|eauto].
    apply W_goto_v; [apply out_grouping_run, G_v_ok|auto|auto|lia|]. intros b c3 br3 kt3 B3. destruct b; W; [|eauto].
    now apply Fin.
  - intros w I Bw. W. unfold text_fuel. cbn [cur]. destruct (a_res w =? 0); W; [|now apply Fin].
    apply W_goto_v; [apply in_grouping_run, G_v_ok|auto|apply bnd_0|lia|]. intros b c2 br2 kt2 B2. destruct b; W; [|eauto].
    apply W_goto_v; [apply out_grouping_run, G_v_ok|auto|auto|lia|]. intros b c3 br3 kt3 B3. destruct b; W; [|eauto].
    now apply Fin.
Qed.

Lemma W_the_step {B} m (k : bool -> M B) Q t br kt n : step_ok m -> utf8 t -> zlen t <= n ->
  (forall b t' c' br' kt', utf8 t' -> zlen t' <= n -> wp (k b) Q (mk t' c' br' kt')) ->
  wp (bind m k) Q (mk t (zlen t) br kt).
Proof.
  intros S U L K. apply W_bind. eapply W_conseq; [apply S; auto|].
  intros b e (t' & c' & br' & kt' & -> & U' & L'). apply K; auto. lia.
Qed.

Ltac next H := eapply W_the_step; [exact H|assumption|eassumption|];
  let b := fresh "b" in let t' := fresh "t" in let c' := fresh "c" in let br' := fresh "br" in let kt' := fresh "kt" in
  let U' := fresh "U" in let L' := fresh "L" in
  intros b t' c' br' kt' U' L'; W; replace (zlen t' - 0) with (zlen t') by lia.

Lemma stem_ok t : utf8 t -> wp stem (Good (zlen t)) (mk t 0 0 (zlen t)).
Proof.
  intro U. unfold stem. W. apply W_bind. eapply W_conseq; [apply exception1; auto|].
  intros x e [G F]. destruct x; [W; exact G|]. destruct (F eq_refl) as (c & br & kt & ->). clear F G. W.
  destruct (hop_run 3 t 0 br kt ltac:(lia)) as (h & ch & E). eapply W_step; [exact E|].
  destruct h; cbn [negb]; [|W; good]. W. apply W_bind. eapply W_conseq; [apply prelude; auto|].
  intros y e (t1 & br1 & kt1 & -> & U1 & L1). apply W_bind. eapply W_conseq; [apply mark_regions; auto|].
  intros [p1 p2] e (br2 & kt2 & ->). W. rewrite Z.sub_diag. cbn [fst snd].
  assert (Post : forall t' br' kt', utf8 t' -> zlen t' <= zlen t ->
    wp (r_postlude y ;;; set_cursor 0 ;;; ret true) (Good (zlen t)) (mk t' 0 br' kt')).
  { intros t' br' kt' U' L'. apply W_bind. eapply W_conseq; [apply postlude; auto|].
    intros b e (t2 & c2 & br3 & kt3 & -> & U2 & L2). W. good. }
  next step_1a. rewrite Z.sub_diag. next exception2.
  destruct b0; W; [now apply Post|]. rewrite ?Z.sub_diag, ?Z.sub_0_r.
  next (step_1b p1). rewrite ?Z.sub_diag, ?Z.sub_0_r. next step_1c. rewrite ?Z.sub_diag, ?Z.sub_0_r.
  next (step_2 p1). rewrite ?Z.sub_diag, ?Z.sub_0_r. next (step_3 p1 p2). rewrite ?Z.sub_diag, ?Z.sub_0_r.
  next (step_4 p2). rewrite ?Z.sub_diag, ?Z.sub_0_r. next (step_5 p1 p2). now apply Post.
Qed.
