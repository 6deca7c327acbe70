From Coq Require Import String Ascii Bool List ZArith Lia ZifyBool.
From Verif Require Import StrModel SnowballSpec SnowballModel.
Import ListNotations.
Open Scope Z_scope.

(** ** Lengths and boundaries *)
Lemma zlen_app {A} (a b : list A) : zlen (a ++ b) = zlen a + zlen b.
Proof. unfold zlen. rewrite app_length. lia. Qed.
Lemma zlen_nn {A} (a : list A) : 0 <= zlen a. Proof. unfold zlen. lia. Qed.
Lemma zlen_firstn {A} (a : list A) p : 0 <= p <= zlen a -> zlen (firstn (Z.to_nat p) a) = p.
Proof. unfold zlen. intro. rewrite firstn_length. lia. Qed.
Lemma zlen_skipn {A} (a : list A) p : 0 <= p <= zlen a -> zlen (skipn (Z.to_nat p) a) = zlen a - p.
Proof. unfold zlen. intro. rewrite skipn_length. lia. Qed.

Definition bnd (s : bytes) (p : Z) : Prop := 0 <= p <= zlen s /\ is_char_boundary s p = true.

Lemma bnd_0 s : bnd s 0. Proof. split; [pose proof (zlen_nn s); lia|reflexivity]. Qed.
Lemma bnd_len s : bnd s (zlen s).
Proof. split; [pose proof (zlen_nn s); lia|]. unfold is_char_boundary. rewrite Z.eqb_refl. now destruct (zlen s =? 0). Qed.

Lemma char_shape c : utf8_char c -> exists b t, c = b :: t /\ is_cont b = false /\
  Forall (fun x => is_cont x = true) t /\ (b < 128 -> t = []).
Proof.
  unfold is_cont. intro H. inversion H; subst; do 2 eexists; (split; [reflexivity|]); unfold tail_byte in *;
    (split; [lia|]); (split; [repeat constructor; lia|]); intros; auto; lia.
Qed.

Lemma utf8_nil : utf8 []. Proof. exists []. split; auto. Qed.
Lemma utf8_app a b : utf8 a -> utf8 b -> utf8 (a ++ b).
Proof. intros (x & Hx & ->) (y & Hy & ->). exists (x ++ y). split; [apply Forall_app; auto|now rewrite concat_app]. Qed.
Lemma utf8_ascii s : Forall (fun b => 0 <= b <= 127) s -> utf8 s.
Proof.
  induction 1 as [|b s Hb F IH]; [apply utf8_nil|]. apply (utf8_app [b] s); auto.
  exists [[b]]. split; [repeat constructor; lia|reflexivity].
Qed.

Lemma byte_at_nn s i : 0 <= i -> byte_at s i = nth_error s (Z.to_nat i).
Proof. intro H. unfold byte_at. destruct (Z.ltb_spec i 0); auto; lia. Qed.

Lemma utf8_head s : utf8 s -> s = [] \/ exists b t, s = b :: t /\ is_cont b = false.
Proof.
  intros (cs & F & ->). destruct cs as [|c cs]; [auto|]. inversion F; subst.
  destruct (char_shape c H1) as (b & t & -> & Hb & _). right. exists b, (t ++ concat cs). auto.
Qed.

Lemma bnd_char s p : 0 < p < zlen s -> bnd s p <-> exists b, nth_error s (Z.to_nat p) = Some b /\ is_cont b = false.
Proof.
  intro Hp. unfold bnd, is_char_boundary. destruct (Z.eqb_spec p 0); [lia|]. destruct (Z.eqb_spec p (zlen s)); [lia|].
  rewrite byte_at_nn by lia. destruct (nth_error s (Z.to_nat p)) as [b|].
  - split.
    + intros [_ H]. exists b. split; auto. now destruct (is_cont b).
    + intros (b' & E & H). injection E as <-. rewrite H. split; auto; lia.
  - split; [intros [_ H]; discriminate|intros (b & E & _); discriminate].
Qed.

Lemma split_utf8 : forall cs p, Forall utf8_char cs -> bnd (concat cs) p ->
  utf8 (firstn (Z.to_nat p) (concat cs)) /\ utf8 (skipn (Z.to_nat p) (concat cs)).
Proof.
  induction cs as [|c cs IH]; intros p F B.
  - cbn. rewrite firstn_nil, skipn_nil. split; apply utf8_nil.
  - inversion F; subst. cbn [concat] in *.
    destruct (Z.eq_dec p 0) as [->|Hp0]. { cbn. split; [apply utf8_nil|]. exists (c :: cs). auto. }
    destruct (Z.lt_ge_cases p (zlen c)) as [Hlt|Hge].
    + exfalso. destruct (char_shape c H1) as (b & t & -> & _ & Ht & _).
      pose proof (zlen_nn (concat cs)). pose proof (zlen_app (b :: t) (concat cs)) as ZA.
      destruct (proj1 (bnd_char ((b :: t) ++ concat cs) p ltac:(destruct B; lia)) B) as (x & Ex & Nx).
      rewrite nth_error_app1 in Ex by (destruct B; unfold zlen in Hlt; lia).
      destruct (Z.to_nat p) as [|q] eqn:Q; [destruct B; lia|]. cbn in Ex. apply nth_error_In in Ex.
      rewrite Forall_forall in Ht. rewrite (Ht x Ex) in Nx. discriminate.
    + assert (B' : bnd (concat cs) (p - zlen c)).
      { pose proof (zlen_app c (concat cs)) as ZA. pose proof (zlen_nn c).
        assert (B1 := proj1 B).
        destruct (Z.eq_dec p (zlen c)) as [->|N1]; [rewrite Z.sub_diag; apply bnd_0|].
        destruct (Z.eq_dec (p - zlen c) (zlen (concat cs))) as [->|N2]; [apply bnd_len|].
        destruct (proj1 (bnd_char (c ++ concat cs) p ltac:(lia)) B) as (x & Ex & Nx).
        apply bnd_char; [lia|]. exists x. split; auto. rewrite nth_error_app2 in Ex by (unfold zlen in *; lia).
        rewrite <- Ex. f_equal. unfold zlen in *. lia. }
      destruct (IH _ H2 B') as [I1 I2].
      replace (Z.to_nat p) with (length c + Z.to_nat (p - zlen c))%nat by (unfold zlen in *; lia).
      rewrite firstn_app_2, skipn_app. rewrite skipn_all2 by lia. cbn [app].
      replace (length c + Z.to_nat (p - zlen c) - length c)%nat with (Z.to_nat (p - zlen c)) by lia.
      split; auto. apply utf8_app; auto. exists [c]. split; [repeat constructor; auto|cbn; now rewrite app_nil_r].
Qed.

Lemma utf8_split s p : utf8 s -> bnd s p -> utf8 (firstn (Z.to_nat p) s) /\ utf8 (skipn (Z.to_nat p) s).
Proof. intros (cs & F & ->) B. now apply split_utf8. Qed.

Lemma bnd_app a b : utf8 b -> bnd (a ++ b) (zlen a).
Proof.
  intro U. destruct (utf8_head b U) as [->|(x & t & -> & Hx)].
  - rewrite app_nil_r. apply bnd_len.
  - destruct (Z.eq_dec (zlen a) 0) as [E|E]; [rewrite E; apply bnd_0|].
    apply bnd_char; [rewrite zlen_app; pose proof (zlen_nn a); unfold zlen in *; cbn [length]; lia|].
    exists x. split; auto. unfold zlen. rewrite Nat2Z.id, nth_error_app2, Nat.sub_diag by lia. reflexivity.
Qed.

(** A boundary of [s] at or before [p] is a boundary of any text that agrees with [s] up to [p]. *)
Lemma bnd_prefix s p q r : bnd s p -> bnd s q -> q <= p -> utf8 r -> bnd (firstn (Z.to_nat p) s ++ r) q.
Proof.
  intros [P1 P2] [Q1 Q2] L U. destruct (Z.eq_dec q p) as [->|N].
  - rewrite <- (zlen_firstn s p P1) at 2. now apply bnd_app.
  - destruct (Z.eq_dec q 0) as [->|N0]; [apply bnd_0|].
    apply bnd_char; [rewrite zlen_app, zlen_firstn by lia; pose proof (zlen_nn r); lia|].
    destruct (proj1 (bnd_char s q ltac:(lia)) (conj Q1 Q2)) as (x & Ex & Nx). exists x. split; auto.
    rewrite nth_error_app1 by (rewrite firstn_length; unfold zlen in *; lia).
    rewrite <- (firstn_skipn (Z.to_nat p) s) in Ex. rewrite nth_error_app1 in Ex; auto.
    rewrite firstn_length; unfold zlen in *; lia.
Qed.

Lemma skipn_head {A} (s : list A) n b : nth_error s n = Some b -> exists t, skipn n s = b :: t.
Proof. revert n. induction s as [|x s IH]; intros [|n] H; cbn in *; try discriminate; [injection H as ->; eauto|eauto]. Qed.

Lemma ascii_bnd s p b : utf8 s -> 0 <= p -> nth_error s (Z.to_nat p) = Some b -> 0 <= b < 128 ->
  bnd s p /\ bnd s (p + 1).
Proof.
  intros U Hp E Hb. assert (Hl : p < zlen s) by (unfold zlen; assert (Z.to_nat p < length s)%nat by (apply nth_error_Some; congruence); lia).
  assert (B : bnd s p).
  { destruct (Z.eq_dec p 0) as [->|N]; [apply bnd_0|]. apply bnd_char; [lia|]. exists b. split; auto. unfold is_cont. lia. }
  split; auto. destruct (utf8_split s p U B) as [U1 U2]. destruct (skipn_head _ _ _ E) as (t & Et).
  rewrite Et in U2. destruct U2 as (cs & F & Ec). destruct cs as [|c cs]; [discriminate|]. inversion F; subst.
  destruct (char_shape c H1) as (x & t' & -> & _ & _ & Hx). cbn in Ec. injection Ec as -> Et'.
  rewrite (Hx ltac:(lia)) in Et'. cbn in Et'. subst t.
  rewrite <- (firstn_skipn (Z.to_nat p) s), Et.
  replace (p + 1) with (zlen (firstn (Z.to_nat p) s ++ [x])).
  2:{ rewrite zlen_app, zlen_firstn by lia. reflexivity. }
  change (x :: concat cs) with ([x] ++ concat cs). rewrite app_assoc. apply bnd_app. exists cs; auto.
Qed.

(** ** Boundary search *)
Lemma up_spec s : forall fuel i, 0 <= i <= zlen s -> zlen s - i < Z.of_nat fuel ->
  exists j, up_to_boundary fuel s i = Some j /\ i <= j <= zlen s /\ bnd s j /\ (forall m, i <= m < j -> ~ bnd s m).
Proof.
  induction fuel as [|fuel IH]; intros i Hi Hf; [lia|]. cbn [up_to_boundary].
  destruct (is_char_boundary s i) eqn:E.
  - exists i. split; auto. split; [lia|]. split; [split; auto|]. intros m Hm. lia.
  - destruct (Z.eq_dec i (zlen s)) as [->|N]; [rewrite (proj2 (bnd_len s)) in E; discriminate|].
    destruct (IH (i + 1)) as (j & -> & Hj & B & Min); [lia|lia|]. exists j. split; auto. split; [lia|]. split; auto.
    intros m Hm [_ Bm]. destruct (Z.eq_dec m i) as [->|]; [congruence|]. apply (Min m); [lia|]. split; auto; lia.
Qed.
Lemma down_spec s : forall fuel i, 0 <= i <= zlen s -> i < Z.of_nat fuel ->
  exists j, down_to_boundary fuel s i = Some j /\ 0 <= j <= i /\ bnd s j /\ (forall m, j < m <= i -> ~ bnd s m).
Proof.
  induction fuel as [|fuel IH]; intros i Hi Hf; [lia|]. cbn [down_to_boundary].
  destruct (is_char_boundary s i) eqn:E.
  - exists i. split; auto. split; [lia|]. split; [split; auto|]. intros m Hm. lia.
  - destruct (Z.eq_dec i 0) as [->|N]; [rewrite (proj2 (bnd_0 s)) in E; discriminate|].
    destruct (IH (i - 1)) as (j & -> & Hj & B & Max); [lia|lia|]. exists j. split; auto. split; [lia|]. split; auto.
    intros m Hm [_ Bm]. destruct (Z.eq_dec m i) as [->|]; [congruence|]. apply (Max m); [lia|]. split; auto; lia.
Qed.

(** Moving over the characters of a text [t]; the other fields are untouched. *)
Lemma next_char_run t c br kt : bnd t c -> c < zlen t ->
  exists c', next_char (mkEnv t c (zlen t) 0 br kt) = Done tt (mkEnv t c' (zlen t) 0 br kt) /\
    c < c' /\ bnd t c' /\ (forall m, c < m < c' -> ~ bnd t m).
Proof.
  intros [B1 B2] L. unfold next_char. cbn [cur cursor limit lb bra ket].
  destruct (up_spec t (S (length t)) (c + 1)) as (j & -> & Hj & Bj & Min); [lia|unfold zlen in *; lia|].
  exists j. split; auto. split; [lia|]. split; auto. intros m Hm. apply Min. lia.
Qed.
Lemma previous_char_run t c br kt : bnd t c -> 0 < c ->
  exists c', previous_char (mkEnv t c (zlen t) 0 br kt) = Done tt (mkEnv t c' (zlen t) 0 br kt) /\
    0 <= c' < c /\ bnd t c' /\ (forall m, c' < m < c -> ~ bnd t m).
Proof.
  intros [B1 B2] L. unfold previous_char. cbn [cur cursor limit lb bra ket].
  destruct (down_spec t (S (length t)) (c - 1)) as (j & -> & Hj & Bj & Max); [lia|unfold zlen in *; lia|].
  exists j. split; auto. split; [lia|]. split; auto. intros m Hm. apply Max. lia.
Qed.

Lemma split_at_run s p : bnd s p -> split_at s p = Some (firstn (Z.to_nat p) s, skipn (Z.to_nat p) s).
Proof. intros [_ B]. unfold split_at. now rewrite B. Qed.

Lemma char_here_run t c br kt : bnd t c -> c < zlen t ->
  exists ch, char_here (mkEnv t c (zlen t) 0 br kt) = Done (Some ch) (mkEnv t c (zlen t) 0 br kt).
Proof.
  intros B L. unfold char_here. cbn [cur cursor]. rewrite (split_at_run t c B).
  destruct (skipn (Z.to_nat c) t) as [|b0 tl] eqn:E.
  - exfalso. assert (Datatypes.length (skipn (Z.to_nat c) t) = 0)%nat by (rewrite E; reflexivity).
    rewrite skipn_length in H. destruct B as [B _]. unfold zlen in *. lia.
  - unfold first_char. destruct (b0 <? 128); [eauto|]. destruct (b0 <? 224); [eauto|]. destruct (b0 <? 240); eauto.
Qed.

Definition group_ok (g : grouping) : Prop := forall ch, exists b, in_group g ch = Some b.
Lemma group_ok_check bits mn mx : mx - mn < 8 * zlen bits -> group_ok (bits, mn, mx).
Proof.
  intros H ch. unfold in_group. destruct ((mx <? ch) || (ch <? mn)) eqn:E; [eauto|].
  rewrite Z.shiftr_div_pow2 by lia. change (2 ^ 3) with 8.
  assert (0 <= (ch - mn) / 8 < zlen bits) by (split; [apply Z.div_pos; lia|apply Z.div_lt_upper_bound; lia]).
  rewrite byte_at_nn by lia. destruct (nth_error bits _) eqn:N; [eauto|].
  apply nth_error_None in N. unfold zlen in *. lia.
Qed.
Lemma G_v_ok : group_ok G_v. Proof. apply group_ok_check. reflexivity. Qed.
Lemma G_v_WXY_ok : group_ok G_v_WXY. Proof. apply group_ok_check. reflexivity. Qed.
Lemma G_valid_LI_ok : group_ok G_valid_LI. Proof. apply group_ok_check. reflexivity. Qed.

Lemma lift_group_run g ch e : group_ok g -> exists b, lift_group g ch e = Done b e.
Proof. intro G. unfold lift_group. destruct (G ch) as (b & ->). exists b. reflexivity. Qed.

Lemma bind_done {A B} (m : M A) (k : A -> M B) e a e' : m e = Done a e' -> bind m k e = k a e'.
Proof. intro H. unfold bind. now rewrite H. Qed.

Section Simple.
Context {B : Type}.
Variables (t : bytes) (c l b br kt : Z).
Lemma bind_get (k : env -> M B) e : bind get k e = k e e. Proof. reflexivity. Qed.
Lemma bind_ret {A} (a : A) (k : A -> M B) e : bind (ret a) k e = k a e. Proof. reflexivity. Qed.
Lemma bind_get_cursor (k : Z -> M B) : bind get_cursor k (mkEnv t c l b br kt) = k c (mkEnv t c l b br kt).
Proof. reflexivity. Qed.
Lemma bind_get_limit (k : Z -> M B) : bind get_limit k (mkEnv t c l b br kt) = k l (mkEnv t c l b br kt).
Proof. reflexivity. Qed.
Lemma bind_get_lb (k : Z -> M B) : bind get_lb k (mkEnv t c l b br kt) = k b (mkEnv t c l b br kt).
Proof. reflexivity. Qed.
Lemma bind_set_cursor x (k : unit -> M B) : bind (set_cursor x) k (mkEnv t c l b br kt) = k tt (mkEnv t x l b br kt).
Proof. reflexivity. Qed.
Lemma bind_set_lb x (k : unit -> M B) : bind (set_lb x) k (mkEnv t c l b br kt) = k tt (mkEnv t c l x br kt).
Proof. reflexivity. Qed.
Lemma bind_mark_bra (k : unit -> M B) : bind mark_bra k (mkEnv t c l b br kt) = k tt (mkEnv t c l b c kt).
Proof. reflexivity. Qed.
Lemma bind_mark_ket (k : unit -> M B) : bind mark_ket k (mkEnv t c l b br kt) = k tt (mkEnv t c l b br c).
Proof. reflexivity. Qed.
Lemma bind_from_limit (k : Z -> M B) : bind from_limit k (mkEnv t c l b br kt) = k (l - c) (mkEnv t c l b br kt).
Proof. reflexivity. Qed.
Lemma bind_restore v (k : unit -> M B) : bind (restore v) k (mkEnv t c l b br kt) = k tt (mkEnv t (l - v) l b br kt).
Proof. reflexivity. Qed.
Lemma bind_r_R p (k : bool -> M B) : bind (r_R p) k (mkEnv t c l b br kt) = k (p <=? c) (mkEnv t c l b br kt).
Proof. reflexivity. Qed.
End Simple.
Lemma bind_assoc {A B C} (m : M A) (f : A -> M B) (g : B -> M C) e :
  bind (bind m f) g e = bind m (fun a => bind (f a) g) e.
Proof. unfold bind. destruct (m e); auto. Qed.

Definition fwd_nav (m : M bool) : Prop := forall t c br kt, bnd t c ->
  exists b c', m (mkEnv t c (zlen t) 0 br kt) = Done b (mkEnv t c' (zlen t) 0 br kt) /\ bnd t c' /\
    (b = false -> c' = c) /\ (b = true -> c < c').
Definition bwd_nav (m : M bool) : Prop := forall t c br kt, bnd t c ->
  exists b c', m (mkEnv t c (zlen t) 0 br kt) = Done b (mkEnv t c' (zlen t) 0 br kt) /\ bnd t c' /\
    (b = false -> c' = c) /\ (b = true -> c' < c).

Lemma in_grouping_run g : group_ok g -> fwd_nav (in_grouping g).
Proof.
  intros G t c br kt B. unfold in_grouping. rewrite bind_get. cbn [limit cursor].
  destruct (Z.leb_spec (zlen t) c).
  - exists false, c. split; [reflexivity|]. repeat split; try apply B; try discriminate.
  - destruct (char_here_run t c br kt B H) as (ch & E). rewrite (bind_done _ _ _ _ _ E).
    destruct (lift_group_run g ch (mkEnv t c (zlen t) 0 br kt) G) as (b & E'). rewrite (bind_done _ _ _ _ _ E').
    destruct b.
    + destruct (next_char_run t c br kt B H) as (c' & En & Lc & Bc & _). rewrite (bind_done _ _ _ _ _ En).
      exists true, c'. split; [reflexivity|]. split; auto. split; [discriminate|auto].
    + exists false, c. split; [reflexivity|]. split; auto. split; [auto|discriminate].
Qed.
Lemma out_grouping_run g : group_ok g -> fwd_nav (out_grouping g).
Proof.
  intros G t c br kt B. unfold out_grouping. rewrite bind_get. cbn [limit cursor].
  destruct (Z.leb_spec (zlen t) c).
  - exists false, c. split; [reflexivity|]. repeat split; try apply B; try discriminate.
  - destruct (char_here_run t c br kt B H) as (ch & E). rewrite (bind_done _ _ _ _ _ E).
    destruct (lift_group_run g ch (mkEnv t c (zlen t) 0 br kt) G) as (b & E'). rewrite (bind_done _ _ _ _ _ E').
    destruct b.
    + exists false, c. split; [reflexivity|]. split; auto. split; [auto|discriminate].
    + destruct (next_char_run t c br kt B H) as (c' & En & Lc & Bc & _). rewrite (bind_done _ _ _ _ _ En).
      exists true, c'. split; [reflexivity|]. split; auto. split; [discriminate|auto].
Qed.

(** previous_char; next_char comes back. *)
Lemma prev_next t c br kt : bnd t c -> 0 < c -> exists c',
  previous_char (mkEnv t c (zlen t) 0 br kt) = Done tt (mkEnv t c' (zlen t) 0 br kt) /\
  0 <= c' < c /\ bnd t c' /\ next_char (mkEnv t c' (zlen t) 0 br kt) = Done tt (mkEnv t c (zlen t) 0 br kt).
Proof.
  intros B L. destruct (previous_char_run t c br kt B L) as (c' & E & Hc & B' & Max).
  exists c'. split; auto. split; auto. split; auto.
  destruct (next_char_run t c' br kt B') as (c'' & E' & Hc' & B'' & Min); [destruct B; lia|].
  rewrite E'. do 2 f_equal. destruct (Z.lt_trichotomy c'' c) as [K|[K|K]]; auto; exfalso.
  - apply (Max c''); auto; lia.
  - apply (Min c); auto; lia.
Qed.
Lemma in_grouping_b_run g : group_ok g -> bwd_nav (in_grouping_b g).
Proof.
  intros G t c br kt B. unfold in_grouping_b. rewrite bind_get. cbn [lb cursor].
  destruct (Z.leb_spec c 0).
  - exists false, c. split; [reflexivity|]. repeat split; try apply B; try discriminate.
  - destruct (prev_next t c br kt B H) as (c' & Ep & Hc & B' & En). rewrite (bind_done _ _ _ _ _ Ep).
    destruct (char_here_run t c' br kt B') as (ch & E); [destruct B; lia|]. rewrite (bind_done _ _ _ _ _ E).
    rewrite (bind_done _ _ _ _ _ En).
    destruct (lift_group_run g ch (mkEnv t c (zlen t) 0 br kt) G) as (b & E'). rewrite (bind_done _ _ _ _ _ E').
    destruct b.
    + rewrite (bind_done _ _ _ _ _ Ep). exists true, c'. split; [reflexivity|]. split; auto. split; [discriminate|lia].
    + exists false, c. split; [reflexivity|]. split; auto. split; [auto|discriminate].
Qed.
Lemma out_grouping_b_run g : group_ok g -> bwd_nav (out_grouping_b g).
Proof.
  intros G t c br kt B. unfold out_grouping_b. rewrite bind_get. cbn [lb cursor].
  destruct (Z.leb_spec c 0).
  - exists false, c. split; [reflexivity|]. repeat split; try apply B; try discriminate.
  - destruct (prev_next t c br kt B H) as (c' & Ep & Hc & B' & En). rewrite (bind_done _ _ _ _ _ Ep).
    destruct (char_here_run t c' br kt B') as (ch & E); [destruct B; lia|]. rewrite (bind_done _ _ _ _ _ E).
    rewrite (bind_done _ _ _ _ _ En).
    destruct (lift_group_run g ch (mkEnv t c (zlen t) 0 br kt) G) as (b & E'). rewrite (bind_done _ _ _ _ _ E').
    destruct b.
    + exists false, c. split; [reflexivity|]. split; auto. split; [auto|discriminate].
    + rewrite (bind_done _ _ _ _ _ Ep). exists true, c'. split; [reflexivity|]. split; auto. split; [discriminate|lia].
Qed.

(** ** Literals *)
Lemma starts_with_app p : forall s, starts_with s p = true -> exists r, s = p ++ r.
Proof.
  induction p as [|x p IH]; intros s H; [exists s; reflexivity|]. destruct s as [|y s]; [discriminate|].
  cbn in H. apply andb_true_iff in H as [E H]. apply Z.eqb_eq in E. subst. destruct (IH s H) as (r & ->). exists r. reflexivity.
Qed.

(** One-byte ASCII literals, the only ones given to eq_s / eq_s_b. *)
Lemma eq_s_run t c br kt x : utf8 t -> bnd t c -> 0 <= x < 128 ->
  exists b : bool, eq_s [x] (mkEnv t c (zlen t) 0 br kt) = Done b (mkEnv t (if b then c + 1 else c) (zlen t) 0 br kt) /\
    (b = true -> c < zlen t /\ nth_error t (Z.to_nat c) = Some x /\ bnd t (c + 1)).
Proof.
  intros U B Hx. unfold eq_s. cbn [cur cursor limit lb bra ket].
  destruct (Z.leb_spec (zlen t) c); [exists false; split; [reflexivity|discriminate]|].
  rewrite (split_at_run t c B). destruct (starts_with (skipn (Z.to_nat c) t) [x]) eqn:S.
  - destruct (starts_with_app _ _ S) as (r & Er).
    assert (N : nth_error t (Z.to_nat c) = Some x).
    { rewrite <- (firstn_skipn (Z.to_nat c) t), Er. rewrite nth_error_app2 by (rewrite firstn_length; lia).
      rewrite firstn_length. replace (Z.to_nat c - Nat.min (Z.to_nat c) (length t))%nat with 0%nat by (destruct B; unfold zlen in *; lia). reflexivity. }
    destruct (ascii_bnd t c x U ltac:(destruct B; lia) N Hx) as [_ B1].
    change (zlen [x]) with 1. cbn [up_to_boundary]. rewrite (proj2 B1). exists true. split; auto.
  - exists false. split; [reflexivity|discriminate].
Qed.
Lemma eq_s_b_run t c br kt x : utf8 t -> bnd t c -> 0 <= x < 128 ->
  exists b : bool, eq_s_b [x] (mkEnv t c (zlen t) 0 br kt) = Done b (mkEnv t (if b then c - 1 else c) (zlen t) 0 br kt) /\
    (b = true -> bnd t (c - 1)).
Proof.
  intros U B Hx. unfold eq_s_b. cbn [cur cursor limit lb bra ket]. change (zlen [x]) with 1.
  destruct (Z.ltb_spec (c - 0) 1); [exists false; split; [reflexivity|discriminate]|].
  destruct (is_char_boundary t (c - 1)) eqn:E; cbn [negb]; [|exists false; split; [reflexivity|discriminate]].
  assert (B1 : bnd t (c - 1)) by (split; auto; destruct B; lia).
  rewrite (split_at_run t (c - 1) B1). destruct (starts_with _ [x]); [exists true|exists false]; split; auto; discriminate.
Qed.

(** ** Replacement *)
Lemma replace_run t c br kt b k s : utf8 t -> utf8 s -> bnd t b -> bnd t k -> b <= k ->
  let t' := firstn (Z.to_nat b) t ++ s ++ skipn (Z.to_nat k) t in
  let c' := if k <=? c then c + (zlen s - (k - b)) else if b <? c then b else c in
  replace_s b k s (mkEnv t c (zlen t) 0 br kt) = Done (zlen s - (k - b)) (mkEnv t' c' (zlen t') 0 br kt) /\
  utf8 t' /\ zlen t' = zlen t + zlen s - (k - b).
Proof.
  intros U Us Bb Bk L t' c'. unfold replace_s. cbn [cur cursor limit lb bra ket].
  rewrite (split_at_run t b Bb), (split_at_run t k Bk). fold t'. fold c'.
  assert (Z' : zlen t' = zlen t + zlen s - (k - b)).
  { unfold t'. rewrite !zlen_app, zlen_firstn, zlen_skipn; destruct Bb, Bk; lia. }
  split; [|split; auto].
  - rewrite Z'. f_equal. f_equal. lia.
  - destruct (utf8_split t b U Bb), (utf8_split t k U Bk). unfold t'. repeat apply utf8_app; auto.
Qed.
Lemma slice_from_run t c b k s : utf8 t -> utf8 s -> bnd t b -> bnd t k -> b <= k ->
  let t' := firstn (Z.to_nat b) t ++ s ++ skipn (Z.to_nat k) t in
  let c' := if k <=? c then c + (zlen s - (k - b)) else if b <? c then b else c in
  slice_from s (mkEnv t c (zlen t) 0 b k) = Done true (mkEnv t' c' (zlen t') 0 b k) /\
  utf8 t' /\ zlen t' = zlen t + zlen s - (k - b).
Proof.
  intros U Us Bb Bk L. cbv zeta. destruct (replace_run t c b k b k s U Us Bb Bk L) as (E & U' & Z'). cbv zeta in *.
  split; auto. unfold slice_from. cbn [bra ket]. now rewrite (bind_done _ _ _ _ _ E).
Qed.
