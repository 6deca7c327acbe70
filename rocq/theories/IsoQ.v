(** Exact arithmetic: the block structure produced by the loop satisfies the optimality conditions
    of the monotone least-squares problem. *)
From Coq Require Import Bool List ZArith QArith Arith Lia Lqa Sorted Setoid.
From Verif Require Import Num F64 QSum IsoModel IsoSpec IsoProofs.
Import ListNotations.
Open Scope Q_scope.

Definition sw (e : list (Q * Q)) : Q := qsum snd e.
Definition swy (e : list (Q * Q)) : Q := qsum (fun p => snd p * fst p) e.
(** Weighted sum of deviations from [v]. *)
Definition dev (v : Q) (e : list (Q * Q)) : Q := qsum (fun p => snd p * (fst p - v)) e.
Definition posw (e : list (Q * Q)) : Prop := Forall (fun p => 0 < snd p) e.

Ltac qs := unfold dev, swy, sw, qsum; cbn [fold_right fst snd].
Ltac qsin H := unfold dev, swy, sw, qsum in H; cbn [fold_right fst snd] in H.
Lemma dev_app v e f : dev v (e ++ f) == dev v e + dev v f.
Proof. apply qsum_app. Qed.
Lemma dev_sw v e : dev v e == swy e - v * sw e.
Proof. unfold dev, swy, sw. induction e as [|p e IH]; [qs; ring|]. rewrite !qsum_cons, IH. ring. Qed.
Lemma dev_shift v u e : dev v e == dev u e + (u - v) * sw e.
Proof. rewrite !dev_sw. ring. Qed.
Lemma sw_app e f : sw (e ++ f) == sw e + sw f.
Proof. apply qsum_app. Qed.
Lemma swy_app e f : swy (e ++ f) == swy e + swy f.
Proof. apply qsum_app. Qed.
Lemma sw_nonneg e : posw e -> 0 <= sw e.
Proof. intros H. apply qsum_nonneg. intros x Hx. apply Qlt_le_weak. revert x Hx. apply Forall_forall. exact H. Qed.
Lemma sw_pos e : posw e -> e <> [] -> 0 < sw e.
Proof.
  intros H N. destruct e as [|p e]; [contradiction|]. inversion H; subst. unfold sw. rewrite qsum_cons.
  pose proof (sw_nonneg e H3). unfold sw in H0. lra.
Qed.
Lemma posw_app e f : posw (e ++ f) <-> posw e /\ posw f.
Proof. apply Forall_app. Qed.

(** Block conditions: [v] is the weighted mean and every prefix has mean at least [v]. *)
Definition good (v : Q) (e : list (Q * Q)) : Prop :=
  posw e /\ e <> [] /\ dev v e == 0 /\ forall p q, e = p ++ q -> 0 <= dev v p.

Lemma good_ext v u e : v == u -> good v e -> good u e.
Proof.
  intros E (A & B & C & D). split; [exact A|]. split; [exact B|].
  assert (S : forall f, dev u f == dev v f) by (intros f; rewrite !dev_sw, E; reflexivity).
  split; [now rewrite S|]. intros p q H. rewrite S. exact (D p q H).
Qed.
Lemma good_one x w : 0 < w -> good x [(x, w)].
Proof.
  intros H. split; [repeat constructor; exact H|]. split; [discriminate|]. split; [qs; ring|].
  intros p q E. destruct p as [|a p]; [qs; lra|].
  injection E as <- E. destruct p; [|discriminate]. qs. lra.
Qed.
Lemma app_split {A} : forall (p q a b : list A), p ++ q = a ++ b ->
  (exists l, a = p ++ l /\ q = l ++ b) \/ (exists l, p = a ++ l /\ b = l ++ q).
Proof.
  induction p as [|x p IH]; intros q a b E.
  - left. exists a. auto.
  - destruct a as [|y a]; [right; exists (x :: p); auto|].
    injection E as -> E. destruct (IH q a b E) as [(l & -> & ->)|(l & -> & ->)]; [left|right]; exists l; auto.
Qed.
Lemma good_merge va ea vb eb v : good va ea -> good vb eb -> vb <= va -> dev v (ea ++ eb) == 0 -> good v (ea ++ eb).
Proof.
  intros (Pa & Na & Da & Fa) (Pb & Nb & Db & Fb) L Dv.
  pose proof (sw_pos ea Pa Na) as Wa. pose proof (sw_pos eb Pb Nb) as Wb.
  assert (R : vb <= v /\ v <= va).
  { rewrite dev_app, (dev_shift v va ea), (dev_shift v vb eb), Da, Db in Dv. split; apply Qnot_lt_le; intros C; nra. }
  destruct R as [R1 R2].
  split; [apply posw_app; auto|]. split; [destruct ea; [contradiction|discriminate]|]. split; [exact Dv|].
  intros p q E. symmetry in E. destruct (app_split _ _ _ _ E) as [(l & -> & ->)|(l & -> & ->)].
  - rewrite (dev_shift v va). pose proof (Fa p l eq_refl). apply posw_app in Pa. pose proof (sw_nonneg p (proj1 Pa)). nra.
  - rewrite app_assoc, dev_app in Dv. apply posw_app in Pb. pose proof (sw_nonneg q (proj2 Pb)) as Wq.
    rewrite (dev_shift v vb q) in Dv. rewrite dev_app in Db. pose proof (Fb l q eq_refl). nra.
Qed.

Definition Gq (v w : Q) (e : list (Q * Q)) : Prop := good v e /\ w == sw e.
Definition Kq (s w : Q) (e : list (Q * Q)) : Prop := good (s / w) e /\ w == sw e /\ s == swy e.
Definition qge (a b : Q) : bool := Qle_bool b a.
Lemma qge_le a b : qge a b = true -> b <= a.
Proof. apply Qle_bool_iff. Qed.

Lemma mean_dev s w e : s == swy e -> w == sw e -> 0 < sw e -> dev (s / w) e == 0.
Proof. intros Es Ew H. rewrite dev_sw, Es, Ew. field. intros E. rewrite E in H. lra. Qed.
Lemma good_val v e : good v e -> sw e * v == swy e.
Proof. intros (_ & _ & D & _). rewrite dev_sw in D. lra. Qed.

Lemma Kq_merge va ea vb eb s w : good va ea -> good vb eb -> vb <= va ->
  s == swy (ea ++ eb) -> w == sw (ea ++ eb) -> Kq s w (ea ++ eb).
Proof.
  intros A B L S W. split; [|split; assumption]. apply (good_merge va ea vb eb); auto.
  apply mean_dev; auto. apply sw_pos.
  - destruct A as (A & _), B as (B & _). apply posw_app. auto.
  - destruct A as (_ & A & _). destruct ea; [contradiction|discriminate].
Qed.
Lemma Gq_one x w : 0 < w -> Gq x w [(x, w)].
Proof. intros H. split; [apply good_one; exact H|]. qs. ring. Qed.
Lemma Kq_init va wa ea x w : Gq va wa ea -> 0 < w -> qge va x = true ->
  Kq (wa * va + w * x) (w + wa) (ea ++ [(x, w)]).
Proof.
  intros [Ga Wa] H L. apply (Kq_merge va ea x [(x, w)]); auto.
  - now apply good_one.
  - now apply qge_le.
  - rewrite swy_app, Wa, (good_val _ _ Ga). qs. ring.
  - rewrite sw_app, Wa. qs. ring.
Qed.
Lemma Kq_fwd s w e x wx : Kq s w e -> 0 < wx -> qge (s / w) x = true ->
  Kq (s + wx * x) (w + wx) (e ++ [(x, wx)]).
Proof.
  intros (Ga & Wa & Sa) H L. apply (Kq_merge (s / w) e x [(x, wx)]); auto.
  - now apply good_one.
  - now apply qge_le.
  - rewrite swy_app, Sa. qs. ring.
  - rewrite sw_app, Wa. qs. ring.
Qed.
Lemma Kq_bwd va wa ea s w e : Gq va wa ea -> Kq s w e -> qge va (s / w) = true ->
  Kq (s + wa * va) (w + wa) (ea ++ e).
Proof.
  intros [Ga Wa] (Gb & Wb & Sb) L. apply (Kq_merge va ea (s / w) e); auto.
  - now apply qge_le.
  - rewrite swy_app, Wa, Sb, (good_val _ _ Ga). ring.
  - rewrite sw_app, Wa, Wb. ring.
Qed.
Lemma Kq_G s w e : Kq s w e -> Gq (s / w) w e.
Proof. intros (A & B & C). split; assumption. Qed.

(** * Optimality of a chain of good blocks *)
Lemma ssorted_app_inv {A} (R : A -> A -> Prop) l1 l2 : StronglySorted R (l1 ++ l2) -> StronglySorted R l1 /\ StronglySorted R l2.
Proof.
  induction l1 as [|a l1 IH]; cbn; intros H; [split; [constructor|exact H]|].
  inversion H; subst. destruct (IH H2). split; [constructor; auto|auto]. apply Forall_app in H3. tauto.
Qed.
(** Summation by parts on one block. *)
Lemma abel v : forall e z c, StronglySorted Qle z -> length z = length e -> e <> [] ->
  (forall p q, e = p ++ q -> 0 <= c + dev v p) -> c + dev v e == 0 ->
  qsum (fun t => snd (fst t) * (fst (fst t) - v) * snd t) (combine e z) <= - c * hd 0 z.
Proof.
  induction e as [|[y w] e IH]; intros z c Sz L N Pre Tot; [contradiction|].
  destruct z as [|z0 z]; [discriminate|]. cbn [combine]. rewrite qsum_cons. cbn [fst snd hd].
  inversion Sz as [|? ? Sz' Fz]; subst.
  assert (C' : 0 <= c + w * (y - v)).
  { specialize (Pre [(y, w)] e eq_refl). qsin Pre. lra. }
  destruct e as [|p e].
  - destruct z; [|discriminate]. qsin Tot. qs. cbn [combine fold_right fst snd]. nra.
  - destruct z as [|z1 z]; [discriminate|].
    assert (IH' := IH (z1 :: z) (c + w * (y - v)) Sz' ltac:(cbn in *; lia) ltac:(discriminate)).
    cbn [hd] in IH'.
    assert (B : qsum (fun t => snd (fst t) * (fst (fst t) - v) * snd t) (combine (p :: e) (z1 :: z)) <= - (c + w * (y - v)) * z1).
    { apply IH'.
      - intros p' q' E. specialize (Pre ((y, w) :: p') q' (f_equal (cons (y, w)) E)). unfold dev in *. rewrite qsum_cons in Pre. cbn [fst snd] in Pre. lra.
      - unfold dev in *. rewrite qsum_cons in Tot. cbn [fst snd] in Tot. lra. }
    inversion Fz; subst. nra.
Qed.

Lemma wsse_app y1 w1 z1 y2 w2 z2 : length w1 = length y1 -> length z1 = length y1 ->
  wsse (y1 ++ y2) (w1 ++ w2) (z1 ++ z2) == wsse y1 w1 z1 + wsse y2 w2 z2.
Proof.
  revert w1 z1. induction y1 as [|a y1 IH]; intros [|b w1] [|c z1] L1 L2; try discriminate; cbn [app wsse]; [ring|].
  rewrite IH by (cbn in *; lia). ring.
Qed.

(** One block: any non-decreasing competitor is worse by at least its squared distance. *)
Lemma block_opt v e z : good v e -> StronglySorted Qle z -> length z = length e ->
  wsse (map fst e) (map snd e) (repeat v (length e)) + wsse (repeat v (length e)) (map snd e) z
    <= wsse (map fst e) (map snd e) z.
Proof.
  intros (P & N & D & F) S L.
  assert (A := abel v e z 0 S L N). 
  assert (A' : qsum (fun t => snd (fst t) * (fst (fst t) - v) * snd t) (combine e z) <= 0).
  { assert (X : - 0 * hd 0 z == 0) by ring. rewrite <- X. apply A.
    - intros p q E. specialize (F p q E). lra.
    - rewrite D. ring. }
  clear A.
  assert (Id : wsse (map fst e) (map snd e) z ==
    wsse (map fst e) (map snd e) (repeat v (length e)) + wsse (repeat v (length e)) (map snd e) z
    - (2#1) * (qsum (fun t => snd (fst t) * (fst (fst t) - v) * snd t) (combine e z) - v * dev v e)).
  { clear - L. revert z L. induction e as [|[y w] e IH]; intros [|z0 z] L; try discriminate.
    - qs. cbn [map length repeat wsse combine fold_right]. ring.
    - cbn [map length repeat wsse fst snd combine]. rewrite (IH z) by (cbn in L; lia).
      unfold dev. rewrite !qsum_cons. cbn [fst snd]. ring. }
  rewrite Id, D. lra.
Qed.

Lemma stack_opt : forall s z, Forall (okb Gq) s -> StronglySorted Qle z -> length z = length (fe s) ->
  wsse (map fst (fe s)) (map snd (fe s)) (outs s) + wsse (outs s) (map snd (fe s)) z
    <= wsse (map fst (fe s)) (map snd (fe s)) z.
Proof.
  induction s as [|b s IH]; intros z F S L.
  - cbn in *. destruct z; cbn; lra.
  - inversion F as [|? ? [[Gb _] _] F']; subst. cbn [fe outs] in *.
    rewrite app_length in L.
    rewrite <- (firstn_skipn (length (fe s)) z) in S |- *.
    set (z1 := firstn (length (fe s)) z) in *. set (z2 := skipn (length (fe s)) z) in *.
    assert (L1 : length z1 = length (fe s)) by (unfold z1; rewrite firstn_length; lia).
    assert (L2 : length z2 = length (be b)) by (unfold z2; rewrite skipn_length; lia).
    destruct (ssorted_app_inv _ _ _ S) as [S1 S2].
    rewrite !map_app.
    rewrite !wsse_app by (rewrite ?map_length, ?outs_len; auto).
    pose proof (IH z1 F' S1 L1). pose proof (block_opt (bv b) (be b) z2 Gb S2 L2). lra.
Qed.

Lemma ssorted_app {A} (R : A -> A -> Prop) l1 l2 : StronglySorted R l1 -> StronglySorted R l2 ->
  (forall a b, In a l1 -> In b l2 -> R a b) -> StronglySorted R (l1 ++ l2).
Proof.
  induction l1 as [|a l1 IH]; cbn; intros S1 S2 H; [exact S2|]. inversion S1; subst. constructor.
  - apply IH; auto.
  - apply Forall_app. split; [assumption|]. apply Forall_forall. intros b Hb. apply H; auto.
Qed.
(** Monotonicity of the output for any total comparison. *)
Section Mono.
Context {T : Type} (ge : T -> T -> bool) (R : T -> T -> Prop) (ok : T -> Prop).
Context (R_refl : forall a, ok a -> R a a) (R_trans : forall a b c, R a b -> R b c -> R a c)
        (ge_R : forall a b, ok a -> ok b -> ge a b = false -> R a b).
Lemma outs_sorted s : Forall (fun b => ok (bv b)) s -> chain ge s ->
  StronglySorted R (outs s) /\ forall a b, In a (outs s) -> match s with [] => True | t :: _ => b = bv t -> R a b end.
Proof.
  induction s as [|t s IH]; intros F C; [split; [constructor|intros ? ? []]|].
  inversion F as [|? ? O F']; subst. inversion C as [|? ? C' Hd]; subst. destruct (IH F' C') as [S1 S2].
  assert (Below : forall a, In a (outs s) -> R a (bv t)).
  { intros a Ha. destruct s as [|u s]; [destruct Ha|].
    specialize (S2 a (bv u) Ha eq_refl). inversion Hd; subst. inversion F'; subst.
    eapply R_trans; [exact S2|]. apply ge_R; assumption. }
  cbn [outs]. split.
  - apply ssorted_app; [exact S1| |].
    + induction (length (be t)) as [|n IHn]; cbn; [constructor|]. constructor; [exact IHn|].
      apply Forall_forall. intros x Hx. apply repeat_spec in Hx. subst x. now apply R_refl.
    + intros a b Ha Hb. apply repeat_spec in Hb. subst b. now apply Below.
  - intros a b Ha ->. apply in_app_or in Ha. destruct Ha as [Ha|Ha]; [now apply Below|].
    apply repeat_spec in Ha. subst a. now apply R_refl.
Qed.
End Mono.

Lemma mono_sorted z : monotone true z <-> StronglySorted Qle z.
Proof.
  split.
  - induction z as [|a z IH]; intros M; [constructor|]. constructor.
    + apply IH. intros i j x y L Hx Hy. exact (M (S i) (S j) x y ltac:(lia) Hx Hy).
    + apply Forall_forall. intros b Hb. apply In_nth_error in Hb. destruct Hb as [j Hj].
      exact (M 0%nat (S j) a b ltac:(lia) eq_refl Hj).
  - induction 1 as [|a z S IH F]; intros i j x y L Hx Hy.
    + destruct i; discriminate.
    + destruct i as [|i], j as [|j]; cbn in Hx, Hy; try lia.
      * injection Hx as ->. injection Hy as ->. apply Qle_refl.
      * injection Hx as ->. rewrite Forall_forall in F. apply F. eapply nth_error_In; eassumption.
      * exact (IH i j x y ltac:(lia) Hx Hy).
Qed.

Lemma nth_error_rev {A} (l : list A) i : (i < length l)%nat -> nth_error (rev l) i = nth_error l (length l - S i).
Proof.
  revert i. induction l as [|a l IH]; intros i H; [cbn in H; lia|].
  cbn [rev length] in *. destruct (Nat.eq_dec i (length l)) as [->|N].
  - rewrite nth_error_app2 by (rewrite rev_length; lia). rewrite rev_length, Nat.sub_diag.
    replace (S (length l) - S (length l))%nat with 0%nat by lia. reflexivity.
  - rewrite nth_error_app1 by (rewrite rev_length; lia). rewrite IH by lia.
    replace (S (length l) - S i)%nat with (S (length l - S i)) by lia. reflexivity.
Qed.
Lemma mono_rev inc z : monotone inc z -> monotone (negb inc) (rev z).
Proof.
  intros M i j a b L Ha Hb.
  assert (Li : (j < length z)%nat) by (rewrite <- rev_length; apply nth_error_Some; congruence).
  rewrite nth_error_rev in Ha, Hb by lia.
  pose proof (M (length z - S j)%nat (length z - S i)%nat b a ltac:(lia) Hb Ha) as X.
  destruct inc; exact X.
Qed.
Lemma wsse_rev y : forall w z, length w = length y -> length z = length y -> wsse (rev y) (rev w) (rev z) == wsse y w z.
Proof.
  induction y as [|a y IH]; intros [|b w] [|c z] L1 L2; try discriminate; [reflexivity|].
  cbn [rev wsse]. cbn in L1, L2. rewrite wsse_app by (rewrite !rev_length; lia). rewrite IH by lia. cbn [wsse]. ring.
Qed.
Lemma sq_nn (t : Q) : 0 <= t * t.
Proof. destruct (Qlt_le_dec t 0); nra. Qed.
Lemma wsq_nn (w t : Q) : 0 < w -> 0 <= w * (t * t).
Proof. intros H. apply Qmult_le_0_compat; [lra|apply sq_nn]. Qed.
Lemma sq_pos (t : Q) : t < 0 \/ 0 < t -> 0 < t * t.
Proof. intros [H|H]; nra. Qed.
Lemma wsq_pos (w t : Q) : 0 < w -> t < 0 \/ 0 < t -> 0 < w * (t * t).
Proof. intros H T. apply sq_pos in T. nra. Qed.
Lemma wsse_nonneg y : forall w z, Forall (fun w => 0 < w) w -> 0 <= wsse y w z.
Proof.
  induction y as [|a y IH]; intros [|b w] [|c z] F; cbn [wsse]; try apply Qle_refl.
  inversion F; subst. pose proof (IH w z H2). pose proof (wsq_nn b (a - c) H1). lra.
Qed.
Lemma sq_zero a b w : 0 < w -> w * ((a - b) * (a - b)) <= 0 -> b == a.
Proof.
  intros W H. destruct (Qlt_le_dec (a - b) 0) as [L|L].
  - pose proof (wsq_pos w (a - b) W (or_introl L)). lra.
  - destruct (Qlt_le_dec 0 (a - b)) as [L'|L']; [|lra]. pose proof (wsq_pos w (a - b) W (or_intror L')). lra.
Qed.
Lemma wsse_zero x : forall w z, Forall (fun w => 0 < w) w -> length w = length x -> length z = length x ->
  wsse x w z <= 0 -> Forall2 Qeq z x.
Proof.
  induction x as [|a x IH]; intros [|b w] [|c z] F L1 L2 H; try discriminate; [constructor|].
  inversion F; subst. cbn [wsse] in H. pose proof (wsse_nonneg x w z H3).
  pose proof (wsq_nn b (a - c) H2). constructor.
  - apply (sq_zero a c b H2). lra.
  - apply (IH w); auto; cbn in *; try lia; lra.
Qed.
Lemma wsse_self y : forall w, wsse y w y == 0.
Proof. induction y as [|a y IH]; intros [|b w]; cbn [wsse]; try reflexivity. rewrite IH. ring. Qed.

(** The run in exact arithmetic gives the unique non-decreasing fit. *)
Lemma run_fit y w : (2 <= length y)%nat -> length w = length y -> Forall (fun w => 0 < w) w ->
  exists x, iso_run Qplus Qmult Qdiv qge false y w = Some x /\ isotonic_fit true y w x.
Proof.
  intros L Lw F. set (rows := combine y w).
  assert (Ey : map fst rows = y) by (unfold rows; clear - Lw; revert w Lw; induction y; intros [|b w] Lw; try discriminate; cbn; [reflexivity|rewrite IHy by (cbn in Lw; lia); reflexivity]).
  assert (Ew : map snd rows = w) by (unfold rows; clear - Lw; revert w Lw; induction y; intros [|b w] Lw; try discriminate; cbn; [reflexivity|rewrite IHy by (cbn in Lw; lia); reflexivity]).
  assert (Lr : length rows = length y) by (unfold rows; rewrite combine_length; lia).
  destruct (run_ok Qplus Qmult Qdiv qge (fun _ w => 0 < w) Gq Kq Gq_one Kq_init Kq_fwd Kq_bwd Kq_G rows)
    as (s & Hs & Ok & Ch & Run & _); [lia| |].
  { apply Forall_forall. intros [a b] Hp. cbn. rewrite Forall_forall in F. apply F. rewrite <- Ew.
    change b with (snd (a, b)). apply in_map. exact Hp. }
  rewrite Ey, Ew in Run. exists (outs s). split; [exact Run|].
  assert (Mono : StronglySorted Qle (outs s)).
  { apply (outs_sorted qge Qle (fun _ => True)).
    - intros; apply Qle_refl.
    - intros; eapply Qle_trans; eassumption.
    - intros a b _ _ H. unfold qge in H. destruct (Qlt_le_dec b a) as [C|C]; [|exact C].
      assert (Qle_bool b a = true) by (apply Qle_bool_iff, Qlt_le_weak, C). congruence.
    - apply Forall_forall. auto.
    - exact Ch. }
  assert (Lo : length (outs s) = length y) by (rewrite outs_len, Hs; exact Lr).
  split; [exact Lo|]. split; [now apply mono_sorted|].
  intros z Lz Mz. apply mono_sorted in Mz.
  pose proof (stack_opt s z Ok Mz) as Opt. rewrite Hs, Ey, Ew in Opt. specialize (Opt ltac:(lia)).
  pose proof (wsse_nonneg (outs s) w z F). split; [lra|]. intros H'.
  apply (wsse_zero _ w); auto; try lia. lra.
Qed.

Lemma fit_rev y w x : length w = length y -> isotonic_fit true (rev y) (rev w) x -> isotonic_fit false y w (rev x).
Proof.
  intros Lw (L & M & O). rewrite rev_length in L. split; [rewrite rev_length; exact L|].
  split; [exact (mono_rev true x M)|]. intros z Lz Mz.
  specialize (O (rev z)). rewrite !rev_length in O. specialize (O Lz (mono_rev false z Mz)).
  assert (E : wsse (rev y) (rev w) x == wsse y w (rev x)).
  { rewrite <- (rev_involutive x) at 1. apply wsse_rev; [exact Lw|rewrite rev_length; exact L]. }
  assert (E2 : wsse (rev y) (rev w) (rev z) == wsse y w z) by (apply wsse_rev; auto).
  rewrite E, E2 in O. destruct O as [O1 O2]. split; [exact O1|]. intros H. specialize (O2 H).
  rewrite <- (rev_involutive z). clear - O2. revert O2. generalize (rev z). clear z. intros z.
  assert (G : forall a b, Forall2 Qeq a b -> Forall2 Qeq (rev a) (rev b)).
  { induction 1; cbn; [constructor|]. apply Forall2_app; [assumption|]. constructor; [assumption|constructor]. }
  apply G.
Qed.
Lemma fit_small inc y w : (length y <= 1)%nat -> length w = length y -> Forall (fun w => 0 < w) w -> isotonic_fit inc y w y.
Proof.
  intros L Lw F. split; [reflexivity|]. split.
  - intros i j a b Lij Ha Hb.
    assert (i < length y)%nat by (apply nth_error_Some; congruence).
    assert (j < length y)%nat by (apply nth_error_Some; congruence).
    assert (i = j) by lia. subst j. assert (a = b) by congruence. subst. destruct inc; apply Qle_refl.
  - intros z Lz _. rewrite wsse_self. split; [apply wsse_nonneg; exact F|].
    intros H. apply (wsse_zero y w); auto.
Qed.

Lemma no_nulls_some {A} (l : list A) : no_nulls (map Some l) = Some l.
Proof. induction l as [|a l IH]; [reflexivity|]. cbn. now rewrite IH. Qed.
Lemma no_nulls_none {A} (l : list (option A)) : In None l -> no_nulls l = None.
Proof.
  induction l as [|[a|] l IH]; cbn; intros H; [destruct H| |reflexivity].
  destruct H as [H|H]; [discriminate|]. now rewrite IH.
Qed.
Lemma no_nulls_length {A} (l : list (option A)) v : no_nulls l = Some v -> length v = length l.
Proof.
  revert v. induction l as [|[a|] l IH]; cbn; intros v H; [injection H as <-; reflexivity| |discriminate].
  destruct (no_nulls l); [|discriminate]. injection H as <-. cbn. f_equal. now apply IH.
Qed.

Theorem isotonic_q_weighted inc y w : length w = length y -> Forall (fun w => 0 < w) w ->
  exists x, isotonic_q false (map Some y) (Some (map Some w)) inc = IsoOk (map Some x) /\ isotonic_fit inc y w x.
Proof.
  intros Lw F. unfold isotonic_q, pl_isotonic. rewrite map_length.
  destruct (length y <=? 1)%nat eqn:E.
  { apply Nat.leb_le in E. exists y. split; [reflexivity|]. now apply fit_small. }
  apply Nat.leb_gt in E. rewrite !no_nulls_some, map_length, Lw, Nat.eqb_refl. cbn [negb].
  assert (X : existsb (fun a => Qle_bool a 0) w = false).
  { apply not_true_iff_false. intros H. apply existsb_exists in H. destruct H as (a & Ha & Hb).
    apply Qle_bool_iff in Hb. rewrite Forall_forall in F. specialize (F a Ha). lra. }
  rewrite X. destruct inc; cbn [rev_if].
  - destruct (run_fit y w) as (x & R & Fit); auto. unfold qge in R. rewrite R. exists x. split; [reflexivity|exact Fit].
  - destruct (run_fit (rev y) (rev w)) as (x & R & Fit); rewrite ?rev_length; auto.
    { apply Forall_rev. exact F. }
    unfold qge in R. rewrite R. exists (rev x). split; [reflexivity|]. now apply fit_rev.
Qed.
Theorem isotonic_q_unweighted inc y :
  exists x, isotonic_q false (map Some y) None inc = IsoOk (map Some x) /\ isotonic_fit inc y (map (fun _ => 1) y) x.
Proof.
  destruct (isotonic_q_weighted inc y (map (fun _ => 1) y)) as (x & R & Fit).
  - apply map_length.
  - apply Forall_forall. intros a Ha. apply in_map_iff in Ha. destruct Ha as (? & <- & _). reflexivity.
  - exists x. split; [|exact Fit]. rewrite <- R. unfold isotonic_q, pl_isotonic. rewrite map_length.
    destruct (length y <=? 1)%nat; [reflexivity|].
    rewrite !no_nulls_some, !map_length, Nat.eqb_refl. cbn [negb].
    assert (E : map (fun _ : Q => 1) y = repeat 1 (length y)) by (clear; induction y; cbn; congruence).
    rewrite E. assert (X : existsb (fun a => Qle_bool a 0) (repeat 1 (length y)) = false).
    { clear. induction (length y); cbn; auto. }
    rewrite X. assert (Rv : rev_if inc (repeat 1 (length y)) = repeat 1 (length y)).
    { destruct inc; [reflexivity|]. cbn. clear. induction (length y) as [|n IH]; [reflexivity|]. cbn. rewrite IH.
      clear. change [1] with (repeat 1 1). rewrite <- repeat_app, Nat.add_1_r. reflexivity. }
    rewrite Rv. reflexivity.
Qed.
(** Idempotence on monotone data. *)
Lemma fit_monotone inc y w x : length w = length y -> Forall (fun w => 0 < w) w -> monotone inc y ->
  isotonic_fit inc y w x -> Forall2 Qeq y x.
Proof.
  intros L F M (Lx & Mx & O). apply (O y eq_refl M). rewrite wsse_self. now apply wsse_nonneg.
Qed.

(** * Properties that hold for every arithmetic, in particular for binary64 *)
Section Any.
Context {T : Type} (add mul div : T -> T -> T) (ge : T -> T -> bool).
Lemma run_any x w : (2 <= length x)%nat -> length w = length x ->
  exists s : list blk, iso_run add mul div ge false x w = Some (outs s) /\ chain ge s /\
    length (outs s) = length x /\ Forall (fun b => be b <> []) s /\ iso_run add mul div ge true x w = None.
Proof.
  intros L Lw. set (rows := combine x w).
  assert (Ey : map fst rows = x) by (unfold rows; clear - Lw; revert w Lw; induction x; intros [|b w] Lw; try discriminate; cbn; [reflexivity|rewrite IHx by (cbn in Lw; lia); reflexivity]).
  assert (Ew : map snd rows = w) by (unfold rows; clear - Lw; revert w Lw; induction x; intros [|b w] Lw; try discriminate; cbn; [reflexivity|rewrite IHx by (cbn in Lw; lia); reflexivity]).
  assert (Lr : length rows = length x) by (unfold rows; rewrite combine_length; lia).
  destruct (run_ok add mul div ge (fun _ _ => True) (fun _ _ _ => True) (fun _ _ _ => True)
    ltac:(auto) ltac:(auto) ltac:(auto) ltac:(auto) ltac:(auto) rows) as (s & Hs & Ok & Ch & R1 & R2);
    [lia|apply Forall_forall; auto|].
  rewrite Ey, Ew in R1, R2. exists s. rewrite outs_len, Hs. repeat split; auto.
  eapply Forall_impl; [|exact Ok]. intros b [_ H]. exact H.
Qed.
Lemma outs_in (s : list (@blk T)) b : In b s -> be b <> [] -> In (bv b) (outs s).
Proof.
  intros H N. induction s as [|t s IH]; [destruct H|]. cbn [outs]. apply in_or_app. destruct H as [->|H]; [right|left; auto].
  destruct (be b); [contradiction|]. now left.
Qed.
End Any.
