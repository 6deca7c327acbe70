(* The integrals behind the gamma function: existence, the functional equation, Gautschi's bounds. *)
From Coq Require Import Reals Lra Lia.
From Coquelicot Require Import Coquelicot.
From Verif Require Import GamSpec.
Local Open Scope R_scope.

Definition lim0 (F : R -> R) (l : R) : Prop := filterlim F (at_right 0) (locally l).
Definition limi (F : R -> R) (l : R) : Prop := filterlim F (Rbar_locally p_infty) (locally l).

Lemma near0 (P : R -> Prop) d : 0 < d -> (forall x, 0 < x < d -> P x) -> at_right 0 P.
Proof.
  intros Hd H. exists (mkposreal d Hd). intros y Hy Hy0. apply H. split; auto.
  apply Rabs_def2 in Hy. cbn in Hy. unfold minus, plus, opp in Hy. cbn in Hy. lra.
Qed.
Lemma neari (P : R -> Prop) m : (forall x, m < x -> P x) -> Rbar_locally p_infty P.
Proof. intros H. exists m. auto. Qed.

Lemma lim0_eps F l : (forall e, 0 < e -> exists d, 0 < d /\ forall x, 0 < x < d -> Rabs (F x - l) < e) -> lim0 F l.
Proof.
  intros H P [e HP]. destruct (H e (cond_pos e)) as (d & Hd & Hx).
  apply (near0 _ d Hd). intros x Hx'. apply HP. apply Hx; auto.
Qed.
Lemma limi_eps F l : (forall e, 0 < e -> exists m, forall x, m < x -> Rabs (F x - l) < e) -> limi F l.
Proof.
  intros H P [e HP]. destruct (H e (cond_pos e)) as (m & Hx).
  apply (neari _ m). intros x Hx'. apply HP. apply Hx; auto.
Qed.

(** monotone and bounded functions converge *)
Lemma limi_mono F a b : (forall x y, a <= x <= y -> F x <= F y) -> (forall x, a <= x -> F x <= b) ->
  exists l, limi F l /\ forall x, a <= x -> F x <= l.
Proof.
  intros Hm Hb.
  destruct (completeness (fun v => exists x, a <= x /\ v = F x)) as [l [Hu Hl]].
  { exists b. intros v (x & Hx & ->). auto. }
  { exists (F a). exists a. split; auto. lra. }
  assert (Hle : forall x, a <= x -> F x <= l) by (intros x Hx; apply Hu; exists x; auto).
  exists l. split; auto. apply limi_eps. intros e He.
  assert (Hex : exists x0, a <= x0 /\ l - e < F x0).
  { apply Classical_Prop.NNPP. intros Hn.
    assert (l <= l - e); [|lra]. apply Hl. intros v (x & Hx & ->).
    destruct (Rle_dec (F x) (l - e)); auto. exfalso. apply Hn. exists x. lra. }
  destruct Hex as (x0 & Hx0 & HF). exists x0. intros x Hx.
  pose proof (Hm x0 x ltac:(lra)). pose proof (Hle x ltac:(lra)). apply Rabs_def1; lra.
Qed.
Lemma lim0_mono F a b : 0 < a -> (forall x y, 0 < x <= y -> y <= a -> F x <= F y) ->
  (forall x, 0 < x <= a -> b <= F x) ->
  exists l, lim0 F l /\ forall x, 0 < x <= a -> l <= F x.
Proof.
  intros Ha Hm Hb.
  destruct (completeness (fun v => exists x, 0 < x <= a /\ v = - F x)) as [l [Hu Hl]].
  { exists (- b). intros v (x & Hx & ->). specialize (Hb x Hx). lra. }
  { exists (- F a). exists a. split; auto. lra. }
  assert (Hle : forall x, 0 < x <= a -> - l <= F x).
  { intros x Hx. assert (- F x <= l) by (apply Hu; exists x; auto). lra. }
  exists (- l). split; auto. apply lim0_eps. intros e He.
  assert (Hex : exists x0, 0 < x0 <= a /\ l - e < - F x0).
  { apply Classical_Prop.NNPP. intros Hn.
    assert (l <= l - e); [|lra]. apply Hl. intros v (x & Hx & ->).
    destruct (Rle_dec (- F x) (l - e)); auto. exfalso. apply Hn. exists x. lra. }
  destruct Hex as (x0 & Hx0 & HF). exists x0. split; [lra|]. intros x Hx.
  pose proof (Hm x x0 ltac:(lra) ltac:(lra)). pose proof (Hle x ltac:(lra)). apply Rabs_def1; lra.
Qed.

(** from a primitive on the positive numbers to improper integrals *)
Lemma prim_int (f F : R -> R) (Hd : forall t, 0 < t -> is_derive F t (f t))
  (Hc : forall t, 0 < t -> continuous f t) a b : 0 < a -> 0 < b -> is_RInt f a b (F b - F a).
Proof.
  intros Ha Hb. apply (is_RInt_derive F f).
  - intros t Ht. apply Hd. destruct Ht as [Ht _]. unfold Rmin in Ht. destruct (Rle_dec a b); lra.
  - intros t Ht. apply Hc. destruct Ht as [Ht _]. unfold Rmin in Ht. destruct (Rle_dec a b); lra.
Qed.

Lemma lim_minus (Fa Fb : (R -> Prop) -> Prop) {FFa : Filter Fa} {FFb : Filter Fb} F la lb :
  filterlim F Fa (locally la) -> filterlim F Fb (locally lb) ->
  filterlim (fun ab : R * R => F (snd ab) - F (fst ab)) (filter_prod Fa Fb) (locally (lb - la)).
Proof.
  intros Ha Hb. unfold Rminus.
  eapply (filterlim_comp_2 (F := filter_prod Fa Fb) (G := locally lb) (H := locally (- la))
            (fun ab : R * R => F (snd ab)) (fun ab : R * R => - F (fst ab)) Rplus).
  - eapply filterlim_comp; [apply filterlim_snd|exact Hb].
  - eapply (filterlim_comp _ _ _ (fun ab : R * R => F (fst ab)) Ropp _ (locally la)).
    + eapply filterlim_comp; [apply filterlim_fst|exact Ha].
    + apply (filterlim_opp (V := R_NormedModule) la).
  - apply (filterlim_plus (V := R_NormedModule) lb (- la)).
Qed.

Lemma prim_gen (f F : R -> R) l0 l1
  (Hd : forall t, 0 < t -> is_derive F t (f t)) (Hc : forall t, 0 < t -> continuous f t) :
  lim0 F l0 -> limi F l1 -> is_RInt_gen f (at_right 0) (Rbar_locally p_infty) (l1 - l0).
Proof.
  intros H0 H1 P HP.
  pose proof (lim_minus _ _ F l0 l1 H0 H1 P HP) as HQ.
  assert (Hpos : filter_prod (at_right 0) (Rbar_locally p_infty) (fun ab => 0 < fst ab /\ 0 < snd ab)).
  { apply (Filter_prod _ _ _ (fun x => 0 < x) (fun y => 0 < y)).
    - apply (near0 _ 1); [lra|intros; lra].
    - apply (neari _ 0). auto.
    - auto. }
  unfold filtermapi. apply (filter_imp (fun ab => (0 < fst ab /\ 0 < snd ab) /\ P (F (snd ab) - F (fst ab)))).
  - intros [a b] [[Ha Hb] HPab]. cbn in *. exists (F b - F a). split; auto. apply (prim_int f F Hd Hc a b Ha Hb).
  - apply filter_and; [exact Hpos|exact HQ].
Qed.
Lemma prim_gen_from (f F : R -> R) x l1
  (Hd : forall t, 0 < t -> is_derive F t (f t)) (Hc : forall t, 0 < t -> continuous f t) :
  0 < x -> limi F l1 -> is_RInt_gen f (at_point x) (Rbar_locally p_infty) (l1 - F x).
Proof.
  intros Hx H1 P HP.
  assert (H0 : filterlim F (at_point x) (locally (F x))).
  { intros Q HQ. unfold filtermap, at_point. apply (locally_singleton (F x) Q HQ). }
  pose proof (lim_minus _ _ F (F x) l1 H0 H1 P HP) as HQ.
  assert (Hpos : filter_prod (at_point x) (Rbar_locally p_infty) (fun ab => 0 < fst ab /\ 0 < snd ab)).
  { apply (Filter_prod _ _ _ (fun x => 0 < x) (fun y => 0 < y)).
    - exact Hx.
    - apply (neari _ 0). auto.
    - auto. }
  unfold filtermapi. apply (filter_imp (fun ab => (0 < fst ab /\ 0 < snd ab) /\ P (F (snd ab) - F (fst ab)))).
  - intros [a b] [[Ha Hb] HPab]. cbn in *. exists (F b - F a). split; auto. apply (prim_int f F Hd Hc a b Ha Hb).
  - apply filter_and; [exact Hpos|exact HQ].
Qed.

(** ** the weight *)
Lemma w_pos a t : 0 < gamma_weight a t.
Proof. unfold gamma_weight, Rpower. apply Rmult_lt_0_compat; apply exp_pos. Qed.
Lemma w_cont a t : 0 < t -> continuous (gamma_weight a) t.
Proof.
  intros Ht. apply (ex_derive_continuous (gamma_weight a) t). unfold gamma_weight, Rpower. auto_derive. auto.
Qed.
Lemma w_int a x y : 0 < x -> 0 < y -> ex_RInt (gamma_weight a) x y.
Proof.
  intros Hx Hy. apply (ex_RInt_continuous (gamma_weight a)). intros z [Hz _]. apply w_cont.
  unfold Rmin in Hz. destruct (Rle_dec x y); lra.
Qed.

Definition vol (a x : R) : R := RInt (gamma_weight a) 1 x.
Lemma vol_derive a x : 0 < x -> is_derive (vol a) x (gamma_weight a x).
Proof.
  intros Hx. unfold vol. apply (is_derive_RInt (gamma_weight a) (vol a) 1 x).
  - exists (mkposreal (x / 2) ltac:(lra)). intros y Hy. apply (RInt_correct (gamma_weight a) 1 y).
    apply w_int; [lra|]. apply Rabs_def2 in Hy. cbn in Hy. unfold minus, plus, opp in Hy. cbn in Hy. lra.
  - apply w_cont; auto.
Qed.

(** monotonicity from the sign of the derivative *)
Lemma incr_of (F f : R -> R) a b : a <= b -> (forall t, a <= t <= b -> is_derive F t (f t)) ->
  (forall t, a <= t <= b -> 0 <= f t) -> F a <= F b.
Proof.
  intros Hab Hd Hf. destruct (MVT_gen F a b f) as (c & Hc & E).
  - intros y Hy. rewrite Rmin_left, Rmax_right in Hy by lra. apply Hd. lra.
  - intros y Hy. rewrite Rmin_left, Rmax_right in Hy by lra. apply continuity_pt_filterlim.
    apply (ex_derive_continuous F y). eexists. apply Hd. lra.
  - rewrite Rmin_left, Rmax_right in Hc by lra. specialize (Hf c Hc).
    assert (0 <= f c * (b - a)) by (apply Rmult_le_pos; lra). lra.
Qed.

Lemma vol_incr a x y : 0 < x -> x <= y -> vol a x <= vol a y.
Proof.
  intros Hx Hxy. apply (incr_of (vol a) (gamma_weight a)); auto.
  - intros t Ht. apply vol_derive. lra.
  - intros t _. left. apply w_pos.
Qed.
Lemma vol_1 a : vol a 1 = 0.
Proof. unfold vol. rewrite RInt_point. reflexivity. Qed.

Lemma pow_derive b t : 0 < t -> is_derive (fun u => Rpower u b) t (b * Rpower t (b - 1)).
Proof.
  intros Ht. unfold Rpower. auto_derive; auto.
  replace ((b - 1) * ln t) with (b * ln t + - ln t) by ring. rewrite exp_plus, exp_Ropp, exp_ln by auto.
  field. lra.
Qed.

Lemma vol_low a x : 0 < a -> 0 < x <= 1 -> - / a <= vol a x.
Proof.
  intros Ha [Hx Hx1].
  assert (H : / a * Rpower x a - vol a x <= / a * Rpower 1 a - vol a 1).
  { apply (incr_of (fun t => / a * Rpower t a - vol a t) (fun t => Rpower t (a - 1) - gamma_weight a t)); auto.
    - intros t Ht. apply (is_derive_minus (fun t => / a * Rpower t a) (vol a)).
      + replace (Rpower t (a - 1)) with (/ a * (a * Rpower t (a - 1))) by (field; lra).
        apply (is_derive_scal (fun t => Rpower t a) t (/ a)). apply pow_derive. lra.
      + apply vol_derive. lra.
    - intros t Ht. unfold gamma_weight.
      assert (exp (- t) <= 1). { rewrite <- exp_0. destruct (Req_dec t 0) as [->|]; [rewrite Ropp_0; lra|]. left. apply exp_increasing. lra. }
      assert (0 < Rpower t (a - 1)) by apply exp_pos.
      assert (Rpower t (a - 1) * exp (- t) <= Rpower t (a - 1) * 1) by (apply Rmult_le_compat_l; lra). lra. }
  rewrite vol_1 in H. replace (Rpower 1 a) with 1 in H by (unfold Rpower; rewrite ln_1, Rmult_0_r, exp_0; auto).
  assert (0 < / a) by (apply Rinv_0_lt_compat; auto).
  assert (0 < Rpower x a) by apply exp_pos.
  assert (0 < / a * Rpower x a) by (apply Rmult_lt_0_compat; auto). lra.
Qed.

(** powers grow slower than the exponential *)
Lemma ln_line c t : 0 < c -> 0 < t -> ln t <= ln c + t / c - 1.
Proof.
  intros Hc Ht. assert (H : ln (t / c) <= t / c - 1).
  { pose proof (exp_ineq1_le (ln (t / c))) as E. rewrite exp_ln in E; [lra|]. apply Rdiv_lt_0_compat; auto. }
  unfold Rdiv in H. rewrite ln_mult, ln_Rinv in H; auto; [|apply Rinv_0_lt_compat; auto].
  unfold Rdiv. lra.
Qed.
Definition grow (b : R) : R := exp (b * (ln (2 * b) - 1)).
Lemma pow_exp b t : 0 < b -> 0 < t -> Rpower t b * exp (- t) <= grow b * exp (- (t / 2)).
Proof.
  intros Hb Ht. unfold Rpower, grow. rewrite <- !exp_plus.
  assert (b * ln t + - t <= b * (ln (2 * b) - 1) + - (t / 2)) as H.
  { pose proof (ln_line (2 * b) t ltac:(lra) Ht) as L.
    apply Rmult_le_compat_l with (r := b) in L; [|lra].
    replace (b * (ln (2 * b) + t / (2 * b) - 1)) with (b * (ln (2 * b) - 1) + t / 2) in L by (field; lra). lra. }
  destruct H as [H| ->]; [left; apply exp_increasing; auto|lra].
Qed.
Lemma pow_exp_lim b : limi (fun t => Rpower t b * exp (- t)) 0.
Proof.
  apply limi_eps. intros e He.
  set (c := Rmax b 1). assert (Hc : 0 < c) by (unfold c; pose proof (Rmax_r b 1); lra).
  exists (Rmax 1 (2 * (grow c / e))). intros x Hx.
  assert (H1 : 1 < x) by (pose proof (Rmax_l 1 (2 * (grow c / e))); lra).
  assert (H2 : 2 * (grow c / e) < x) by (pose proof (Rmax_r 1 (2 * (grow c / e))); lra).
  assert (Hp : Rpower x b <= Rpower x c). { apply Rle_Rpower; [lra|]. apply Rmax_l. }
  pose proof (pow_exp c x Hc ltac:(lra)) as Hg.
  assert (0 < Rpower x b * exp (- x)) by (apply Rmult_lt_0_compat; apply exp_pos).
  assert (Rpower x b * exp (- x) <= Rpower x c * exp (- x)).
  { apply Rmult_le_compat_r; auto. left. apply exp_pos. }
  assert (He2 : exp (- (x / 2)) < e / grow c).
  { assert (0 < grow c) by apply exp_pos. rewrite exp_Ropp.
    replace (e / grow c) with (/ (grow c / e)) by (field; lra).
    apply Rinv_lt_contravar.
    - apply Rmult_lt_0_compat; [apply Rdiv_lt_0_compat; auto|apply exp_pos].
    - pose proof (exp_ineq1_le (x / 2)). lra. }
  assert (grow c * exp (- (x / 2)) < e).
  { assert (0 < grow c) by apply exp_pos. apply Rmult_lt_compat_l with (r := grow c) in He2; auto.
    replace (grow c * (e / grow c)) with e in He2 by (field; lra). lra. }
  rewrite Rminus_0_r. apply Rabs_def1; lra.
Qed.

Lemma vol_high a x : 0 < a -> 1 <= x -> vol a x <= 2 * grow (a + 1).
Proof.
  intros Ha Hx.
  assert (H : vol a x + 2 * grow (a + 1) * exp (- (x / 2)) <= vol a 1 + 2 * grow (a + 1) * exp (- (1 / 2))).
  { assert (E : - (vol a 1 + 2 * grow (a + 1) * exp (- (1 / 2))) <= - (vol a x + 2 * grow (a + 1) * exp (- (x / 2)))).
    { apply (incr_of (fun t => - (vol a t + 2 * grow (a + 1) * exp (- (t / 2))))
               (fun t => - (gamma_weight a t + - (grow (a + 1) * exp (- (t / 2)))))); auto.
      - intros t Ht. apply (is_derive_opp (fun t => vol a t + 2 * grow (a + 1) * exp (- (t / 2)))).
        apply (is_derive_plus (vol a) (fun t => 2 * grow (a + 1) * exp (- (t / 2)))).
        + apply vol_derive. lra.
        + generalize (grow (a + 1)). intros g. auto_derive; auto. unfold Rdiv. field.
      - intros t Ht. pose proof (pow_exp (a + 1) t ltac:(lra) ltac:(lra)) as P.
        assert (Rpower t (a - 1) <= Rpower t (a + 1)). { apply Rle_Rpower; lra. }
        assert (gamma_weight a t <= Rpower t (a + 1) * exp (- t)).
        { unfold gamma_weight. apply Rmult_le_compat_r; auto. left. apply exp_pos. }
        lra. }
    lra. }
  rewrite vol_1 in H.
  assert (0 < grow (a + 1)) by apply exp_pos.
  assert (exp (- (1 / 2)) <= 1) as E1. { rewrite <- exp_0 at 2. left. apply exp_increasing. lra. }
  assert (0 < exp (- (x / 2))) by apply exp_pos.
  assert (0 < 2 * grow (a + 1) * exp (- (x / 2))) by (apply Rmult_lt_0_compat; lra).
  assert (2 * grow (a + 1) * exp (- (1 / 2)) <= 2 * grow (a + 1) * 1) by (apply Rmult_le_compat_l; lra). lra.
Qed.

Lemma vol_lims a : 0 < a -> exists l0 l1, lim0 (vol a) l0 /\ limi (vol a) l1 /\
  (forall x, 0 < x <= 1 -> l0 <= vol a x) /\ (forall x, 1 <= x -> vol a x <= l1).
Proof.
  intros Ha.
  destruct (lim0_mono (vol a) 1 (- / a)) as (l0 & H0 & B0); [lra| | |].
  - intros x y Hx Hy. apply vol_incr; lra.
  - intros x Hx. apply vol_low; auto.
  - destruct (limi_mono (vol a) 1 (2 * grow (a + 1))) as (l1 & H1 & B1).
    + intros x y Hx. apply vol_incr; lra.
    + intros x Hx. apply vol_high; auto.
    + exists l0, l1. auto.
Qed.

Definition Gam (a : R) : R := RInt_gen (gamma_weight a) (at_right 0) (Rbar_locally p_infty).
Lemma gamma_uniq a G : is_Gamma a G -> Gam a = G.
Proof.
  intros H. unfold Gam.
  apply (@is_RInt_gen_unique R_CompleteNormedModule (at_right 0) (Rbar_locally p_infty) _ _ _ G H).
Qed.
Lemma gamma_of F a l0 l1 : (forall t, 0 < t -> is_derive F t (gamma_weight a t)) ->
  lim0 F l0 -> limi F l1 -> Gam a = l1 - l0.
Proof. intros. apply gamma_uniq. apply (prim_gen _ F); auto. intros; apply w_cont; auto. Qed.
Lemma gamma_ex a : 0 < a -> is_Gamma a (Gam a).
Proof.
  intros Ha. destruct (vol_lims a Ha) as (l0 & l1 & H0 & H1 & _).
  assert (H : is_Gamma a (l1 - l0)).
  { apply (prim_gen _ (vol a)); auto; intros; [apply vol_derive|apply w_cont]; auto. }
  rewrite (gamma_uniq _ _ H). exact H.
Qed.
Lemma gamma_lims a l0 l1 : lim0 (vol a) l0 -> limi (vol a) l1 -> Gam a = l1 - l0.
Proof. intros. apply (gamma_of (vol a)); auto. intros; apply vol_derive; auto. Qed.

(** comparing improper integrals through their primitives *)
Lemma lims_le F G f0 f1 g0 g1 : (forall x y, 0 < x <= y -> F y - F x <= G y - G x) ->
  lim0 F f0 -> limi F f1 -> lim0 G g0 -> limi G g1 -> f1 - f0 <= g1 - g0.
Proof.
  intros H F0 F1 G0 G1.
  apply (filterlim_le (F := filter_prod (at_right 0) (Rbar_locally p_infty))
           (fun ab : R * R => F (snd ab) - F (fst ab)) (fun ab : R * R => G (snd ab) - G (fst ab))
           (Finite (f1 - f0)) (Finite (g1 - g0))).
  - apply (Filter_prod _ _ _ (fun x => 0 < x < 1) (fun y => 1 < y)).
    + apply (near0 _ 1); [lra|intros; lra].
    + apply (neari _ 1). auto.
    + intros x y Hx Hy. cbn. apply H. lra.
  - apply (lim_minus _ _ F); auto.
  - apply (lim_minus _ _ G); auto.
Qed.

Lemma limi_plus F G f g : limi F f -> limi G g -> limi (fun x => F x + G x) (f + g).
Proof.
  intros HF HG. apply (filterlim_comp_2 _ _ _ HF HG). apply (filterlim_plus (V := R_NormedModule) f g).
Qed.
Lemma lim0_plus F G f g : lim0 F f -> lim0 G g -> lim0 (fun x => F x + G x) (f + g).
Proof.
  intros HF HG. apply (filterlim_comp_2 _ _ _ HF HG). apply (filterlim_plus (V := R_NormedModule) f g).
Qed.
Lemma limi_scal F k f : limi F f -> limi (fun x => k * F x) (k * f).
Proof.
  intros HF. apply (filterlim_comp _ _ _ F (fun y => k * y) _ _ _ HF). apply (filterlim_scal_r (V := R_NormedModule) k f).
Qed.
Lemma lim0_scal F k f : lim0 F f -> lim0 (fun x => k * F x) (k * f).
Proof.
  intros HF. apply (filterlim_comp _ _ _ F (fun y => k * y) _ _ _ HF). apply (filterlim_scal_r (V := R_NormedModule) k f).
Qed.

Lemma pow0_lim a : 0 < a -> lim0 (fun t => Rpower t a * exp (- t)) 0.
Proof.
  intros Ha. apply lim0_eps. intros e He. exists (Rpower e (/ a)). split; [apply exp_pos|].
  intros x [Hx Hx2]. rewrite Rminus_0_r.
  assert (0 < Rpower x a) by apply exp_pos. pose proof (exp_pos (- x)).
  assert (Rpower x a < e).
  { replace e with (Rpower (Rpower e (/ a)) a).
    - apply Rlt_Rpower_l; auto.
    - rewrite Rpower_mult, Rinv_l by lra. apply Rpower_1. auto. }
  assert (exp (- x) <= 1). { rewrite <- exp_0. left. apply exp_increasing. lra. }
  assert (Rpower x a * exp (- x) <= Rpower x a * 1) by (apply Rmult_le_compat_l; lra).
  apply Rabs_def1; [lra|]. assert (0 < Rpower x a * exp (- x)) by (apply Rmult_lt_0_compat; auto). lra.
Qed.

(** Gamma(a + 1) = a Gamma(a) *)
Lemma gamma_step a : 0 < a -> Gam (a + 1) = a * Gam a.
Proof.
  intros Ha. destruct (vol_lims a Ha) as (l0 & l1 & H0 & H1 & _).
  rewrite (gamma_lims a l0 l1 H0 H1).
  replace (a * (l1 - l0)) with ((a * l1 + -1 * 0) - (a * l0 + -1 * 0)) by ring.
  apply (gamma_of (fun t => a * vol a t + -1 * (Rpower t a * exp (- t)))).
  - intros t Ht.
    replace (gamma_weight (a + 1) t)
      with (a * gamma_weight a t + -1 * (a * Rpower t (a - 1) * exp (- t) + Rpower t a * (- exp (- t)))).
    + apply (is_derive_plus (fun t => a * vol a t) (fun t => -1 * (Rpower t a * exp (- t)))).
      * apply (is_derive_scal (vol a) t a). apply vol_derive; auto.
      * apply (is_derive_scal (fun t => Rpower t a * exp (- t)) t (-1)).
        apply (is_derive_mult (fun t => Rpower t a) (fun t => exp (- t)) t).
        -- apply pow_derive; auto.
        -- auto_derive; auto. ring.
        -- intros. apply Rmult_comm.
    + unfold gamma_weight. replace (a + 1 - 1) with a by ring. ring.
  - apply lim0_plus; [apply lim0_scal; auto|apply lim0_scal, pow0_lim; auto].
  - apply limi_plus; [apply limi_scal; auto|apply limi_scal, pow_exp_lim].
Qed.

Lemma cont_lim0 (F : R -> R) : continuous F 0 -> lim0 F (F 0).
Proof.
  intros H P HP. destruct (H P HP) as [d Hd]. exists d. intros y Hy _. apply Hd. auto.
Qed.

Lemma gamma_1 : Gam 1 = 1.
Proof.
  replace 1 with (0 - -1) at 2 by ring.
  apply (gamma_of (fun t => -1 * exp (- t))).
  - intros t Ht. unfold gamma_weight. replace (1 - 1) with 0 by ring. rewrite Rpower_O by auto.
    auto_derive; auto. ring.
  - pose proof (cont_lim0 (fun t => -1 * exp (- t))) as H. cbv beta in H.
    rewrite Ropp_0, exp_0, Rmult_1_r in H. apply H.
    apply (ex_derive_continuous (fun t => -1 * exp (- t)) 0). auto_derive. auto.
  - replace 0 with (-1 * 0) by ring. apply limi_scal. apply limi_eps. intros e He.
    exists (/ e). intros x Hx. rewrite Rminus_0_r. pose proof (exp_pos (- x)).
    assert (exp (- x) < e); [|apply Rabs_def1; lra].
    rewrite exp_Ropp. replace e with (/ / e) by (field; lra).
    assert (0 < / e) by (apply Rinv_0_lt_compat; auto).
    apply Rinv_lt_contravar.
    + apply Rmult_lt_0_compat; auto. apply exp_pos.
    + pose proof (exp_ineq1_le x). lra.
Qed.

Lemma gamma_pos a : 0 < a -> 0 < Gam a.
Proof.
  intros Ha. destruct (vol_lims a Ha) as (l0 & l1 & H0 & H1 & B0 & B1).
  rewrite (gamma_lims a l0 l1 H0 H1).
  pose proof (B0 1 ltac:(lra)) as X0. rewrite vol_1 in X0.
  pose proof (B1 2 ltac:(lra)) as X1.
  assert (0 < vol a 2); [|lra].
  destruct (MVT_gen (vol a) 1 2 (gamma_weight a)) as (c & Hc & E).
  - intros y Hy. rewrite Rmin_left, Rmax_right in Hy by lra. apply vol_derive. lra.
  - intros y Hy. rewrite Rmin_left, Rmax_right in Hy by lra. apply continuity_pt_filterlim.
    apply (ex_derive_continuous (vol a) y). eexists. apply vol_derive. lra.
  - rewrite vol_1 in E. pose proof (w_pos a c). lra.
Qed.

(** y^s <= 1 + s (y - 1) *)
Lemma bernoulli_le s y : 0 <= s <= 1 -> 0 < y -> Rpower y s <= 1 + s * (y - 1).
Proof.
  intros Hs Hy.
  destruct (MVT_gen (fun u => Rpower u s) 1 y (fun u => s * Rpower u (s - 1))) as (c & Hc & E).
  - intros t Ht. apply pow_derive. destruct Ht as [Ht _]. unfold Rmin in Ht. destruct (Rle_dec 1 y); lra.
  - intros t Ht. apply continuity_pt_filterlim. apply (ex_derive_continuous (fun u => Rpower u s) t).
    eexists. apply pow_derive. destruct Ht as [Ht _]. unfold Rmin in Ht. destruct (Rle_dec 1 y); lra.
  - replace (Rpower 1 s) with 1 in E by (unfold Rpower; rewrite ln_1, Rmult_0_r, exp_0; auto).
    assert (s * Rpower c (s - 1) * (y - 1) <= s * (y - 1)); [|lra].
    rewrite Rmult_assoc. apply Rmult_le_compat_l; [lra|].
    destruct (Rle_dec 1 y) as [H1|H1].
    + rewrite Rmin_left, Rmax_right in Hc by lra.
      assert (Rpower c (s - 1) <= 1).
      { replace 1 with (Rpower c 0) at 2 by (apply Rpower_O; lra). apply Rle_Rpower; lra. }
      assert (Rpower c (s - 1) * (y - 1) <= 1 * (y - 1)) by (apply Rmult_le_compat_r; lra). lra.
    + rewrite Rmin_right, Rmax_left in Hc by lra.
      assert (1 <= Rpower c (s - 1)).
      { unfold Rpower. rewrite <- exp_0 at 1.
        assert (0 <= (s - 1) * ln c).
        { assert (ln c <= 0). { destruct (Req_dec c 1) as [->|]; [rewrite ln_1; lra|]. left. rewrite <- ln_1. apply ln_increasing; lra. }
          replace ((s - 1) * ln c) with ((1 - s) * (- ln c)) by ring. apply Rmult_le_pos; lra. }
        destruct H as [H|H]; [left; apply exp_increasing; auto|rewrite <- H; lra]. }
      assert (Rpower c (s - 1) * (1 - y) >= 1 * (1 - y)) by (apply Rle_ge, Rmult_le_compat_r; lra). lra.
Qed.

(** Gautschi: Gamma(b + s) <= b^s Gamma(b) *)
Lemma gautschi b s : 0 < b -> 0 <= s <= 1 -> Gam (b + s) <= Rpower b s * Gam b.
Proof.
  intros Hb Hs.
  destruct (vol_lims b Hb) as (l0 & l1 & H0 & H1 & _).
  destruct (vol_lims (b + 1) ltac:(lra)) as (m0 & m1 & M0 & M1 & _).
  destruct (vol_lims (b + s) ltac:(lra)) as (n0 & n1 & N0 & N1 & _).
  pose proof (gamma_step b Hb) as St.
  rewrite (gamma_lims b l0 l1 H0 H1), (gamma_lims _ m0 m1 M0 M1) in St.
  rewrite (gamma_lims b l0 l1 H0 H1), (gamma_lims _ n0 n1 N0 N1).
  set (k := Rpower b s). assert (Hk : 0 < k) by apply exp_pos.
  assert (L : n1 - n0 <= ((k * (1 - s)) * l1 + (k * s / b) * m1) - ((k * (1 - s)) * l0 + (k * s / b) * m0)).
  { apply (lims_le (vol (b + s)) (fun t => (k * (1 - s)) * vol b t + (k * s / b) * vol (b + 1) t)); auto.
    - intros x y Hxy.
      assert ((k * (1 - s)) * vol b x + (k * s / b) * vol (b + 1) x - vol (b + s) x
              <= (k * (1 - s)) * vol b y + (k * s / b) * vol (b + 1) y - vol (b + s) y); [|lra].
      apply (incr_of (fun t => (k * (1 - s)) * vol b t + (k * s / b) * vol (b + 1) t - vol (b + s) t)
               (fun t => ((k * (1 - s)) * gamma_weight b t + (k * s / b) * gamma_weight (b + 1) t) - gamma_weight (b + s) t)); [lra| |].
      + intros t Ht.
        apply (is_derive_minus (fun t => (k * (1 - s)) * vol b t + (k * s / b) * vol (b + 1) t) (vol (b + s))).
        * apply (is_derive_plus (fun t => (k * (1 - s)) * vol b t) (fun t => (k * s / b) * vol (b + 1) t)).
          -- apply (is_derive_scal (vol b) t). apply vol_derive. lra.
          -- apply (is_derive_scal (vol (b + 1)) t). apply vol_derive. lra.
        * apply vol_derive. lra.
      + intros t Ht. unfold gamma_weight.
        replace (b + 1 - 1) with ((b - 1) + 1) by ring. replace (b + s - 1) with ((b - 1) + s) by ring.
        rewrite !Rpower_plus, Rpower_1 by lra.
        pose proof (bernoulli_le s (t / b) Hs ltac:(apply Rdiv_lt_0_compat; lra)) as B.
        assert (E : Rpower t s = k * Rpower (t / b) s).
        { unfold k. rewrite Rpower_mult_distr; auto; [|apply Rdiv_lt_0_compat; lra].
          f_equal. field. lra. }
        rewrite E.
        assert (Rpower t (b - 1) * exp (- t) * k * Rpower (t / b) s
                <= Rpower t (b - 1) * exp (- t) * k * (1 + s * (t / b - 1))) as P.
        { apply Rmult_le_compat_l; auto. left. repeat apply Rmult_lt_0_compat; auto; apply exp_pos. }
        replace (k * (1 - s) * (Rpower t (b - 1) * exp (- t)) + k * s / b * (Rpower t (b - 1) * t * exp (- t)) -
                 Rpower t (b - 1) * (k * Rpower (t / b) s) * exp (- t))
          with (Rpower t (b - 1) * exp (- t) * k * (1 + s * (t / b - 1)) - Rpower t (b - 1) * exp (- t) * k * Rpower (t / b) s)
          by (field; lra).
        lra.
    - apply lim0_plus; apply lim0_scal; auto.
    - apply limi_plus; apply limi_scal; auto. }
  replace (k * (1 - s) * l1 + k * s / b * m1 - (k * (1 - s) * l0 + k * s / b * m0))
    with (k * (1 - s) * (l1 - l0) + k * s / b * (m1 - m0)) in L by ring.
  rewrite St in L.
  replace (k * (1 - s) * (l1 - l0) + k * s / b * (b * (l1 - l0))) with (k * (l1 - l0)) in L by (field; lra).
  exact L.
Qed.
