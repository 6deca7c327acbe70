From Coq Require Import List QArith Qabs Reals Qreals Lra Lia.
From Coquelicot Require Import Coquelicot.
From Verif Require Import NormModel NormSpec NormPoly NormPieces NormZero NormGauss NormChain NormErr NormRel.
Import ListNotations.
Local Open Scope R_scope.

Definition zscore (mean sd x : R) : R := (x - mean) / (sd * sqrt 2).

Lemma sqrt2_pos : 0 < sqrt 2.
Proof. apply sqrt_lt_R0. lra. Qed.
Lemma sdq_pos sd : 0 < sd -> 0 < sd * sqrt 2.
Proof. intros. apply Rmult_lt_0_compat; auto. apply sqrt2_pos. Qed.

Lemma density_z mean sd t : 0 < sd ->
  density mean sd t = / 2 * (kappa * gauss (zscore mean sd t) * / (sd * sqrt 2)).
Proof.
  intros Hs. unfold density, kappa, zscore, gauss. pose proof sqrt2_pos as S. pose proof PI_RGT_0 as P.
  rewrite sqrt_mult by lra. assert (Q : 0 < sqrt PI) by (apply sqrt_lt_R0; auto).
  replace (- ((t - mean) / (sd * sqrt 2)) * ((t - mean) / (sd * sqrt 2)))
    with (- (t - mean) ^ 2 / (2 * sd ^ 2)).
  - field. lra.
  - rewrite <- (sqrt_sqrt 2) at 1 by lra. field. lra.
Qed.

Lemma density_int mean sd x y : 0 < sd ->
  is_RInt (density mean sd) x y (/ 2 * tail (zscore mean sd x) - / 2 * tail (zscore mean sd y)).
Proof.
  intros Hs. pose proof (sdq_pos sd Hs) as Sp.
  replace (/ 2 * tail (zscore mean sd x) - / 2 * tail (zscore mean sd y))
    with (- / 2 * tail (zscore mean sd y) - - / 2 * tail (zscore mean sd x)) by ring.
  apply (is_RInt_derive (fun t => - / 2 * tail (zscore mean sd t)) (density mean sd)).
  - intros t _. rewrite density_z by auto.
    replace (/ 2 * (kappa * gauss (zscore mean sd t) * / (sd * sqrt 2)))
      with (- / 2 * (/ (sd * sqrt 2) * - (kappa * gauss (zscore mean sd t)))) by ring.
    apply is_derive_scal.
    apply (is_derive_comp tail (zscore mean sd) t (- (kappa * gauss (zscore mean sd t))) (/ (sd * sqrt 2))).
    + apply tail_derive.
    + unfold zscore. auto_derive; auto. field. pose proof sqrt2_pos. lra.
  - intros t _. apply (ex_derive_continuous (density mean sd) t). unfold density. auto_derive.
    pose proof PI_RGT_0. assert (0 < sqrt (2 * PI)) by (apply sqrt_lt_R0; lra).
    repeat split; try (apply Rgt_not_eq; repeat apply Rmult_lt_0_compat; lra); lra.
Qed.

Lemma tail_spec mean sd x : 0 < sd -> upper_tail mean sd x (/ 2 * tail (zscore mean sd x)).
Proof.
  intros Hs P HP. destruct HP as [e He].
  pose proof (sdq_pos sd Hs) as Sp.
  unfold filtermapi.
  set (M := Rmax (mean + sd * sqrt 2) (mean + sd * sqrt 2 * (1 / e))).
  apply Filter_prod with (fun a => a = x) (fun b => M < b).
  - reflexivity.
  - exists M. auto.
  - intros a b -> Hb. exists (/ 2 * tail (zscore mean sd x) - / 2 * tail (zscore mean sd b)).
    cbn [fst snd]. split; [apply density_int; auto|]. apply He.
    assert (B1 : mean + sd * sqrt 2 < b) by (eapply Rle_lt_trans; [apply Rmax_l|exact Hb]).
    assert (B2 : mean + sd * sqrt 2 * (1 / e) < b) by (eapply Rle_lt_trans; [apply Rmax_r|exact Hb]).
    set (z := zscore mean sd b).
    assert (Ez : b = mean + sd * sqrt 2 * z) by (unfold z, zscore; field; pose proof sqrt2_pos; lra).
    assert (Z1 : 1 < z) by (apply Rmult_lt_reg_l with (sd * sqrt 2); auto; lra).
    assert (Z2 : 1 / e < z) by (apply Rmult_lt_reg_l with (sd * sqrt 2); auto; lra).
    pose proof (gauss_small e z (cond_pos e) ltac:(lra) ltac:(lra)) as G.
    pose proof (erf_true_tail z ltac:(lra)) as T. fold (tail z) in T.
    change (Rabs ((/ 2 * tail (zscore mean sd x) - / 2 * tail z) - / 2 * tail (zscore mean sd x)) < e).
    apply Rabs_lt_between. pose proof (cond_pos e). lra.
Qed.

Lemma tail_unique mean sd x p : 0 < sd -> upper_tail mean sd x p -> p = / 2 * tail (zscore mean sd x).
Proof.
  intros Hs H. pose proof (tail_spec mean sd x Hs) as T.
  pose proof (@is_RInt_gen_unique R_CompleteNormedModule (at_point x) (Rbar_locally p_infty) _ _ (density mean sd)) as U.
  rewrite <- (U p H). exact (U _ T).
Qed.

Lemma sf_fin x mean sd : 0 < sd -> sf_unchecked x mean sd = Fin (/ 2 * erf_impl (zscore mean sd x) true).
Proof.
  intros Hs. pose proof (sdq_pos sd Hs). unfold sf_unchecked, xdiv.
  destruct (Req_EM_T (sd * sqrt 2) 0); [lra|]. cbn [erfc xscale]. f_equal.
  replace (Q2R 0.5) with (/ 2) by (unfold Q2R; cbn; lra). reflexivity.
Qed.

Lemma abs_ok mean sd x p : 0 < sd -> upper_tail mean sd x p ->
  exists q, sf_unchecked x mean sd = Fin q /\ Rabs (q - p) <= 1.3e-10.
Proof.
  intros Hs H. apply tail_unique in H; auto. subst p. eexists. split; [apply sf_fin; auto|].
  rewrite <- Rmult_minus_distr_l, Rabs_mult, Rabs_pos_eq by lra.
  pose proof (erf_impl_err (zscore mean sd x)) as E. fold (tail (zscore mean sd x)) in E. lra.
Qed.

Lemma z_lt mean sd x : 0 < sd -> x - mean < 155 * sd -> zscore mean sd x < 110.
Proof.
  intros Hs H. unfold zscore. pose proof (sdq_pos sd Hs) as Sp.
  apply Rmult_lt_reg_r with (sd * sqrt 2); auto. unfold Rdiv. rewrite Rmult_assoc, Rinv_l by lra.
  assert (1.41 < sqrt 2).
  { rewrite <- (sqrt_Rsqr 1.41) by lra. apply sqrt_lt_1; unfold Rsqr; lra. }
  assert (sd * 1.41 < sd * sqrt 2) by (apply Rmult_lt_compat_l; lra). lra.
Qed.

Lemma rel_ok mean sd x p : 0 < sd -> x - mean < 155 * sd -> upper_tail mean sd x p ->
  exists q, sf_unchecked x mean sd = Fin q /\ Rabs (q - p) <= 2.5e-9 * p.
Proof.
  intros Hs Hx H. apply tail_unique in H; auto. subst p. eexists. split; [apply sf_fin; auto|].
  rewrite <- Rmult_minus_distr_l, Rabs_mult, Rabs_pos_eq by lra.
  pose proof (erf_impl_rel _ (z_lt mean sd x Hs Hx)) as E. lra.
Qed.

Lemma tail_pos z : 0 < tail z.
Proof.
  destruct (Rle_dec 0.5 z) as [H|H].
  - pose proof (mills z H) as M. eapply Rlt_le_trans; [|exact M].
    pose proof kappa_pos. pose proof (gauss_pos z).
    assert (0 < z * z) by (apply Rmult_lt_0_compat; lra).
    apply Rdiv_lt_0_compat; [|lra]. apply Rmult_lt_0_compat; [|lra]. apply Rmult_lt_0_compat; lra.
  - pose proof (erf_true_incr z 0.5 ltac:(lra)) as I.
    pose proof (arm_a_err 0.5 ltac:(lra)) as A. apply Rabs_le_between in A.
    pose proof (arm_a_bounds 0.5 ltac:(lra)) as B. unfold tail. lra.
Qed.
Lemma tail_neg z : tail (- z) = 2 - tail z.
Proof. unfold tail. rewrite erf_true_odd. ring. Qed.

Lemma exists_ok mean sd x : 0 < sd -> exists p, upper_tail mean sd x p /\ 0 < p < 1 /\
  (forall p', upper_tail mean sd x p' -> p' = p).
Proof.
  intros Hs. exists (/ 2 * tail (zscore mean sd x)). split; [apply tail_spec; auto|]. split.
  - pose proof (tail_pos (zscore mean sd x)). pose proof (tail_pos (- zscore mean sd x)) as N.
    rewrite tail_neg in N. lra.
  - intros p' H. apply tail_unique; auto.
Qed.

Lemma half_case : upper_tail 0 1 0 (1 / 2) /\ sf_unchecked 0 0 1 = Fin (1 / 2).
Proof.
  assert (Z : zscore 0 1 0 = 0) by (unfold zscore, Rdiv; ring).
  split.
  - pose proof (tail_spec 0 1 0 Rlt_0_1) as T. rewrite Z in T. unfold tail in T. rewrite erf_true_0 in T.
    replace (1 / 2) with (/ 2 * (1 - 0)) by lra. exact T.
  - rewrite sf_fin by lra. rewrite Z. f_equal.
    pose proof (erf_impl_neg 0) as E. rewrite Ropp_0 in E. lra.
Qed.

(** one standard deviation up, both numbers to nine places *)
Lemma range_impl z : 0 <= erf_impl z true <= 2 /\ (0 <= z -> erf_impl z true <= 1).
Proof.
  assert (K : forall z, 0 <= z -> 0 <= erf_impl z true <= 1).
  { clear z. intros z Hz. unfold erf_impl. destruct (Rlt_dec z 0); [lra|]. apply erf_pos_range; auto. }
  split; [|apply K].
  destruct (Rle_dec 0 z) as [H|H].
  - pose proof (K z H). lra.
  - pose proof (erf_impl_neg (- z)) as E. rewrite Ropp_involutive in E.
    pose proof (K (- z) ltac:(lra)). lra.
Qed.

Lemma z_nonneg mean sd x : 0 < sd -> mean <= x -> 0 <= zscore mean sd x.
Proof. intros. apply Rdiv_le_0_compat; [lra|apply sdq_pos; auto]. Qed.

Lemma range_ok mean sd x : 0 < sd ->
  exists q, sf_unchecked x mean sd = Fin q /\ 0 <= q <= 1 /\ (mean <= x -> q <= 1 / 2) /\ (x <= mean -> 1 / 2 <= q).
Proof.
  intros Hs. eexists. split; [apply sf_fin; auto|].
  destruct (range_impl (zscore mean sd x)) as [A B]. split; [lra|]. split.
  - intros H. specialize (B (z_nonneg mean sd x Hs H)). lra.
  - intros H. pose proof (erf_impl_neg (- zscore mean sd x)) as E. rewrite Ropp_involutive in E.
    destruct (range_impl (- zscore mean sd x)) as [_ C].
    assert (0 <= - zscore mean sd x).
    { replace (- zscore mean sd x) with ((mean - x) / (sd * sqrt 2)) by (unfold zscore; field; pose proof sqrt2_pos; lra).
      apply Rdiv_le_0_compat; [lra|apply sdq_pos; auto]. }
    specialize (C H0). lra.
Qed.

Lemma sym_ok mean sd d : 0 < sd ->
  exists a b, sf_unchecked (mean + d) mean sd = Fin a /\ sf_unchecked (mean - d) mean sd = Fin b /\ a + b = 1.
Proof.
  intros Hs. do 2 eexists. split; [apply sf_fin; auto|]. split; [apply sf_fin; auto|].
  replace (zscore mean sd (mean - d)) with (- zscore mean sd (mean + d))
    by (unfold zscore; field; pose proof sqrt2_pos; lra).
  rewrite erf_impl_neg. lra.
Qed.

Lemma zero_sd_ok mean x :
  (mean < x -> sf_unchecked x mean 0 = Fin 0) /\ (x < mean -> sf_unchecked x mean 0 = Fin 1) /\
  sf_unchecked mean mean 0 = NaN.
Proof.
  unfold sf_unchecked, xdiv. rewrite Rmult_0_l. destruct (Req_EM_T 0 0); [|lra].
  repeat split.
  - intros H. destruct (Rlt_dec 0 (x - mean)); [|lra]. cbn. f_equal. lra.
  - intros H. destruct (Rlt_dec 0 (x - mean)); [lra|]. destruct (Rlt_dec (x - mean) 0); [|lra]. cbn. f_equal. lra.
  - destruct (Rlt_dec 0 (mean - mean)); [lra|]. destruct (Rlt_dec (mean - mean) 0); [lra|]. reflexivity.
Qed.

(** ** order *)
Lemma almost_monotone mean sd x y p q : 0 < sd -> x <= y ->
  sf_unchecked x mean sd = Fin p -> sf_unchecked y mean sd = Fin q -> q <= p + 2.6e-10.
Proof.
  intros Hs Hxy Hp Hq. rewrite sf_fin in Hp, Hq by auto. injection Hp as <-. injection Hq as <-.
  pose proof (erf_impl_err (zscore mean sd x)) as A. pose proof (erf_impl_err (zscore mean sd y)) as B.
  apply Rabs_le_between in A, B.
  assert (zscore mean sd x <= zscore mean sd y).
  { unfold zscore, Rdiv. apply Rmult_le_compat_r; [left; apply Rinv_0_lt_compat, sdq_pos; auto|lra]. }
  pose proof (erf_true_incr _ _ H). lra.
Qed.

Lemma jump_up : arm_a (0.5 - 1e-12) <= Q2R half_a /\
  1 - arm_a (0.5 - 1e-12) + 4e-11 < band_value band0 0.5.
Proof.
  pose proof (lip arm_a 2 (0.5 - 1e-12) 0.5 ltac:(lra)) as L.
  assert (Hh : Rabs (arm_a 0.5 - arm_a (0.5 - 1e-12)) <= 2 * (0.5 - (0.5 - 1e-12))).
  { apply L. intros c Hc. destruct (arm_a_slope c ltac:(lra)) as (d & D1 & D2). exists d. split; auto.
    apply Rabs_le_between in D2. pose proof (gauss_pos c) as G0. pose proof (gauss_le1 c) as G1.
    pose proof kappa_between as K.
    assert (0 <= kappa * gauss c <= 1.13 * 1).
    { split; [apply Rmult_le_pos; lra|apply Rmult_le_compat; lra]. }
    apply Rabs_le. lra. }
  rewrite half_a_ok in Hh. apply Rabs_le_between in Hh.
  destruct half_steps as (_ & H2 & _). apply Qle_bool_iff, Qle_Rle in H2. rewrite Q2R_minus, Q2R_plus in H2.
  replace (Q2R 1) with 1 in H2 by (unfold Q2R; cbn; lra).
  replace (Q2R 4.9e-11) with 4.9e-11 in H2 by (unfold Q2R; cbn; lra).
  pose proof half_b_ok as B.
  assert (M : 0 <= arm_a 0.5 - arm_a (0.5 - 1e-12)).
  { destruct (MVT_gen arm_a (0.5 - 1e-12) 0.5 (Derive arm_a)) as (c & Hc & E).
    - rewrite Rmin_left, Rmax_right by lra. intros x Hx.
      destruct (arm_a_slope x ltac:(lra)) as (d & D1 & _). rewrite (is_derive_unique _ _ _ D1). exact D1.
    - rewrite Rmin_left, Rmax_right by lra. intros x Hx. apply continuity_pt_filterlim.
      apply (ex_derive_continuous arm_a x). destruct (arm_a_slope x ltac:(lra)) as (d & D1 & _). eexists; exact D1.
    - rewrite Rmin_left, Rmax_right in Hc by lra. rewrite E.
      destruct (arm_a_slope c ltac:(lra)) as (d & D1 & D2). rewrite (is_derive_unique _ _ _ D1).
      apply Rabs_le_between in D2. pose proof kappa_between as K.
      assert (Gq : 0.7 <= gauss c).
      { unfold gauss. pose proof (exp_ineq1_le (- c * c)). assert (c * c <= 0.5 * 0.5) by (apply Rmult_le_compat; lra). lra. }
      assert (1 * 0.7 <= kappa * gauss c) by (apply Rmult_le_compat; lra).
      apply Rmult_le_pos; lra. }
  rewrite half_a_ok in M. split; lra.
Qed.

Lemma not_monotone : exists x y p q, x < y /\ sf_unchecked x 0 1 = Fin p /\ sf_unchecked y 0 1 = Fin q /\ p + 2e-11 < q.
Proof.
  pose proof sqrt2_pos as S.
  exists ((0.5 - 1e-12) * sqrt 2), (0.5 * sqrt 2). do 2 eexists.
  split; [apply Rmult_lt_compat_r; lra|].
  split; [apply sf_fin; lra|]. split; [apply sf_fin; lra|].
  replace (zscore 0 1 ((0.5 - 1e-12) * sqrt 2)) with (0.5 - 1e-12).
  2:{ unfold zscore. field. lra. }
  replace (zscore 0 1 (0.5 * sqrt 2)) with 0.5.
  2:{ unfold zscore. field. lra. }
  destruct jump_up as [_ J].
  assert (E1 : erf_impl (0.5 - 1e-12) true = 1 - arm_a (0.5 - 1e-12)).
  { unfold erf_impl, erf_pos, erf_result. cbv zeta.
    destruct (Rlt_dec (0.5 - 1e-12) 0); [lra|]. destruct (Rlt_dec (0.5 - 1e-12) (Q2R 0.5)); [|lra].
    destruct (Rle_dec (Q2R 0.5) (0.5 - 1e-12)); [lra|]. cbn [andb orb].
    destruct (Rlt_dec (0.5 - 1e-12) (Q2R 1e-10)) as [N|]; [|reflexivity].
    replace (Q2R 1e-10) with 1e-10 in N by (unfold Q2R; cbn; lra). lra. }
  assert (E2 : erf_impl 0.5 true = band_value band0 0.5).
  { unfold erf_impl, erf_pos, erf_result. cbv zeta.
    destruct (Rlt_dec 0.5 0); [lra|]. destruct (Rlt_dec 0.5 (Q2R 0.5)); [lra|].
    destruct (Rle_dec (Q2R 0.5) 0.5); [|lra]. cbn [andb orb]. destruct (Rlt_dec 0.5 110); [|lra].
    unfold bands. rewrite pick_cons. destruct (Rlt_dec 0.5 (Q2R (upper _))) as [|N]; [reflexivity|].
    exfalso. apply N. cbn [upper]. lra. }
  rewrite E1, E2. lra.
Qed.

Lemma arm_a_incr a b : 0 <= a < b -> b <= 0.5 -> arm_a a < arm_a b.
Proof.
  intros Ha Hb.
  destruct (MVT_gen arm_a a b (Derive arm_a)) as (c & Hc & E).
  - rewrite Rmin_left, Rmax_right by lra. intros x Hx.
    destruct (arm_a_slope x ltac:(lra)) as (d & D1 & _). rewrite (is_derive_unique _ _ _ D1). exact D1.
  - rewrite Rmin_left, Rmax_right by lra. intros x Hx. apply continuity_pt_filterlim.
    apply (ex_derive_continuous arm_a x). destruct (arm_a_slope x ltac:(lra)) as (d & D1 & _). eexists; exact D1.
  - rewrite Rmin_left, Rmax_right in Hc by lra.
    destruct (arm_a_slope c ltac:(lra)) as (d & D1 & D2). rewrite (is_derive_unique _ _ _ D1) in E.
    apply Rabs_le_between in D2. pose proof kappa_between as K.
    assert (Gq : 0.7 <= gauss c).
    { unfold gauss. pose proof (exp_ineq1_le (- c * c)). assert (c * c <= 0.5 * 0.5) by (apply Rmult_le_compat; lra). lra. }
    assert (1 * 0.7 <= kappa * gauss c) by (apply Rmult_le_compat; lra).
    assert (0 < d * (b - a)) by (apply Rmult_lt_0_compat; lra). lra.
Qed.

Lemma uppers b : In b bands -> In (Q2R (upper b)) cuts \/ Q2R (upper b) = 110.
Proof.
  assert (X : forall q r, (q == r)%Q -> Q2R q = Q2R r) by (intros; apply Qeq_eqR; auto).
  unfold bands, cuts. intros H. cbn [In] in H.
  repeat (destruct H as [<-|H]; [cbn [upper]; try (left; cbn [In]; 
    repeat (first [left; unfold Q2R; cbn; lra | right]); fail); right; unfold Q2R; cbn; lra|]).
  destruct H.
Qed.

Lemma pick_same zx zy bs : zx < zy -> zy < 110 ->
  (forall b, In b bs -> In b bands) ->
  (forall c, In c cuts -> ~ (zx < c <= zy)) -> pick zx bs = pick zy bs.
Proof.
  intros Hxy H110 Hin Hc. induction bs as [|b r IH]; [reflexivity|].
  rewrite !pick_cons. rewrite IH by (intros; apply Hin; right; auto).
  assert (I : In b bands) by (apply Hin; left; auto).
  destruct (Rlt_dec zx (Q2R (upper b))) as [A|A]; destruct (Rlt_dec zy (Q2R (upper b))) as [B|B]; auto.
  - exfalso. destruct (uppers b I) as [U|U].
    + apply (Hc _ U). lra.
    + lra.
  - exfalso. lra.
Qed.

Lemma erf_decr zx zy : 0 <= zx < zy -> zy < 110 -> (forall c, In c cuts -> ~ (zx < c <= zy)) ->
  erf_impl zy true < erf_impl zx true.
Proof.
  intros H H110 Hc.
  assert (C1 : ~ (zx < 1e-10 <= zy)) by (apply Hc; left; reflexivity).
  assert (C2 : ~ (zx < 0.5 <= zy)) by (apply Hc; right; left; reflexivity).
  assert (T : Q2R 1e-10 = 1e-10) by (unfold Q2R; cbn; lra).
  unfold erf_impl. destruct (Rlt_dec zx 0); [lra|]. destruct (Rlt_dec zy 0); [lra|].
  unfold erf_pos, erf_result. cbv zeta. rewrite T.
  destruct (Rlt_dec zx (Q2R 0.5)) as [A|A]; destruct (Rlt_dec zy (Q2R 0.5)) as [B|B];
    destruct (Rle_dec (Q2R 0.5) zx); destruct (Rle_dec (Q2R 0.5) zy); cbn [andb orb]; try (exfalso; lra).
  - destruct (Rlt_dec zx 1e-10); destruct (Rlt_dec zy 1e-10); try (exfalso; lra).
    + lra.
    + fold (arm_a zx) (arm_a zy). pose proof (arm_a_incr zx zy ltac:(lra) ltac:(lra)). lra.
  - destruct (Rlt_dec zx 110); [|lra]. destruct (Rlt_dec zy 110); [|lra].
    rewrite <- (pick_same zx zy bands) by (auto; lra).
    destruct (pick_some zx ltac:(lra)) as (b & Hb). rewrite Hb.
    destruct (far_err zx b ltac:(lra) Hb) as (I & R1 & _).
    rewrite (pick_same zx zy bands) in Hb by (auto; lra).
    destruct (far_err zy b ltac:(lra) Hb) as (_ & R2 & _).
    apply band_decr; auto; lra.
Qed.

Lemma decr_ok mean sd x y p q : 0 < sd -> mean <= x < y -> y < mean + 110 * (sd * sqrt 2) ->
  (forall c, In c cuts -> ~ (x < mean + c * (sd * sqrt 2) <= y)) ->
  sf_unchecked x mean sd = Fin p -> sf_unchecked y mean sd = Fin q -> q < p.
Proof.
  intros Hs Hxy H110 Hc Hp Hq. rewrite sf_fin in Hp, Hq by auto. injection Hp as <-. injection Hq as <-.
  pose proof (sdq_pos sd Hs) as Sp. pose proof sqrt2_pos as S2.
  assert (Ex : x = mean + zscore mean sd x * (sd * sqrt 2)) by (unfold zscore; field; lra).
  assert (Ey : y = mean + zscore mean sd y * (sd * sqrt 2)) by (unfold zscore; field; lra).
  set (zx := zscore mean sd x) in *. set (zy := zscore mean sd y) in *.
  assert (L : forall a b, a * (sd * sqrt 2) < b * (sd * sqrt 2) -> a < b).
  { intros a b. apply Rmult_lt_reg_r. auto. }
  assert (erf_impl zy true < erf_impl zx true); [|lra].
  apply erf_decr.
  - split; [apply z_nonneg; lra|]. apply L. lra.
  - apply L. lra.
  - intros c I [A B]. apply (Hc c I). split.
    + rewrite Ex. apply Rplus_lt_compat_l, Rmult_lt_compat_r; auto.
    + rewrite Ey. apply Rplus_le_compat_l, Rmult_le_compat_r; lra.
Qed.

(** ** the p-values *)
Lemma xi_ok n c p : (30 <= n)%nat -> upper_tail 0 (sqrt (0.4 / INR n)) (Rabs c) p ->
  exists q, xi_p n c = Fin q /\ 0 <= q <= 1 /\ Rabs (q - 2 * p) <= 2.6e-10.
Proof.
  intros Hn H.
  assert (Hn' : 0 < INR n) by (apply lt_0_INR; lia).
  assert (Hs : 0 < sqrt (0.4 / INR n)) by (apply sqrt_lt_R0, Rdiv_lt_0_compat; lra).
  apply tail_unique in H; auto.
  unfold xi_p. destruct (Nat.ltb_spec n 30); [lia|]. rewrite sf_fin by lra. cbn [xscale].
  assert (S4 : 0 < sqrt (Q2R 0.4)) by (apply sqrt_lt_R0; lra).
  assert (Sn : 0 < sqrt (INR n)) by (apply sqrt_lt_R0; lra).
  pose proof sqrt2_pos as S2.
  assert (E : zscore 0 1 (sqrt (INR n) * Rabs c / sqrt (Q2R 0.4)) = zscore 0 (sqrt (0.4 / INR n)) (Rabs c)).
  { unfold zscore. rewrite sqrt_div by lra. field. repeat split; lra. }
  rewrite E. set (z := zscore 0 (sqrt (0.4 / INR n)) (Rabs c)) in *.
  assert (Z : 0 <= z) by (apply z_nonneg; auto; apply Rabs_pos).
  destruct (range_impl z) as [A B]. specialize (B Z).
  eexists. split; [reflexivity|]. split; [lra|].
  pose proof (erf_impl_err z) as X. fold (tail z) in X. subst p.
  replace (2 * (/ 2 * erf_impl z true) - 2 * (/ 2 * tail z)) with (erf_impl z true - tail z) by field. exact X.
Qed.

Lemma xi_small n c : (n < 30)%nat -> xi_p n c = NaN.
Proof. intros H. unfold xi_p. destruct (Nat.ltb_spec n 30); [reflexivity|lia]. Qed.

Lemma clamp_lip a b : Rabs (clamp01 a - clamp01 b) <= Rabs (a - b).
Proof.
  unfold clamp01, Rmax, Rmin.
  destruct (Rle_dec a 1); destruct (Rle_dec b 1);
    repeat match goal with |- context [Rle_dec ?u ?v] => destruct (Rle_dec u v) end;
    unfold Rabs; repeat match goal with |- context [Rcase_abs ?u] => destruct (Rcase_abs u) end; lra.
Qed.

Lemma mwu_ok factor u mean sd p : 0 < sd -> factor = 1 \/ factor = 2 ->
  upper_tail (mean + 0.5) sd u p ->
  exists q, mwu_p factor u mean sd = Fin q /\ 0 <= q <= 1 /\ Rabs (q - clamp01 (factor * p)) <= 2.6e-10.
Proof.
  intros Hs Hf H. apply tail_unique in H; auto.
  unfold mwu_p. destruct (Req_EM_T sd 0); [lra|]. rewrite sf_fin by auto. cbn [xscale xclamp01].
  eexists. split; [reflexivity|]. split.
  - unfold Rmax, Rmin. repeat match goal with |- context [Rle_dec ?u ?v] => destruct (Rle_dec u v) end; lra.
  - change (Rmax 0 (Rmin (factor * (/ 2 * erf_impl (zscore (mean + Q2R 0.5) sd u) true)) 1))
      with (clamp01 (factor * (/ 2 * erf_impl (zscore (mean + Q2R 0.5) sd u) true))).
    eapply Rle_trans; [apply clamp_lip|]. subst p. change (Q2R 0.5) with 0.5.
    set (z := zscore (mean + 0.5) sd u).
    pose proof (erf_impl_err z) as X. fold (tail z) in X. apply Rabs_le_between in X.
    apply Rabs_le. destruct Hf as [-> | ->]; lra.
Qed.

Lemma mwu_zero factor u mean : mwu_p factor u mean 0 = Fin 0.
Proof. unfold mwu_p. destruct (Req_EM_T 0 0); [reflexivity|lra]. Qed.

Lemma decr_case : 0 <= 1 < 1.01 /\ 1.01 < 0 + 110 * (1 * sqrt 2) /\
  (forall c, In c cuts -> ~ (1 < 0 + c * (1 * sqrt 2) <= 1.01)).
Proof.
  assert (S : 1.414 < sqrt 2 < 1.415).
  { split.
    - rewrite <- (sqrt_Rsqr 1.414) by lra. apply sqrt_lt_1; unfold Rsqr; lra.
    - rewrite <- (sqrt_Rsqr 1.415) by lra. apply sqrt_lt_1; unfold Rsqr; lra. }
  split; [lra|]. split; [lra|].
  intros c H. unfold cuts in H. cbn [In] in H.
  repeat (destruct H as [<-|H]; [intros [A B]; lra|]). destruct H.
Qed.
