(** The power-series arm of the incomplete gamma function. *)
From Coq Require Import QArith Reals Lra Lia Psatz.
From Coquelicot Require Import Coquelicot.
From Verif Require Import NormModel GamSpec GamModel GamInt GamLan4 GamLan5 GamInc.
Local Open Scope R_scope.

Lemma eps_eq : eps = 1e-15.
Proof. unfold eps, Q2R. cbn [Qnum Qden]. lra. Qed.
Lemma prec_eq : 1.1e-15 < PREC_ACC < 1.2e-15.
Proof. unfold PREC_ACC, Q2R. cbn [Qnum Qden]. lra. Qed.
Lemma tiny_eq : ln_tiny < -709.
Proof. unfold ln_tiny, Q2R. cbn [Qnum Qden]. lra. Qed.
#[global] Opaque eps PREC_ACC ln_tiny ln_gamma.

Lemma Sn_ge1 a n x : 0 < a -> 0 < x -> 1 <= Sn a n x.
Proof. intros Ha Hx. induction n; cbn [Sn]; [lra|]. pose proof (ct_pos a (S n) x Ha Hx). lra. Qed.

Lemma asc_fact a n : 0 < a -> INR (fact n) <= asc a n.
Proof.
  intros Ha. induction n; [cbn; lra|]. rewrite fact_simpl, mult_INR. cbn [asc]. rewrite Rmult_comm.
  apply Rmult_le_compat; try apply pos_INR; auto. lra.
Qed.
Lemma ct_small a x e : 0 < a -> 0 < x -> 0 < e -> exists n, (1 <= n)%nat /\ ct a n x <= e.
Proof.
  intros Ha Hx He. destruct (cv_speed_pow_fact x e He) as [N H]. exists (S N). split; [lia|].
  specialize (H (S N) ltac:(lia)). unfold R_dist in H. rewrite Rminus_0_r in H.
  pose proof (Rle_abs (x ^ S N / INR (fact (S N)))). apply Rle_trans with (x ^ S N / INR (fact (S N))); [|lra].
  unfold ct, Rdiv. apply Rmult_le_compat_l; [left; apply pow_lt; auto|]. apply inv_le.
  split; [apply INR_fact_lt_0|apply asc_fact; auto].
Qed.

Lemma series_loop a x : 0 < a -> 0 < x -> forall d n, ct a (n + S d) x / Sn a (n + S d) x <= eps ->
  exists j, (n < j)%nat /\ ct a j x / Sn a j x <= eps /\
    forall fuel, (d < fuel)%nat -> series fuel x (a + INR n) (ct a n x) (Sn a n x) = Some (Sn a j x).
Proof.
  intros Ha Hx. induction d; intros n H.
  - exists (S n). replace (n + 1)%nat with (S n) in H by lia. split; [lia|]. split; [exact H|].
    intros fuel Hf. destruct fuel; [lia|]. cbn [series].
    replace (a + INR n + 1) with (a + INR (S n)) by (rewrite S_INR; ring).
    rewrite <- ct_S by auto. change (Sn a n x + ct a (S n) x) with (Sn a (S n) x).
    destruct (Rle_dec _ _); [reflexivity|contradiction].
  - destruct (Rle_dec (ct a (S n) x / Sn a (S n) x) eps) as [L|L].
    + exists (S n). split; [lia|]. split; [exact L|].
      intros fuel Hf. destruct fuel; [lia|]. cbn [series].
      replace (a + INR n + 1) with (a + INR (S n)) by (rewrite S_INR; ring).
      rewrite <- ct_S by auto. change (Sn a n x + ct a (S n) x) with (Sn a (S n) x).
      destruct (Rle_dec _ _); [reflexivity|contradiction].
    + replace (n + S (S d))%nat with (S n + S d)%nat in H by lia.
      destruct (IHd (S n) H) as (j & Hj & Hs & Hr). exists j. split; [lia|]. split; [exact Hs|].
      intros fuel Hf. destruct fuel; [lia|]. cbn [series].
      replace (a + INR n + 1) with (a + INR (S n)) by (rewrite S_INR; ring).
      rewrite <- ct_S by auto. change (Sn a n x + ct a (S n) x) with (Sn a (S n) x).
      destruct (Rle_dec _ _); [contradiction|]. apply Hr. lia.
Qed.
Lemma series_run a x : 0 < a -> 0 < x -> exists n N, (1 <= n)%nat /\ ct a n x / Sn a n x <= eps /\
  forall fuel, (N <= fuel)%nat -> series fuel x a 1 1 = Some (Sn a n x).
Proof.
  intros Ha Hx. destruct (ct_small a x eps Ha Hx) as (n & Hn & Hc); [rewrite eps_eq; lra|].
  destruct (series_loop a x Ha Hx (n - 1) 0) as (j & Hj & Hs & Hr).
  { replace (0 + S (n - 1))%nat with n by lia. pose proof (Sn_ge1 a n x Ha Hx). pose proof (ct_pos a n x Ha Hx).
    apply Rle_trans with (ct a n x); auto. apply Rmult_le_reg_r with (Sn a n x); [lra|].
    unfold Rdiv. rewrite Rmult_assoc, Rinv_l by lra. nra. }
  exists j, (S (n - 1)). split; [lia|]. split; [exact Hs|]. intros fuel Hf.
  specialize (Hr fuel ltac:(lia)). cbn [INR Sn] in Hr. rewrite ct_0 in Hr.
  replace (a + 0) with a in Hr by ring. exact Hr.
Qed.

(** where it stops, what is left is small *)
Lemma ct_exp a x n B : 0 < a -> 0 < x -> 0 <= B -> a - x + INR n <= B -> forall i, (i <= n)%nat ->
  1 <= ct a i x * exp (INR i * B / x).
Proof.
  intros Ha Hx HB Hn. induction i; intros Hi.
  - rewrite ct_0. cbn [INR]. replace (0 * B / x) with 0 by (field; lra). rewrite exp_0. lra.
  - rewrite ct_S by auto. specialize (IHi ltac:(lia)).
    replace (INR (S i) * B / x) with (INR i * B / x + B / x) by (rewrite S_INR; field; lra).
    rewrite exp_plus. pose proof (exp_ineq1_le (B / x)).
    assert (INR (S i) <= INR n) by (apply le_INR; lia). pose proof (pos_INR (S i)).
    assert (F : 1 <= x / (a + INR (S i)) * exp (B / x)).
    { apply Rle_trans with (x / (a + INR (S i)) * (1 + B / x)).
      - replace (x / (a + INR (S i)) * (1 + B / x)) with ((x + B) / (a + INR (S i))) by (field; lra).
        apply Rmult_le_reg_r with (a + INR (S i)); [lra|]. unfold Rdiv. rewrite Rmult_assoc, Rinv_l by lra. lra.
      - apply Rmult_le_compat_l; [apply Rdiv_le_0_compat; lra|lra]. }
    replace (ct a i x * (x / (a + INR (S i))) * (exp (INR i * B / x) * exp (B / x))) with
      ((ct a i x * exp (INR i * B / x)) * (x / (a + INR (S i)) * exp (B / x))) by ring.
    nra.
Qed.
Lemma ct_le1 a x n : 0 < a -> 0 < x -> x <= a + 1 -> ct a n x <= 1.
Proof.
  intros Ha Hx H. induction n; [rewrite ct_0; lra|]. rewrite ct_S by auto. pose proof (ct_pos a n x Ha Hx).
  assert (1 <= INR (S n)) by (rewrite S_INR; pose proof (pos_INR n); lra).
  assert (0 <= x / (a + INR (S n)) <= 1).
  { split; [apply Rdiv_le_0_compat; lra|]. apply Rmult_le_reg_r with (a + INR (S n)); [lra|].
    unfold Rdiv. rewrite Rmult_assoc, Rinv_l by lra. lra. }
  nra.
Qed.
Lemma Sn_le a x n : 0 < a -> 0 < x -> x <= a + 1 -> Sn a n x <= INR n + 1.
Proof.
  intros Ha Hx H. induction n; cbn [Sn]; [cbn; lra|]. pose proof (ct_le1 a x (S n) Ha Hx H). rewrite S_INR. lra.
Qed.
Lemma exp1_le : exp 1 <= 3.
Proof. apply exp_le_3. Qed.

Lemma rest_small a x n : 1 / 2 <= a -> 0 < x -> (x < 1 \/ x <= a) -> (1 <= n)%nat -> ct a n x / Sn a n x <= eps ->
  0 < a + INR n + 1 - x /\
  x / (a + INR n + 1 - x) <= 2 / 3 + sqrt x + 1e-14 * x /\
  (1 <= x -> x / (a + INR n + 1 - x) <= sqrt x + 1e-14 * x).
Proof.
  intros Ha Hx Hc Hn Hs. assert (N1 : 1 <= INR n) by (apply (le_INR 1); auto).
  pose proof (sqrt_pos x). pose proof (sqrt_sqrt x ltac:(lra)) as SQ.
  assert (P : 0 < a + INR n + 1 - x) by lra. split; [exact P|].
  assert (Q : x <= a -> x / (a + INR n + 1 - x) <= sqrt x + 1e-14 * x).
  { intros Hxa.
    destruct (Rle_dec (sqrt x) (a + INR n + 1 - x)) as [L|L].
    - apply Rle_trans with (sqrt x); [|nra]. apply Rmult_le_reg_r with (a + INR n + 1 - x); [lra|].
      unfold Rdiv. rewrite Rmult_assoc, Rinv_l by lra. nra.
    - assert (B : INR n * (a - x + INR n) / x <= 1).
      { apply Rmult_le_reg_r with x; [lra|]. unfold Rdiv. rewrite Rmult_assoc, Rinv_l by lra. nra. }
      pose proof (ct_exp a x n (a - x + INR n) ltac:(lra) Hx ltac:(lra) ltac:(lra) n ltac:(lia)) as E.
      assert (E1 : exp (INR n * (a - x + INR n) / x) <= exp 1) by (destruct B as [B|B]; [left; apply exp_increasing; auto|rewrite B; right; auto]).
      pose proof exp1_le. pose proof (ct_pos a n x ltac:(lra) Hx).
      assert (C : 1 / 3 <= ct a n x) by nra.
      pose proof (Sn_le a x n ltac:(lra) Hx ltac:(lra)) as SL. pose proof (Sn_ge1 a n x ltac:(lra) Hx).
      assert (ct a n x <= eps * Sn a n x).
      { apply Rmult_le_compat_r with (r := Sn a n x) in Hs; [|lra]. unfold Rdiv in Hs. rewrite Rmult_assoc, Rinv_l in Hs by lra. lra. }
      rewrite eps_eq in *.
      assert (1e14 <= a + INR n + 1 - x) by nra.
      apply Rle_trans with (1e-14 * x); [|lra]. apply Rmult_le_reg_r with (a + INR n + 1 - x); [lra|].
      unfold Rdiv. rewrite Rmult_assoc, Rinv_l by lra. nra. }
  split; [|intros; apply Q; lra].
  destruct (Rle_dec x a) as [L|L]; [specialize (Q L); lra|].
  assert (x < 1) by lra. apply Rle_trans with (2 / 3); [|nra]. apply Rmult_le_reg_r with (a + INR n + 1 - x); [lra|].
  unfold Rdiv at 1. rewrite Rmult_assoc, Rinv_l by lra. lra.
Qed.

Lemma up_nonneg a x : 0 < a -> 0 < x -> 0 <= Up a x.
Proof.
  intros Ha Hx. apply (from_top (Up a) (fun t => - gamma_weight a t)).
  - intros t Ht. apply up_derive; lra.
  - intros t Ht. pose proof (w_pos a t). lra.
  - apply up_lim; auto.
Qed.

Lemma ax_eq a x : 1 / 2 <= a -> 0 < x ->
  exp (a * ln x - x - ln_gamma a) = Rpower x a * exp (- x) / Gam a * exp (- (ln_gamma a - ln (Gam a))).
Proof.
  intros Ha Hx. pose proof (gamma_pos a ltac:(lra)) as G. unfold Rpower, Rdiv.
  replace (a * ln x - x - ln_gamma a) with (a * ln x + - x + - ln (Gam a) + - (ln_gamma a - ln (Gam a))) by ring.
  rewrite !exp_plus. rewrite (exp_Ropp (ln (Gam a))), (exp_ln (Gam a)) by auto. reflexivity.
Qed.
Lemma eg_bound a : 1 / 2 <= a -> 1 - 2e-16 <= exp (- (ln_gamma a - ln (Gam a))) <= 1 + 2e-16.
Proof.
  intros Ha. pose proof (ln_gamma_close a Ha) as H. apply Rabs_le_between in H.
  set (g := ln_gamma a - ln (Gam a)) in *.
  pose proof (exp_ineq1_le (- g)). pose proof (exp_ineq1_le g) as E2. pose proof (exp_pos (- g)).
  assert (exp g * exp (- g) = 1) by (rewrite <- exp_plus; replace (g + - g) with 0 by ring; apply exp_0).
  split; nra.
Qed.
Lemma exp_tiny y : y < ln_tiny -> exp y <= 1e-17.
Proof.
  intros H. pose proof tiny_eq. apply Rle_trans with (exp (- (64))); [left; apply exp_increasing; lra|].
  rewrite exp_Ropp. pose proof (exp_ineq1_le 1) as E.
  assert (P : 2 ^ 64 <= exp 64).
  { assert (Q : forall n, 2 ^ n <= exp (INR n)).
    { induction n; [cbn [pow INR]; rewrite exp_0; lra|]. rewrite S_INR, exp_plus. cbn [pow].
      pose proof (exp_pos (INR n)). pose proof (pow_lt 2 n ltac:(lra)). nra. }
    replace (exp 64) with (exp (INR 64)) by (f_equal; rewrite INR_IZR_INZ; reflexivity). apply Q. }
  apply Rle_trans with (/ 2 ^ 64); [apply inv_le; split; auto; apply pow_lt; lra|]. lra.
Qed.
Lemma X_pos x a : 0 < Rpower x a * exp (- x).
Proof. apply Rmult_lt_0_compat; apply exp_pos. Qed.

Lemma close_gen P Y e D r : 0 <= Y <= 1 -> 0 <= D -> Y <= P -> P <= Y * (1 + 1e-15 * D) ->
  1 - 2e-16 <= e <= 1 + 2e-16 -> 0 <= r -> D <= 2 / 3 + r -> Rabs (P - Y * e) <= 1e-15 * (1 + r).
Proof.
  intros HY HD P1 P2 He Hr HDr.
  assert (A : Y * e <= Y + 2e-16). { apply Rle_trans with (Y * (1 + 2e-16)); [apply Rmult_le_compat_l; lra|lra]. }
  assert (B : Y - 2e-16 <= Y * e). { apply Rle_trans with (Y * (1 - 2e-16)); [lra|apply Rmult_le_compat_l; lra]. }
  assert (C : Y * D <= D) by (rewrite <- (Rmult_1_l D) at 2; apply Rmult_le_compat_r; lra).
  apply Rabs_le. lra.
Qed.
(** the first arm: x < 1, or x at most the shape *)
Lemma ur_series a x : 1 / 2 <= a -> PREC_ACC <= x -> (x < 1 \/ x <= a) ->
  exists N q, (forall fuel, (N <= fuel)%nat -> gamma_ur fuel a x = Some (Val (Fin q))) /\
    Rabs (q - Up a x / Gam a) <= 1e-15 * (1 + sqrt x + 1e-14 * x).
Proof.
  intros Ha Hp Hc. pose proof prec_eq. assert (Hx : 0 < x) by lra.
  pose proof (gamma_pos a ltac:(lra)) as G. pose proof (eg_bound a Ha) as EG. pose proof (sqrt_pos x).
  pose proof (X_pos x a) as X0.
  assert (U0 : 0 <= Up a x / Gam a) by (apply Rdiv_le_0_compat; [apply up_nonneg|]; lra).
  assert (LU : Up a x / Gam a = 1 - low a x / Gam a) by (unfold low; field; lra).
  assert (U : forall fuel, gamma_ur fuel a x = match gamma_lr fuel a x with Some (Val (Fin p)) => Some (Val (Fin (1 - p))) | other => other end).
  { intros fuel. unfold gamma_ur. destruct (Rle_dec a 0); [lra|]. destruct (Rle_dec x 0); [lra|].
    destruct (Rlt_dec x 1); [reflexivity|]. destruct (Rle_dec x a); [reflexivity|lra]. }
  assert (V : forall fuel, gamma_lr fuel a x =
    if Rlt_dec (a * ln x - x - ln_gamma a) ln_tiny then Some (Val (Fin (if Rlt_dec a x then 1 else 0)))
    else match series fuel x a 1 1 with Some s => Some (Val (Fin (exp (a * ln x - x - ln_gamma a) * s / a))) | None => None end).
  { intros fuel. unfold gamma_lr. destruct (Rle_dec a 0); [lra|]. destruct (Rle_dec x 0); [lra|].
    rewrite (Rabs_right a), (Rabs_right x) by lra.
    destruct (Rlt_dec a PREC_ACC); [lra|]. destruct (Rlt_dec x PREC_ACC); [lra|]. cbv zeta.
    destruct (Rlt_dec _ ln_tiny); [reflexivity|].
    destruct (Rle_dec x 1); [reflexivity|]. destruct (Rle_dec x a); [reflexivity|lra]. }
  destruct (Rlt_dec (a * ln x - x - ln_gamma a) ln_tiny) as [T|T].
  - destruct (Rlt_dec a x) as [L|L].
    + exfalso. assert (x < 1) by lra. pose proof tiny_eq.
      assert (LX : -1 <= ln x).
      { pose proof (ln_up (/ x) ltac:(apply Rinv_0_lt_compat; lra)) as E. rewrite ln_Rinv in E by lra.
        assert (/ x <= / (1 / 2)) by (apply inv_le; lra). lra. }
      assert (GA : ln (Gam a) <= 1).
      { pose proof (gautschi 1 a ltac:(lra) ltac:(lra)) as E. rewrite gamma_1 in E.
        replace (Rpower 1 a) with 1 in E by (unfold Rpower; rewrite ln_1, Rmult_0_r, exp_0; auto).
        replace (1 + a) with (a + 1) in E by ring. rewrite gamma_step in E by lra.
        pose proof (ln_up (Gam a) G). nra. }
      pose proof (ln_gamma_close a Ha) as HC. apply Rabs_le_between in HC. nra.
    + exists 0%nat, 1. split.
      { intros fuel _. rewrite U, V. try (destruct (Rlt_dec (a * ln x - x - ln_gamma a) ln_tiny); [|contradiction]). try (destruct (Rlt_dec a x); [contradiction|]).
        do 3 f_equal. ring. }
      pose proof (series_high a 0 x ltac:(lra) Hx ltac:(cbn; lra)) as SH. cbn [Sn INR] in SH. rewrite ct_0 in SH.
      assert (E : exp (a * ln x - x - ln_gamma a) <= 1e-17) by (apply exp_tiny; auto).
      rewrite ax_eq in E by auto. set (X := Rpower x a * exp (- x)) in *.
      assert (XG : X / Gam a <= 2e-17).
      { assert (0 < X / Gam a) by (apply Rdiv_lt_0_compat; auto). nra. }
      assert (LB : low a x <= X * 3).
      { apply Rle_trans with (X * (1 / a + 1 * x / (a + 0 + 1 - x) / a)); [lra|]. apply Rmult_le_compat_l; [lra|].
        replace (1 / a + 1 * x / (a + 0 + 1 - x) / a) with ((a + 1) / (a + 1 - x) / a) by (field; split; lra).
        apply Rmult_le_reg_r with ((a + 1 - x) * a); [apply Rmult_lt_0_compat; lra|].
        replace ((a + 1) / (a + 1 - x) / a * ((a + 1 - x) * a)) with (a + 1) by (field; split; lra). nra. }
      assert (low a x / Gam a <= 6e-17).
      { apply Rle_trans with (X * 3 / Gam a); [apply Rmult_le_compat_r; [left; apply Rinv_0_lt_compat; auto|auto]|].
        replace (X * 3 / Gam a) with (3 * (X / Gam a)) by (field; lra). lra. }
      assert (0 <= low a x / Gam a).
      { apply Rdiv_le_0_compat; auto. pose proof (series_low a 0 x ltac:(lra) Hx) as SL. cbn [Sn] in SL.
        assert (0 <= X * (1 / a)) by (apply Rmult_le_pos; [lra|apply Rdiv_le_0_compat; lra]). fold X in SL. lra. }
      apply Rabs_le. nra.
  - destruct (series_run a x ltac:(lra) Hx) as (n & N & Hn & Hs & Hr).
    exists N, (1 - exp (a * ln x - x - ln_gamma a) * Sn a n x / a). split.
    { intros fuel Hf. rewrite U, V. try (destruct (Rlt_dec (a * ln x - x - ln_gamma a) ln_tiny); [contradiction|]). rewrite (Hr fuel Hf). reflexivity. }
    destruct (rest_small a x n Ha Hx Hc Hn Hs) as (P & R1 & R2).
    pose proof (series_low a n x ltac:(lra) Hx) as SL. pose proof (series_high a n x ltac:(lra) Hx ltac:(lra)) as SH.
    rewrite LU, ax_eq by auto. set (X := Rpower x a * exp (- x)) in *. set (e := exp (- (ln_gamma a - ln (Gam a)))) in *.
    pose proof (Sn_ge1 a n x ltac:(lra) Hx) as S1. pose proof (ct_pos a n x ltac:(lra) Hx) as C0.
    set (Y := X / Gam a * Sn a n x / a).
    assert (Y0 : 0 <= Y) by (unfold Y; apply Rdiv_le_0_compat; [apply Rmult_le_pos; [apply Rdiv_le_0_compat|]|]; lra).
    set (D := x / (a + INR n + 1 - x)) in *.
    assert (D0 : 0 <= D) by (unfold D; apply Rdiv_le_0_compat; lra).
    assert (Y1 : Y <= low a x / Gam a).
    { unfold Y. replace (X / Gam a * Sn a n x / a) with (X * (Sn a n x / a) / Gam a) by (field; lra).
      apply Rmult_le_compat_r; [left; apply Rinv_0_lt_compat; auto|lra]. }
    assert (Y2 : low a x / Gam a <= Y * (1 + 1e-15 * D)).
    { apply Rle_trans with (Y * (1 + ct a n x / Sn a n x * D)).
      - unfold Y. replace (X / Gam a * Sn a n x / a * (1 + ct a n x / Sn a n x * D)) with
          ((X * (Sn a n x / a) + X * (ct a n x * x / (a + INR n + 1 - x) / a)) / Gam a) by (unfold D; field; lra).
        apply Rmult_le_compat_r; [left; apply Rinv_0_lt_compat; auto|lra].
      - apply Rmult_le_compat_l; auto. rewrite eps_eq in Hs. nra. }
    assert (Y3 : Y <= 1) by lra.
    replace (1 - X / Gam a * e * Sn a n x / a - (1 - low a x / Gam a)) with (low a x / Gam a - Y * e) by (unfold Y; field; lra).
    rewrite Rplus_assoc. apply (close_gen _ _ _ D); auto; [apply Rplus_le_le_0_compat; lra|lra].
Qed.

(** below the smallest argument the code evaluates, the answer 1 is off by less than 1e-7 *)
Lemma gam_ge a : 1 <= a -> / 3 <= Gam a.
Proof.
  intros Ha. assert (A : 0 <= Up a 1 - exp (- (1))).
  { apply (from_top (fun t => Up a t - exp (- t)) (fun t => - gamma_weight a t + exp (- t)) 1).
    - intros t Ht. evar_last.
      + apply (is_derive_minus (Up a) (fun t => exp (- t)) t (- gamma_weight a t) (- exp (- t))); [apply up_derive; lra|].
        auto_derive; auto. ring.
      + unfold minus, plus, opp. cbn. match goal with |- ?a = ?b => change (@eq R a b) end. ring.
    - intros t Ht. unfold gamma_weight, Rpower. pose proof (exp_pos (- t)).
      pose proof (ln_mono 1 t ltac:(lra)) as LM. rewrite ln_1 in LM.
      pose proof (exp_ineq1_le ((a - 1) * ln t)). assert (0 <= (a - 1) * ln t) by (apply Rmult_le_pos; lra). nra.
    - apply (limi_ext (fun t => Up a t + -1 * (Rpower t 0 * exp (- t))) _ _ 0).
      + intros t Ht. rewrite Rpower_O by auto. ring.
      + assert (Z : limi (fun t => Up a t + -1 * (Rpower t 0 * exp (- t))) (0 + -1 * 0)).
        { apply limi_plus; [apply up_lim; lra|]. apply (limi_scal (fun t => Rpower t 0 * exp (- t))). apply pow_exp_lim. }
        replace (0 + -1 * 0) with 0 in Z by ring. exact Z. }
  assert (0 <= low a 1).
  { pose proof (series_low a 0 1 ltac:(lra) ltac:(lra)) as SL. cbn [Sn] in SL. pose proof (X_pos 1 a).
    assert (0 <= Rpower 1 a * exp (- (1)) * (1 / a)) by (apply Rmult_le_pos; [lra|apply Rdiv_le_0_compat; lra]). lra. }
  unfold low in *. pose proof exp1_le. assert (/ 3 <= exp (- (1))) by (rewrite exp_Ropp; apply inv_le; split; [apply exp_pos|auto]).
  lra.
Qed.
Lemma ur_tiny a x : 1 / 2 <= a -> 0 < x < PREC_ACC ->
  (forall fuel, gamma_ur fuel a x = Some (Val (Fin 1))) /\ Rabs (1 - Up a x / Gam a) <= 1.1e-7.
Proof.
  intros Ha Hx. pose proof prec_eq. pose proof (gamma_pos a ltac:(lra)) as G. split.
  - intros fuel. unfold gamma_ur, gamma_lr. destruct (Rle_dec a 0); [lra|]. destruct (Rle_dec x 0); [lra|].
    rewrite (Rabs_right a), (Rabs_right x) by lra.
    destruct (Rlt_dec x 1); [|lra]. destruct (Rlt_dec a PREC_ACC); [lra|]. destruct (Rlt_dec x PREC_ACC); [|lra].
    do 3 f_equal. ring.
  - replace (1 - Up a x / Gam a) with (low a x / Gam a) by (unfold low; field; lra).
    pose proof (series_low a 0 x ltac:(lra) ltac:(lra)) as SL. pose proof (series_high a 0 x ltac:(lra) ltac:(lra) ltac:(cbn; lra)) as SH.
    cbn [Sn INR] in SL, SH. rewrite ct_0 in SH. pose proof (X_pos x a) as X0. set (X := Rpower x a * exp (- x)) in *.
    assert (XB : X <= 3.5e-8).
    { unfold X. assert (exp (- x) <= 1) by (rewrite <- exp_0; left; apply exp_increasing; lra).
      assert (LX : ln x <= 2 * ln 3.5e-8).
      { replace (2 * ln 3.5e-8) with (ln (3.5e-8 * 3.5e-8)) by (rewrite ln_mult by lra; ring). apply ln_mono. lra. }
      assert (ln 3.5e-8 < 0) by (rewrite <- ln_1; apply ln_increasing; lra).
      assert (Rpower x a <= 3.5e-8).
      { unfold Rpower. replace 3.5e-8 with (exp (ln 3.5e-8)) at 1 by (apply exp_ln; lra).
        destruct (Rle_lt_or_eq_dec (a * ln x) (ln 3.5e-8)) as [L|L]; [nra|left; apply exp_increasing; auto|rewrite L; right; auto]. }
      assert (0 < Rpower x a) by apply exp_pos. pose proof (exp_pos (- x)). nra. }
    assert (LB : low a x <= X * (1 + 1e-14) / a).
    { apply Rle_trans with (X * (1 / a + 1 * x / (a + 0 + 1 - x) / a)); [lra|].
      replace (X * (1 / a + 1 * x / (a + 0 + 1 - x) / a)) with (X * (1 + x / (a + 1 - x)) / a) by (field; split; lra).
      apply Rmult_le_compat_r; [left; apply Rinv_0_lt_compat; lra|]. apply Rmult_le_compat_l; [lra|].
      apply Rplus_le_compat_l. apply Rmult_le_reg_r with (a + 1 - x); [lra|]. unfold Rdiv. rewrite Rmult_assoc, Rinv_l by lra. lra. }
    pose proof (gam_ge (a + 1) ltac:(lra)) as GG. rewrite gamma_step in GG by lra.
    assert (L0 : 0 <= low a x).
    { assert (0 <= X * (1 / a)) by (apply Rmult_le_pos; [lra|apply Rdiv_le_0_compat; lra]). lra. }
    rewrite Rabs_right by (apply Rle_ge, Rdiv_le_0_compat; lra).
    apply Rmult_le_reg_r with (a * Gam a); [nra|]. replace (low a x / Gam a * (a * Gam a)) with (low a x * a) by (field; lra).
    apply Rmult_le_compat_r with (r := a) in LB; [|lra]. unfold Rdiv in LB. rewrite Rmult_assoc, Rinv_l in LB by lra. nra.
Qed.
