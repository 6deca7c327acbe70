(* The reflection formula psi(1-x) - psi(x) = pi cot(pi x), by Herglotz' argument. *)
From Coq Require Import Reals Lra Lia Psatz.
From Coquelicot Require Import Coquelicot.
From Verif Require Import GamSpec GamInt GamLan4 DigSpec DigPsi DigSmall.
Local Open Scope R_scope.

Lemma eq_eps a b : (forall e, 0 < e -> Rabs (a - b) <= e) -> a = b.
Proof.
  intros K. apply Rminus_diag_uniq. destruct (Req_dec (a - b) 0) as [E|E]; auto.
  pose proof (Rabs_pos_lt _ E) as P. specialize (K (Rabs (a - b) / 2) ltac:(lra)). lra.
Qed.
Lemma le_eps a b : (forall e, 0 < e -> a <= b + e) -> a <= b.
Proof. intros K. apply Rnot_lt_le. intros C. specialize (K ((a - b) / 2) ltac:(lra)). lra. Qed.

(* doubling *)
Lemma Hs_double n x : 0 < x -> Hs n x + Hs n (x + 1 / 2) = 2 * Hs (2 * n) (2 * x).
Proof.
  intros Hx. induction n as [|n IH]; [cbn; ring|].
  replace (2 * S n)%nat with (S (S (2 * n))) by lia. cbn [Hs]. pose proof (pos_INR n).
  rewrite S_INR, mult_INR. replace (INR 2) with 2 by (cbn; ring).
  assert (E : / (x + INR n) + / (x + 1 / 2 + INR n) = 2 * (/ (2 * x + 2 * INR n) + / (2 * x + (2 * INR n + 1)))) by (field; lra).
  lra.
Qed.
Lemma psi_double x : 0 < x -> psi x + psi (x + 1 / 2) = 2 * psi (2 * x) - 2 * ln 2.
Proof.
  intros Hx. apply eq_eps. intros e He.
  destruct (inv_small x (e / 4) Hx ltac:(lra)) as [N HN]. specialize (HN N (le_n _)).
  pose proof (pos_INR N) as N0.
  assert (I : 0 < / (x + INR N)) by (apply Rinv_0_lt_compat; lra).
  assert (I1 : / (x + 1 / 2 + INR N) <= / (x + INR N)) by (apply Rinv_le_contravar; lra).
  assert (I2 : / (2 * x + 2 * INR N) = / 2 * / (x + INR N)) by (field; lra).
  pose proof (psi_up x N Hx) as A1. pose proof (psi_low x N Hx) as A2.
  pose proof (psi_up (x + 1 / 2) N ltac:(lra)) as B1. pose proof (psi_low (x + 1 / 2) N ltac:(lra)) as B2.
  pose proof (psi_up (2 * x) (2 * N) ltac:(lra)) as C1. pose proof (psi_low (2 * x) (2 * N) ltac:(lra)) as C2.
  unfold Qn, Pn in *. pose proof (Hs_double N x Hx) as D.
  replace (INR (2 * N)) with (2 * INR N) in * by (rewrite mult_INR; cbn; ring). rewrite I2 in *.
  assert (L : ln (2 * x + 2 * INR N) = ln 2 + ln (x + INR N)).
  { rewrite <- ln_mult by lra. f_equal. ring. }
  rewrite L in *.
  pose proof (ln_diff (x + 1 / 2 + INR N) (x + INR N) ltac:(lra)) as M.
  replace (x + 1 / 2 + INR N - (x + INR N)) with (1 / 2) in M by ring.
  assert (M1 : 0 <= 1 / 2 / (x + 1 / 2 + INR N)) by (apply Rmult_le_pos; [lra|left; apply Rinv_0_lt_compat; lra]).
  unfold Rdiv in M at 2. apply Rabs_le. lra.
Qed.

(* psi grows, with slope at most 1/a + 1/a^2 *)
Lemma Hs_shift' n z h : 0 < z -> 0 <= h -> Hs (S n) z - Hs (S n) (z + h) <= h * (/ (z * z) + / z - / (z + INR n)).
Proof.
  intros Hz Hh. induction n as [|n IH].
  - cbn. rewrite !Rplus_0_r. rewrite !Rplus_0_l.
    replace (/ z - / (z + h)) with (h * (/ z * / (z + h))) by (field; lra).
    apply Rmult_le_compat_l; auto. rewrite Rinv_mult.
    assert (0 < / z) by (apply Rinv_0_lt_compat; auto). assert (/ (z + h) <= / z) by (apply Rinv_le_contravar; lra). nra.
  - change (Hs (S (S n)) z) with (Hs (S n) z + / (z + INR (S n))). change (Hs (S (S n)) (z + h)) with (Hs (S n) (z + h) + / (z + h + INR (S n))).
    rewrite S_INR. pose proof (pos_INR n).
    assert (E : / (z + (INR n + 1)) - / (z + h + (INR n + 1)) = h * (/ (z + (INR n + 1)) * / (z + h + (INR n + 1)))) by (field; lra).
    assert (F : / (z + INR n) - / (z + (INR n + 1)) = / (z + (INR n + 1)) * / (z + INR n)) by (field; lra).
    assert (G : h * (/ (z + (INR n + 1)) * / (z + h + (INR n + 1))) <= h * (/ (z + (INR n + 1)) * / (z + INR n))).
    { apply Rmult_le_compat_l; auto. apply Rmult_le_compat_l; [left; apply Rinv_0_lt_compat; lra|]. apply Rinv_le_contravar; lra. }
    rewrite <- F in G. lra.
Qed.
Lemma psi_lip a h : 0 < a -> 0 <= h -> 0 <= psi (a + h) - psi a <= h * (/ (a * a) + / a).
Proof.
  intros Ha Hh. assert (I0 : 0 < / a) by (apply Rinv_0_lt_compat; auto).
  split; apply le_eps; intros e He.
  - destruct (inv_small a e Ha He) as [N HN]. specialize (HN N (le_n _)). pose proof (pos_INR N).
    pose proof (psi_up a N Ha) as A. pose proof (psi_low (a + h) N ltac:(lra)) as B. unfold Qn, Pn in *.
    pose proof (Hs_shift N a h Ha Hh). pose proof (ln_mono (a + INR N) (a + h + INR N) ltac:(lra)).
    assert (/ (a + h + INR N) <= / (a + INR N)) by (apply Rinv_le_contravar; lra). lra.
  - destruct (inv_small a (e / (h + 1)) Ha ltac:(apply Rdiv_lt_0_compat; lra)) as [N HN]. specialize (HN (S N) ltac:(lia)).
    pose proof (pos_INR N) as P. pose proof (psi_up (a + h) (S N) ltac:(lra)) as A. pose proof (psi_low a (S N) Ha) as B. unfold Qn, Pn in *.
    pose proof (Hs_shift' N a h Ha Hh) as S. rewrite S_INR in *.
    pose proof (ln_diff (a + h + (INR N + 1)) (a + (INR N + 1)) ltac:(lra)) as L.
    replace (a + h + (INR N + 1) - (a + (INR N + 1))) with h in L by ring. unfold Rdiv in L at 2.
    assert (T : (h + 1) * / (a + (INR N + 1)) <= e).
    { replace e with ((h + 1) * (e / (h + 1))) by (field; lra). apply Rmult_le_compat_l; lra. }
    assert (0 <= h * / (a + INR N)) by (apply Rmult_le_pos; auto; left; apply Rinv_0_lt_compat; lra). lra.
Qed.

(* the defect *)
Definition DD (x : R) : R := psi (1 - x) - psi x - PI * (cos (PI * x) / sin (PI * x)).
Lemma sin_px x : 0 < x < 1 -> 0 < sin (PI * x).
Proof. intros Hx. pose proof PI_RGT_0. apply sin_gt_0; nra. Qed.
Lemma DD_mirror x : DD (1 - x) = - DD x.
Proof.
  unfold DD. replace (1 - (1 - x)) with x by ring. replace (PI * (1 - x)) with (PI - PI * x) by ring.
  rewrite sin_PI_x. rewrite cos_minus, cos_PI, sin_PI. unfold Rdiv. ring.
Qed.
Lemma DD_double x : 0 < x < 1 -> 2 * DD x = DD (x / 2) - DD ((1 - x) / 2).
Proof.
  intros Hx. rewrite <- (Ropp_involutive (DD ((1 - x) / 2))), <- DD_mirror. replace (1 - (1 - x) / 2) with (x / 2 + 1 / 2) by field.
  unfold DD. pose proof (psi_double ((1 - x) / 2) ltac:(lra)) as A. pose proof (psi_double (x / 2) ltac:(lra)) as B.
  replace (2 * ((1 - x) / 2)) with (1 - x) in A by field. replace (2 * (x / 2)) with x in B by field.
  replace ((1 - x) / 2 + 1 / 2) with (1 - x / 2) in A by field.
  replace (1 - (x / 2 + 1 / 2)) with ((1 - x) / 2) by field.
  pose proof (sin_px (x / 2) ltac:(lra)) as S.
  assert (C : 0 < cos (PI * (x / 2))). { pose proof PI_RGT_0. apply cos_gt_0; nra. }
  replace (PI * (x / 2 + 1 / 2)) with (PI * (x / 2) + PI / 2) by field. replace (PI * x) with (2 * (PI * (x / 2))) by field.
  set (a := PI * (x / 2)) in *. rewrite sin_plus, cos_plus, cos_PI2, sin_PI2, sin_2a, cos_2a.
  assert (E : 2 * (PI * ((cos a * cos a - sin a * sin a) / (2 * sin a * cos a))) =
    PI * (cos a / sin a) + PI * ((cos a * 0 - sin a * 1) / (sin a * 0 + cos a * 1))) by (field; lra).
  lra.
Qed.
Lemma DD_half x : 0 < x < 1 -> 2 * Rabs (DD x) <= Rabs (DD (x / 2)) + Rabs (DD ((1 - x) / 2)).
Proof.
  intros Hx. pose proof (DD_double x Hx) as D. replace (2 * Rabs (DD x)) with (Rabs (2 * DD x)) by (rewrite Rabs_mult, (Rabs_pos_eq 2); lra).
  rewrite D. apply Rle_trans with (1 := Rabs_triang _ _). rewrite Rabs_Ropp. lra.
Qed.
Lemma sin_ucos u : 0 < u <= PI / 3 -> 0 <= sin u - u * cos u <= u * u * u.
Proof.
  intros Hu. pose proof PI_RGT_0.
  destruct (MVT_cor2 (fun t => sin t - t * cos t) (fun t => t * sin t) 0 u ltac:(lra)) as (c & E & Hc).
  - intros t Ht. apply is_derive_Reals. auto_derive; auto. ring.
  - cbv beta in E. rewrite sin_0 in E.
    assert (0 <= sin c) by (apply sin_ge_0; lra). pose proof (sin_lt_x c ltac:(lra)).
    assert (0 <= c * sin c <= u * u) by nra.
    assert (0 <= c * sin c * u <= u * u * u) by nra. lra.
Qed.
Lemma cot_near x : 0 < x <= 1 / 3 -> Rabs (/ x - PI * (cos (PI * x) / sin (PI * x))) <= 32 * x.
Proof.
  intros Hx. pose proof PI_RGT_0 as P. pose proof PI_4 as P4.
  set (u := PI * x). assert (Hu : 0 < u <= PI / 3) by (unfold u; nra).
  pose proof (sin_ucos u Hu) as G.
  assert (C : 1 / 2 <= cos u) by (rewrite <- cos_PI3; apply cos_decr_1; lra).
  assert (S : u / 2 <= sin u) by nra.
  assert (E : / x - PI * (cos u / sin u) = PI * ((sin u - u * cos u) / (u * sin u))).
  { replace (/ x) with (PI / u) by (unfold u; field; lra). field. lra. }
  rewrite E. assert (U : 0 < u * sin u) by nra.
  assert (Q : 0 <= (sin u - u * cos u) / (u * sin u) <= 2 * u).
  { split; [apply Rmult_le_pos; [lra|left; apply Rinv_0_lt_compat; auto]|].
    apply Rmult_le_reg_r with (u * sin u); auto. replace ((sin u - u * cos u) / (u * sin u) * (u * sin u)) with (sin u - u * cos u) by (field; lra).
    assert (u * u * (u / 2) <= u * u * sin u) by (apply Rmult_le_compat_l; nra).
    apply Rle_trans with (1 := proj2 G). replace (u * u * u) with (2 * (u * u * (u / 2))) by field.
    replace (2 * u * (u * sin u)) with (2 * (u * u * sin u)) by ring. lra. }
  rewrite Rabs_pos_eq by (apply Rmult_le_pos; lra).
  apply Rle_trans with (PI * (2 * u)); [apply Rmult_le_compat_l; lra|]. unfold u.
  assert (PP : PI * PI <= 16) by nra. assert (PI * PI * x <= 16 * x) by (apply Rmult_le_compat_r; lra). lra.
Qed.
Lemma DD_lin3 x : 0 < x <= 1 / 3 -> Rabs (DD x) <= 50 * x.
Proof.
  intros Hx. pose proof (cot_near x Hx) as C. unfold DD.
  pose proof (psi_step x ltac:(lra)) as S. pose proof (psi_lip (1 - x) (2 * x) ltac:(lra) ltac:(lra)) as L.
  replace (1 - x + 2 * x) with (x + 1) in L by ring.
  assert (A : / (1 - x) <= 3 / 2). { replace (3 / 2) with (/ (2 / 3)) by field. apply Rinv_le_contravar; lra. }
  assert (A0 : 0 < / (1 - x)) by (apply Rinv_0_lt_compat; lra).
  assert (B : / ((1 - x) * (1 - x)) <= 9 / 4) by (rewrite Rinv_mult; nra).
  assert (L2 : 2 * x * (/ ((1 - x) * (1 - x)) + / (1 - x)) <= 2 * x * (15 / 4)) by (apply Rmult_le_compat_l; lra).
  apply Rabs_le_between in C. apply Rabs_le. lra.
Qed.
Lemma DD_lin x : 0 < x <= 1 / 2 -> Rabs (DD x) <= 50 * x.
Proof.
  intros Hx. destruct (Rle_dec x (1 / 3)) as [L|L]; [apply DD_lin3; lra|].
  pose proof (DD_half x ltac:(lra)) as H. pose proof (DD_lin3 (x / 2) ltac:(lra)). pose proof (DD_lin3 ((1 - x) / 2) ltac:(lra)). lra.
Qed.
Definition vals (s : R) : Prop := exists x, 0 < x <= 1 / 2 /\ s = Rabs (DD x).
Lemma DD_zero x : 0 < x <= 1 / 2 -> DD x = 0.
Proof.
  intros Hx.
  destruct (completeness vals) as [S [U L]].
  - exists 25. intros s (y & Hy & ->). pose proof (DD_lin y Hy). lra.
  - exists (Rabs (DD x)), x. auto.
  - assert (Up : forall y, 0 < y <= 1 / 2 -> Rabs (DD y) <= S) by (intros y Hy; apply U; exists y; auto).
    assert (It : forall n y, 0 < y <= 1 / 2 -> Rabs (DD y) <= (1 - (/ 2) ^ n) * S + (/ 2) ^ n * Rabs (DD (y * (/ 2) ^ n))).
    { induction n as [|n IH]; intros y Hy; cbn [pow]; [rewrite !Rmult_1_r, !Rmult_1_l; lra|].
      pose proof (DD_half y ltac:(lra)) as H. pose proof (Up ((1 - y) / 2) ltac:(lra)) as H1. specialize (IH (y / 2) ltac:(lra)).
      replace (y * (/ 2 * (/ 2) ^ n)) with (y / 2 * (/ 2) ^ n) by field.
      lra. }
    assert (Small : forall n, S <= 25 * (/ 2) ^ n).
    { intros n. assert (P : 0 < (/ 2) ^ n) by (apply pow_lt; lra).
      assert (P1 : (/ 2) ^ n <= 1) by (rewrite <- (pow1 n); apply pow_incr; lra).
      assert (B : S <= (1 - (/ 2) ^ n) * S + (/ 2) ^ n * (25 * (/ 2) ^ n)).
      { apply L. intros s (y & Hy & ->). apply Rle_trans with (1 := It n y Hy). apply Rplus_le_compat_l, Rmult_le_compat_l; [lra|].
        assert (Y : 0 < y * (/ 2) ^ n) by nra.
        pose proof (DD_lin (y * (/ 2) ^ n) ltac:(nra)). nra. }
      apply Rmult_le_reg_l with ((/ 2) ^ n); auto. lra. }
    assert (S0 : S <= 0).
    { apply Rnot_lt_le. intros C. destruct (pow_lt_1_zero (/ 2) ltac:(rewrite Rabs_pos_eq; lra) (S / 50) ltac:(lra)) as [N HN].
      specialize (HN N (le_n _)). specialize (Small N). rewrite Rabs_pos_eq in HN by (apply pow_le; lra). lra. }
    pose proof (Up x Hx). pose proof (Rabs_pos (DD x)). apply Rabs_eq_0. lra.
Qed.
Theorem reflection x : 0 < x < 1 -> psi (1 - x) - psi x = PI * (cos (PI * x) / sin (PI * x)).
Proof.
  intros Hx. assert (DD x = 0) as E; [|unfold DD in E; lra].
  destruct (Rle_dec x (1 / 2)); [apply DD_zero; lra|].
  pose proof (DD_mirror x) as M. rewrite (DD_zero (1 - x)) in M by lra. lra.
Qed.
