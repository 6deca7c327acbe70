(* Bounds of the defect, and the limits that tie the Lanczos formula to the gamma function. *)
From Coq Require Import List ZArith QArith Reals Qreals Lra Lia.
From Coquelicot Require Import Coquelicot.
From Verif Require Import NormModel NormPoly NormPieces NormZero GamSpec GamModel GamInt GamLan GamLan2 GamLan3.
Import ListNotations.
Local Open Scope R_scope.

(** a function that vanishes at infinity is bounded by what bounds its derivative *)
Lemma from_inf (F F' B B' : R -> R) x :
  (forall t, x <= t -> is_derive F t (F' t)) -> (forall t, x <= t -> is_derive B t (- B' t)) ->
  (forall t, x <= t -> Rabs (F' t) <= B' t) -> limi F 0 -> limi B 0 -> Rabs (F x) <= B x.
Proof.
  intros HF HB Hb LF LB.
  assert (H : forall s, s = 1 \/ s = -1 -> 0 <= B x - s * F x).
  { intros s Hs.
    assert (L : limi (fun t => B t + - s * F t) (0 + - s * 0)).
    { apply limi_plus; auto. apply limi_scal; auto. }
    assert (M : forall t, x <= t -> B t - s * F t <= B x - s * F x).
    { intros t Ht.
      assert (- (B x - s * F x) <= - (B t - s * F t)); [|lra].
      apply (incr_of (fun t => - (B t - s * F t)) (fun t => - (- B' t - s * F' t))); auto.
      - intros u Hu. apply (is_derive_opp (fun t => B t - s * F t)).
        apply (is_derive_minus B (fun t => s * F t)); [apply HB; lra|].
        apply (is_derive_scal F u s). apply HF. lra.
      - intros u Hu. specialize (Hb u ltac:(lra)). apply Rabs_def2b in Hb || idtac.
        pose proof (Rle_abs (F' u)). pose proof (Rle_abs (- F' u)) as Q. rewrite Rabs_Ropp in Q.
        destruct Hs as [-> | ->]; lra. }
    replace 0 with (0 + - s * 0) at 1 by ring.
    apply (filterlim_le (F := Rbar_locally p_infty) (fun t => B t + - s * F t) (fun _ => B x - s * F x)
             (Finite (0 + - s * 0)) (Finite (B x - s * F x))).
    - apply (neari _ x). intros t Ht. specialize (M t ltac:(lra)). lra.
    - exact L.
    - apply filterlim_const. }
  pose proof (H 1 (or_introl eq_refl)). pose proof (H (-1) (or_intror eq_refl)).
  apply Rabs_le. lra.
Qed.

Lemma limi_inv (F : R -> R) c : (forall x, 1 <= x -> Rabs (F x) <= c / x) -> limi F 0.
Proof.
  intros H. apply limi_eps. intros e He. exists (Rmax 1 (Rabs c / e)). intros x Hx. rewrite Rminus_0_r.
  pose proof (Rmax_l 1 (Rabs c / e)). pose proof (Rmax_r 1 (Rabs c / e)).
  eapply Rle_lt_trans; [apply H; lra|]. pose proof (Rle_abs c).
  apply Rmult_lt_reg_r with x; [lra|]. unfold Rdiv. rewrite Rmult_assoc, Rinv_l, Rmult_1_r by lra.
  assert (Rabs c < e * x); [|lra]. apply Rmult_lt_reg_r with (/ e); [apply Rinv_0_lt_compat; auto|].
  replace (e * x * / e) with x by (field; lra). unfold Rdiv in *. lra.
Qed.

(** ln y between 1 - 1/y and y - 1 *)
Lemma ln_up y : 0 < y -> ln y <= y - 1.
Proof. intros Hy. pose proof (exp_ineq1_le (ln y)) as E. rewrite exp_ln in E; lra. Qed.
Lemma ln_diff a b : 0 < b <= a -> (a - b) / a <= ln a - ln b <= (a - b) / b.
Proof.
  intros H. split.
  - assert (ln (b / a) <= b / a - 1) as L by (apply ln_up; apply Rdiv_lt_0_compat; lra).
    unfold Rdiv in L. rewrite ln_mult, ln_Rinv in L; try lra; [|apply Rinv_0_lt_compat; lra].
    replace ((a - b) / a) with (1 - b * / a) by (field; lra). lra.
  - assert (ln (a / b) <= a / b - 1) as L by (apply ln_up; apply Rdiv_lt_0_compat; lra).
    unfold Rdiv in L. rewrite ln_mult, ln_Rinv in L; try lra; [|apply Rinv_0_lt_compat; lra].
    replace ((a - b) / b) with (a * / b - 1) by (field; lra). lra.
Qed.
Lemma ln_mono a b : 0 < a <= b -> ln a <= ln b.
Proof. intros [H [H2| ->]]; [left; apply ln_increasing; auto|lra]. Qed.
Lemma inv_le a b : 0 < a <= b -> / b <= / a.
Proof. intros H. apply Rinv_le_contravar; lra. Qed.

(** logarithms of polynomials with positive coefficients move by at most deg / x *)
Lemma lnz_step p n x y : forallb (fun c => Z.leb 0 c) p = true -> (length p - 1 <= n)%nat -> 0 < evZ p x ->
  0 < x -> x <= y <= x + 1 -> 0 <= ln (evZ p y) - ln (evZ p x) <= INR n / x.
Proof.
  intros Hp Hn H0 Hx Hy. pose proof (evz_mono p x y Hp ltac:(lra)) as M1. pose proof (evz_mono p y (x + 1) Hp ltac:(lra)) as M2.
  pose proof (evz_grow p x Hp Hx) as G. assert (Hi : 0 < / x) by (apply Rinv_0_lt_compat; auto).
  pose proof (ln_mono (evZ p x) (evZ p y) ltac:(lra)). split; [lra|].
  assert (L : ln (evZ p y) <= ln ((1 + / x) ^ (length p - 1) * evZ p x)) by (apply ln_mono; lra).
  rewrite ln_mult in L; auto; [|apply pow_lt; lra]. rewrite ln_pow in L by lra.
  pose proof (ln_up (1 + / x) ltac:(lra)) as U.
  assert (INR (length p - 1) * ln (1 + / x) <= INR (length p - 1) * / x) by (apply Rmult_le_compat_l; [apply pos_INR|lra]).
  assert (INR (length p - 1) * / x <= INR n * / x) by (apply Rmult_le_compat_r; [lra|apply le_INR; auto]).
  unfold Rdiv. lra.
Qed.
Lemma numN_len : (length numN - 1 <= 10)%nat /\ (length denQ - 1 <= 10)%nat /\ length (cs pM) = 11%nat /\ length numN = 11%nat.
Proof. vm_compute. repeat split; lia. Qed.
Lemma ln_ev p x : 0 < evZ (cs p) x -> ln (ev p x) = ln (evZ (cs p) x) - ln (IZR (Z.pos (dn p))).
Proof.
  intros H. unfold ev, Rdiv. pose proof (pos_pos (dn p)). rewrite ln_mult, ln_Rinv by (auto; apply Rinv_0_lt_compat; auto). lra.
Qed.
Lemma N_evz x : 0 <= x -> 0 < evZ numN x.
Proof.
  intros Hx. destruct numN_hd as (a & l & E). apply (evz_pos numN a l); auto.
Qed.
Lemma lnN_step x y : 0 < x -> x <= y <= x + 1 -> 0 <= ln (ev pN y) - ln (ev pN x) <= 10 / x.
Proof.
  intros Hx Hy. pose proof (N_evz x ltac:(lra)). pose proof (N_evz y ltac:(lra)).
  rewrite !ln_ev by (rewrite pN_cs; auto). rewrite !pN_cs.
  destruct numN_len as (L & _). pose proof (lnz_step numN 10 x y numN_nn L ltac:(auto) Hx Hy) as P.
  replace (INR 10) with 10 in P by (cbn; lra). lra.
Qed.
Lemma dlog_bound p x : nnc p = true -> 0 < ev p x -> 0 < x ->
  0 <= ev (pder p) x / ev p x <= INR (length (cs p)) / x.
Proof.
  intros Hp H0 Hx. destruct (evz_der (cs p) x Hp ltac:(lra)) as [D1 D2].
  pose proof (pos_pos (dn p)) as Hd. unfold ev in *. cbn [pder cs dn] in *.
  assert (E0 : 0 < evZ (cs p) x).
  { apply Rmult_lt_reg_r with (/ IZR (Z.pos (dn p))); [apply Rinv_0_lt_compat; auto|]. rewrite Rmult_0_l. exact H0. }
  replace (evZ (zder (cs p)) x / IZR (Z.pos (dn p)) / (evZ (cs p) x / IZR (Z.pos (dn p))))
    with (evZ (zder (cs p)) x / evZ (cs p) x) by (field; lra).
  split; [apply Rdiv_le_0_compat; lra|].
  apply Rmult_le_reg_r with (x * evZ (cs p) x); [apply Rmult_lt_0_compat; auto|].
  replace (evZ (zder (cs p)) x / evZ (cs p) x * (x * evZ (cs p) x)) with (x * evZ (zder (cs p)) x) by (field; lra).
  replace (INR (length (cs p)) / x * (x * evZ (cs p) x)) with (INR (length (cs p)) * evZ (cs p) x) by (field; lra). lra.
Qed.
Lemma nnc_NM : nnc pN = true /\ nnc pM = true.
Proof. split; vm_compute; reflexivity. Qed.

Lemma f1_lim : limi f1 0.
Proof.
  apply (limi_inv f1 48). intros x Hx. pose proof r0_eq as Hr. destruct nnc_NM as [NN NM].
  pose proof (dlog_bound pN x NN (N_pos x ltac:(lra)) ltac:(lra)) as B1.
  pose proof (dlog_bound pM x NM (M_pos x ltac:(lra)) ltac:(lra)) as B2.
  destruct numN_len as (_ & _ & LM & LN). rewrite LM in B2. rewrite pN_cs, LN in B1.
  replace (INR 11) with 11 in B1, B2 by (cbn; lra).
  unfold f1. cbv zeta.
  set (A := x + 1 / 2 + r0). set (B := x - 1 / 2 + r0).
  assert (HB : x <= B) by (unfold B; lra). assert (HAB : A = B + 1) by (unfold A, B; lra).
  pose proof (ln_diff A B ltac:(lra)) as L. replace (A - B) with 1 in L by lra.
  pose proof (inv_le x A ltac:(lra)). pose proof (inv_le x B ltac:(lra)). pose proof (inv_le x (x + 10) ltac:(lra)).
  assert (0 < / A) by (apply Rinv_0_lt_compat; lra). assert (0 < / B) by (apply Rinv_0_lt_compat; lra).
  assert (0 < / (x + 10)) by (apply Rinv_0_lt_compat; lra).
  assert (r0 * / A <= 11 * / x) by (apply Rmult_le_compat; lra).
  assert (r0 * / B <= 11 * / x) by (apply Rmult_le_compat; lra).
  assert (0 <= r0 * / A) by (apply Rmult_le_pos; lra). assert (0 <= r0 * / B) by (apply Rmult_le_pos; lra).
  unfold Rdiv in *. apply Rabs_le. split; lra.
Qed.

(** h(y + s) - h(y) - s ln y is of order 1/y *)
Lemma hh_step y s : 1 <= y -> 0 <= s <= 1 -> Rabs (hh (y + s) - hh y - s * ln y) <= 24 / y.
Proof.
  intros Hy Hs. pose proof r0_eq as Hr. unfold hh.
  set (B := y - 1 / 2 + r0). replace (y + s - 1 / 2 + r0) with (B + s) by (unfold B; ring).
  set (A := B + s). assert (HB : y <= B) by (unfold B; lra).
  pose proof (ln_diff A B ltac:(unfold A; lra)) as L. replace (A - B) with s in L by (unfold A; lra).
  pose proof (ln_diff B y ltac:(lra)) as K. replace (B - y) with (r0 - 1 / 2) in K by (unfold B; lra).
  assert (HA : A <= y + 12) by (unfold A, B; lra).
  replace ((y + s - 1 / 2) * (ln A - 1) - (y - 1 / 2) * (ln B - 1) - s * ln y)
    with ((A - r0) * (ln A - ln B) - s + s * (ln B - ln y)) by (unfold A, B; ring).
  assert (0 <= A - r0) by (unfold A, B; lra).
  assert (P1 : (A - r0) * (s / A) <= (A - r0) * (ln A - ln B) <= (A - r0) * (s / B)) by (split; apply Rmult_le_compat_l; lra).
  assert (0 < A) by (unfold A; lra).
  replace ((A - r0) * (s / A)) with (s - (r0 * s) * / A) in P1 by (field; lra).
  replace ((A - r0) * (s / B)) with (s + s * (s - r0) * / B) in P1 by (unfold A; field; lra).
  pose proof (inv_le y A ltac:(unfold A; lra)) as IA. pose proof (inv_le y B ltac:(lra)) as IB.
  assert (IA0 : 0 < / A) by (apply Rinv_0_lt_compat; lra). assert (IB0 : 0 < / B) by (apply Rinv_0_lt_compat; lra).
  assert (Q1 : (r0 * s) * / A <= 11 * / y).
  { apply Rmult_le_compat; try lra. { apply Rmult_le_pos; lra. }
    assert (r0 * s <= r0 * 1) by (apply Rmult_le_compat_l; lra). lra. }
  assert (Q2 : s * (s - r0) * / B <= 0).
  { assert (0 <= s * (r0 - s) * / B); [|lra]. repeat apply Rmult_le_pos; lra. }
  assert (Q3 : 0 <= s * (ln B - ln y) <= 11 * / y).
  { assert (0 <= (r0 - 1 / 2) / B) by (apply Rdiv_le_0_compat; lra). split; [apply Rmult_le_pos; lra|].
    assert (s * (ln B - ln y) <= 1 * (ln B - ln y)) by (apply Rmult_le_compat_r; lra).
    assert ((r0 - 1 / 2) / y <= 11 * / y). { unfold Rdiv. apply Rmult_le_compat_r; lra. } lra. }
  unfold Rdiv. assert (0 < / y) by lra. apply Rabs_le. split; lra.
Qed.

Lemma ff_lim : limi ff 0.
Proof.
  apply (limi_inv ff 60). intros x Hx. unfold ff. rewrite ev_M.
  pose proof (lnN_step x (x + 1) ltac:(lra) ltac:(lra)) as S.
  pose proof (hh_step x 1 Hx ltac:(lra)) as H. rewrite Rmult_1_l in H.
  pose proof (ln_diff (x + 10) x ltac:(lra)) as L. replace (x + 10 - x) with 10 in L by ring.
  assert (0 <= 10 / (x + 10)) by (apply Rdiv_le_0_compat; lra).
  apply Rabs_le_between in H. assert (0 < / x) by (apply Rinv_0_lt_compat; lra). unfold Rdiv in *. apply Rabs_le. split; lra.
Qed.

Lemma f1_bound x : 0 <= x -> Rabs (f1 x) <= 2e-15 / 3 / (x + 10) ^ 3.
Proof.
  intros Hx.
  apply (from_inf f1 f2 (fun t => 2e-15 / 3 / (t + 10) ^ 3) (fun t => 2e-15 / (t + 10) ^ 4)).
  - intros t Ht. apply f1_derive. lra.
  - intros t Ht. auto_derive; [intros E; apply (pow_nonzero (t + 10) 3) in E || apply (pow_nonzero (t + 10) 2) in E; lra|]. field. lra.
  - intros t Ht. apply f2_bound. lra.
  - apply f1_lim.
  - apply (limi_inv _ 1). intros t Ht. assert (1 * t <= (t + 10) ^ 3).
    { replace ((t + 10) ^ 3) with ((t + 10) * (t + 10) * (t + 10)) by ring.
      assert (1 <= (t + 10) * (t + 10)). { replace 1 with (1 * 1) by ring. apply Rmult_le_compat; lra. }
      apply Rmult_le_compat; lra. }
    pose proof (inv_le t ((t + 10) ^ 3) ltac:(lra)). assert (0 < / (t + 10) ^ 3) by (apply Rinv_0_lt_compat; lra).
    unfold Rdiv. rewrite Rabs_pos_eq; [|apply Rmult_le_pos; lra]. apply Rmult_le_compat; lra.
Qed.
Lemma ff_bound x : 0 <= x -> Rabs (ff x) <= 2e-15 / 6 / (x + 10) ^ 2.
Proof.
  intros Hx.
  apply (from_inf ff f1 (fun t => 2e-15 / 6 / (t + 10) ^ 2) (fun t => 2e-15 / 3 / (t + 10) ^ 3)).
  - intros t Ht. apply ff_derive. lra.
  - intros t Ht. auto_derive; [intros E; apply (pow_nonzero (t + 10) 3) in E || apply (pow_nonzero (t + 10) 2) in E; lra|]. field. lra.
  - intros t Ht. apply f1_bound. lra.
  - apply ff_lim.
  - apply (limi_inv _ 1). intros t Ht. assert (1 * t <= (t + 10) ^ 2).
    { replace ((t + 10) ^ 2) with ((t + 10) * (t + 10)) by ring. apply Rmult_le_compat; lra. }
    pose proof (inv_le t ((t + 10) ^ 2) ltac:(lra)). assert (0 < / (t + 10) ^ 2) by (apply Rinv_0_lt_compat; lra).
    unfold Rdiv. rewrite Rabs_pos_eq; [|apply Rmult_le_pos; lra]. apply Rmult_le_compat; lra.
Qed.
