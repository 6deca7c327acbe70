(* The arm of digamma for arguments up to a millionth. *)
From Coq Require Import ZArith QArith Reals Qreals Lra Lia Psatz.
From Coquelicot Require Import Coquelicot.
From Verif Require Import NormZero GamSpec GamInt GamLan4 GamLan5 DigSpec DigammaSpec DigammaModel DigammaProofs DigPsi.
Local Open Scope R_scope.

Definition uq : Q := 62122666244700008 # 100000000000000000.
Definition elo : Q := 53728496591177091 # 100000000000000000.
Definition ehi : Q := 53728496591177096 # 100000000000000000.
Lemma uq_R : Q2R uq = 0.62122666244700008.
Proof. unfold uq, Q2R. cbn [Qnum Qden]. lra. Qed.
Lemma elo_R : Q2R elo = 0.53728496591177091.
Proof. unfold elo, Q2R. cbn [Qnum Qden]. lra. Qed.
Lemma ehi_R : Q2R ehi = 0.53728496591177096.
Proof. unfold ehi, Q2R. cbn [Qnum Qden]. lra. Qed.
Lemma e_lo : Q2R elo <= Q2R (horq 15 1 uq).
Proof. apply qle_R. vm_compute. reflexivity. Qed.
Lemma e_hi : Q2R (horq 16 1 uq) <= Q2R ehi.
Proof. apply qle_R. vm_compute. reflexivity. Qed.
Lemma exp_u : 0.53728496591177091 <= exp (- Q2R uq) <= 0.53728496591177096.
Proof.
  rewrite <- elo_R, <- ehi_R. pose proof e_lo as A. pose proof e_hi as B. rewrite horq_R in A, B by lia.
  rewrite hor_tsum16 in A. rewrite hor_tsum17 in B.
  assert (U : 0 <= Q2R uq) by (rewrite uq_R; lra).
  pose proof (exp_16 _ U) as C. pose proof (exp_17 _ U) as D.
  revert A B C D. generalize (tsum 16 (Q2R uq)) (tsum 17 (Q2R uq)) (exp (- Q2R uq)) (Q2R elo) (Q2R ehi). intros. lra.
Qed.
Lemma ln_12 : Rabs (ln 12 - 2.48490664978800032) <= 1.01e-15.
Proof.
  pose proof exp_u as [A B]. set (y := 12 * exp (- 2.48490664978800032)).
  assert (E : exp (- 2.48490664978800032) = exp (- Q2R uq) * exp (- Q2R uq) * (exp (- Q2R uq) * exp (- Q2R uq))).
  { rewrite uq_R, <- !exp_plus. f_equal. lra. }
  assert (L : ln 12 - 2.48490664978800032 = ln y).
  { unfold y. rewrite ln_mult by (lra || apply exp_pos). rewrite ln_exp. lra. }
  set (e := exp (- Q2R uq)) in *. clearbody e.
  assert (S : 0.28867513459481282 <= e * e <= 0.28867513459481289) by nra.
  set (f := e * e) in *. clearbody f.
  assert (Y : 1 - 1e-15 <= y <= 1 + 1e-15).
  { unfold y. rewrite E. nra. }
  rewrite L. pose proof (ln_up y ltac:(lra)) as U. pose proof (ln_up (/ y) ltac:(apply Rinv_0_lt_compat; lra)) as V.
  rewrite ln_Rinv in V by lra.
  assert (/ y - 1 <= 1.01e-15). { apply Rmult_le_reg_r with y; [lra|]. replace ((/ y - 1) * y) with (1 - y) by (field; lra). nra. }
  apply Rabs_le. lra.
Qed.

Lemma Hs_front n x : 0 < x -> Hs (S n) x = / x + Hs n (x + 1).
Proof.
  intros Hx. induction n as [|n IH]; [cbn; rewrite Rplus_0_r; ring|].
  change (Hs (S (S n)) x) with (Hs (S n) x + / (x + INR (S n))). rewrite IH. cbn [Hs]. rewrite S_INR.
  replace (x + (INR n + 1)) with (x + 1 + INR n) by ring. ring.
Qed.
Lemma psi_step x : 0 < x -> psi (x + 1) = psi x + / x.
Proof.
  intros Hx. assert (K : forall e, 0 < e -> Rabs (psi (x + 1) - (psi x + / x)) <= e).
  { intros e He. destruct (inv_small x (e / 2) Hx ltac:(lra)) as [N HN].
    pose proof (HN (S N) ltac:(lia)) as H1.
    pose proof (psi_up x (S N) Hx) as A. pose proof (psi_low x (S N) Hx) as B.
    pose proof (psi_up (x + 1) N ltac:(lra)) as C. pose proof (psi_low (x + 1) N ltac:(lra)) as D.
    unfold Qn, Pn in *. rewrite Hs_front in * by auto. rewrite S_INR in *. replace (x + (INR N + 1)) with (x + 1 + INR N) in * by ring.
    apply Rabs_le. lra. }
  apply Rminus_diag_uniq. destruct (Req_dec (psi (x + 1) - (psi x + / x)) 0) as [E|E]; auto.
  pose proof (Rabs_pos_lt _ E) as P. specialize (K (Rabs (psi (x + 1) - (psi x + / x)) / 2) ltac:(lra)). lra.
Qed.
Lemma dig_1t t : 0 <= t < 1 -> dig (1 + t) = tail (12 + t) - Hs 11 (1 + t).
Proof.
  intros Ht. pose proof (dig_far 11 (1 + t) ltac:(lra)) as F.
  assert (G : forall n, (n <= 11)%nat -> gaps n (1 + t) = 0).
  { induction n; intros Hn; cbn [gaps]; auto. rewrite IHn by lia. apply le_INR in Hn. rewrite S_INR in Hn. replace (INR 11) with 11 in Hn by (cbn; ring).
    destruct (Rlt_dec _ _); lra. }
  rewrite G in F by lia. replace (1 + t + INR 11) with (12 + t) in F by (cbn; ring).
  unfold dig in F at 1. rewrite climb_done in F by lra. cbn [fst snd] in F. lra.
Qed.
Lemma tail'_near c : 12 <= c <= 12.000001 -> 0.0869018653 <= tail' c <= 0.0869018729.
Proof.
  intros Hc. unfold tail'.
  assert (A : 0 < / 12.000001 <= / c) by (split; [lra|apply Rinv_le_contravar; lra]).
  assert (B : / c <= / 12) by (apply Rinv_le_contravar; lra).
  rewrite <- !pow_inv. set (r := / c) in *. clearbody r. 
  assert (P : forall n, (/ 12.000001) ^ n <= r ^ n <= (/ 12) ^ n) by (intros; split; apply pow_incr; lra).
  pose proof (P 2%nat) as P2. pose proof (P 3%nat) as P3. pose proof (P 5%nat) as P5. pose proof (P 7%nat) as P7. pose proof (P 9%nat) as P9. pose proof (P 11%nat) as P11.
  clear P. revert P2 P3 P5 P7 P9 P11. generalize (r ^ 2) (r ^ 3) (r ^ 5) (r ^ 7) (r ^ 9) (r ^ 11). cbn [pow]. intros. lra.
Qed.
Lemma inv_k k t : 1 <= k -> 0 <= t -> / k - t * / (k * k) <= / (k + t) <= / k - t * / (k * k) + t * t * / (k * k * k).
Proof.
  intros Hk Ht. assert (0 < / (k + t)) by (apply Rinv_0_lt_compat; lra).
  assert (E : / (k + t) - (/ k - t * / (k * k)) = t * t * / (k * k) * / (k + t)) by (field; lra).
  assert (0 < / (k * k)) by (apply Rinv_0_lt_compat; nra).
  assert (0 <= t * t * / (k * k)) by (apply Rmult_le_pos; nra).
  assert (F : t * t * / (k * k) * / (k + t) <= t * t * / (k * k) * / k) by (apply Rmult_le_compat_l; auto; apply Rinv_le_contravar; lra).
  replace (t * t * / (k * k * k)) with (t * t * / (k * k) * / k) by (field; lra).
  assert (0 <= t * t * / (k * k) * / (k + t)) by (apply Rmult_le_pos; lra). lra.
Qed.
Lemma Hs_1t t : 0 <= t -> 83711 / 27720 - 1.558032193976459 * t <= Hs 11 (1 + t) <= 83711 / 27720 - 1.558032193976458 * t + 1.2 * (t * t).
Proof.
  intros Ht. cbn [Hs].
  assert (E : forall n, / (1 + t + INR n) = / (INR n + 1 + t)) by (intros; f_equal; ring). rewrite !E. clear E.
  replace (INR 0) with 0 by reflexivity. replace (INR 1) with 1 by reflexivity. replace (INR 2) with 2 by (cbn; ring).
  replace (INR 3) with 3 by (cbn; ring). replace (INR 4) with 4 by (cbn; ring). replace (INR 5) with 5 by (cbn; ring).
  replace (INR 6) with 6 by (cbn; ring). replace (INR 7) with 7 by (cbn; ring). replace (INR 8) with 8 by (cbn; ring).
  replace (INR 9) with 9 by (cbn; ring). replace (INR 10) with 10 by (cbn; ring).
  pose proof (inv_k (0 + 1) t ltac:(lra) Ht). pose proof (inv_k (1 + 1) t ltac:(lra) Ht). pose proof (inv_k (2 + 1) t ltac:(lra) Ht).
  pose proof (inv_k (3 + 1) t ltac:(lra) Ht). pose proof (inv_k (4 + 1) t ltac:(lra) Ht). pose proof (inv_k (5 + 1) t ltac:(lra) Ht).
  pose proof (inv_k (6 + 1) t ltac:(lra) Ht). pose proof (inv_k (7 + 1) t ltac:(lra) Ht). pose proof (inv_k (8 + 1) t ltac:(lra) Ht).
  pose proof (inv_k (9 + 1) t ltac:(lra) Ht). pose proof (inv_k (10 + 1) t ltac:(lra) Ht).
  assert (T : 0 <= t * t) by nra. set (w := t * t) in *. clearbody w. lra.
Qed.
Lemma tail_12 : Rabs (tail 12 - 2.4426616799758097) <= 2e-15.
Proof.
  pose proof ln_12 as L. apply Rabs_le_between in L. unfold tail. cbv zeta.
  revert L. generalize (ln 12). intros l L. apply Rabs_le. lra.
Qed.
Lemma psi_1t t : 0 < t <= 1e-6 -> Rabs (psi (1 + t) - (16449340668482264365 / 10000000000000000000 * t - 57721566490153286 / 100000000000000000)) <= 1.25e-12.
Proof.
  intros Ht. pose proof (dig_close (1 + t) ltac:(lra)) as C. pose proof (next_small (1 + t)) as N.
  rewrite dig_1t in C by lra. pose proof (Hs_1t t ltac:(lra)) as H. pose proof tail_12 as T. apply Rabs_le_between in T.
  destruct (MVT_cor2 tail tail' 12 (12 + t) ltac:(lra)) as (c & E & Hc); [intros; apply tail_deriv; lra|].
  replace (12 + t - 12) with t in E by ring.
  pose proof (tail'_near c ltac:(lra)) as D.
  assert (D1 : 0.0869018653 * t <= tail' c * t <= 0.0869018729 * t) by (split; apply Rmult_le_compat_r; lra).
  assert (S : 0 <= t * t <= 1e-12) by nra.
  revert C N H T E D1 S. generalize (next (Rmax (1 + t) 12)) (psi (1 + t)) (Hs 11 (1 + t)) (tail (12 + t)) (tail 12) (tail' c * t) (t * t).
  intros. apply Rabs_le. lra.
Qed.
Theorem digamma_small x : 0 < x <= 1e-6 -> Rabs (digamma x - psi x) <= 1.25e-12.
Proof.
  intros Hx. pose proof (psi_1t x Hx) as P. rewrite Rplus_comm, psi_step in P by lra.
  unfold digamma. destruct (Rle_dec x (1 / 1000000)); [|lra].
  rewrite <- Rabs_Ropp. match goal with |- Rabs ?u <= _ => match type of P with Rabs ?v <= _ => replace u with v; [exact P|] end end.
  unfold Rdiv. ring.
Qed.
