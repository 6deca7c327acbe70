(* The digamma function: existence, bounds, and the error of the code's approximation. *)
From Coq Require Import Reals Lra Lia Psatz.
From Coquelicot Require Import Coquelicot.
From Verif Require Import GamSpec GamInt GamLan4 GamLan5 DigSpec DigammaSpec DigammaModel DigammaProofs.
Local Open Scope R_scope.

Notation Hs := inv_sum.
Definition Pn (x : R) (n : nat) : R := ln (x + INR n) - Hs n x.
Definition Qn (x : R) (n : nat) : R := Pn x n - / (x + INR n).

Lemma xn_pos x n : 0 < x -> 0 < x + INR n.
Proof. intros. pose proof (pos_INR n). lra. Qed.
Lemma ln_1step z : 0 < z -> / (z + 1) <= ln (z + 1) - ln z <= / z.
Proof.
  intros Hz. pose proof (ln_diff (z + 1) z ltac:(lra)) as L. replace (z + 1 - z) with 1 in L by ring. unfold Rdiv in L. lra.
Qed.
Lemma Pn_dec x n : 0 < x -> Pn x (S n) <= Pn x n.
Proof.
  intros Hx. unfold Pn. cbn [Hs]. pose proof (ln_1step (x + INR n) (xn_pos x n Hx)) as L. rewrite S_INR.
  replace (x + (INR n + 1)) with (x + INR n + 1) by ring. lra.
Qed.
Lemma Qn_inc x n : 0 < x -> Qn x n <= Qn x (S n).
Proof.
  intros Hx. unfold Qn, Pn. cbn [Hs]. pose proof (ln_1step (x + INR n) (xn_pos x n Hx)) as L. rewrite S_INR.
  replace (x + (INR n + 1)) with (x + INR n + 1) by ring. lra.
Qed.
Lemma Qn_0 x n : 0 < x -> Qn x 0 <= Qn x n.
Proof. intros Hx. induction n; [lra|]. pose proof (Qn_inc x n Hx). lra. Qed.
Lemma QP x n : 0 < x -> Qn x n < Pn x n.
Proof. intros Hx. unfold Qn. pose proof (Rinv_0_lt_compat _ (xn_pos x n Hx)). lra. Qed.
Lemma psi_ex x : 0 < x -> { v | Un_cv (Pn x) v }.
Proof.
  intros Hx. apply decreasing_cv.
  - intros n. apply Pn_dec; auto.
  - exists (- Qn x 0). intros y (n & ->). unfold opp_seq. pose proof (Qn_0 x n Hx). pose proof (QP x n Hx). lra.
Qed.
Definition psi (x : R) : R := match Rlt_dec 0 x with left H => proj1_sig (psi_ex x H) | right _ => 0 end.
Lemma psi_cv x : 0 < x -> Un_cv (Pn x) (psi x).
Proof. intros H. unfold psi. destruct (Rlt_dec 0 x) as [H'|]; [|lra]. exact (proj2_sig (psi_ex x H')). Qed.
Lemma inv_small x e : 0 < x -> 0 < e -> exists N, forall n, (N <= n)%nat -> / (x + INR n) < e.
Proof.
  intros Hx He. pose proof (Rinv_0_lt_compat e He). destruct (nfloor_ex (/ e) ltac:(lra)) as [m [_ HN]]. exists (S m).
  rewrite <- S_INR in HN. intros n Hn. apply le_INR in Hn.
  rewrite <- (Rinv_inv e). apply Rinv_lt_contravar; [|lra]. apply Rmult_lt_0_compat; [apply Rinv_0_lt_compat; auto|].
  pose proof (pos_INR n). lra.
Qed.
Lemma psi_up x n : 0 < x -> psi x <= Pn x n.
Proof. intros Hx. apply (decreasing_ineq (Pn x)); [intros k; apply Pn_dec; auto|apply psi_cv; auto]. Qed.
Lemma Qn_mono x n k : 0 < x -> Qn x n <= Qn x (n + k).
Proof.
  intros Hx. induction k; [rewrite Nat.add_0_r; lra|]. rewrite Nat.add_succ_r. pose proof (Qn_inc x (n + k) Hx). lra.
Qed.
Lemma psi_low x n : 0 < x -> Qn x n <= psi x.
Proof.
  intros Hx. apply Rnot_lt_le. intros C. destruct (psi_cv x Hx (Qn x n - psi x) ltac:(lra)) as [N HN].
  specialize (HN (n + N)%nat ltac:(lia)). unfold R_dist in HN. apply Rabs_def2 in HN.
  pose proof (Qn_mono x n N Hx). pose proof (QP x (n + N) Hx). lra.
Qed.

(* slope of ln Gamma *)
Lemma lg_slope z h : 0 < z -> 0 <= h <= 1 -> h * ln z - h / z <= lg (z + h) - lg z <= h * ln z.
Proof.
  intros Hz Hh. pose proof (lg_up z h Hz Hh) as U.
  pose proof (lg_up (z + h) (1 - h) ltac:(lra) ltac:(lra)) as V.
  replace (z + h + (1 - h)) with (z + 1) in V by ring. rewrite lg_step in V by lra.
  pose proof (ln_diff (z + h) z ltac:(lra)) as [L0 L]. replace (z + h - z) with h in * by ring.
  assert (0 <= h / (z + h)) by (apply Rmult_le_pos; [lra|left; apply Rinv_0_lt_compat; lra]).
  assert (0 <= h * (ln (z + h) - ln z)) by (apply Rmult_le_pos; lra). lra.
Qed.
Lemma lg_down z h n : 0 < z -> 0 <= h ->
  h * Hs n (z + h) <= (lg (z + INR n + h) - lg (z + INR n)) - (lg (z + h) - lg z) <= h * Hs n z.
Proof.
  intros Hz Hh. induction n as [|n IH].
  - cbn [Hs]. replace (INR 0) with 0 by reflexivity. rewrite !Rplus_0_r. lra.
  - cbn [Hs]. rewrite S_INR. pose proof (xn_pos z n Hz) as P.
    replace (z + (INR n + 1) + h) with (z + INR n + h + 1) by ring. replace (z + (INR n + 1)) with (z + INR n + 1) by ring.
    rewrite !lg_step by lra. pose proof (ln_diff (z + INR n + h) (z + INR n) ltac:(lra)) as L.
    replace (z + INR n + h - (z + INR n)) with h in L by ring. replace (z + h + INR n) with (z + INR n + h) by ring.
    unfold Rdiv in L. lra.
Qed.
Lemma Hs_shift n z h : 0 < z -> 0 <= h -> 0 <= Hs n z - Hs n (z + h) <= h * INR n / (z * z).
Proof.
  intros Hz Hh. induction n as [|n IH].
  - cbn. unfold Rdiv. lra.
  - cbn [Hs]. rewrite S_INR. pose proof (pos_INR n).
    assert (E : / (z + INR n) - / (z + h + INR n) = h * / ((z + INR n) * (z + h + INR n))) by (field; lra).
    assert (0 < / ((z + INR n) * (z + h + INR n))) by (apply Rinv_0_lt_compat, Rmult_lt_0_compat; lra).
    assert (/ ((z + INR n) * (z + h + INR n)) <= / (z * z)) by (apply Rinv_le_contravar; nra).
    replace (h * (INR n + 1) / (z * z)) with (h * INR n / (z * z) + h * / (z * z)) by (field; lra).
    assert (h * / ((z + INR n) * (z + h + INR n)) <= h * / (z * z)) by (apply Rmult_le_compat_l; auto).
    assert (0 <= h * / ((z + INR n) * (z + h + INR n))) by (apply Rmult_le_pos; lra). lra.
Qed.
Lemma lg_diff z h n : 0 < z -> 0 <= h <= 1 -> h * Qn z n <= lg (z + h) - lg z <= h * (ln (z + INR n) - Hs n (z + h)).
Proof.
  intros Hz Hh. pose proof (lg_down z h n Hz ltac:(lra)) as D. pose proof (lg_slope (z + INR n) h (xn_pos z n Hz) Hh) as S.
  unfold Qn, Pn. unfold Rdiv in S. lra.
Qed.
Lemma lg_right x h n : 0 < x -> 0 < h <= 1 -> Qn x n <= (lg (x + h) - lg x) / h <= Pn x n + h * INR n / (x * x).
Proof.
  intros Hx Hh. pose proof (lg_diff x h n Hx ltac:(lra)) as D. pose proof (Hs_shift n x h Hx ltac:(lra)) as S.
  assert (E : (lg (x + h) - lg x) / h * h = lg (x + h) - lg x) by (field; lra).
  split; apply Rmult_le_reg_r with h; try lra; rewrite E.
  apply Rle_trans with (1 := proj2 D). unfold Pn. rewrite Rmult_comm. apply Rmult_le_compat_r; lra.
Qed.
Lemma lg_left x h n : 0 < h <= 1 -> h <= x / 2 ->
  Qn x n - h * (4 * INR n + 4) / (x * x) - h * 2 / x <= (lg (x - h) - lg x) / (- h) <= Pn x n.
Proof.
  intros Hh Hx. pose proof (lg_diff (x - h) h n ltac:(lra) ltac:(lra)) as D. replace (x - h + h) with x in D by ring.
  pose proof (Hs_shift n (x - h) h ltac:(lra) ltac:(lra)) as S. replace (x - h + h) with x in S by ring.
  assert (E : (lg (x - h) - lg x) / - h * h = lg x - lg (x - h)) by (field; lra).
  pose proof (pos_INR n) as N.
  pose proof (ln_diff (x + INR n) (x - h + INR n) ltac:(lra)) as L. replace (x + INR n - (x - h + INR n)) with h in L by ring.
  split; apply Rmult_le_reg_r with h; try lra; rewrite E.
  - apply Rle_trans with (2 := proj1 D). rewrite Rmult_comm. apply Rmult_le_compat_l; [lra|]. unfold Qn, Pn.
    assert (A : / (x - h) <= 2 / x). { replace (2 / x) with (/ (x / 2)) by (field; lra). apply Rinv_le_contravar; lra. }
    assert (B : 0 < / (x - h)) by (apply Rinv_0_lt_compat; lra).
    assert (C : 0 < / x) by (apply Rinv_0_lt_compat; lra).
    assert (A1 : h / (x - h + INR n) <= h * 2 / x).
    { unfold Rdiv. rewrite Rmult_assoc. apply Rmult_le_compat_l; [lra|]. apply Rle_trans with (/ (x - h)); [|exact A].
      apply Rinv_le_contravar; lra. }
    assert (A2 : / (x - h + INR n) - / (x + INR n) <= h * 4 / (x * x)).
    { replace (/ (x - h + INR n) - / (x + INR n)) with (h * (/ (x - h + INR n) * / (x + INR n))) by (field; lra).
      replace (h * 4 / (x * x)) with (h * ((2 / x) * (2 / x))) by (field; lra). apply Rmult_le_compat_l; [lra|].
      assert (0 < / (x - h + INR n)) by (apply Rinv_0_lt_compat; lra). assert (0 < / (x + INR n)) by (apply Rinv_0_lt_compat; lra).
      assert (/ (x - h + INR n) <= / (x - h)) by (apply Rinv_le_contravar; lra).
      assert (/ (x + INR n) <= / (x - h)) by (apply Rinv_le_contravar; lra).
      apply Rmult_le_compat; lra. }
    assert (A3 : Hs n (x - h) - Hs n x <= h * (4 * INR n) / (x * x)).
    { apply Rle_trans with (1 := proj2 S). unfold Rdiv. rewrite !Rmult_assoc. apply Rmult_le_compat_l; [lra|].
      rewrite Rinv_mult. apply Rle_trans with (INR n * (2 / x * (2 / x))).
      - apply Rmult_le_compat_l; auto. apply Rmult_le_compat; lra.
      - right. field. lra. }
    assert (F : h * (4 * INR n + 4) / (x * x) = h * (4 * INR n) / (x * x) + h * 4 / (x * x)) by (field; lra). lra.
  - apply Rle_trans with (1 := proj2 D). unfold Pn. rewrite Rmult_comm. apply Rmult_le_compat_r; [lra|].
    assert (0 <= h / (x + INR n)) by (apply Rmult_le_pos; [lra|left; apply Rinv_0_lt_compat; lra]). lra.
Qed.
Theorem psi_derive x : 0 < x -> derivable_pt_lim lg x (psi x).
Proof.
  intros Hx e He. destruct (inv_small x (e / 4) Hx ltac:(lra)) as [n Hn]. specialize (Hn n (le_n n)).
  pose proof (psi_up x n Hx) as U. pose proof (psi_low x n Hx) as L. unfold Qn in L.
  set (K := (4 * INR n + 4) / (x * x) + 2 / x). pose proof (pos_INR n) as N.
  assert (K0 : 0 < K).
  { unfold K. assert (0 < (4 * INR n + 4) / (x * x)) by (apply Rdiv_lt_0_compat; nra). assert (0 < 2 / x) by (apply Rdiv_lt_0_compat; lra). lra. }
  set (d := Rmin (Rmin 1 (x / 2)) (e / (4 * K))).
  assert (E4 : 0 < e / (4 * K)) by (apply Rdiv_lt_0_compat; lra).
  assert (D0 : 0 < d) by (unfold d; repeat apply Rmin_glb_lt; lra).
  exists (mkposreal d D0). cbn [pos]. intros h H0 Hh.
  assert (M1 : d <= 1) by (unfold d; eapply Rle_trans; [apply Rmin_l|apply Rmin_l]).
  assert (M2 : d <= x / 2) by (unfold d; eapply Rle_trans; [apply Rmin_l|apply Rmin_r]).
  assert (M3 : d <= e / (4 * K)) by (unfold d; apply Rmin_r).
  assert (Small : forall t, 0 < t < d -> t * K <= e / 4).
  { intros t Ht. replace (e / 4) with (e / (4 * K) * K) by (field; lra). apply Rmult_le_compat_r; lra. }
  apply Rabs_def2 in Hh. clearbody d.
  assert (T : forall t, t * K = t * (4 * INR n + 4) / (x * x) + t * 2 / x) by (intros; unfold K; field; lra).
  destruct (Rlt_dec 0 h) as [P|P].
  - pose proof (lg_right x h n Hx ltac:(lra)) as [A B]. specialize (Small h ltac:(lra)). rewrite T in Small. unfold Qn in A.
    assert (h * INR n / (x * x) <= h * (4 * INR n + 4) / (x * x)).
    { apply Rmult_le_compat_r; [left; apply Rinv_0_lt_compat; nra|]. apply Rmult_le_compat_l; lra. }
    assert (0 <= h * 2 / x) by (apply Rmult_le_pos; [lra|left; apply Rinv_0_lt_compat; lra]).
    apply Rabs_def1; lra.
  - pose proof (lg_left x (- h) n ltac:(lra) ltac:(lra)) as [A B]. specialize (Small (- h) ltac:(lra)). rewrite T in Small.
    replace (x - - h) with (x + h) in * by ring. rewrite Ropp_involutive in *. unfold Qn in A.
    apply Rabs_def1; lra.
Qed.
Lemma deriv_local (f g : R -> R) x l : 0 < x -> (forall t, 0 < t -> f t = g t) -> derivable_pt_lim f x l -> derivable_pt_lim g x l.
Proof.
  intros Hx E D e He. destruct (D e He) as [d Hd]. pose proof (cond_pos d) as D0.
  assert (M : 0 < Rmin d x) by (apply Rmin_glb_lt; auto). exists (mkposreal _ M). cbn [pos]. intros h H0 Hh.
  pose proof (Rmin_l d x). pose proof (Rmin_r d x).
  specialize (Hd h H0 ltac:(lra)). apply Rabs_def2 in Hh. rewrite <- !E by lra. exact Hd.
Qed.
Lemma psi_is x : 0 < x -> is_digamma x (psi x).
Proof.
  intros Hx. exists lg. split; [|apply psi_derive; auto]. intros a Ha. unfold lg. rewrite exp_ln by (apply gamma_pos; auto). apply gamma_ex; auto.
Qed.
Lemma psi_uniq x v : 0 < x -> is_digamma x v -> v = psi x.
Proof.
  intros Hx (g & G & D). apply (uniqueness_limite lg x); [|apply psi_derive; auto].
  apply (deriv_local g); auto. intros t Ht. unfold lg. rewrite (gamma_uniq _ _ (G t Ht)). rewrite ln_exp. reflexivity.
Qed.

(* the code *)
Fixpoint gaps (n : nat) (x : R) : R :=
  match n with O => 0 | S m => gaps m x + (if Rlt_dec (x + INR m) 12 then 0 else gap (x + INR m)) end.
Lemma dig_far n x : 0 < x -> dig (x + INR n) = dig x + Hs n x + gaps n x.
Proof.
  intros Hx. induction n as [|n IH]; [cbn; rewrite Rplus_0_r; ring|].
  rewrite S_INR. replace (x + (INR n + 1)) with (x + INR n + 1) by ring. rewrite dig_step by (apply xn_pos; auto). rewrite IH. cbn [Hs gaps]. ring.
Qed.
Lemma gaps_bound n x : 0 < x -> 0 <= gaps n x <= next (Rmax x 12) - next (Rmax (x + INR n) 12).
Proof.
  intros Hx. induction n as [|n IH]; [cbn; rewrite Rplus_0_r; lra|].
  cbn [gaps]. rewrite S_INR. replace (x + (INR n + 1)) with (x + INR n + 1) by ring. pose proof (xn_pos x n Hx) as P.
  destruct (Rlt_dec (x + INR n) 12) as [L|L].
  - assert (next (Rmax (x + INR n + 1) 12) <= next (Rmax (x + INR n) 12)); [|lra].
    unfold next. apply Rmult_le_compat_l; [lra|]. rewrite (Rmax_right (x + INR n)) by lra. apply Rinv_le_contravar; [apply pow_lt; lra|].
    apply pow_incr. split; [lra|apply Rmax_r].
  - rewrite (Rmax_left (x + INR n)) in IH by lra. rewrite (Rmax_left (x + INR n + 1)) by lra.
    pose proof (gap_small (x + INR n) P). pose proof (gap_nonneg (x + INR n) P). lra.
Qed.
Theorem dig_close x : 0 < x -> 0 <= psi x - dig x <= next (Rmax x 12).
Proof.
  intros Hx.
  assert (K : forall e, 0 < e -> - e <= psi x - dig x <= next (Rmax x 12) + e).
  { intros e He. destruct (inv_small x (e / 2) Hx ltac:(lra)) as [N HN].
    destruct (nfloor_ex 12 ltac:(lra)) as [k [_ Hk]]. set (n := (N + S k)%nat).
    specialize (HN n ltac:(lia)). assert (Hn : 12 < x + INR n).
    { unfold n. rewrite plus_INR, S_INR. pose proof (pos_INR N). lra. }
    pose proof (psi_up x n Hx) as U. pose proof (psi_low x n Hx) as L. unfold Qn in L. unfold Pn in *.
    pose proof (dig_far n x Hx) as F. pose proof (gaps_bound n x Hx) as G.
    pose proof (next_pos (Rmax (x + INR n) 12) ltac:(pose proof (Rmax_r (x + INR n) 12); lra)) as Q.
    assert (D : dig (x + INR n) = tail (x + INR n)) by (unfold dig; rewrite climb_done by lra; cbn; ring).
    pose proof (rest_bound (x + INR n) ltac:(lra)) as B. apply Rabs_le_between in B. lra. }
  split.
  - apply Rnot_lt_le. intros C. specialize (K (- (psi x - dig x) / 2) ltac:(lra)). lra.
  - apply Rnot_lt_le. intros C. specialize (K ((psi x - dig x - next (Rmax x 12)) / 2) ltac:(lra)). lra.
Qed.
Lemma next_small x : next (Rmax x 12) <= 2.4e-15.
Proof.
  apply Rle_trans with (next 12).
  - unfold next. apply Rmult_le_compat_l; [lra|]. apply Rinv_le_contravar; [apply pow_lt; lra|]. apply pow_incr. split; [lra|apply Rmax_r].
  - unfold next. cbn [pow]. lra.
Qed.
Theorem digamma_body x : 1e-6 < x -> 0 <= psi x - digamma x <= 2.4e-15.
Proof.
  intros Hx. rewrite digamma_dig by lra. pose proof (dig_close x ltac:(lra)). pose proof (next_small x). lra.
Qed.
