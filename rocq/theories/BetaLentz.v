(* The loop computes convergents, and leaves by its test. *)
From Coq Require Import QArith Reals Lra Lia Arith ZArith.
From Coquelicot Require Import Coquelicot.
From Verif Require Import GamModel GamSpec GamInt GamInc BetaSpec BetaInt BetaFrac BetaErr BetaModel.
Local Open Scope R_scope.

Lemma eps_val : PREC_ACC = Q2R 0.0000000000000011102230246251565. Proof. reflexivity. Qed.
Lemma eps_bounds : 1.11e-15 <= PREC_ACC <= 1.1103e-15.
Proof. unfold PREC_ACC, Q2R; cbn [Qnum Qden]. lra. Qed.
Definition huge : R := 10 ^ 200.
Lemma fpmin_small : 0 < fpmin <= / huge.
Proof.
  destruct eps_bounds as [E0 E1]. unfold fpmin, huge.
  assert (H : 10 ^ 200 * 10 ^ 20 <= IZR (2 ^ 1022)).
  { rewrite <- pow_add. cbn [Nat.add]. rewrite pow_IZR. apply IZR_le. apply Z.leb_le. vm_compute. reflexivity. }
  assert (P : 0 < 10 ^ 200) by (apply pow_lt; lra). revert H P. generalize (10 ^ 200) (IZR (2 ^ 1022)). intros u z H P.
  assert (P2 : 1 <= 10 ^ 20 * 1.11e-15) by (cbn [pow]; lra).
  assert (P3 : 1 <= 10 ^ 20) by (apply pow_R1_Rle; lra). revert H P2 P3. generalize (10 ^ 20). intros v H P2 P3.
  assert (u * 1 <= u * v) by (apply Rmult_le_compat_l; lra).
  split; [repeat apply Rmult_lt_0_compat; apply Rinv_0_lt_compat; lra|].
  unfold Rdiv. rewrite <- Rinv_mult. apply Rinv_le_contravar; auto.
  apply Rle_trans with (u * (v * 1.11e-15)).
  - rewrite <- (Rmult_1_r u) at 1. apply Rmult_le_compat_l; lra.
  - rewrite <- Rmult_assoc. apply Rmult_le_compat; try lra.
Qed.

Section Run.
Variables a b x : R.
Hypothesis Ha : 0 < a.
Hypothesis Hb : 0 < b.
Hypothesis Hx : 0 < x <= top a b.
Hypothesis Hh : a + b + 2 <= huge.
Notation P n := (Pn a b n x).
Notation Q n := (Qn a b n x).
Notation V n := (Vn a b n x).

Lemma lift_id d : / (a + b + 2) <= d -> lift d = d.
Proof.
  intros H. unfold lift. destruct (Rlt_dec (Rabs d) fpmin) as [C|]; auto. exfalso.
  destruct fpmin_small as [_ F]. assert (/ huge <= / (a + b + 2)) by (apply Rinv_le_contravar; lra).
  pose proof (Rle_abs d). lra.
Qed.
Lemma Q_ratio n : / (a + b + 2) <= Q (S n) / Q n.
Proof.
  pose proof (Q_pos a b Ha Hb n x ltac:(lra)) as HQ.
  destruct (Q_good a b Ha Hb (S n) x ltac:(lra)) as (_ & _ & _ & _ & D).
  change (snd (conv a b 1 1 (S n) x)) with (Q n) in D. change (fst (conv a b 1 1 (S n) x)) with (Q (S n)) in D.
  apply Rmult_le_reg_r with (Q n); auto. unfold Rdiv. rewrite (Rmult_assoc (Q (S n))), Rinv_l by lra. lra.
Qed.
Lemma P_ratio n : / (a + b + 2) <= P (S n) / P n.
Proof.
  pose proof (P_pos a b Ha Hb n x ltac:(lra)) as HP.
  destruct (P_good a b Ha Hb n x ltac:(lra)) as (_ & _ & _ & _ & D).
  change (snd (conv a b 0 1 (S n) x)) with (P n) in D. change (fst (conv a b 0 1 (S n) x)) with (P (S n)) in D.
  apply Rmult_le_reg_r with (P n); auto. unfold Rdiv. rewrite (Rmult_assoc (P (S n))), Rinv_l by lra. lra.
Qed.
(** one half of a round *)
Lemma half n aa : aa = - ee a b (S n) * x ->
  1 / lift (1 + aa * (Q n / Q (S n))) = Q (S n) / Q (S (S n)) /\ lift (1 + aa / (P (S n) / P n)) = P (S (S n)) / P (S n).
Proof.
  intros ->.
  pose proof (Q_pos a b Ha Hb n x ltac:(lra)) as Q0. pose proof (Q_pos a b Ha Hb (S n) x ltac:(lra)) as Q1. pose proof (Q_pos a b Ha Hb (S (S n)) x ltac:(lra)) as Q2.
  pose proof (P_pos a b Ha Hb n x ltac:(lra)) as P0. pose proof (P_pos a b Ha Hb (S n) x ltac:(lra)) as P1. pose proof (P_pos a b Ha Hb (S (S n)) x ltac:(lra)) as P2.
  assert (E1 : 1 + - ee a b (S n) * x * (Q n / Q (S n)) = Q (S (S n)) / Q (S n)).
  { rewrite (Qn_S a b (S n)), Qp_S. field. lra. }
  assert (E2 : 1 + - ee a b (S n) * x / (P (S n) / P n) = P (S (S n)) / P (S n)).
  { rewrite (Pn_S a b (S n)), Pp_S. field. lra. }
  rewrite E1, E2. rewrite !lift_id; [|apply P_ratio|apply Q_ratio]. split; auto. field. lra.
Qed.
Lemma even_2 n : Nat.even (2 * n) = true. Proof. rewrite Nat.even_mul. reflexivity. Qed.
Lemma ee_odd n : ee a b (S (2 * n)) = - (INR (S n) * (b - INR (S n)) / ((a - 1 + INR (S n) * 2) * (a + INR (S n) * 2))).
Proof.
  unfold ee, qq, gam. rewrite even_S, even_2. cbn [negb]. rewrite !S_INR, mult_INR. cbn [INR]. pose proof (pos_INR n). field. lra.
Qed.
Lemma ee_even n : ee a b (S (S (2 * n))) = (a + INR (S n)) * (a + b + INR (S n)) / ((a + INR (S n) * 2) * (a + 1 + INR (S n) * 2)).
Proof.
  unfold ee, qq, gam. rewrite !even_S, even_2. cbn [negb]. rewrite !S_INR, mult_INR. cbn [INR]. pose proof (pos_INR n). field. lra.
Qed.
Definition meets n : Prop := Rabs (V (S (S (S (2 * n)))) / V (S (S (2 * n))) - 1) <= PREC_ACC.
(** the loop from the state after [n] rounds *)
Lemma lentz_run fuel n : exists k, (k <= fuel)%nat /\
  fst (lentz fuel (INR (S n)) a b x (P (S (2 * n)) / P (2 * n)) (Q (2 * n) / Q (S (2 * n))) (V (S (2 * n)))) = V (S (2 * (n + k))) /\
  (snd (lentz fuel (INR (S n)) a b x (P (S (2 * n)) / P (2 * n)) (Q (2 * n) / Q (S (2 * n))) (V (S (2 * n)))) = true ->
     exists j, (n <= j < n + fuel)%nat /\ (n + k = S j)%nat /\ meets j) /\
  (snd (lentz fuel (INR (S n)) a b x (P (S (2 * n)) / P (2 * n)) (Q (2 * n) / Q (S (2 * n))) (V (S (2 * n)))) = false ->
     forall j, (n <= j < n + fuel)%nat -> ~ meets j).
Proof.
  revert n. induction fuel as [|fuel IH]; intros n.
  - exists O. cbn [lentz fst snd]. replace (n + 0)%nat with n by lia. repeat split; auto; [discriminate|]. intros _ j Hj. lia.
  - cbn [lentz].
    set (n2 := (2 * n)%nat).
    assert (A1 : INR (S n) * (b - INR (S n)) * x / ((a - 1 + INR (S n) * 2) * (a + INR (S n) * 2)) = - ee a b (S n2) * x).
    { unfold n2. rewrite ee_odd. pose proof (pos_INR n). rewrite S_INR. field. lra. }
    assert (A2 : - (a + INR (S n)) * (a + b + INR (S n)) * x / ((a + INR (S n) * 2) * (a + 1 + INR (S n) * 2)) = - ee a b (S (S n2)) * x).
    { unfold n2. rewrite ee_even. pose proof (pos_INR n). rewrite S_INR. field. lra. }
    rewrite A1, A2.
    destruct (half n2 _ eq_refl) as [-> ->]. destruct (half (S n2) _ eq_refl) as [-> ->].
    assert (PQ : forall k, 0 < P k /\ 0 < Q k) by (intros k; split; [apply P_pos|apply Q_pos]; auto; lra).
    destruct (PQ n2) as [p0 q0]. destruct (PQ (S n2)) as [p1 q1]. destruct (PQ (S (S n2))) as [p2 q2]. destruct (PQ (S (S (S n2)))) as [p3 q3].
    assert (E1 : V (S n2) * (Q (S n2) / Q (S (S n2))) * (P (S (S n2)) / P (S n2)) = V (S (S n2))) by (unfold Vn; field; lra).
    assert (E2 : Q (S (S n2)) / Q (S (S (S n2))) * (P (S (S (S n2))) / P (S (S n2))) = V (S (S (S n2))) / V (S (S n2)))
      by (unfold Vn; field; lra).
    rewrite E1, E2.
    assert (E3 : V (S (S n2)) * (V (S (S (S n2))) / V (S (S n2))) = V (S (S (S n2)))) by (unfold Vn; field; lra).
    rewrite E3.
    assert (N2 : S (S n2) = (2 * S n)%nat) by (unfold n2; lia).
    destruct (Rle_dec _ PREC_ACC) as [T|T].
    + exists 1%nat. cbn [fst snd]. replace (S (2 * (n + 1)))%nat with (S (S (S n2))) by (unfold n2; lia).
      split; [lia|]. split; [reflexivity|]. split; [|discriminate]. intros _. exists n. repeat split; try lia. exact T.
    + replace (INR (S n) + 1) with (INR (S (S n))) by (rewrite !S_INR; ring).
      rewrite N2. destruct (IH (S n)) as (k & Hk & F & S1 & S0).
      exists (S k). split; [lia|]. replace (n + S k)%nat with (S n + k)%nat by lia. split; [exact F|]. split.
      * intros St. destruct (S1 St) as (j & Hj & Hjk & M). exists j. repeat split; auto; lia.
      * intros St j Hj. destruct (Nat.eq_dec j n) as [->|]; [exact T|]. apply (S0 St). lia.
Qed.
Lemma cf_run : exists k, (k <= 140)%nat /\ fst (beta_cf a b x) = V (S (2 * k)) /\
  (snd (beta_cf a b x) = true -> exists j, (j < 140)%nat /\ k = S j /\ meets j) /\
  (snd (beta_cf a b x) = false -> forall j, (j < 140)%nat -> ~ meets j).
Proof.
  unfold beta_cf.
  assert (E : 1 - (a + b) * x / (a + 1) = Q 1 / Q 0).
  { unfold Qn. cbn. unfold ee, qq, gam. cbn. field. lra. }
  rewrite E. rewrite lift_id by apply Q_ratio.
  pose proof (Q_pos a b Ha Hb 0 x ltac:(lra)) as Q0. pose proof (Q_pos a b Ha Hb 1 x ltac:(lra)) as Q1.
  replace (1 / (Q 1 / Q 0)) with (Q 0 / Q 1) by (field; lra).
  destruct (lentz_run 140 0) as (k & Hk & F & S1 & S0).
  replace (P (S (2 * 0)) / P (2 * 0)) with 1 in * by (unfold Pn; cbn; field).
  replace (V (S (2 * 0))) with (Q 0 / Q 1) in * by (unfold Vn, Pn, Qn; cbn; field; unfold Qn in Q1; cbn in Q1; lra).
  change (INR 1) with 1 in *. change (2 * 0)%nat with O in *. change (0 + k)%nat with k in *.
  exists k. repeat split; auto.
  - intros St. destruct (S1 St) as (j & Hj & E' & M). exists j. repeat split; auto; lia.
  - intros St j Hj. apply (S0 St). lia.
Qed.
End Run.
