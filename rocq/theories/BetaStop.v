(* The loop leaves by its test: for Student's t always, for F whenever the degrees of freedom that matter are even. *)
From Coq Require Import QArith Qreals Reals Lra Lia Arith ZArith List Bool.
From Coquelicot Require Import Coquelicot.
From Verif Require Import GamModel GamSpec GamInt GamInc BetaSpec BetaInt BetaFrac BetaErr BetaModel BetaLentz.
Import ListNotations.
Local Open Scope R_scope.

Section Gen.
Variables a b x : R.
Hypothesis Ha : 0 < a.
Hypothesis Hb : 0 < b.
Hypothesis Hx : 0 < x <= top a b.
Notation P n := (Pn a b n x).
Notation Q n := (Qn a b n x).
Notation V n := (Vn a b n x).
Lemma Qpos n : 0 < Q n. Proof. apply Q_pos; auto; lra. Qed.
Lemma dV_step n : V (S (S n)) - V (S n) = (V (S n) - V n) * (Q (S n) / Q (S (S n)) - 1).
Proof.
  pose proof (Qpos n) as Q0. pose proof (Qpos (S n)) as Q1. pose proof (Qpos (S (S n))) as Q2.
  rewrite !V_step by auto. replace (pw a b (S (S n))) with (pw a b (S n) * ee a b (S n)) by reflexivity.
  change (x ^ S (S n)) with (x * x ^ S n).
  assert (E : ee a b (S n) * x * Q n = Q (S n) - Q (S (S n))) by (rewrite (Qn_S a b (S n)), Qp_S; ring).
  replace (pw a b (S n) * ee a b (S n) * (x * x ^ S n) / (Q (S (S n)) * Q (S n)))
    with (pw a b (S n) * x ^ S n / (Q (S (S n)) * Q (S n) * Q n) * (ee a b (S n) * x * Q n)) by (field; lra).
  rewrite E. field. lra.
Qed.
Lemma conv_lin n : fst (conv a b (-1) 0 n x) = P n - Q n /\ snd (conv a b (-1) 0 n x) = Pp a b n x - Qp a b n x.
Proof.
  unfold Pn, Qn, Pp, Qp. induction n as [|n [I1 I2]]; [cbn; lra|]. rewrite !conv_S. cbn [fst snd]. rewrite I1, I2. split; ring.
Qed.
Lemma V_ge1 n : 1 <= V n.
Proof.
  assert (E1 : 0 < ee a b 0) by (unfold ee, qq, gam; cbn; repeat (apply Rdiv_lt_0_compat || apply Rmult_lt_0_compat); lra).
  assert (K : 0 <= P n - Q n).
  { destruct n as [|[|n]]; [unfold Pn, Qn; cbn; lra| |].
    { unfold Pn, Qn. cbn. assert (0 < ee a b 0 * x) by (apply Rmult_lt_0_compat; lra). lra. }
    assert (G : good a b (S (S n)) (conv a b (-1) 0 (S (S n)) x)).
    { induction n as [|n I]; [|apply good_step; auto; lra].
      assert (F1 : fst (conv a b (-1) 0 2 x) = ee a b 0 * x) by (cbn; ring).
      assert (F2 : snd (conv a b (-1) 0 2 x) = ee a b 0 * x) by (cbn; ring).
      unfold good. rewrite F1, F2. assert (0 < ee a b 0 * x) by (apply Rmult_lt_0_compat; lra).
      assert (gam a b 2 <= 1). { unfold gam. cbn. apply Rmult_le_reg_r with (a + (1 + 1)); [lra|].
        unfold Rdiv at 1. rewrite Rmult_assoc, Rinv_l by lra. lra. }
      assert (/ (a + b + 2) <= 1) by (rewrite <- Rinv_1; apply Rinv_le_contravar; lra).
      repeat split; intros; auto; try lra.
      - rewrite <- (Rmult_1_l (ee a b 0 * x)) at 2. apply Rmult_le_compat_r; lra.
      - rewrite <- (Rmult_1_l (ee a b 0 * x)) at 2. apply Rmult_le_compat_r; lra. }
    destruct G as (G & _). rewrite (proj1 (conv_lin (S (S n)))) in G. lra. }
  unfold Vn. pose proof (Qpos n). apply Rmult_le_reg_r with (Q n); auto. unfold Rdiv. rewrite Rmult_assoc, Rinv_l by lra. lra.
Qed.
Lemma meets_of n : Rabs (V (S (S (S (2 * n)))) - V (S (S (2 * n)))) <= PREC_ACC * V (S (S (2 * n))) -> meets a b x n.
Proof.
  intros H. unfold meets. pose proof (V_ge1 (S (S (2 * n)))) as G. set (v := V (S (S (2 * n)))) in *. set (w := V (S (S (S (2 * n))))) in *.
  replace (w / v - 1) with ((w - v) * / v) by (field; lra). rewrite Rabs_mult, (Rabs_pos_eq (/ v)) by (left; apply Rinv_0_lt_compat; lra).
  apply Rmult_le_reg_r with v; [lra|]. rewrite Rmult_assoc, Rinv_l by lra. lra.
Qed.
Lemma settle n : a + b + 2 <= huge -> (n < 140)%nat -> meets a b x n -> snd (beta_cf a b x) = true.
Proof.
  intros Hh Hn M. destruct (cf_run a b x Ha Hb Hx Hh) as (k & _ & _ & _ & S0).
  destruct (snd (beta_cf a b x)); auto. exfalso. apply (S0 eq_refl n Hn M).
Qed.
(** the fraction breaks off when [b] is a whole number *)
Lemma settle_whole k : a + b + 2 <= huge -> (1 <= k <= 140)%nat -> b = INR k -> snd (beta_cf a b x) = true.
Proof.
  intros Hh Hk E. apply (settle (k - 1)); auto; [lia|]. apply meets_of.
  assert (Z : ee a b (S (2 * (k - 1))) = 0).
  { rewrite ee_odd by auto. replace (S (k - 1)) with k by lia. rewrite E. field. assert (1 <= INR k) by (apply (le_INR 1); lia). lra. }
  rewrite V_step by auto.
  replace (pw a b (S (S (S (2 * (k - 1)))))) with 0.
  - unfold Rdiv. rewrite !Rmult_0_l, Rabs_R0. apply Rmult_le_pos; [pose proof eps_bounds; lra|].
    pose proof (V_ge1 (S (S (2 * (k - 1))))). lra.
  - cbn [pw]. rewrite Z. ring.
Qed.
End Gen.

(** ** b = 1/2: a certificate that holds for every [a] at once *)
Definition tab : list (Q * Q * Q) :=
  [ (1657 # 1000, 625 # 1000, 236 # 1000); (2436 # 1000, 1130 # 1000, 255 # 1000); (3211 # 1000, 1691 # 1000, 273
    # 1000); (3745 # 1000, 2255 # 1000, 292 # 1000); (4094 # 1000, 2906 # 1000, 320 # 1000); (4371 # 1000, 3629 #
    1000, 350 # 1000); (4612 # 1000, 4388 # 1000, 378 # 1000); (4832 # 1000, 5168 # 1000, 403 # 1000); (5038 #
    1000, 5962 # 1000, 425 # 1000); (5232 # 1000, 6768 # 1000, 445 # 1000); (5417 # 1000, 7583 # 1000, 462 #
    1000); (5594 # 1000, 8406 # 1000, 478 # 1000); (5763 # 1000, 9237 # 1000, 493 # 1000); (5926 # 1000, 10074 #
    1000, 506 # 1000); (6084 # 1000, 10916 # 1000, 518 # 1000); (6237 # 1000, 11763 # 1000, 529 # 1000); (6385 #
    1000, 12615 # 1000, 540 # 1000); (6529 # 1000, 13471 # 1000, 550 # 1000); (6670 # 1000, 14330 # 1000, 559 #
    1000); (6807 # 1000, 15193 # 1000, 567 # 1000); (6940 # 1000, 16060 # 1000, 575 # 1000); (7070 # 1000, 16930 #
    1000, 583 # 1000); (7198 # 1000, 17802 # 1000, 590 # 1000); (7323 # 1000, 18677 # 1000, 597 # 1000); (7445 #
    1000, 19555 # 1000, 603 # 1000); (7565 # 1000, 20435 # 1000, 609 # 1000); (7683 # 1000, 21317 # 1000, 615 #
    1000); (7798 # 1000, 22202 # 1000, 621 # 1000); (7912 # 1000, 23088 # 1000, 626 # 1000); (8024 # 1000, 23976 #
    1000, 631 # 1000); (8134 # 1000, 24866 # 1000, 636 # 1000); (8242 # 1000, 25758 # 1000, 641 # 1000); (8348 #
    1000, 26652 # 1000, 645 # 1000); (8453 # 1000, 27547 # 1000, 649 # 1000); (8556 # 1000, 28444 # 1000, 654 #
    1000); (8658 # 1000, 29342 # 1000, 658 # 1000); (8759 # 1000, 30241 # 1000, 661 # 1000); (8858 # 1000, 31142 #
    1000, 665 # 1000); (8956 # 1000, 32044 # 1000, 669 # 1000); (9053 # 1000, 32947 # 1000, 672 # 1000); (9148 #
    1000, 33852 # 1000, 676 # 1000); (9242 # 1000, 34758 # 1000, 679 # 1000); (9335 # 1000, 35665 # 1000, 682 #
    1000); (9427 # 1000, 36573 # 1000, 685 # 1000); (9518 # 1000, 37482 # 1000, 688 # 1000); (9609 # 1000, 38391 #
    1000, 691 # 1000); (9698 # 1000, 39302 # 1000, 694 # 1000); (9786 # 1000, 40214 # 1000, 696 # 1000); (9874 #
    1000, 41126 # 1000, 699 # 1000); (9961 # 1000, 42039 # 1000, 702 # 1000); (10047 # 1000, 42953 # 1000, 704 #
    1000); (10132 # 1000, 43868 # 1000, 707 # 1000); (10216 # 1000, 44784 # 1000, 709 # 1000); (10299 # 1000,
    45701 # 1000, 711 # 1000); (10381 # 1000, 46619 # 1000, 714 # 1000); (10463 # 1000, 47537 # 1000, 716 # 1000);
    (10544 # 1000, 48456 # 1000, 718 # 1000); (10624 # 1000, 49376 # 1000, 720 # 1000); (10704 # 1000, 50296 #
    1000, 722 # 1000); (10783 # 1000, 51217 # 1000, 724 # 1000); (10861 # 1000, 52139 # 1000, 726 # 1000); (10939
    # 1000, 53061 # 1000, 728 # 1000) ]%Q.
Definition chk1 (m s s1 A r : Q) : bool :=
  forallb (fun p => Qle_bool (fst p) (snd p))
   [((m + 1) * (m + (1 # 2)), A * (m + s)); ((1 # 2), s); ((1 # 2), s1); (0, A); (0, r); (s1, m + 2);
    (A, 2 * m + (9 # 2)); (A + (1 # 2), 5 * m + 5); (s1, m + 3 - A);
    ((m + 1) * (m + (3 # 2)) + (2 * m + (5 # 2)), (5 * m + 5 - A) + (2 * m + (9 # 2) - A) * (m + 2 - s1));
    ((m + 1) * (m + (3 # 2)), (5 * m + 5 - A) * (m + 2 - s1));
    (A, r * (m + 1 + s1)); (A * (m + 3 - s1), r * (m + 1 + s1) * (2 * m + (9 # 2) - A));
    (A * (m + 2 - s1), r * (m + 1 + s1) * (5 * m + 5 - A))]%Q.
Fixpoint chk (m s : Q) (l : list (Q * Q * Q)) : bool :=
  match l with
  | [] => true
  | (s1, A, r) :: l' => chk1 m s s1 A r && chk (m + 1) s1 l'
  end%Q.
Definition prodq (l : list (Q * Q * Q)) : Q := fold_right (fun t p => Qred (snd t * p)) 1%Q l.
Lemma tab_ok : chk 0 (4 # 5) tab = true.
Proof. vm_compute. reflexivity. Qed.
Lemma tab_prod : Qle_bool (prodq tab) (111 # 100000000000000000) = true.
Proof. vm_compute. reflexivity. Qed.
Lemma tab_len : length tab = 62%nat. Proof. reflexivity. Qed.

Definition step_ok (m s s1 A r : R) : Prop :=
  (m + 1) * (m + 1 / 2) <= A * (m + s) /\ 1 / 2 <= s /\ 1 / 2 <= s1 /\ 0 <= A /\ 0 <= r /\ s1 <= m + 2 /\
  A <= 2 * m + 9 / 2 /\ A + 1 / 2 <= 5 * m + 5 /\ s1 <= m + 3 - A /\
  (m + 1) * (m + 3 / 2) + (2 * m + 5 / 2) <= (5 * m + 5 - A) + (2 * m + 9 / 2 - A) * (m + 2 - s1) /\
  (m + 1) * (m + 3 / 2) <= (5 * m + 5 - A) * (m + 2 - s1) /\
  A <= r * (m + 1 + s1) /\ A * (m + 3 - s1) <= r * (m + 1 + s1) * (2 * m + 9 / 2 - A) /\
  A * (m + 2 - s1) <= r * (m + 1 + s1) * (5 * m + 5 - A).
Lemma chk1_ok m s s1 A r : chk1 m s s1 A r = true -> step_ok (Q2R m) (Q2R s) (Q2R s1) (Q2R A) (Q2R r).
Proof.
  unfold chk1. rewrite forallb_forall. intros H.
  assert (K : forall u v, In (u, v) [((m + 1) * (m + (1 # 2)), A * (m + s)); ((1 # 2), s); ((1 # 2), s1); (0, A); (0, r); (s1, m + 2);
    (A, 2 * m + (9 # 2)); (A + (1 # 2), 5 * m + 5); (s1, m + 3 - A);
    ((m + 1) * (m + (3 # 2)) + (2 * m + (5 # 2)), (5 * m + 5 - A) + (2 * m + (9 # 2) - A) * (m + 2 - s1));
    ((m + 1) * (m + (3 # 2)), (5 * m + 5 - A) * (m + 2 - s1));
    (A, r * (m + 1 + s1)); (A * (m + 3 - s1), r * (m + 1 + s1) * (2 * m + (9 # 2) - A));
    (A * (m + 2 - s1), r * (m + 1 + s1) * (5 * m + 5 - A))]%Q -> Q2R u <= Q2R v).
  { intros u v I. apply Qle_Rle. apply Qle_bool_iff. apply (H (u, v) I). }
  clear H.
  assert (E0 : Q2R 0 = 0) by (unfold Q2R; cbn; lra). assert (E1 : Q2R 1 = 1) by (unfold Q2R; cbn; lra).
  assert (E2 : Q2R 2 = 2) by (unfold Q2R; cbn; lra). assert (E3 : Q2R 3 = 3) by (unfold Q2R; cbn; lra).
  assert (E5 : Q2R 5 = 5) by (unfold Q2R; cbn; lra). assert (E12 : Q2R (1 # 2) = 1 / 2) by (unfold Q2R; cbn; lra).
  assert (E92 : Q2R (9 # 2) = 9 / 2) by (unfold Q2R; cbn; lra). assert (E32 : Q2R (3 # 2) = 3 / 2) by (unfold Q2R; cbn; lra).
  assert (E52 : Q2R (5 # 2) = 5 / 2) by (unfold Q2R; cbn; lra).
  repeat match goal with
  | K : forall u v, In (u, v) ((?p, ?q) :: ?l) -> _ |- _ =>
      let X := fresh "X" in pose proof (K p q (or_introl eq_refl)) as X;
      let K' := fresh "K" in assert (K' : forall u v, In (u, v) l -> Q2R u <= Q2R v) by (intros u v I; apply K; right; exact I); clear K;
      repeat (rewrite Q2R_minus in X || rewrite Q2R_mult in X || rewrite Q2R_plus in X);
      rewrite ?E0, ?E1, ?E2, ?E3, ?E5, ?E12, ?E92, ?E32, ?E52 in X
  end.
  unfold step_ok. repeat split; assumption.
Qed.

Section Direct.
Variables a x : R.
Hypothesis Ha : 0 < a.
Notation b := (1 / 2).
Hypothesis Hx : 0 < x <= top a b.
Notation Q n := (Qn a b n x).
Notation V n := (Vn a b n x).
Let D n := V (S (2 * n)) - V (2 * n).
Let low n s := (INR n + s) / (a + 2 * INR n + 1) * Q (2 * n) <= Q (S (2 * n)).
Lemma Hb2 : 0 < b. Proof. lra. Qed.
Lemma eeh_pos n : 0 <= ee a b n.
Proof.
  unfold ee, qq, gam. pose proof (pos_INR n). destruct (Nat.even n) eqn:E.
  - repeat (apply Rdiv_le_0_compat || apply Rmult_le_pos); lra.
  - assert (1 <= INR n) by (destruct n; [discriminate|rewrite S_INR; pose proof (pos_INR n); lra]).
    repeat (apply Rdiv_le_0_compat || apply Rmult_le_pos); lra.
Qed.
Lemma pwh_pos n : 0 <= pw a b n.
Proof. induction n as [|n I]; cbn; [lra|]. apply Rmult_le_pos; auto. apply eeh_pos. Qed.
Lemma Vh_up n : V n <= V (S n).
Proof.
  assert (0 <= V (S n) - V n); [|lra]. rewrite (V_step a b Ha Hb2) by auto.
  apply Rdiv_le_0_compat; [apply Rmult_le_pos; [apply pwh_pos|apply pow_le; lra]|].
  apply Rmult_lt_0_compat; apply Qpos; auto; lra.
Qed.
Lemma Vh_mono n k : V n <= V (n + k).
Proof. induction k as [|k I]; [rewrite Nat.add_0_r; lra|]. rewrite Nat.add_succ_r. pose proof (Vh_up (n + k)). lra. Qed.
Lemma half_step n s s1 A r : step_ok (INR n) s s1 A r -> low n s -> low (S n) s1 /\ D (S n) <= D n * r.
Proof.
  intros (C1 & C2 & C3 & C4 & C5 & C6 & C7 & C8 & C9 & C10 & C11 & C12 & C13 & C14) L.
  unfold low, D in *. replace (2 * S n)%nat with (S (S (2 * n))) by lia.
  pose proof (pos_INR n) as Hm. set (m := INR n) in *. set (k := (2 * n)%nat) in *.
  pose proof (Qpos a b x Ha Hb2 Hx k) as P0. pose proof (Qpos a b x Ha Hb2 Hx (S k)) as P1.
  pose proof (Qpos a b x Ha Hb2 Hx (S (S k))) as P2. pose proof (Qpos a b x Ha Hb2 Hx (S (S (S k)))) as P3.
  set (q0 := Q k) in *. set (q1 := Q (S k)) in *.
  assert (T : x <= (a + 1) / (a + 5 / 2)) by (destruct Hx as [_ T]; unfold top in T; replace (a + 1 / 2 + 2) with (a + 5 / 2) in T by lra; exact T).
  assert (E1 : ee a b (S k) = (m + 1) * (m + 1 / 2) / ((a + 2 * m + 1) * (a + 2 * m + 2))).
  { unfold k. rewrite (ee_odd a b Ha), S_INR. fold m. field. lra. }
  assert (E2 : ee a b (S (S k)) = (a + m + 1) * (a + m + 3 / 2) / ((a + 2 * m + 2) * (a + 2 * m + 3))).
  { unfold k. rewrite (ee_even a b Ha), S_INR. fold m. field. lra. }
  assert (Q2 : Q (S (S k)) = q1 - ee a b (S k) * x * q0) by (rewrite Qn_S, Qp_S; reflexivity).
  assert (Q3 : Q (S (S (S k))) = Q (S (S k)) - ee a b (S (S k)) * x * q1) by (rewrite Qn_S, Qp_S; reflexivity).
  set (q2 := Q (S (S k))) in *. set (q3 := Q (S (S (S k)))) in *.
  set (N := a * a + (2 * m + 9 / 2 - A) * a + (5 * m + 5 - A)).
  assert (HN : 0 < N). { unfold N. assert (0 <= (2 * m + 9 / 2 - A) * a) by (apply Rmult_le_pos; lra). assert (0 < a * a) by (apply Rmult_lt_0_compat; lra). lra. }
  set (M := (a + 5 / 2) * (a + 2 * m + 2)). assert (HM : 0 < M) by (apply Rmult_lt_0_compat; lra).
  assert (L' : (m + s) * q0 <= (a + 2 * m + 1) * q1).
  { apply Rmult_le_reg_l with (/ (a + 2 * m + 1)); [apply Rinv_0_lt_compat; lra|].
    replace (/ (a + 2 * m + 1) * ((a + 2 * m + 1) * q1)) with q1 by (field; lra). unfold Rdiv in L. lra. }
  assert (I1 : ee a b (S k) * x * q0 * M <= A * (a + 1) * q1).
  { rewrite E1. apply Rle_trans with ((m + 1) * (m + 1 / 2) / ((a + 2 * m + 1) * (a + 2 * m + 2)) * ((a + 1) / (a + 5 / 2)) * q0 * M).
    - apply Rmult_le_compat_r; [lra|]. apply Rmult_le_compat_r; [lra|]. apply Rmult_le_compat_l; [|lra].
      apply Rdiv_le_0_compat; [apply Rmult_le_pos|apply Rmult_lt_0_compat]; lra.
    - unfold M. replace ((m + 1) * (m + 1 / 2) / ((a + 2 * m + 1) * (a + 2 * m + 2)) * ((a + 1) / (a + 5 / 2)) * q0 * ((a + 5 / 2) * (a + 2 * m + 2)))
        with (/ (a + 2 * m + 1) * ((a + 1) * ((m + 1) * (m + 1 / 2) * q0))) by (field; lra).
      apply Rmult_le_reg_l with (a + 2 * m + 1); [lra|]. rewrite <- Rmult_assoc, Rinv_r, Rmult_1_l by lra.
      apply Rle_trans with ((a + 1) * (A * (m + s) * q0)).
      + apply Rmult_le_compat_l; [lra|]. apply Rmult_le_compat_r; lra.
      + apply Rle_trans with ((a + 1) * A * ((a + 2 * m + 1) * q1)); [|lra].
        replace ((a + 1) * (A * (m + s) * q0)) with ((a + 1) * A * ((m + s) * q0)) by ring.
        apply Rmult_le_compat_l; auto. apply Rmult_le_pos; lra. }
  assert (MN : M - A * (a + 1) = N) by (unfold M, N; field).
  assert (I2 : N * q1 <= M * q2) by (rewrite <- MN, Q2; lra).
  assert (I3 : ee a b (S (S k)) * x * q1 * (a + 2 * m + 3) <= (a + m + 2 - s1) * q2).
  { rewrite E2. apply Rmult_le_reg_r with N; auto.
    apply Rle_trans with ((a + m + 1) * (a + m + 3 / 2) / ((a + 2 * m + 2) * (a + 2 * m + 3)) * ((a + 1) / (a + 5 / 2)) * (a + 2 * m + 3) * (N * q1)).
    - replace ((a + m + 1) * (a + m + 3 / 2) / ((a + 2 * m + 2) * (a + 2 * m + 3)) * x * q1 * (a + 2 * m + 3) * N)
        with ((a + m + 1) * (a + m + 3 / 2) / ((a + 2 * m + 2) * (a + 2 * m + 3)) * x * (a + 2 * m + 3) * (N * q1)) by ring.
      apply Rmult_le_compat_r; [apply Rmult_le_pos; lra|]. apply Rmult_le_compat_r; [lra|]. apply Rmult_le_compat_l; [|lra].
      apply Rdiv_le_0_compat; [apply Rmult_le_pos|apply Rmult_lt_0_compat]; lra.
    - apply Rle_trans with ((a + m + 1) * (a + m + 3 / 2) / ((a + 2 * m + 2) * (a + 2 * m + 3)) * ((a + 1) / (a + 5 / 2)) * (a + 2 * m + 3) * (M * q2)).
      + apply Rmult_le_compat_l; auto. apply Rmult_le_pos; [|lra]. apply Rmult_le_pos; [|apply Rdiv_le_0_compat; lra].
        apply Rdiv_le_0_compat; [apply Rmult_le_pos|apply Rmult_lt_0_compat]; lra.
      + unfold M. replace ((a + m + 1) * (a + m + 3 / 2) / ((a + 2 * m + 2) * (a + 2 * m + 3)) * ((a + 1) / (a + 5 / 2)) * (a + 2 * m + 3) * ((a + 5 / 2) * (a + 2 * m + 2) * q2))
          with ((a + m + 1) * (a + m + 3 / 2) * (a + 1) * q2) by (field; lra).
        replace ((a + m + 2 - s1) * q2 * N) with ((a + m + 2 - s1) * N * q2) by ring. apply Rmult_le_compat_r; [lra|].
        assert (0 <= a * a * (m + 3 - A - s1)) by (apply Rmult_le_pos; [apply Rmult_le_pos|]; lra).
        assert (0 <= a * ((5 * m + 5 - A) + (2 * m + 9 / 2 - A) * (m + 2 - s1) - ((m + 1) * (m + 3 / 2) + (2 * m + 5 / 2)))) by (apply Rmult_le_pos; lra).
        unfold N. lra. }
  assert (Hlow : (m + 1 + s1) * q2 <= (a + 2 * m + 3) * q3) by (rewrite Q3; lra).
  split.
  - rewrite S_INR. fold m. apply Rmult_le_reg_l with (a + 2 * m + 3); [lra|].
    replace ((a + 2 * m + 3) * ((m + 1 + s1) / (a + 2 * (m + 1) + 1) * q2)) with ((m + 1 + s1) * q2) by (field; lra). exact Hlow.
  - rewrite (dV_step a b x Ha Hb2 Hx (S k)), (dV_step a b x Ha Hb2 Hx k). fold q1 q2 q3. rewrite Rmult_assoc. apply Rmult_le_compat_l; [pose proof (Vh_up k); lra|].
    assert (G0 : 0 <= q1 - q2). { rewrite Q2. assert (0 <= ee a b (S k) * x * q0); [|lra]. apply Rmult_le_pos; [|lra]. apply Rmult_le_pos; [apply eeh_pos|lra]. }
    assert (G1 : 0 <= q2 - q3). { rewrite Q3. assert (0 <= ee a b (S (S k)) * x * q1); [|lra]. apply Rmult_le_pos; [|lra]. apply Rmult_le_pos; [apply eeh_pos|lra]. }
    assert (F1 : q1 / q2 - 1 <= A * (a + 1) / N).
    { apply Rmult_le_reg_r with (q2 * N); [apply Rmult_lt_0_compat; lra|].
      replace ((q1 / q2 - 1) * (q2 * N)) with (N * (q1 - q2)) by (field; lra). replace (A * (a + 1) / N * (q2 * N)) with (A * (a + 1) * q2) by (field; lra).
      replace (A * (a + 1)) with (M - N) by lra. lra. }
    assert (F2 : q2 / q3 - 1 <= (a + m + 2 - s1) / (m + 1 + s1)).
    { apply Rmult_le_reg_r with (q3 * (m + 1 + s1)); [apply Rmult_lt_0_compat; lra|].
      replace ((q2 / q3 - 1) * (q3 * (m + 1 + s1))) with ((m + 1 + s1) * (q2 - q3)) by (field; lra).
      replace ((a + m + 2 - s1) / (m + 1 + s1) * (q3 * (m + 1 + s1))) with ((a + m + 2 - s1) * q3) by (field; lra). lra. }
    assert (F0 : 0 <= q1 / q2 - 1) by (replace (q1 / q2 - 1) with ((q1 - q2) / q2) by (field; lra); apply Rdiv_le_0_compat; lra).
    assert (F0' : 0 <= q2 / q3 - 1) by (replace (q2 / q3 - 1) with ((q2 - q3) / q3) by (field; lra); apply Rdiv_le_0_compat; lra).
    apply Rle_trans with (A * (a + 1) / N * ((a + m + 2 - s1) / (m + 1 + s1))); [apply Rmult_le_compat; auto|].
    apply Rmult_le_reg_r with (N * (m + 1 + s1)); [apply Rmult_lt_0_compat; lra|].
    replace (A * (a + 1) / N * ((a + m + 2 - s1) / (m + 1 + s1)) * (N * (m + 1 + s1))) with (A * (a + 1) * (a + m + 2 - s1)) by (field; lra).
    assert (0 <= a * a * (r * (m + 1 + s1) - A)) by (apply Rmult_le_pos; [apply Rmult_le_pos|]; lra).
    assert (0 <= a * (r * (m + 1 + s1) * (2 * m + 9 / 2 - A) - A * (m + 3 - s1))) by (apply Rmult_le_pos; lra).
    unfold N. lra.
Qed.
Lemma D_pos n : 0 <= D n. Proof. unfold D. pose proof (Vh_up (2 * n)). lra. Qed.
Lemma prodq_cons t l : Q2R (prodq (t :: l)) = Q2R (snd t) * Q2R (prodq l).
Proof. unfold prodq. cbn [fold_right]. fold (prodq l). rewrite <- Q2R_mult. apply Qeq_eqR, Qred_correct. Qed.
Lemma cert_run l : forall n mq s, Q2R mq = INR n -> chk mq s l = true -> low n (Q2R s) -> D (n + length l) <= D n * Q2R (prodq l).
Proof.
  induction l as [|[[s1 A] r] l IH]; intros n mq s Hm C L.
  - cbn [length]. rewrite Nat.add_0_r. replace (Q2R (prodq [])) with 1 by (unfold prodq, Q2R; cbn; lra). lra.
  - cbn [chk] in C. apply andb_true_iff in C. destruct C as [C1 C2]. apply chk1_ok in C1. rewrite Hm in C1.
    destruct (half_step n _ _ _ _ C1 L) as [L' S1].
    cbn [length]. rewrite Nat.add_succ_r. change (S (n + length l)) with (S n + length l)%nat.
    assert (Hm' : Q2R (mq + 1) = INR (S n)) by (rewrite Q2R_plus, Hm, S_INR; unfold Q2R; cbn; lra).
    pose proof (IH (S n) (mq + 1)%Q s1 Hm' C2 L') as I. rewrite prodq_cons. cbn [snd].
    assert (Pp0 : 0 <= Q2R (prodq l)).
    { clear - C2. revert C2. generalize (mq + 1)%Q s1. induction l as [|[[s2 A2] r2] l J]; intros m' s' C; [unfold prodq, Q2R; cbn; lra|].
      cbn [chk] in C. apply andb_true_iff in C. destruct C as [C1 C2]. apply chk1_ok in C1. rewrite prodq_cons. cbn [snd].
      apply Rmult_le_pos; [unfold step_ok in C1; tauto|]. apply (J _ _ C2). }
    apply Rle_trans with (D (S n) * Q2R (prodq l)); auto. rewrite <- Rmult_assoc. apply Rmult_le_compat_r; auto.
Qed.
Theorem settle_direct : a + b + 2 <= huge -> snd (beta_cf a b x) = true.
Proof.
  intros Hh. apply (settle a b x Ha Hb2 Hx 61 Hh); [lia|]. apply (meets_of a b x Ha Hb2 Hx).
  assert (T : x <= (a + 1) / (a + 5 / 2)) by (destruct Hx as [_ T]; unfold top in T; replace (a + 1 / 2 + 2) with (a + 5 / 2) in T by lra; exact T).
  assert (L : low 0 (Q2R (4 # 5))).
  { unfold low. cbn [INR]. replace (2 * 0)%nat with 0%nat by lia. rewrite Qn_S. replace (Q 0) with 1 by reflexivity. replace (Qp a b 0 x) with 1 by reflexivity.
    replace (ee a b 0) with ((a + 1 / 2) / (a + 1)) by (unfold ee, qq, gam; cbn; field; lra).
    assert ((a + 1 / 2) / (a + 1) * x <= (a + 1 / 2) / (a + 5 / 2)).
    { apply Rle_trans with ((a + 1 / 2) / (a + 1) * ((a + 1) / (a + 5 / 2))); [apply Rmult_le_compat_l; auto; apply Rdiv_le_0_compat; lra|]. right. field. lra. }
    assert ((0 + Q2R (4 # 5)) / (a + 2 * 0 + 1) <= 2 / (a + 5 / 2)).
    { apply Rmult_le_reg_r with ((a + 1) * (a + 5 / 2)); [apply Rmult_lt_0_compat; lra|].
      replace (Q2R (4 # 5)) with (4 / 5) by (unfold Q2R; cbn; lra).
      replace ((0 + 4 / 5) / (a + 2 * 0 + 1) * ((a + 1) * (a + 5 / 2))) with (4 / 5 * (a + 5 / 2)) by (field; lra).
      replace (2 / (a + 5 / 2) * ((a + 1) * (a + 5 / 2))) with (2 * (a + 1)) by (field; lra). lra. }
    assert (2 / (a + 5 / 2) = 1 - (a + 1 / 2) / (a + 5 / 2)) by (field; lra). lra. }
  assert (Hm : Q2R 0 = INR 0) by (unfold Q2R; cbn; lra).
  pose proof (cert_run tab 0 0%Q (4 # 5) Hm tab_ok L) as R. rewrite tab_len in R. change (0 + 62)%nat with 62%nat in R.
  pose proof (D_pos 62) as D1. pose proof (D_pos 0) as D0.
  assert (PQ : Q2R (prodq tab) <= 111 / 100000000000000000).
  { pose proof tab_prod as T1. apply Qle_bool_iff, Qle_Rle in T1. replace (Q2R (111 # 100000000000000000)) with (111 / 100000000000000000) in T1 by (unfold Q2R; cbn; lra). exact T1. }
  change (V (S (S (S (2 * 61)))) - V (S (S (2 * 61)))) with (D 62). rewrite Rabs_pos_eq by exact D1.
  assert (M : V 1 <= V 124) by (apply (Vh_mono 1 123)). change (S (S (2 * 61))) with 124%nat.
  assert (D0' : D 0 <= V 124).
  { unfold D. change (S (2 * 0)) with 1%nat. change (2 * 0)%nat with 0%nat. pose proof (V_ge1 a b x Ha Hb2 Hx 0). lra. }
  pose proof eps_bounds as [e1 _]. apply Rle_trans with (1 := R).
  apply Rle_trans with (D 0 * (111 / 100000000000000000)); [apply Rmult_le_compat_l; auto|].
  rewrite (Rmult_comm PREC_ACC). apply Rmult_le_compat; auto; lra.
Qed.
End Direct.

(** ** a = 1/2, the arm Student's t takes near the middle *)
Section Symm.
Variables b x : R.
Hypothesis Hb : 0 < b.
Notation a := (1 / 2).
Hypothesis Hx : 0 < x <= top a b.
Notation Q n := (Qn a b n x).
Notation V n := (Vn a b n x).
Let D n := V (S (2 * n)) - V (2 * n).
(** what the step needs of the two last denominators *)
Let low n := INR (S n) - b >= 0 -> (ee a b (S (2 * n)) * x) * Q (2 * n) <= 28 / 100 * Q (S (2 * n)).
Lemma Ha2 : 0 < a. Proof. lra. Qed.
Lemma xs : x * (b + 5 / 2) <= 3 / 2.
Proof.
  destruct Hx as [_ T]. unfold top in T. apply Rmult_le_compat_r with (r := b + 5 / 2) in T; [|lra].
  replace ((a + 1) / (a + b + 2) * (b + 5 / 2)) with (3 / 2) in T by (field; lra). exact T.
Qed.
Lemma e_even n : 0 <= ee a b (S (S (2 * n))) * x <= 26 / 100.
Proof.
  rewrite (ee_even a b Ha2), S_INR. pose proof (pos_INR n) as Hm. set (m := INR n) in *. pose proof xs as X.
  set (d := (a + (m + 1) * 2) * (a + 1 + (m + 1) * 2)). assert (Hd : 0 < d) by (apply Rmult_lt_0_compat; lra).
  split; [apply Rmult_le_pos; [apply Rdiv_le_0_compat; [apply Rmult_le_pos|]|]; lra|].
  apply Rmult_le_reg_r with (d * (b + 5 / 2)); [apply Rmult_lt_0_compat; lra|].
  replace ((a + (m + 1)) * (a + b + (m + 1)) / d * x * (d * (b + 5 / 2))) with ((a + (m + 1)) * (a + b + (m + 1)) * (x * (b + 5 / 2))) by (field; lra).
  apply Rle_trans with ((a + (m + 1)) * (a + b + (m + 1)) * (3 / 2)).
  - apply Rmult_le_compat_l; [apply Rmult_le_pos; lra|exact X].
  - unfold d. assert (0 <= m * m) by (apply Rmult_le_pos; lra). assert (0 <= m * b) by (apply Rmult_le_pos; lra).
    assert (0 <= m * m * b) by (apply Rmult_le_pos; lra).
    destruct n as [|n']; [unfold m; cbn; lra|]. assert (1 <= m) by (unfold m; rewrite S_INR; pose proof (pos_INR n'); lra).
    assert (0 <= (m - 1) * (m - 1)) by (apply Rmult_le_pos; lra). assert (0 <= (m - 1) * m) by (apply Rmult_le_pos; lra). lra.
Qed.
Lemma e_odd n : ee a b (S (2 * n)) * x <= 16 / 100 /\ (INR (S n) - b >= 0 -> 0 <= ee a b (S (2 * n))) /\ (INR (S n) - b <= 0 -> ee a b (S (2 * n)) <= 0).
Proof.
  rewrite (ee_odd a b Ha2), S_INR. pose proof (pos_INR n) as Hm. set (m := INR n) in *. pose proof xs as X.
  set (d := (a - 1 + (m + 1) * 2) * (a + (m + 1) * 2)). assert (Hd : 0 < d) by (apply Rmult_lt_0_compat; lra).
  assert (E : - ((m + 1) * (b - (m + 1)) / d) = (m + 1) * (m + 1 - b) / d) by (field; lra). rewrite E.
  split; [|split; intros H].
  - destruct (Rle_dec (m + 1 - b) 0) as [L|L].
    + apply Rle_trans with 0; [|lra]. apply Rmult_le_reg_r with d; auto.
      replace ((m + 1) * (m + 1 - b) / d * x * d) with (- ((m + 1) * (b - (m + 1)) * x)) by (field; lra).
      assert (0 <= (m + 1) * (b - (m + 1)) * x) by (apply Rmult_le_pos; [apply Rmult_le_pos|]; lra). lra.
    + apply Rmult_le_reg_r with (d * (b + 5 / 2)); [apply Rmult_lt_0_compat; lra|].
      replace ((m + 1) * (m + 1 - b) / d * x * (d * (b + 5 / 2))) with ((m + 1) * (m + 1 - b) * (x * (b + 5 / 2))) by (field; lra).
      apply Rle_trans with ((m + 1) * (m + 1 - b) * (3 / 2)); [apply Rmult_le_compat_l; [apply Rmult_le_pos; lra|exact X]|].
      unfold d. assert (0 <= m * m) by (apply Rmult_le_pos; lra). assert (0 <= m * b) by (apply Rmult_le_pos; lra).
      assert (0 <= m * m * b) by (apply Rmult_le_pos; lra). lra.
  - apply Rdiv_le_0_compat; auto. apply Rmult_le_pos; lra.
  - apply Rmult_le_reg_r with d; auto. replace ((m + 1) * (m + 1 - b) / d * d) with (- ((m + 1) * (b - (m + 1)))) by (field; lra).
    assert (0 <= (m + 1) * (b - (m + 1))) by (apply Rmult_le_pos; lra). lra.
Qed.
Lemma symm_step n : low n -> low (S n) /\ Rabs (D (S n)) <= Rabs (D n) * (2 / 5).
Proof.
  intros L. unfold low, D in *. replace (2 * S n)%nat with (S (S (2 * n))) in * by lia.
  destruct (e_even n) as [V0 V1]. destruct (e_odd n) as (O1 & O2 & O3). destruct (e_odd (S n)) as (O1' & _).
  replace (2 * S n)%nat with (S (S (2 * n))) in O1' by lia.
  set (k := (2 * n)%nat) in *.
  pose proof (Qpos a b x Ha2 Hb Hx k) as P0. pose proof (Qpos a b x Ha2 Hb Hx (S k)) as P1.
  pose proof (Qpos a b x Ha2 Hb Hx (S (S k))) as P2. pose proof (Qpos a b x Ha2 Hb Hx (S (S (S k)))) as P3.
  set (q0 := Q k) in *. set (q1 := Q (S k)) in *.
  assert (Q2 : Q (S (S k)) = q1 - ee a b (S k) * x * q0) by (rewrite Qn_S, Qp_S; reflexivity).
  assert (Q3 : Q (S (S (S k))) = Q (S (S k)) - ee a b (S (S k)) * x * q1) by (rewrite Qn_S, Qp_S; reflexivity).
  set (q2 := Q (S (S k))) in *. set (q3 := Q (S (S (S k)))) in *.
  assert (G1 : 0 <= ee a b (S (S k)) * x * q1 <= 26 / 100 * q1) by (split; [apply Rmult_le_pos; lra|apply Rmult_le_compat_r; lra]).
  assert (W : 63 / 100 * q2 <= q3 /\ Rabs ((q1 / q2 - 1) * (q2 / q3 - 1)) <= 2 / 5).
  { rewrite Rabs_mult. rewrite (Rabs_pos_eq (q2 / q3 - 1)).
    2:{ replace (q2 / q3 - 1) with ((q2 - q3) / q3) by (field; lra). apply Rdiv_le_0_compat; lra. }
    destruct (Rle_dec (INR (S n) - b) 0) as [N|N].
    - assert (ee a b (S k) * x * q0 <= 0).
      { specialize (O3 N). assert (0 <= - ee a b (S k) * x * q0); [apply Rmult_le_pos; [apply Rmult_le_pos|]; lra|lra]. }
      split; [lra|]. replace (2 / 5) with (1 * (2 / 5)) by lra. apply Rmult_le_compat; [apply Rabs_pos| | |].
      + replace (q2 / q3 - 1) with ((q2 - q3) / q3) by (field; lra). apply Rdiv_le_0_compat; lra.
      + assert (q1 / q2 <= 1). { apply Rmult_le_reg_r with q2; auto. unfold Rdiv. rewrite Rmult_assoc, Rinv_l by lra. lra. }
        assert (0 <= q1 / q2) by (apply Rdiv_le_0_compat; lra). apply Rabs_le. lra.
      + apply Rmult_le_reg_r with q3; auto. replace ((q2 / q3 - 1) * q3) with (q2 - q3) by (field; lra). lra.
    - assert (M0 : INR (S n) - b >= 0) by lra. specialize (L M0). specialize (O2 M0).
      assert (0 <= ee a b (S k) * x * q0) by (apply Rmult_le_pos; [apply Rmult_le_pos|]; lra).
      split; [lra|]. rewrite Rabs_pos_eq.
      2:{ replace (q1 / q2 - 1) with ((q1 - q2) / q2) by (field; lra). apply Rdiv_le_0_compat; lra. }
      replace (2 / 5) with (4 / 10 * 1) by lra. apply Rmult_le_compat.
      + replace (q1 / q2 - 1) with ((q1 - q2) / q2) by (field; lra). apply Rdiv_le_0_compat; lra.
      + replace (q2 / q3 - 1) with ((q2 - q3) / q3) by (field; lra). apply Rdiv_le_0_compat; lra.
      + apply Rmult_le_reg_r with q2; auto. replace ((q1 / q2 - 1) * q2) with (q1 - q2) by (field; lra). lra.
      + apply Rmult_le_reg_r with q3; auto. replace ((q2 / q3 - 1) * q3) with (q2 - q3) by (field; lra). lra. }
  destruct W as [W1 W2]. split.
  - intros _. apply Rle_trans with (16 / 100 * q2); [apply Rmult_le_compat_r; lra|]. lra.
  - rewrite (dV_step a b x Ha2 Hb Hx (S k)), (dV_step a b x Ha2 Hb Hx k). fold q1 q2 q3. rewrite Rmult_assoc, Rabs_mult.
    apply Rmult_le_compat_l; [apply Rabs_pos|exact W2].
Qed.
Lemma q1_low : 2 / (b + 5 / 2) <= Q 1.
Proof.
  pose proof xs as X. rewrite Qn_S. replace (Q 0) with 1 by reflexivity. replace (Qp a b 0 x) with 1 by reflexivity.
  replace (ee a b 0) with ((b + 1 / 2) / (3 / 2)) by (unfold ee, qq, gam; cbn; field; lra).
  apply Rmult_le_reg_r with (b + 5 / 2); [lra|]. replace (2 / (b + 5 / 2) * (b + 5 / 2)) with 2 by (field; lra).
  replace ((1 - (b + 1 / 2) / (3 / 2) * x * 1) * (b + 5 / 2)) with (b + 5 / 2 - (b + 1 / 2) / (3 / 2) * (x * (b + 5 / 2))) by (field; lra).
  assert ((b + 1 / 2) / (3 / 2) * (x * (b + 5 / 2)) <= (b + 1 / 2) / (3 / 2) * (3 / 2)) by (apply Rmult_le_compat_l; [apply Rdiv_le_0_compat|]; lra). lra.
Qed.
Lemma low_0 : low 0.
Proof.
  unfold low. change (2 * 0)%nat with 0%nat. intros _. pose proof xs as X. pose proof q1_low as L1. replace (Q 0) with 1 by reflexivity.
  change (ee a b 1) with (ee a b (S (2 * 0))). rewrite (ee_odd a b Ha2 0). cbn [INR]. apply Rle_trans with (28 / 100 * (2 / (b + 5 / 2))); [|lra].
  apply Rmult_le_reg_r with (b + 5 / 2); [lra|]. replace (28 / 100 * (2 / (b + 5 / 2)) * (b + 5 / 2)) with (56 / 100) by (field; lra).
  match goal with |- ?l <= _ => replace l with ((1 - b) / (15 / 4) * (x * (b + 5 / 2))) by (field; lra) end.
  destruct (Rle_dec b 1) as [B|B].
  - apply Rle_trans with ((1 - b) / (15 / 4) * (3 / 2)); [apply Rmult_le_compat_l; [apply Rdiv_le_0_compat|]; lra|]. lra.
  - assert (0 <= (b - 1) / (15 / 4) * (x * (b + 5 / 2))). { apply Rmult_le_pos; [apply Rdiv_le_0_compat|apply Rmult_le_pos]; lra. } lra.
Qed.
Lemma symm_run n : low n /\ Rabs (D n) <= Rabs (D 0) * (2 / 5) ^ n.
Proof.
  induction n as [|n [I1 I2]]; [split; [apply low_0|cbn [pow]; lra]|].
  destruct (symm_step n I1) as [S1 S2]. split; auto. cbn [pow]. lra.
Qed.
Theorem settle_symm : b <= 10 ^ 40 -> snd (beta_cf a b x) = true.
Proof.
  intros Hh. apply (settle a b x Ha2 Hb Hx 139); [|lia|].
  { unfold huge. assert (0 < 10 ^ 200 - 10 ^ 40 - 10); [rewrite !pow_IZR, <- !minus_IZR; apply IZR_lt; reflexivity|lra]. }
  apply (meets_of a b x Ha2 Hb Hx). change (V (S (S (S (2 * 139)))) - V (S (S (2 * 139)))) with (D 140).
  destruct (symm_run 140) as [_ R]. pose proof (V_ge1 a b x Ha2 Hb Hx (S (S (2 * 139)))) as G. pose proof eps_bounds as [e1 _].
  pose proof q1_low as L1. pose proof (Qpos a b x Ha2 Hb Hx 1) as P1.
  assert (D0 : Rabs (D 0) <= (b + 5 / 2) / 2).
  { unfold D. change (S (2 * 0)) with 1%nat. change (2 * 0)%nat with 0%nat. rewrite (V_step a b Ha2 Hb 0 x Hx). replace (Q 0) with 1 by reflexivity.
    cbn [pw pow]. assert (E : ee a b 0 * x = 1 - Q 1) by (rewrite Qn_S; replace (Q 0) with 1 by reflexivity; replace (Qp a b 0 x) with 1 by reflexivity; ring).
    replace (1 * ee a b 0 * (x * 1) / (Q 1 * 1)) with (/ Q 1 - 1).
    2:{ replace (1 * ee a b 0 * (x * 1) / (Q 1 * 1)) with (ee a b 0 * x / Q 1) by (field; lra). rewrite E. field. lra. }
    assert (/ Q 1 <= (b + 5 / 2) / 2). { replace ((b + 5 / 2) / 2) with (/ (2 / (b + 5 / 2))) by (field; lra). apply Rinv_le_contravar; auto. apply Rdiv_lt_0_compat; lra. }
    assert (0 < / Q 1) by (apply Rinv_0_lt_compat; lra). apply Rabs_le. lra. }
  assert (T : (2 / 5) ^ 140 <= / 10 ^ 55).
  { replace (2 / 5) with (4 * / 10) by lra. rewrite Rpow_mult_distr, pow_inv.
    apply Rmult_le_reg_r with (10 ^ 140); [apply pow_lt; lra|]. rewrite Rmult_assoc, Rinv_l by (apply pow_nonzero; lra). 
    replace (10 ^ 140) with (10 ^ 55 * 10 ^ 85) by (rewrite <- pow_add; reflexivity). rewrite <- Rmult_assoc, Rinv_l by (apply pow_nonzero; lra).
    rewrite !pow_IZR, Rmult_1_r, Rmult_1_l. apply IZR_le. apply Z.leb_le. reflexivity. }
  apply Rle_trans with (1 := R). apply Rle_trans with (10 ^ 40 * / 10 ^ 55).
  - apply Rmult_le_compat; [apply Rabs_pos|apply pow_le; lra| |exact T].
    assert (10 <= 10 ^ 40) by (rewrite pow_IZR; apply IZR_le; apply Z.leb_le; reflexivity). lra.
  - replace (10 ^ 40 * / 10 ^ 55) with (/ 10 ^ 15).
    2:{ replace (10 ^ 55) with (10 ^ 40 * 10 ^ 15) by (rewrite <- pow_add; reflexivity). field. }
    assert (/ 10 ^ 15 <= 1.11e-15) by (cbn [pow]; lra).
    apply Rle_trans with (1.11e-15 * 1); [lra|]. apply Rmult_le_compat; lra.
Qed.
End Symm.
