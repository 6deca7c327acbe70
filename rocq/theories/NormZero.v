(* The first arm of erf_impl (|z| < 1/2), the Taylor polynomial of exp(-u), and the constant 2/sqrt(pi). *)
From Coq Require Import List QArith Reals Qreals Lra Lia Machin.
From Coquelicot Require Import Coquelicot.
From Verif Require Import NormModel NormPoly NormPieces.
Import ListNotations.
Local Open Scope R_scope.

(** ** exp(-u) between its Taylor polynomials *)
Fixpoint rfact (n : nat) : R := match n with O => 1 | S m => INR (S m) * rfact m end.
Lemma rfact_neq n : rfact n <> 0.
Proof.
  induction n; cbn [rfact]; [lra|]. apply Rmult_integral_contrapositive.
  split; auto. apply not_0_INR. lia.
Qed.
Fixpoint tsum (n : nat) (u : R) : R :=
  match n with O => 0 | S m => tsum m u + (- u) ^ m / rfact m end.

Lemma tsum_derive n u : is_derive (tsum (S n)) u (- tsum n u).
Proof.
  induction n as [|n IH].
  - cbn [tsum pow rfact INR]. apply (is_derive_ext (fun _ => 1)).
    + intros t. cbn. lra.
    + replace (- 0) with 0 by lra. apply (is_derive_const 1 u).
  - change (tsum (S (S n))) with (fun u => tsum (S n) u + (- u) ^ S n / rfact (S n)).
    replace (- tsum (S n) u) with (- tsum n u + - ((- u) ^ n / rfact n)) by (cbn [tsum]; lra).
    apply (is_derive_plus (tsum (S n)) (fun u => (- u) ^ S n / rfact (S n)) u); auto.
    assert (F : rfact n <> 0) by (apply rfact_neq).
    assert (F2 : INR (S n) <> 0) by (apply not_0_INR; lia).
    assert (K : rfact (S n) = INR (S n) * rfact n) by reflexivity.
    rewrite K. set (f := rfact n) in *. set (k := INR (S n)) in *.
    apply (is_derive_ext (fun u => / (k * f) * (- u) ^ S n)); [intros; apply Rmult_comm|].
    replace (- ((- u) ^ n / f)) with (/ (k * f) * (INR (S n) * (-1) * (- u) ^ pred (S n)))
      by (cbn [Init.Nat.pred]; fold k; field; auto).
    apply is_derive_scal. apply is_derive_pow. auto_derive; auto; lra.
Qed.

Lemma tsum_at0 n : tsum (S n) 0 = 1.
Proof.
  induction n as [|n IH]; [cbn; lra|].
  change (tsum (S (S n)) 0) with (tsum (S n) 0 + (- 0) ^ S n / rfact (S n)).
  rewrite IH, Ropp_0. cbn [pow]. unfold Rdiv. rewrite !Rmult_0_l. lra.
Qed.

Lemma exp_tsum n : forall u, 0 <= u -> 0 <= (-1) ^ n * (exp (- u) - tsum n u).
Proof.
  induction n as [|n IH]; intros u Hu.
  - cbn. pose proof (exp_pos (- u)). lra.
  - destruct (Req_dec u 0) as [->|Hne].
    { rewrite tsum_at0, Ropp_0, exp_0. lra. }
    set (h := fun v => (-1) ^ S n * (exp (- v) - tsum (S n) v)).
    assert (Hd : forall v, is_derive h v ((-1) ^ n * (exp (- v) - tsum n v))).
    { intros v. unfold h.
      replace ((-1) ^ n * (exp (- v) - tsum n v)) with ((-1) ^ S n * (- exp (- v) - - tsum n v))
        by (cbn [pow]; lra).
      apply is_derive_scal. apply (is_derive_minus (fun v => exp (- v)) (tsum (S n))).
      - auto_derive; auto; lra.
      - apply tsum_derive. }
    destruct (MVT_gen h 0 u (fun v => (-1) ^ n * (exp (- v) - tsum n v))) as (c & Hc & E).
    + intros x _. apply Hd.
    + intros x _. apply continuity_pt_filterlim. apply (ex_derive_continuous h x). eexists; apply Hd.
    + rewrite Rmin_left, Rmax_right in Hc by lra.
      assert (h 0 = 0) as H0.
      { unfold h. rewrite tsum_at0, Ropp_0, exp_0. lra. }
      fold (h u). replace (h u) with (h u - h 0) by lra. rewrite E.
      apply Rmult_le_pos; [apply IH; lra|lra].
Qed.

Definition tay (u : R) : R :=
  1 - u + u^2/2 - u^3/6 + u^4/24 - u^5/120 + u^6/720 - u^7/5040 + u^8/40320 - u^9/362880.

Lemma exp_tay u : 0 <= u <= 1/4 -> 0 <= exp (- u) - tay u <= 1e-12.
Proof.
  intros Hu.
  pose proof (exp_tsum 10 u ltac:(lra)) as A. pose proof (exp_tsum 11 u ltac:(lra)) as B.
  replace (tsum 10 u) with (tay u) in A.
  2:{ unfold tay. cbn [tsum rfact pow]. rewrite !INR_IZR_INZ. cbn [Z.of_nat Pos.of_succ_nat Pos.succ]. field. }
  replace (tsum 11 u) with (tay u + u^10/3628800) in B.
  2:{ unfold tay. cbn [tsum rfact pow]. rewrite !INR_IZR_INZ. cbn [Z.of_nat Pos.of_succ_nat Pos.succ]. field. }
  assert (u^10 <= (1/4)^10) by (apply pow_incr; lra).
  assert ((1/4)^10 <= 1e-6) by lra.
  replace ((-1)^10) with 1 in A by lra. replace ((-1)^11) with (-1) in B by lra.
  lra.
Qed.

(** ** pi and 2/sqrt(pi) *)
Lemma pi_bounds : 3.14159265358979323 <= PI <= 3.14159265358979325.
Proof.
  pose proof (PI_2_3_7_ineq 9) as [A B].
  unfold tg_alt, PI_2_3_7_tg, Ratan_seq in A, B.
  cbn [Nat.mul Nat.add sum_f_R0 pow] in A, B.
  rewrite !INR_IZR_INZ in A, B.
  cbn [Z.of_nat Pos.of_succ_nat Pos.succ] in A, B.
  change (INR 39) with (INR (38 + 1)) in A. rewrite plus_INR, (INR_IZR_INZ 38) in A.
  cbn [Z.of_nat Pos.of_succ_nat Pos.succ INR] in A.
  split; [clear B|clear A].
  - apply Rmult_le_reg_r with (/4); [lra|]. eapply Rle_trans; [|exact A]. lra.
  - apply Rmult_le_reg_r with (/4); [lra|]. eapply Rle_trans; [exact B|]. lra.
Qed.

Definition kappa : R := 2 / sqrt PI.

Lemma kappa_bounds : Rabs (kappa - Q2R kappa0) <= 1e-15.
Proof.
  pose proof pi_bounds as HP. pose proof PI_RGT_0 as H0.
  assert (K : 0 < kappa) by (apply Rdiv_lt_0_compat; [lra|apply sqrt_lt_R0; lra]).
  assert (K2 : kappa * kappa * PI = 4).
  { unfold kappa. rewrite <- (sqrt_sqrt PI) at 3 by lra. field.
    apply Rgt_not_eq, sqrt_lt_R0; lra. }
  replace (Q2R kappa0) with 1.128379167095512573896 by (unfold Q2R; cbn; lra).
  set (k := 1.128379167095512573896).
  assert (E : (kappa - k) * (kappa + k) * PI = 4 - k * k * PI) by (rewrite <- K2; ring).
  assert (B : -1e-16 <= 4 - k * k * PI <= 1e-16) by (unfold k; split; lra).
  assert (k = 1.128379167095512573896) by reflexivity.
  assert (P : 3 <= (kappa + k) * PI).
  { apply Rle_trans with (1 * 3); [lra|]. apply Rmult_le_compat; lra. }
  rewrite Rmult_assoc in E. set (P' := (kappa + k) * PI) in *.
  apply Rabs_le. split.
  - destruct (Rle_dec 0 (kappa - k)); [lra|].
    assert ((kappa - k) * P' <= (kappa - k) * 3) by (apply Rmult_le_compat_neg_l; lra). lra.
  - destruct (Rle_dec (kappa - k) 0); [lra|].
    assert ((kappa - k) * 3 <= (kappa - k) * P') by (apply Rmult_le_compat_l; lra). lra.
Qed.

(** ** the arm z < 1/2 *)
Definition a_den : poly := of_q ERF_AD.
Definition a_w : poly := padd (pscal 1.125 a_den) (of_q ERF_AN).
Definition a_z : poly := of_q [0; 1]%Q.
Definition a_num : poly :=
  padd (pmul a_w a_den) (pmul a_z (padd (pmul (pder a_w) a_den) (pscal (-1) (pmul a_w (pder a_den))))).
Definition tayz : list Q :=
  [1; 0; -1; 0; 1#2; 0; -1#6; 0; 1#24; 0; -1#120; 0; 1#720; 0; -1#5040; 0; 1#40320; 0; -1#362880]%Q.
Definition a_dd : poly := pmul a_den a_den.
Definition a_kt : poly := pscal kappa0 (pmul (of_q tayz) a_dd).
Definition arm_a (z : R) : R := z * Q2R 1.125 + z * polynomial z ERF_AN / polynomial z ERF_AD.

Lemma tayz_ev x : ev (of_q tayz) x = tay (x * x).
Proof. rewrite ev_of_q by reflexivity. unfold tay, evR, tayz, Q2R. cbn [Qnum Qden]. field. Qed.
Lemma az_ev x : ev a_z x = x.
Proof. unfold a_z. rewrite ev_of_q by reflexivity. unfold evR, Q2R. cbn [Qnum Qden]. field. Qed.
Lemma q2em12 : Q2R 2e-12 = 2e-12.
Proof. unfold Q2R; cbn; lra. Qed.
Lemma a_parts :
  nonneg_on 0.5 (padd a_den (pconst (-0.5))) = true /\
  nonneg_on 0.5 (padd (pscal 2e-12 a_dd) (padd a_num (pscal (-1) a_kt))) = true /\
  nonneg_on 0.5 (padd (pscal 2e-12 a_dd) (padd a_kt (pscal (-1) a_num))) = true /\
  nonneg_on 0.5 a_w = true /\ nonneg_on 0.5 (padd (pscal 0.6 a_den) (pscal (-1) (pmul a_z a_w))) = true /\
  of_q_exact ERF_AD = true /\ of_q_exact ERF_AN = true.
Proof.
  do 6 (apply conj; [vm_compute; reflexivity|]). vm_compute; reflexivity.
Qed.

Section ArmA.
  Variable z : R.
  Hypothesis Hz : 0 <= z <= 0.5.
  Let D := evR ERF_AD z.
  Let N := evR ERF_AN z.
  Let W := 1.125 * D + N.


  Lemma a_facts :
    (forall x, ev a_den x = evR ERF_AD x) /\ (forall x, ev a_w x = 1.125 * evR ERF_AD x + evR ERF_AN x) /\
    (forall x, ev a_z x = x) /\ (forall x, ev (of_q tayz) x = tay (x * x)) /\
    0.5 <= D /\ 0 <= W /\ z * W <= 0.6 * D /\
    Rabs (ev a_num z - Q2R kappa0 * (tay (z * z) * (D * D))) <= 2e-12 * (D * D).
  Proof.
    destruct a_parts as (H1 & H2 & H3 & H4 & H5 & H6 & H7).
    assert (L : 0 < Q2R 0.5) by lra.
    assert (Z : 0 <= z <= Q2R 0.5) by lra.
    assert (E1 : forall x, ev a_den x = evR ERF_AD x) by (intros; apply ev_of_q; auto).
    assert (E2 : forall x, ev a_w x = 1.125 * evR ERF_AD x + evR ERF_AN x).
    { intros. unfold a_w. rewrite ev_add, ev_scal, E1, ev_of_q by auto. reflexivity. }
    pose proof az_ev as E3. pose proof tayz_ev as E4.
    pose proof (nonneg_on_sound _ _ z H1 L Z) as P1.
    pose proof (nonneg_on_sound _ _ z H2 L Z) as P2.
    pose proof (nonneg_on_sound _ _ z H3 L Z) as P3.
    pose proof (nonneg_on_sound _ _ z H4 L Z) as P4.
    pose proof (nonneg_on_sound _ _ z H5 L Z) as P5.
    assert (Q1 : Q2R (-1) = -1) by (unfold Q2R; cbn; lra).
    pose proof q2em12 as Q3.
    rewrite ev_add, ev_const, E1 in P1.
    unfold a_kt, a_dd in P2, P3.
    rewrite !ev_add, !ev_scal, !ev_mul, E4, !E1, Q1, Q3 in P2.
    rewrite !ev_add, !ev_scal, !ev_mul, E4, !E1, Q1, Q3 in P3.
    rewrite E2 in P4. rewrite ev_add, !ev_scal, ev_mul, E1, E2, E3, Q1 in P5.
    fold D in P1, P2, P3, P4, P5. fold N in P4, P5. fold W in P4, P5.
    split; [exact E1|]. split; [exact E2|]. split; [exact E3|]. split; [exact E4|].
    split; [lra|]. split; [exact P4|].
    split; [change (z * W <= 0.6 * D); fold W in P5; clearbody W D; lra|].
    apply Rabs_le. split; lra.
  Qed.

  Lemma arm_a_w : arm_a z = z * W / D.
  Proof.
    destruct a_facts as (_ & _ & _ & _ & Dp & _).
    unfold arm_a. rewrite !polynomial_ev. fold D N. unfold W. field. lra.
  Qed.

  Lemma arm_a_bounds : 0 <= arm_a z <= 0.6.
  Proof.
    destruct a_facts as (_ & _ & _ & _ & Dp & Wp & Wt & _). rewrite arm_a_w. split.
    - apply Rdiv_le_0_compat; [apply Rmult_le_pos; lra|lra].
    - apply Rmult_le_reg_r with D; [lra|]. unfold Rdiv. rewrite Rmult_assoc, Rinv_l; lra.
  Qed.

  Lemma arm_a_derive : is_derive arm_a z (ev a_num z / (D * D)).
  Proof.
    destruct a_facts as (E1 & E2 & E3 & _ & Dp & _).
    set (dD := ev (pder a_den) z). set (dN := ev (pder (of_q ERF_AN)) z).
    assert (EN : forall x, ev (of_q ERF_AN) x = evR ERF_AN x) by (intros; apply ev_of_q; reflexivity).
    assert (HdW : ev (pder a_w) z = 1.125 * dD + dN).
    { rewrite <- (is_derive_unique _ _ _ (ev_derive a_w z)). apply is_derive_unique.
      apply (is_derive_ext (fun x => 1.125 * ev a_den x + ev (of_q ERF_AN) x)).
      - intros x. unfold a_w. rewrite ev_add, ev_scal. reflexivity.
      - apply (is_derive_plus (fun x => 1.125 * ev a_den x) (ev (of_q ERF_AN))).
        + apply is_derive_scal. apply ev_derive.
        + apply ev_derive. }
    apply (is_derive_ext (fun y => y * 1.125 + y * ev (of_q ERF_AN) y / ev a_den y)).
    - intros y. unfold arm_a. rewrite !polynomial_ev, E1, EN. reflexivity.
    - auto_derive.
      + repeat split; try (eexists; apply ev_derive). rewrite E1. fold D. lra.
      + rewrite !(is_derive_unique _ _ _ (ev_derive _ _)). fold dD dN.
        unfold a_num. rewrite !ev_add, !ev_mul, ev_add, ev_scal, !ev_mul, HdW.
        fold dD. rewrite E2, E3, E1, EN. fold D N.
        replace (Q2R (-1)) with (-1) by (unfold Q2R; cbn; lra). field. lra.
  Qed.

  Lemma arm_a_slope : exists d, is_derive arm_a z d /\ Rabs (d - kappa * gauss z) <= 4e-12.
  Proof.
    eexists. split; [apply arm_a_derive|].
    destruct a_facts as (_ & _ & _ & _ & Dp & _ & _ & H).
    assert (DD : 0 < D * D) by (apply Rmult_lt_0_compat; lra).
    set (q := ev a_num z / (D * D)).
    assert (E : ev a_num z = q * (D * D)) by (unfold q; field; lra). rewrite E in H.
    replace (q * (D * D) - Q2R kappa0 * (tay (z * z) * (D * D)))
      with ((q - Q2R kappa0 * tay (z * z)) * (D * D)) in H by ring.
    rewrite Rabs_mult, (Rabs_pos_eq (D * D)) in H by lra.
    apply Rmult_le_reg_r in H; auto.
    assert (Hzz : 0 <= z * z <= 1/4).
    { split; [apply Rle_0_sqr|]. replace (1/4) with (0.5 * 0.5) by lra. apply Rmult_le_compat; lra. }
    pose proof (exp_tay (z * z) Hzz) as T.
    replace (- (z * z)) with (- z * z) in T by ring. fold (gauss z) in T.
    pose proof kappa_bounds as K.
    assert (K0 : Q2R kappa0 = 1.128379167095512573896) by (unfold Q2R; cbn; lra).
    assert (G : 0 < gauss z <= 1).
    { unfold gauss. split; [apply exp_pos|]. rewrite <- exp_0. destruct (Req_dec z 0) as [->|].
      - right. f_equal. ring.
      - left. apply exp_increasing. assert (0 < z * z) by (apply Rmult_lt_0_compat; lra). lra. }
    replace (q - kappa * gauss z)
      with ((q - Q2R kappa0 * tay (z * z)) + (- (Q2R kappa0) * (gauss z - tay (z * z)) +
             (- (kappa - Q2R kappa0) * gauss z))) by ring.
    eapply Rle_trans; [apply Rabs_triang|].
    eapply Rle_trans; [apply Rplus_le_compat_l, Rabs_triang|].
    rewrite (Rabs_mult (- (Q2R kappa0))), (Rabs_mult (- (kappa - Q2R kappa0))).
    rewrite !Rabs_Ropp, (Rabs_pos_eq (gauss z)), (Rabs_pos_eq (gauss z - tay (z*z))), (Rabs_pos_eq (Q2R kappa0)) by lra.
    pose proof (Rabs_pos (kappa - Q2R kappa0)) as Kp.
    assert (Rabs (kappa - Q2R kappa0) * gauss z <= 1e-15 * 1) by (apply Rmult_le_compat; lra).
    assert (Q2R kappa0 * (gauss z - tay (z * z)) <= 1.2 * 1e-12) by (apply Rmult_le_compat; lra).
    lra.
  Qed.
End ArmA.
