(* The defect of the Lanczos formula in the functional equation, bounded by a certificate. *)
From Coq Require Import List ZArith QArith Reals Qreals Lra Lia.
From Coquelicot Require Import Coquelicot.
From Verif Require Import NormModel NormPoly NormPieces NormZero GamSpec GamModel GamInt GamLan.
Import ListNotations.
Local Open Scope R_scope.

Definition pneg (p : poly) : poly := pscal (-1) p.
Definition psq (p : poly) : poly := pmul p p.
(** p'' p - p'^2 *)
Definition pq2 (p : poly) : poly := padd (pmul (pder (pder p)) p) (pneg (psq (pder p))).
Definition pU : poly := Poly [10; 1]%Z 1.
Definition pA : poly := Poly [11400511; 1000000]%Z 1000000.
Definition pB : poly := Poly [10400511; 1000000]%Z 1000000.
Definition pAr : poly := Poly [22301022000000; 1000000000000]%Z 1000000000000.
Definition pBr : poly := Poly [21301022000000; 1000000000000]%Z 1000000000000.

(** the numerator of the defect's second derivative, in stages small enough for the kernel to redo *)
Definition vN2 : poly := Eval vm_compute in psq pN.
Lemma vN2_eq : psq pN = vN2.
Proof. vm_compute. reflexivity. Qed.
Definition vM2 : poly := Eval vm_compute in psq pM.
Lemma vM2_eq : psq pM = vM2.
Proof. vm_compute. reflexivity. Qed.
Definition vqN : poly := Eval vm_compute in pq2 pN.
Lemma vqN_eq : pq2 pN = vqN.
Proof. vm_compute. reflexivity. Qed.
Definition vqM : poly := Eval vm_compute in pq2 pM.
Lemma vqM_eq : pq2 pM = vqM.
Proof. vm_compute. reflexivity. Qed.
Definition vAB : poly := Eval vm_compute in pmul (psq pA) (psq pB).
Lemma vAB_eq : pmul (psq pA) (psq pB) = vAB.
Proof. vm_compute. reflexivity. Qed.
Definition vT1 : poly := Eval vm_compute in pmul vqM vN2.
Lemma vT1_eq : pmul vqM vN2 = vT1.
Proof. vm_compute. reflexivity. Qed.
Definition vT2 : poly := Eval vm_compute in pmul vqN vM2.
Lemma vT2_eq : pmul vqN vM2 = vT2.
Proof. vm_compute. reflexivity. Qed.
Definition vT : poly := Eval vm_compute in padd vT1 (pneg vT2).
Lemma vT_eq : padd vT1 (pneg vT2) = vT.
Proof. vm_compute. reflexivity. Qed.
Definition vNM : poly := Eval vm_compute in pmul vN2 vM2.
Lemma vNM_eq : pmul vN2 vM2 = vNM.
Proof. vm_compute. reflexivity. Qed.
Definition vUAB : poly := Eval vm_compute in pmul (psq pU) vAB.
Lemma vUAB_eq : pmul (psq pU) vAB = vUAB.
Proof. vm_compute. reflexivity. Qed.
Definition vS : poly := Eval vm_compute in pmul (psq pU) (padd (pmul (psq pB) pAr) (pneg (pmul (psq pA) pBr))).
Lemma vS_eq : pmul (psq pU) (padd (pmul (psq pB) pAr) (pneg (pmul (psq pA) pBr))) = vS.
Proof. vm_compute. reflexivity. Qed.
Definition vNum1 : poly := Eval vm_compute in pmul vUAB vT.
Lemma vNum1_eq : pmul vUAB vT = vNum1.
Proof. vm_compute. reflexivity. Qed.
Definition vRhs : poly := Eval vm_compute in pmul vNM vAB.
Lemma vRhs_eq : pmul vNM vAB = vRhs.
Proof. vm_compute. reflexivity. Qed.
Definition vNum3 : poly := Eval vm_compute in pmul vNM vS.
Lemma vNum3_eq : pmul vNM vS = vNum3.
Proof. vm_compute. reflexivity. Qed.
Definition vNum : poly := Eval vm_compute in padd (padd vNum1 vRhs) vNum3.
Lemma vNum_eq : padd (padd vNum1 vRhs) vNum3 = vNum.
Proof. vm_compute. reflexivity. Qed.
Definition vLhs : poly := Eval vm_compute in pmul vNum (psq pU).
Lemma vLhs_eq : pmul vNum (psq pU) = vLhs.
Proof. vm_compute. reflexivity. Qed.
Definition qtol : Q := 2 # 1.
Definition qbig : Q := 1000000000000000 # 1.
Lemma cert1 : nnc (padd (pscal qtol vRhs) (pscal qbig vLhs)) = true.
Proof. vm_compute. reflexivity. Qed.
Lemma cert2 : nnc (padd (pscal qtol vRhs) (pscal qbig (pneg vLhs))) = true.
Proof. vm_compute. reflexivity. Qed.

Lemma ev_neg p x : ev (pneg p) x = - ev p x.
Proof. unfold pneg. rewrite ev_scal. unfold Q2R. cbn. lra. Qed.
Lemma ev_q2 p x : ev (pq2 p) x = ev (pder (pder p)) x * ev p x - ev (pder p) x * ev (pder p) x.
Proof. unfold pq2, psq. rewrite ev_add, ev_neg, !ev_mul. ring. Qed.
Lemma ev_U x : ev pU x = x + 10.
Proof. unfold ev, pU. cbn [cs dn evZ]. field. Qed.

Definition r0 : R := Q2R 10.900511.
Lemma r0_eq : r0 = 10900511 / 1000000.
Proof. reflexivity. Qed.
Lemma ev_A x : ev pA x = x + 1 / 2 + r0.
Proof. rewrite r0_eq. unfold ev, pA. cbn [cs dn evZ]. field. Qed.
Lemma ev_B x : ev pB x = x - 1 / 2 + r0.
Proof. rewrite r0_eq. unfold ev, pB. cbn [cs dn evZ]. field. Qed.
Lemma ev_Ar x : ev pAr x = x + 1 / 2 + r0 + r0.
Proof. rewrite r0_eq. unfold ev, pAr. cbn [cs dn evZ]. field. Qed.
Lemma ev_Br x : ev pBr x = x - 1 / 2 + r0 + r0.
Proof. rewrite r0_eq. unfold ev, pBr. cbn [cs dn evZ]. field. Qed.
#[global] Opaque pN pM numN denQ vN2 vM2 vqN vqM vAB vT1 vT2 vT vNM vUAB vS vNum1 vRhs vNum3 vNum vLhs.

Lemma pM_eq : pM = pshift pN.
Proof. vm_compute. reflexivity. Qed.
Lemma ev_M x : ev pM x = ev pN (x + 1).
Proof. rewrite pM_eq. apply ev_shift. Qed.
Lemma pN_cs : cs pN = numN.
Proof. vm_compute. reflexivity. Qed.
Lemma numN_hd : exists a l, numN = (Z.pos a :: l)%Z.
Proof. eexists. eexists. vm_compute. reflexivity. Qed.

Lemma evz_pos p a l x : p = (Z.pos a :: l) -> forallb (fun c => Z.leb 0 c) p = true -> 0 <= x -> 0 < evZ p x.
Proof.
  intros -> H Hx. cbn [forallb evZ] in *. apply andb_prop in H as [_ H].
  pose proof (evz_nonneg l x H Hx). pose proof (pos_pos a). assert (0 <= x * evZ l x) by (apply Rmult_le_pos; auto). lra.
Qed.
Lemma N_pos x : 0 <= x -> 0 < ev pN x.
Proof.
  intros Hx. unfold ev. rewrite pN_cs. destruct numN_hd as (a & l & E).
  apply Rdiv_lt_0_compat; [|apply pos_pos]. apply (evz_pos _ a l); auto.
Qed.
Lemma M_pos x : 0 <= x -> 0 < ev pM x.
Proof. intros Hx. rewrite ev_M. apply N_pos. lra. Qed.

(** second derivative of the defect *)
Definition f2 (x : R) : R :=
  let A := x + 1 / 2 + r0 in let B := x - 1 / 2 + r0 in
  ev (pq2 pM) x / (ev pM x) ^ 2 - ev (pq2 pN) x / (ev pN x) ^ 2 + / (x + 10) ^ 2 + / A - / B + r0 / A ^ 2 - r0 / B ^ 2.

Lemma q2e : Q2R qtol = 2.
Proof. unfold qtol, Q2R; cbn [Qnum Qden]; lra. Qed.
Lemma qbe : Q2R qbig = 1000000000000000.
Proof. unfold qbig, Q2R; cbn [Qnum Qden]; lra. Qed.
Lemma f2_bound x : 0 <= x -> Rabs (f2 x) <= 2e-15 / (x + 10) ^ 4.
Proof.
  intros Hx. pose proof cert1 as C1. pose proof cert2 as C2.
  pose proof (ev_nonneg _ x C1 Hx) as H1. pose proof (ev_nonneg _ x C2 Hx) as H2. clear C1 C2.
  rewrite ev_add, !ev_scal in H1, H2. rewrite ev_neg in H2.
  rewrite q2e, qbe in H1, H2.
  set (A := x + 1 / 2 + r0). set (B := x - 1 / 2 + r0). set (U := x + 10).
  pose proof r0_eq as Hr.
  assert (HA : 0 < A) by (unfold A; lra). assert (HB : 0 < B) by (unfold B; lra). assert (HU : 0 < U) by (unfold U; lra).
  pose proof (N_pos x Hx) as HN. pose proof (M_pos x Hx) as HM.
  assert (E : ev vNum x = f2 x * ((ev pN x) ^ 2 * (ev pM x) ^ 2 * U ^ 2 * A ^ 2 * B ^ 2)).
  { rewrite <- vNum_eq, <- vNum3_eq, <- vRhs_eq, <- vNum1_eq, <- vS_eq, <- vUAB_eq, <- vNM_eq, <- vT_eq, <- vT2_eq, <- vT1_eq, <- vAB_eq, <- vqM_eq, <- vqN_eq, <- vM2_eq, <- vN2_eq.
    unfold psq. rewrite !ev_add, !ev_mul, !ev_add, !ev_neg, !ev_mul, ev_U, ev_A, ev_B, ev_Ar, ev_Br.
    unfold f2. cbv zeta. fold A B U. generalize dependent (ev pN x). generalize dependent (ev pM x).
    generalize (ev (pq2 pN) x) (ev (pq2 pM) x). intros. field. repeat split; lra. }
  rewrite <- vLhs_eq, <- vRhs_eq, <- vNM_eq, <- vAB_eq, <- vM2_eq, <- vN2_eq in H1, H2. unfold psq in H1, H2. rewrite !ev_mul, E in H1, H2. rewrite !ev_A, !ev_B, !ev_U in H1, H2.
  fold A B U in H1, H2.
  set (K := (ev pN x) ^ 2 * (ev pM x) ^ 2 * A ^ 2 * B ^ 2).
  assert (HK : 0 < K) by (unfold K; repeat match goal with |- 0 < _ ^ _ => apply pow_lt; assumption | |- 0 < _ * _ => apply Rmult_lt_0_compat end).
  assert (J1 : 0 <= K * (2e-15 + f2 x * U ^ 4)) by (unfold K; replace (U ^ 4) with (U * U * (U * U)) by ring; lra).
  assert (J2 : 0 <= K * (2e-15 - f2 x * U ^ 4)) by (unfold K; replace (U ^ 4) with (U * U * (U * U)) by ring; lra).
  assert (G1 : 0 <= 2e-15 + f2 x * U ^ 4) by (apply Rmult_le_reg_l with K; lra).
  assert (G2 : 0 <= 2e-15 - f2 x * U ^ 4) by (apply Rmult_le_reg_l with K; lra).
  assert (HU4 : 0 < U ^ 4) by (apply pow_lt; auto).
  apply Rmult_le_reg_r with (U ^ 4); auto. unfold Rdiv. rewrite Rmult_assoc, Rinv_l, Rmult_1_r by lra.
  rewrite <- (Rabs_pos_eq (U ^ 4)) by lra. rewrite <- Rabs_mult. apply Rabs_le. lra.
Qed.

