(* The error of erf_impl against the exact error function, its range, and its symmetry. *)
From Coq Require Import List QArith Qabs Reals Qreals Lra Lia.
From Coquelicot Require Import Coquelicot.
From Verif Require Import NormModel NormPoly NormPieces NormZero NormGauss NormChain.
Import ListNotations.
Local Open Scope R_scope.

Lemma erf_true_derive z : is_derive erf_true z (kappa * gauss z).
Proof. apply is_derive_scal. apply area_derive. Qed.

Lemma lip (h : R -> R) k a b : a <= b ->
  (forall c, a <= c <= b -> exists d, is_derive h c d /\ Rabs d <= k) -> Rabs (h b - h a) <= k * (b - a).
Proof.
  intros Hab H.
  assert (D : forall c, a <= c <= b -> is_derive h c (Derive h c) /\ Rabs (Derive h c) <= k).
  { intros c Hc. destruct (H c Hc) as (d & D1 & D2). rewrite (is_derive_unique _ _ _ D1). auto. }
  destruct (MVT_gen h a b (Derive h)) as (c & Hc & E).
  - rewrite Rmin_left, Rmax_right by lra. intros x Hx. apply D. lra.
  - rewrite Rmin_left, Rmax_right by lra. intros x Hx. apply continuity_pt_filterlim.
    apply (ex_derive_continuous h x). eexists. apply D. lra.
  - rewrite Rmin_left, Rmax_right in Hc by lra. rewrite E, Rabs_mult, (Rabs_pos_eq (b - a)) by lra.
    apply Rmult_le_compat_r; [lra|]. apply D; auto.
Qed.

Lemma arm_a_err z : 0 <= z <= 0.5 -> Rabs (arm_a z - erf_true z) <= 4e-12 * z.
Proof.
  intros Hz.
  pose proof (lip (fun z => arm_a z - erf_true z) 4e-12 0 z ltac:(lra)) as L. cbv beta in L.
  replace (arm_a 0) with 0 in L by (unfold arm_a, Rdiv; ring). rewrite erf_true_0 in L.
  replace (arm_a z - erf_true z) with (arm_a z - erf_true z - (0 - 0)) by ring.
  replace (4e-12 * z) with (4e-12 * (z - 0)) by ring. apply L.
  intros c Hc. destruct (arm_a_slope c ltac:(lra)) as (d & D1 & D2).
  exists (d - kappa * gauss c). split; auto.
  apply (is_derive_minus arm_a erf_true); auto. apply erf_true_derive.
Qed.

Definition tiny (z : R) : R := z * Q2R 1.125 + z * Q2R 0.003379167095512573896158903121545171688.

Lemma gauss_le1 z : gauss z <= 1.
Proof.
  unfold gauss. rewrite <- exp_0. pose proof (Rle_0_sqr z) as S. unfold Rsqr in S.
  destruct (Req_dec (- z * z) 0) as [->|]; [lra|]. left. apply exp_increasing. lra.
Qed.

Lemma tiny_err z : 0 <= z < 1e-10 -> Rabs (tiny z - erf_true z) <= 4e-12 * z.
Proof.
  intros Hz.
  pose proof (lip (fun z => tiny z - erf_true z) 4e-12 0 z ltac:(lra)) as L. cbv beta in L.
  replace (tiny 0) with 0 in L by (unfold tiny; ring). rewrite erf_true_0 in L.
  replace (tiny z - erf_true z) with (tiny z - erf_true z - (0 - 0)) by ring.
  replace (4e-12 * z) with (4e-12 * (z - 0)) by ring. apply L.
  intros c Hc. exists (Q2R 1.125 + Q2R 0.003379167095512573896158903121545171688 - kappa * gauss c). split.
  - apply (is_derive_minus tiny erf_true); [|apply erf_true_derive].
    unfold tiny. auto_derive; auto. ring.
  - pose proof kappa_bounds as K. apply Rabs_le_between in K.
    assert (K0 : Q2R kappa0 = 1.128379167095512573896) by (unfold Q2R; cbn; lra). rewrite K0 in K.
    pose proof (gauss_le1 c) as G1. pose proof (gauss_pos c) as G0.
    assert (G2 : 1 - 1e-12 <= gauss c).
    { pose proof (exp_ineq1_le (- c * c)) as X. fold (gauss c) in X.
      assert (c * c <= 1e-10 * 1) by (apply Rmult_le_compat; lra).
      assert (c * c <= 1e-10 * 1e-10) by (apply Rmult_le_compat; lra). lra. }
    assert (kappa * gauss c <= kappa * 1) by (apply Rmult_le_compat_l; lra).
    assert (kappa * (1 - 1e-12) <= kappa * gauss c) by (apply Rmult_le_compat_l; lra).
    assert (kappa * 1e-12 <= 2 * 1e-12) by (apply Rmult_le_compat_r; lra).
    apply Rabs_le. split; lra.
Qed.

Definition band0 : band := Band 0.75 0.5 ERF_BN ERF_BD 0.3440242112.
Lemma band0_in : In band0 bands.
Proof. left. reflexivity. Qed.

(** the two sides of z = 1/2 *)
Definition half_a : Q := (0.5 * 1.125 + 0.5 * qev ERF_AN 0.5 / qev ERF_AD 0.5)%Q.
Definition tay_quarter : Q :=
  (1 - (1#4) + (1#16)/2 - (1#64)/6 + (1#256)/24 - (1#1024)/120 + (1#4096)/720 - (1#16384)/5040 + (1#65536)/40320 - (1#262144)/362880)%Q.
Definition half_b : Q := (2 * tay_quarter * qval band0 0)%Q.

Lemma half_steps :
  Qle_bool (half_b + half_a - 1) 4.95e-11 = true /\ Qle_bool 4.9e-11 (half_b + half_a - 1) = true /\
  Qle_bool 0.52 half_a = true /\ Qle_bool (qval band0 0) 0.31 = true /\ Qle_bool 0 (qval band0 0) = true.
Proof. do 4 (apply conj; [vm_compute; reflexivity|]). vm_compute; reflexivity. Qed.

Lemma half_a_ok : arm_a 0.5 = Q2R half_a.
Proof.
  unfold arm_a, half_a. rewrite !polynomial_ev, Q2R_plus, Q2R_div, !Q2R_mult, !qev_ev; [reflexivity|].
  intros E. apply Qeq_eqR in E. rewrite qev_ev in E.
  destruct (a_facts 0.5 ltac:(lra)) as (_ & _ & _ & _ & P & _). cbv zeta in P.
  change (Q2R 0) with (0 * / 1) in E. lra.
Qed.

Lemma half_b_ok : 0 <= band_value band0 0.5 - Q2R half_b <= 1e-12.
Proof.
  pose proof (qval_band band0 0.5 band0_in) as V.
  destruct (b_exact band0 band0_in) as (_ & _ & _ & _ & L & E). cbn [shift upper band0] in *.
  rewrite E in L. specialize (V ltac:(lra)).
  assert (Eq : Q2R (qval band0 (0.5 - 0.5)) = Q2R (qval band0 0)) by (apply Qeq_eqR; vm_compute; reflexivity).
  rewrite Eq in V. rewrite V. clear V Eq.
  assert (T : Q2R tay_quarter = tay (1/4)).
  { unfold tay_quarter, tay, Q2R. cbn -[IZR]. field. }
  unfold half_b. rewrite !Q2R_mult, T.
  replace (Q2R 2) with 2 by (unfold Q2R; cbn; lra).
  pose proof (exp_tay (1/4) ltac:(lra)) as B.
  replace (gauss (Q2R 0.5)) with (exp (- (1 / 4))) by (unfold gauss; f_equal; lra).
  destruct half_steps as (_ & _ & _ & H1 & H2).
  apply Qle_bool_iff, Qle_Rle in H1, H2.
  replace (Q2R 0) with 0 in H2 by (unfold Q2R; cbn; lra).
  set (v := Q2R (qval band0 0)) in *. set (e := exp (- (1/4))) in *. set (q := tay (1/4)) in *.
  replace (Q2R 0.5) with (/ 2) by (unfold Q2R; cbn; lra).
  replace (e / (/ 2) * v - 2 * q * v) with (2 * ((e - q) * v)) by field.
  assert (0 <= (e - q) * v) by (apply Rmult_le_pos; lra).
  assert ((e - q) * v <= 1e-12 * 0.31) by (apply Rmult_le_compat; lra). lra.
Qed.

Lemma start_err : Rabs (band_value band0 0.5 + erf_true 0.5 - 1) <= 5.5e-11.
Proof.
  pose proof half_b_ok as B. pose proof (arm_a_err 0.5 ltac:(lra)) as A.
  rewrite half_a_ok in A. apply Rabs_le_between in A.
  destruct half_steps as (H1 & H2 & _).
  apply Qle_bool_iff, Qle_Rle in H1, H2. rewrite Q2R_minus, Q2R_plus in H1, H2.
  replace (Q2R 1) with 1 in H1, H2 by (unfold Q2R; cbn; lra).
  replace (Q2R 4.95e-11) with 4.95e-11 in H1 by (unfold Q2R; cbn; lra).
  replace (Q2R 4.9e-11) with 4.9e-11 in H2 by (unfold Q2R; cbn; lra).
  apply Rabs_le. lra.
Qed.

Lemma area_rest z : 0.5 <= z -> 0 <= area z - area 0.5 <= 0.43.
Proof.
  intros Hz. pose proof (area_incr 0.5 z Hz). split; [lra|].
  pose proof (erf_true_tail z ltac:(lra)) as T.
  pose proof (arm_a_err 0.5 ltac:(lra)) as A. rewrite half_a_ok in A. apply Rabs_le_between in A.
  destruct half_steps as (_ & _ & Hh & _). apply Qle_bool_iff, Qle_Rle in Hh.
  pose proof kappa_between as K.
  assert (kappa * (area z - area 0.5) <= 0.481).
  { unfold erf_true in T, A. lra. }
  apply Rmult_le_reg_l with kappa; [lra|]. lra.
Qed.

Lemma pick_some z : 0.5 <= z < 110 -> exists b, pick z bands = Some b.
Proof.
  intros Hz. unfold bands. rewrite !pick_cons.
  repeat match goal with |- context [if ?c then _ else _] => destruct c; [eexists; reflexivity|] end.
  exfalso. match goal with H : ~ z < Q2R (upper (Band 110 _ _ _ _)) |- _ => apply H end.
  cbn [upper]. unfold Q2R. cbn. lra.
Qed.

Lemma far_err z b : 0.5 <= z -> pick z bands = Some b ->
  In b bands /\ Q2R (shift b) <= z < Q2R (upper b) /\
  Rabs (band_value b z - (1 - erf_true z)) <= 2.6e-10.
Proof.
  intros Hz Hp.
  destruct (chain bands (fun b H => H) bands_steps 0.5 5.5e-11) with (z := z) (b := b) as (A & B & C); auto.
  - split; [reflexivity|]. exact start_err.
  - split; auto. split; auto.
    pose proof jsum_bands as J. apply Qle_bool_iff, Qle_Rle in J.
    replace (Q2R 1.1e-10) with 1.1e-10 in J by (unfold Q2R; cbn; lra).
    pose proof (area_rest z Hz) as R.
    assert (eps1 * (area z - area 0.5) <= 2.1e-10 * 0.43) by (apply Rmult_le_compat; unfold eps1; lra).
    replace (band_value b z - (1 - erf_true z)) with (band_value b z + erf_true z - 1) by ring. lra.
Qed.

Lemma gauss_110 z : 110 <= z -> gauss z <= 1e-12.
Proof.
  intros Hz. unfold gauss.
  assert (E2 : exp (Ropp 1) <= / 2).
  { rewrite exp_Ropp. apply Rinv_le_contravar; [lra|]. pose proof (exp_ineq1_le 1). lra. }
  assert (Hp : exp (Ropp 1) ^ 50 <= (/ 2) ^ 50).
  { apply pow_incr. split; auto. left. apply exp_pos. }
  assert (En : forall n, exp (Ropp 1) ^ n = exp (- INR n)).
  { induction n as [|n IH]; [cbn; rewrite Ropp_0, exp_0; reflexivity|].
    rewrite S_INR. cbn [pow]. rewrite IH, <- exp_plus. f_equal. lra. }
  rewrite En in Hp. replace (INR 50) with 50 in Hp by (cbn; lra).
  apply Rle_trans with (exp (-50)).
  - left. apply exp_increasing. assert (110 * 110 <= z * z) by (apply Rmult_le_compat; lra). lra.
  - eapply Rle_trans; [exact Hp|]. lra.
Qed.

(** 1 - erf, as computed, against the exact value: z >= 0 *)
Lemma erf_pos_err z : 0 <= z -> Rabs (erf_pos z true - (1 - erf_true z)) <= 2.6e-10.
Proof.
  intros Hz. unfold erf_pos, erf_result. cbv zeta.
  destruct (Rlt_dec z (Q2R 0.5)) as [H1|H1]; destruct (Rle_dec (Q2R 0.5) z) as [H2|H2];
    cbn [andb orb]; try lra.
  - destruct (Rlt_dec z (Q2R 1e-10)) as [H3|H3].
    + replace (Q2R 1e-10) with 1e-10 in H3 by (unfold Q2R; cbn; lra).
      fold (tiny z). pose proof (tiny_err z ltac:(lra)) as E. apply Rabs_le_between in E.
      apply Rabs_le. lra.
    + fold (arm_a z). pose proof (arm_a_err z ltac:(lra)) as E. apply Rabs_le_between in E.
      apply Rabs_le. lra.
  - destruct (Rlt_dec z 110) as [H3|H3].
    + destruct (pick_some z ltac:(lra)) as (b & Hb). rewrite Hb. apply far_err; auto.
    + pose proof (erf_true_tail z Hz) as T. pose proof (gauss_110 z ltac:(lra)).
      apply Rabs_le. lra.
Qed.

Lemma erf_pos_compl z : 0 <= z -> erf_pos z false = 1 - erf_pos z true.
Proof.
  intros Hz. unfold erf_pos. cbv zeta.
  destruct (Rle_dec (Q2R 0.5) z); cbn [andb orb]; lra.
Qed.

Lemma erf_impl_neg z : erf_impl (- z) true = 2 - erf_impl z true.
Proof.
  assert (K : forall z, 0 < z -> erf_impl (- z) true = 2 - erf_impl z true).
  { clear z. intros z Hz. unfold erf_impl. cbn [negb].
    destruct (Rlt_dec (- z) 0); [|lra]. destruct (Rlt_dec z 0); [lra|].
    rewrite Ropp_involutive. destruct (Rlt_dec (- z) (Q2R (-0.5))); [reflexivity|].
    rewrite erf_pos_compl by lra. lra. }
  destruct (Rtotal_order z 0) as [H|[->|H]].
  - pose proof (K (- z) ltac:(lra)) as E. rewrite Ropp_involutive in E. lra.
  - rewrite Ropp_0. unfold erf_impl, erf_pos, erf_result. cbv zeta.
    replace (Q2R (-0.5)) with (-0.5) by (unfold Q2R; cbn; lra).
    destruct (Rlt_dec 0 0); [lra|]. destruct (Rlt_dec 0 (Q2R 0.5)); [|lra].
    destruct (Rle_dec (Q2R 0.5) 0); [lra|]. cbn [andb orb].
    destruct (Rlt_dec 0 (Q2R 1e-10)) as [|N]; [lra|].
    exfalso. apply N. unfold Q2R; cbn. lra.
  - auto.
Qed.

Lemma erf_impl_err z : Rabs (erf_impl z true - (1 - erf_true z)) <= 2.6e-10.
Proof.
  destruct (Rle_dec 0 z) as [H|H].
  - unfold erf_impl. destruct (Rlt_dec z 0); [lra|]. apply erf_pos_err; auto.
  - pose proof (erf_impl_neg (- z)) as E. rewrite Ropp_involutive in E. rewrite E.
    pose proof (erf_true_odd z) as O.
    replace (2 - erf_impl (- z) true - (1 - erf_true z))
      with (- (erf_impl (- z) true - (1 - erf_true (- z)))) by (rewrite O; ring).
    rewrite Rabs_Ropp. unfold erf_impl. destruct (Rlt_dec (- z) 0); [lra|]. apply erf_pos_err. lra.
Qed.

(** never outside [0, 2]; at most 1 from 0 on *)
Lemma erf_pos_range z : 0 <= z -> 0 <= erf_pos z true <= 1.
Proof.
  intros Hz. unfold erf_pos, erf_result. cbv zeta.
  destruct (Rlt_dec z (Q2R 0.5)) as [H1|H1]; destruct (Rle_dec (Q2R 0.5) z) as [H2|H2];
    cbn [andb orb]; try lra.
  - destruct (Rlt_dec z (Q2R 1e-10)) as [H3|H3].
    + replace (Q2R 1e-10) with 1e-10 in H3 by (unfold Q2R; cbn; lra). lra.
    + fold (arm_a z). pose proof (arm_a_bounds z ltac:(lra)). lra.
  - destruct (Rlt_dec z 110) as [H3|H3]; [|lra].
    destruct (pick_some z ltac:(lra)) as (b & Hb). rewrite Hb.
    destruct (far_err z b ltac:(lra) Hb) as (I & R & _).
    pose proof (band_bounds b I z ltac:(lra)) as B. split; [lra|].
    assert (G : gauss z / z <= 1 / (0.5 * 1.25)).
    { unfold gauss. replace (- z * z) with (- (z * z)) by ring. rewrite exp_Ropp.
      pose proof (exp_ineq1_le (z * z)) as E.
      assert (0.5 * 0.5 <= z * z) by (apply Rmult_le_compat; lra).
      apply Rle_trans with (/ 1.25 / 0.5); [|lra].
      apply Rmult_le_compat.
      - left. apply Rinv_0_lt_compat, exp_pos.
      - left. apply Rinv_0_lt_compat. lra.
      - apply Rinv_le_contravar; lra.
      - apply Rinv_le_contravar; lra. }
    lra.
Qed.
