(* The arms of erf_impl joined: the error of the computed complementary error function. *)
From Coq Require Import List QArith Qabs Reals Qreals Lra Lia.
From Coquelicot Require Import Coquelicot.
From Verif Require Import NormModel NormPoly NormPieces NormZero NormGauss.
Import ListNotations.
Local Open Scope R_scope.

(** ** the exact error function *)
Definition erf_true (z : R) : R := kappa * area z.

Lemma kappa_pos : 0 < kappa.
Proof. apply Rdiv_lt_0_compat; [lra|]. apply sqrt_lt_R0, PI_RGT_0. Qed.
Lemma kappa_sq : kappa * kappa * (PI / 4) = 1.
Proof.
  unfold kappa. pose proof PI_RGT_0. rewrite <- (sqrt_sqrt PI) at 3 by lra. field.
  apply Rgt_not_eq, sqrt_lt_R0; lra.
Qed.
Lemma kappa_between : 1.128379167 < kappa < 1.128379168.
Proof.
  pose proof kappa_bounds as K. apply Rabs_le_between in K.
  assert (K0 : Q2R kappa0 = 1.128379167095512573896) by (unfold Q2R; cbn; lra). lra.
Qed.

Lemma erf_true_incr a b : a <= b -> erf_true a <= erf_true b.
Proof. intros H. apply Rmult_le_compat_l; [left; apply kappa_pos|apply area_incr; auto]. Qed.
Lemma erf_true_0 : erf_true 0 = 0.
Proof. unfold erf_true. rewrite area_0. ring. Qed.
Lemma erf_true_odd z : erf_true (- z) = - erf_true z.
Proof. unfold erf_true. rewrite area_odd. ring. Qed.
Lemma erf_true_tail z : 0 <= z -> 0 <= 1 - erf_true z <= 2 * gauss z.
Proof.
  intros Hz. pose proof (erf_true_incr 0 z Hz) as P. rewrite erf_true_0 in P.
  pose proof (area_side z) as S. pose proof (side_bounds z) as B. pose proof kappa_sq as K.
  pose proof kappa_pos as Kp. pose proof kappa_between as Kb.
  assert (E : erf_true z * erf_true z = 1 - kappa * kappa * side z).
  { unfold erf_true. replace (area z * area z) with (PI / 4 - side z) by lra || idtac.
    replace (kappa * area z * (kappa * area z)) with (kappa * kappa * (area z * area z)) by ring.
    replace (area z * area z) with (PI / 4 - side z) by lra.
    rewrite Rmult_minus_distr_l, K. ring. }
  assert (K2 : 0 < kappa * kappa <= 2).
  { split; [apply Rmult_lt_0_compat; lra|]. apply Rle_trans with (1.2 * 1.2); [|lra]. apply Rmult_le_compat; lra. }
  assert (KS : 0 <= kappa * kappa * side z <= 2 * gauss z).
  { split; [apply Rmult_le_pos; lra|apply Rmult_le_compat; lra]. }
  assert (L : erf_true z <= 1).
  { destruct (Rle_dec (erf_true z) 1); auto. exfalso.
    assert (1 * 1 < erf_true z * erf_true z) by (apply Rmult_le_0_lt_compat; lra). lra. }
  assert (erf_true z * erf_true z <= erf_true z * 1) by (apply Rmult_le_compat_l; lra).
  lra.
Qed.

(** ** one arm *)
Definition eps1 : R := 2.00002e-10.

Lemma band_drift b z0 z : In b bands -> Q2R (shift b) <= z0 <= z -> z <= Q2R (upper b) ->
  Rabs ((band_value b z + erf_true z) - (band_value b z0 + erf_true z0)) <= eps1 * (area z - area z0).
Proof.
  intros Hin H1 H2.
  apply (dominated (fun z => band_value b z + erf_true z)); [lra|].
  intros c Hc. destruct (band_slope b Hin c ltac:(lra)) as (d & D1 & D2).
  exists (d + kappa * gauss c). split.
  - apply (is_derive_plus (band_value b) erf_true); auto.
    apply is_derive_scal. apply area_derive.
  - replace (d + kappa * gauss c) with ((d + Q2R kappa0 * gauss c) + (kappa - Q2R kappa0) * gauss c) by ring.
    eapply Rle_trans; [apply Rabs_triang|].
    rewrite Rabs_mult, (Rabs_pos_eq (gauss c)) by (left; apply gauss_pos).
    pose proof kappa_bounds as K. pose proof (gauss_pos c) as G.
    assert (Rabs (kappa - Q2R kappa0) * gauss c <= 1e-15 * gauss c) by (apply Rmult_le_compat_r; lra).
    assert (E : Q2R band_eps = 2e-10) by (unfold Q2R; cbn; lra). rewrite E in D2.
    unfold eps1. lra.
Qed.

(** strictly decreasing inside an arm *)
Lemma band_decr b z0 z : In b bands -> Q2R (shift b) <= z0 < z -> z <= Q2R (upper b) ->
  band_value b z < band_value b z0.
Proof.
  intros Hin H1 H2.
  assert (D : forall c, z0 <= c <= z -> is_derive (band_value b) c (Derive (band_value b) c) /\
              Derive (band_value b) c < 0).
  { intros c Hc. destruct (band_slope b Hin c ltac:(lra)) as (d & D1 & D2).
    rewrite (is_derive_unique _ _ _ D1). split; auto.
    apply Rabs_le_between in D2. pose proof (gauss_pos c) as G.
    assert (E : Q2R band_eps = 2e-10) by (unfold Q2R; cbn; lra).
    assert (K0 : Q2R kappa0 = 1.128379167095512573896) by (unfold Q2R; cbn; lra).
    rewrite E, K0 in D2. lra. }
  destruct (MVT_gen (band_value b) z0 z (Derive (band_value b))) as (c & Hc & E).
  - rewrite Rmin_left, Rmax_right by lra. intros x Hx. apply D. lra.
  - rewrite Rmin_left, Rmax_right by lra. intros x Hx. apply continuity_pt_filterlim.
    apply (ex_derive_continuous (band_value b) x). eexists. apply D. lra.
  - rewrite Rmin_left, Rmax_right in Hc by lra. destruct (D c Hc) as [_ N].
    assert (0 < - Derive (band_value b) c * (z - z0)) by (apply Rmult_lt_0_compat; lra). lra.
Qed.

(** ** the steps between arms *)
Fixpoint qev (p : list Q) (x : Q) : Q :=
  match p with [] => 0%Q | a :: p' => (a + x * qev p' x)%Q end.
Lemma qev_ev p x : Q2R (qev p x) = evR p (Q2R x).
Proof.
  induction p as [|a p IH]; cbn [qev evR].
  - unfold Q2R; cbn; lra.
  - rewrite Q2R_plus, Q2R_mult, IH. reflexivity.
Qed.

Definition qval (b : band) (t : Q) : Q := (base b + qev (numer b) t / qev (denom b) t)%Q.
Definition step_size : Q := 8e-11.
Definition step_ok (b b' : band) : bool :=
  Qeq_bool (shift b') (upper b) &&
  Qle_bool (qval b (upper b - shift b) - qval b' 0) step_size &&
  Qle_bool (qval b' 0 - qval b (upper b - shift b)) step_size.
Fixpoint steps_ok (bs : list band) : bool :=
  match bs with
  | b :: ((b' :: _) as r) => step_ok b b' && steps_ok r
  | _ => true
  end.
Lemma bands_steps : steps_ok bands = true.
Proof. vm_compute. reflexivity. Qed.

Lemma qval_band b z : In b bands -> Q2R (shift b) <= Q2R z <= Q2R (upper b) ->
  band_value b (Q2R z) = gauss (Q2R z) / Q2R z * Q2R (qval b (z - shift b)).
Proof.
  intros Hin Hz. pose proof (d_pos b Hin (Q2R z) Hz) as Dp.
  unfold band_value, qval. rewrite !polynomial_ev, Q2R_plus.
  assert (N : ~ (qev (denom b) (z - shift b) == 0)%Q).
  { intros E. apply Qeq_eqR in E. rewrite qev_ev, Q2R_minus in E. cbv beta zeta in Dp. rewrite E in Dp.
    replace (Q2R 0) with 0 in Dp by (unfold Q2R; cbn; lra). lra. }
  rewrite Q2R_div by auto. rewrite !qev_ev, Q2R_minus. reflexivity.
Qed.

Definition gbound (z : Q) : Q := (1 / (z * (1 + z * z)))%Q.
Lemma gauss_bound z : 0 < Q2R z -> 0 < gauss (Q2R z) / Q2R z <= Q2R (gbound z).
Proof.
  intros Hz. split; [apply Rdiv_lt_0_compat; auto; apply gauss_pos|].
  set (x := Q2R z) in *.
  assert (S : 0 < x * (1 + x * x)) by (apply Rmult_lt_0_compat; auto; apply sq1).
  unfold gbound. rewrite Q2R_div.
  2:{ intros E. apply Qeq_eqR in E. rewrite !Q2R_mult, Q2R_plus, Q2R_mult in E.
      fold x in E. replace (Q2R 1) with 1 in E by (unfold Q2R; cbn; lra).
      replace (Q2R 0) with 0 in E by (unfold Q2R; cbn; lra). lra. }
  rewrite !Q2R_mult, Q2R_plus, Q2R_mult. fold x.
  replace (Q2R 1) with 1 by (unfold Q2R; cbn; lra).
  unfold gauss. replace (- x * x) with (- (x * x)) by ring. rewrite exp_Ropp.
  pose proof (exp_ineq1_le (x * x)) as E. pose proof (exp_pos (x * x)).
  pose proof (sq1 x).
  replace (1 / (x * (1 + x * x))) with (/ (1 + x * x) / x) by (field; lra).
  apply Rmult_le_compat_r; [left; apply Rinv_0_lt_compat; auto|].
  apply Rinv_le_contravar; lra.
Qed.

Fixpoint jsum (bs : list band) : Q :=
  match bs with
  | b :: ((_ :: _) as r) => (step_size * gbound (upper b) + jsum r)%Q
  | _ => 0%Q
  end.
Lemma jsum_bands : Qle_bool (jsum bands) 1.1e-10 = true.
Proof. vm_compute. reflexivity. Qed.

(** the step between two neighbouring arms *)
Lemma step_jump b b' : In b bands -> In b' bands -> step_ok b b' = true ->
  Q2R (shift b') = Q2R (upper b) /\
  Rabs (band_value b' (Q2R (upper b)) - band_value b (Q2R (upper b))) <= Q2R (step_size * gbound (upper b)).
Proof.
  intros H1 H2 H. unfold step_ok in H. apply andb_prop in H as [H Hb]. apply andb_prop in H as [He Ha].
  apply Qeq_bool_iff, Qeq_eqR in He. apply Qle_bool_iff, Qle_Rle in Ha, Hb.
  rewrite Q2R_minus in Ha, Hb.
  split; auto.
  destruct (b_exact b H1) as (_ & _ & _ & S & L & E). rewrite E in L.
  destruct (b_exact b' H2) as (_ & _ & _ & S' & L' & E'). rewrite E' in L'.
  rewrite (qval_band b) by (auto; lra).
  assert (E0 : band_value b' (Q2R (upper b)) = gauss (Q2R (upper b)) / Q2R (upper b) * Q2R (qval b' 0)).
  { rewrite <- He. rewrite (qval_band b') by (auto; lra). f_equal.
    apply Qeq_eqR. unfold qval.
    assert (X : forall p, (qev p (shift b' - shift b') == qev p 0)%Q).
    { induction p as [|a p IH]; cbn [qev]; [reflexivity|]. rewrite IH.
      setoid_replace (shift b' - shift b')%Q with 0%Q by ring. reflexivity. }
    rewrite !X. reflexivity. }
  rewrite E0, <- Rmult_minus_distr_l, Rabs_mult.
  destruct (gauss_bound (upper b) ltac:(lra)) as [G1 G2].
  rewrite Q2R_mult, (Rmult_comm (Q2R step_size)).
  rewrite (Rabs_pos_eq (gauss _ / _)) by lra.
  apply Rmult_le_compat; try lra. apply Rabs_pos. apply Rabs_le. lra.
Qed.

Lemma pick_cons z b r : pick z (b :: r) = if Rlt_dec z (Q2R (upper b)) then Some b else pick z r.
Proof. unfold pick. cbn [find]. destruct (Rlt_dec z (Q2R (upper b))); reflexivity. Qed.

Lemma chain bs : (forall b, In b bs -> In b bands) -> steps_ok bs = true ->
  forall z0 e,
  match bs with
  | b :: _ => Q2R (shift b) = z0 /\ Rabs (band_value b z0 + erf_true z0 - 1) <= e
  | [] => True
  end ->
  forall z b, z0 <= z -> pick z bs = Some b ->
  In b bs /\ Q2R (shift b) <= z < Q2R (upper b) /\
  Rabs (band_value b z + erf_true z - 1) <= e + eps1 * (area z - area z0) + Q2R (jsum bs).
Proof.
  induction bs as [|b0 r IH]; intros Hin Hs z0 e H0 z b Hz Hp.
  - discriminate.
  - destruct H0 as [E0 H0]. rewrite pick_cons in Hp.
    assert (I0 : In b0 bands) by (apply Hin; left; auto).
    destruct (b_exact b0 I0) as (_ & _ & _ & S & L & E). rewrite E in L.
    assert (J0 : 0 <= Q2R (jsum (b0 :: r))).
    { clear -Hin. revert b0 Hin. induction r as [|b1 r IH]; intros b0 Hin; cbn [jsum].
      - unfold Q2R; cbn; lra.
      - rewrite Q2R_plus, Q2R_mult. apply Rplus_le_le_0_compat.
        + destruct (b_exact b0 (Hin b0 (or_introl eq_refl))) as (_ & _ & _ & S & L & E). rewrite E in L.
          destruct (gauss_bound (upper b0) ltac:(lra)). apply Rmult_le_pos; [unfold Q2R; cbn; lra|lra].
        + apply IH. intros b Hb. apply Hin. right; auto. }
    destruct (Rlt_dec z (Q2R (upper b0))) as [Hl|Hg].
    + injection Hp as <-. split; [left; auto|]. split; [lra|].
      pose proof (band_drift b0 z0 z I0 ltac:(lra) ltac:(lra)) as D.
      replace (band_value b0 z + erf_true z - 1)
        with ((band_value b0 z + erf_true z - (band_value b0 z0 + erf_true z0)) + (band_value b0 z0 + erf_true z0 - 1)) by ring.
      eapply Rle_trans; [apply Rabs_triang|]. lra.
    + destruct r as [|b1 r]; [discriminate|].
      cbn [steps_ok] in Hs. apply andb_prop in Hs as [Hs1 Hs2].
      assert (I1 : In b1 bands) by (apply Hin; right; left; auto).
      destruct (step_jump b0 b1 I0 I1 Hs1) as [E1 J1].
      pose proof (band_drift b0 z0 (Q2R (upper b0)) I0 ltac:(lra) ltac:(lra)) as D.
      destruct (IH (fun b Hb => Hin b (or_intror Hb)) Hs2 (Q2R (upper b0))
        (e + eps1 * (area (Q2R (upper b0)) - area z0) + Q2R (step_size * gbound (upper b0)))) with (z := z) (b := b)
        as (A & B & C); auto; try lra.
      * split; auto.
        set (u := Q2R (upper b0)) in *.
        replace (band_value b1 u + erf_true u - 1)
          with ((band_value b1 u - band_value b0 u) +
                ((band_value b0 u + erf_true u - (band_value b0 z0 + erf_true z0)) + (band_value b0 z0 + erf_true z0 - 1))) by ring.
        eapply Rle_trans; [apply Rabs_triang|].
        eapply Rle_trans; [apply Rplus_le_compat_l, Rabs_triang|]. lra.
      * split; [right; auto|]. split; auto.
        change (jsum (b0 :: b1 :: r)) with (step_size * gbound (upper b0) + jsum (b1 :: r))%Q.
        rewrite Q2R_plus. lra.
Qed.
