(* The relative error of the computed tail, followed from z = 110 downwards. *)
From Coq Require Import List QArith Qabs Reals Qreals Lra Lia.
From Coquelicot Require Import Coquelicot.
From Verif Require Import NormModel NormPoly NormPieces NormZero NormGauss NormChain NormErr.
Import ListNotations.
Local Open Scope R_scope.

Definition tail (z : R) : R := 1 - erf_true z.

Lemma tail_derive z : is_derive tail z (- (kappa * gauss z)).
Proof.
  unfold tail. replace (- (kappa * gauss z)) with (0 - kappa * gauss z) by ring.
  apply (is_derive_minus (fun _ => 1) erf_true); [apply (is_derive_const 1 z)|apply erf_true_derive].
Qed.

(** gauss is below every positive bound far enough out *)
Lemma gauss_small e z : 0 < e -> 1 / e <= z -> 1 <= z -> gauss z < e.
Proof.
  intros He Hz H1. unfold gauss. replace (- z * z) with (- (z * z)) by ring. rewrite exp_Ropp.
  pose proof (exp_ineq1_le (z * z)) as E.
  assert (1 * z <= z * z) by (apply Rmult_le_compat_r; lra).
  rewrite <- (Rinv_involutive e) by lra. apply Rinv_lt_contravar.
  - apply Rmult_lt_0_compat; [apply Rinv_0_lt_compat; lra|apply exp_pos].
  - unfold Rdiv in Hz. lra.
Qed.

(** a differentiable function that does not increase and vanishes at infinity is not negative *)
Lemma decays (h : R -> R) a c : 1 <= a ->
  (forall z, a <= z -> exists d, is_derive h z d /\ d <= 0) ->
  (forall z, a <= z -> - (c * gauss z) <= h z) -> 0 <= c -> 0 <= h a.
Proof.
  intros Ha Hd Hb Hc.
  destruct (Rle_dec 0 (h a)) as [|N]; auto. exfalso.
  set (e := - h a / (c + 1)).
  assert (He : 0 < e) by (apply Rdiv_lt_0_compat; lra).
  set (z := Rmax (a + 1) (1 / e)).
  assert (Z1 : a + 1 <= z) by apply Rmax_l. assert (Z2 : 1 / e <= z) by apply Rmax_r.
  pose proof (gauss_small e z He Z2 ltac:(lra)) as G.
  assert (M : h z <= h a).
  { assert (D : forall x, a <= x <= z -> is_derive h x (Derive h x) /\ Derive h x <= 0).
    { intros x Hx. destruct (Hd x ltac:(lra)) as (d & D1 & D2). rewrite (is_derive_unique _ _ _ D1). auto. }
    destruct (MVT_gen h a z (Derive h)) as (x & Hx & E).
    - rewrite Rmin_left, Rmax_right by lra. intros x Hx. apply D. lra.
    - rewrite Rmin_left, Rmax_right by lra. intros x Hx. apply continuity_pt_filterlim.
      apply (ex_derive_continuous h x). eexists. apply D. lra.
    - rewrite Rmin_left, Rmax_right in Hx by lra. destruct (D x Hx) as [_ N'].
      assert (0 <= - Derive h x * (z - a)) by (apply Rmult_le_pos; lra). lra. }
  pose proof (Hb z ltac:(lra)) as B. pose proof (gauss_pos z) as P.
  assert (c * gauss z <= (c + 1) * gauss z) by (apply Rmult_le_compat_r; lra).
  assert ((c + 1) * gauss z < (c + 1) * e) by (apply Rmult_lt_compat_l; lra).
  assert ((c + 1) * e = - h a) by (unfold e; field; lra). lra.
Qed.

(** the lower Mills bound, from 1/2 on *)
Lemma mills z : 0.5 <= z -> kappa * gauss z * z / (1 + 2 * (z * z)) <= tail z.
Proof.
  intros Hz.
  set (h := fun z => tail z - kappa * gauss z * z / (1 + 2 * (z * z))).
  assert (P : forall z, 0 < 1 + 2 * (z * z)).
  { intros y. pose proof (Rle_0_sqr y) as S. unfold Rsqr in S. lra. }
  assert (Dh : forall z, is_derive h z (- 2 * kappa * gauss z / ((1 + 2 * (z * z)) * (1 + 2 * (z * z))))).
  { intros y. pose proof (P y) as Py. unfold h.
    replace (- 2 * kappa * gauss y / ((1 + 2 * (y * y)) * (1 + 2 * (y * y))))
      with (- (kappa * gauss y) - (kappa * ((- 2 * y * gauss y) * y + gauss y) / (1 + 2 * (y * y))
             - kappa * gauss y * y * (4 * y) / ((1 + 2 * (y * y)) * (1 + 2 * (y * y))))) by (field; lra).
    apply (is_derive_minus tail (fun z => kappa * gauss z * z / (1 + 2 * (z * z)))); [apply tail_derive|].
    unfold gauss. auto_derive; [lra|]. field. lra. }
  assert (K : 0 < kappa) by apply kappa_pos.
  assert (Neg : forall z, - 2 * kappa * gauss z / ((1 + 2 * (z * z)) * (1 + 2 * (z * z))) <= 0).
  { intros y. pose proof (P y). pose proof (gauss_pos y).
    assert (0 < 2 * kappa * gauss y / ((1 + 2 * (y * y)) * (1 + 2 * (y * y)))).
    { apply Rdiv_lt_0_compat; [apply Rmult_lt_0_compat; lra|apply Rmult_lt_0_compat; lra]. }
    unfold Rdiv in *. lra. }
  assert (Far : forall a, 1 <= a -> 0 <= h a).
  { intros a Ha. apply (decays h a kappa Ha); try lra.
    - intros y Hy. eexists. split; [apply Dh|apply Neg].
    - intros y Hy. unfold h. pose proof (erf_true_tail y ltac:(lra)) as [T _]. fold (tail y) in T.
      pose proof (P y). pose proof (gauss_pos y).
      assert (kappa * gauss y * y / (1 + 2 * (y * y)) <= kappa * gauss y); [|lra].
      apply Rmult_le_reg_r with (1 + 2 * (y * y)); auto. unfold Rdiv. rewrite Rmult_assoc, Rinv_l by lra.
      rewrite Rmult_1_r. apply Rmult_le_compat_l; [apply Rmult_le_pos; lra|].
      assert (1 * y <= y * y) by (apply Rmult_le_compat_r; lra). lra. }
  assert (G : 0 <= h z); [|unfold h in G; lra].
  destruct (Rle_dec 1 z) as [|N]; [apply Far; auto|].
  pose proof (Far 1 (Rle_refl 1)) as F.
  destruct (MVT_gen h z 1 (fun z => - 2 * kappa * gauss z / ((1 + 2 * (z * z)) * (1 + 2 * (z * z))))) as (c & Hc & E).
  - intros x _. apply Dh.
  - intros x _. apply continuity_pt_filterlim. apply (ex_derive_continuous h x). eexists. apply Dh.
  - pose proof (Neg c) as Nc.
    set (k := - 2 * kappa * gauss c / ((1 + 2 * (c * c)) * (1 + 2 * (c * c)))) in *.
    assert (0 <= - k * (1 - z)) by (apply Rmult_le_pos; lra). lra.
Qed.

Lemma gauss_tail z : 0.5 <= z -> gauss z / z <= (2 + / (z * z)) * tail z.
Proof.
  intros Hz. pose proof (mills z Hz) as M. pose proof kappa_between as K. pose proof (gauss_pos z) as G.
  assert (P : 0 < 1 + 2 * (z * z)) by (assert (0 < z * z) by (apply Rmult_lt_0_compat; lra); lra).
  assert (Zz : 0 < z * z) by (apply Rmult_lt_0_compat; lra).
  assert (M' : gauss z * z / (1 + 2 * (z * z)) <= tail z).
  { eapply Rle_trans; [|exact M]. unfold Rdiv. apply Rmult_le_compat_r; [left; apply Rinv_0_lt_compat; lra|].
    apply Rmult_le_compat_r; [lra|]. assert (1 * gauss z <= kappa * gauss z) by (apply Rmult_le_compat_r; lra). lra. }
  apply Rmult_le_compat_l with (r := 2 + / (z * z)) in M'.
  - eapply Rle_trans; [|exact M']. right. field. lra.
  - assert (0 < / (z * z)) by (apply Rinv_0_lt_compat; lra). lra.
Qed.

(** asymptotic expansion, used at 110 *)
Lemma asym z : 110 <= z ->
  kappa * gauss z * (1 / (2 * z) - 1 / (4 * z ^ 3) + 3 / (8 * z ^ 5) - 15 / (16 * z ^ 7)) <= tail z /\
  tail z <= kappa * gauss z * (1 / (2 * z) - 1 / (4 * z ^ 3) + 3 / (8 * z ^ 5)).
Proof.
  intros Hz. pose proof kappa_between as K.
  assert (Pw : forall y n, 110 <= y -> 0 < y ^ n) by (intros; apply pow_lt; lra).
  set (U := fun z => kappa * gauss z * (1 / (2 * z) - 1 / (4 * z ^ 3) + 3 / (8 * z ^ 5))).
  set (V := fun z => kappa * gauss z * (1 / (2 * z) - 1 / (4 * z ^ 3) + 3 / (8 * z ^ 5) - 15 / (16 * z ^ 7))).
  assert (DU : forall y, 110 <= y -> is_derive U y (- (kappa * gauss y) * (1 + 15 / (8 * y ^ 6)))).
  { intros y Hy. unfold U, gauss. auto_derive.
    - repeat split; try lra; assert (0 < y) by lra; repeat apply Rmult_integral_contrapositive_currified; lra.
    - field. lra. }
  assert (DV : forall y, 110 <= y -> is_derive V y (- (kappa * gauss y) * (1 - 105 / (16 * y ^ 8)))).
  { intros y Hy. unfold V, gauss. auto_derive.
    - repeat split; try lra; assert (0 < y) by lra; repeat apply Rmult_integral_contrapositive_currified; lra.
    - field. lra. }
  assert (B0 : forall y, 110 <= y ->
     0 <= 1 / (2 * y) <= 1 /\ 0 <= 1 / (4 * y ^ 3) <= 1 /\ 0 <= 3 / (8 * y ^ 5) <= 1 /\ 0 <= 15 / (16 * y ^ 7) <= 1).
  { intros y Hy.
    assert (X : forall n, 110 <= y ^ S n).
    { intros n. cbn [pow]. pose proof (pow_R1_Rle y n ltac:(lra)).
      assert (y * 1 <= y * y ^ n) by (apply Rmult_le_compat_l; lra). lra. }
    pose proof (X 2%nat). pose proof (X 4%nat). pose proof (X 6%nat).
    assert (Y : forall a d, 0 < a -> a <= d -> 0 <= a / d <= 1).
    { intros a d Ha Hd. split; [apply Rdiv_le_0_compat; lra|].
      apply Rmult_le_reg_r with d; [lra|]. unfold Rdiv. rewrite Rmult_assoc, Rinv_l; lra. }
    repeat split; apply Y; lra. }
  split.
  - change (V z <= tail z).
    assert (0 <= tail z - V z); [|lra].
    apply (decays (fun z => tail z - V z) z (4 * kappa)); try lra.
    + intros y Hy. exists (- (kappa * gauss y) - - (kappa * gauss y) * (1 - 105 / (16 * y ^ 8))). split.
      * apply (is_derive_minus tail V); [apply tail_derive|apply DV; lra].
      * assert (0 < kappa * gauss y * (105 / (16 * y ^ 8))).
        { apply Rmult_lt_0_compat; [apply Rmult_lt_0_compat; [lra|apply gauss_pos]|].
          apply Rdiv_lt_0_compat; [lra|]. pose proof (Pw y 8%nat ltac:(lra)). lra. }
        lra.
    + intros y Hy. pose proof (erf_true_tail y ltac:(lra)) as [T _]. fold (tail y) in T.
      destruct (B0 y ltac:(lra)) as (? & ? & ? & ?). unfold V.
      assert (0 < kappa * gauss y) by (apply Rmult_lt_0_compat; [lra|apply gauss_pos]).
      assert (kappa * gauss y * (1 / (2 * y) - 1 / (4 * y ^ 3) + 3 / (8 * y ^ 5) - 15 / (16 * y ^ 7)) <= kappa * gauss y * 4)
        by (apply Rmult_le_compat_l; lra).
      lra.
  - change (tail z <= U z).
    assert (0 <= U z - tail z); [|lra].
    apply (decays (fun z => U z - tail z) z (2 + 4 * kappa)); try lra.
    + intros y Hy. exists (- (kappa * gauss y) * (1 + 15 / (8 * y ^ 6)) - - (kappa * gauss y)). split.
      * apply (is_derive_minus U tail); [apply DU; lra|apply tail_derive].
      * assert (0 < kappa * gauss y * (15 / (8 * y ^ 6))).
        { apply Rmult_lt_0_compat; [apply Rmult_lt_0_compat; [lra|apply gauss_pos]|].
          apply Rdiv_lt_0_compat; [lra|]. pose proof (Pw y 6%nat ltac:(lra)). lra. }
        lra.
    + intros y Hy. pose proof (erf_true_tail y ltac:(lra)) as [_ T]. fold (tail y) in T.
      destruct (B0 y ltac:(lra)) as (? & ? & ? & ?). unfold U.
      assert (0 < kappa * gauss y) by (apply Rmult_lt_0_compat; [lra|apply gauss_pos]).
      assert (kappa * gauss y * (-1) <= kappa * gauss y * (1 / (2 * y) - 1 / (4 * y ^ 3) + 3 / (8 * y ^ 5)))
        by (apply Rmult_le_compat_l; lra).
      pose proof (gauss_pos y).
      lra.
Qed.

(** ** from the last arm down *)
Definition band_last : band := Band 110 85 ERF_NN ERF_ND 0.5641584396.
Lemma last_in : In band_last bands.
Proof. unfold bands. do 12 right. left. reflexivity. Qed.

Definition asym_hi : Q := ((1#2) - 1 / 48400 + 3 / (8 * 146410000))%Q.
Definition asym_lo : Q := (asym_hi - 15 / (16 * 1771561000000))%Q.

Lemma top_check :
  Qle_bool (qval band_last 25) (kappa0 * asym_lo * (1 + 1.9e-10)) = true /\
  Qle_bool (kappa0 * asym_hi * (1 - 1.9e-10)) (qval band_last 25) = true.
Proof. apply conj; vm_compute; reflexivity. Qed.

Lemma top_rel : Rabs (band_value band_last 110 - tail 110) <= 2e-10 * tail 110.
Proof.
  assert (E : Q2R 110 = 110) by (unfold Q2R; cbn; lra).
  pose proof (qval_band band_last 110 last_in) as V. rewrite E in V. cbn [shift upper band_last] in V.
  specialize (V ltac:(unfold Q2R; cbn; lra)).
  assert (Eq : Q2R (qval band_last (110 - 85)) = Q2R (qval band_last 25)) by (apply Qeq_eqR; vm_compute; reflexivity).
  rewrite Eq in V. clear Eq.
  destruct (asym 110 ltac:(lra)) as [L U].
  destruct top_check as [C1 C2]. apply Qle_bool_iff, Qle_Rle in C1, C2.
  rewrite !Q2R_mult in C1, C2. rewrite Q2R_plus in C1. rewrite Q2R_minus in C2.
  replace (Q2R 1) with 1 in C1, C2 by (unfold Q2R; cbn; lra).
  replace (Q2R 1.9e-10) with 1.9e-10 in C1, C2 by (unfold Q2R; cbn; lra).
  assert (H : Q2R asym_hi = 1/2 - 1/48400 + 3/(8 * 146410000)) by (unfold asym_hi, Q2R; cbn -[IZR]; field).
  assert (H' : Q2R asym_lo = Q2R asym_hi - 15/(16 * 1771561000000)).
  { unfold asym_lo. rewrite Q2R_minus. f_equal. unfold Q2R; cbn -[IZR]; field. }
  rewrite V. set (q := Q2R (qval band_last 25)) in *. pose proof (gauss_pos 110) as G.
  set (g := gauss 110) in *. set (w := Q2R asym_hi) in *. set (v := Q2R asym_lo) in *.
  replace (kappa * g * (1 / (2 * 110) - 1 / (4 * 110 ^ 3) + 3 / (8 * 110 ^ 5) - 15 / (16 * 110 ^ 7)))
    with (g / 110 * (kappa * v)) in L by (rewrite H', H; field).
  replace (kappa * g * (1 / (2 * 110) - 1 / (4 * 110 ^ 3) + 3 / (8 * 110 ^ 5)))
    with (g / 110 * (kappa * w)) in U by (rewrite H; field).
  pose proof kappa_bounds as K. apply Rabs_le_between in K.
  set (t := tail 110) in *.
  assert (G' : 0 < g / 110) by lra. set (p := g / 110) in *. clearbody p t g.
  assert (Hv : 0.4999 < v < 0.5) by (rewrite H', H; lra).
  assert (Hw : 0.4999 < w < 0.5) by (rewrite H; lra).
  assert (KV : Rabs (kappa * v - Q2R kappa0 * v) <= 1e-15).
  { rewrite <- Rmult_minus_distr_r, Rabs_mult, (Rabs_pos_eq v) by lra.
    assert (Rabs (kappa - Q2R kappa0) * v <= 1e-15 * 1) by (apply Rmult_le_compat; try lra; [apply Rabs_pos|apply Rabs_le; lra]). lra. }
  assert (KW : Rabs (kappa * w - Q2R kappa0 * w) <= 1e-15).
  { rewrite <- Rmult_minus_distr_r, Rabs_mult, (Rabs_pos_eq w) by lra.
    assert (Rabs (kappa - Q2R kappa0) * w <= 1e-15 * 1) by (apply Rmult_le_compat; try lra; [apply Rabs_pos|apply Rabs_le; lra]). lra. }
  apply Rabs_le_between in KV, KW.
  assert (K0 : Q2R kappa0 = 1.128379167095512573896) by (unfold Q2R; cbn; lra).
  assert (KW1 : 0.5 < kappa * w) by (rewrite K0 in KW; lra).
  assert (KV1 : 0.5 < kappa * v) by (rewrite K0 in KV; lra).
  (* q p against t *)
  assert (A1 : q <= (kappa * v) * (1 + 2e-10)) by (rewrite K0 in *; lra).
  assert (A2 : (kappa * w) * (1 - 2e-10) <= q) by (rewrite K0 in *; lra).
  assert (B1 : p * q <= p * ((kappa * v) * (1 + 2e-10))) by (apply Rmult_le_compat_l; lra).
  assert (B2 : p * ((kappa * w) * (1 - 2e-10)) <= p * q) by (apply Rmult_le_compat_l; lra).
  apply Rabs_le. split; lra.
Qed.

Fixpoint ksum (bs : list band) : Q :=
  match bs with
  | b :: ((_ :: _) as r) => (step_size * (2 + 1 / (upper b * upper b)) + ksum r)%Q
  | _ => 2e-10%Q
  end.
Lemma ksum_bands : Qle_bool (ksum bands) 2.5e-9 = true.
Proof. vm_compute. reflexivity. Qed.

Lemma step_rel b b' : In b bands -> In b' bands -> step_ok b b' = true ->
  let u := Q2R (upper b) in
  Rabs (band_value b' u - band_value b u) <= Q2R (step_size * (2 + 1 / (upper b * upper b))) * tail u.
Proof.
  intros H1 H2 H u.
  destruct (b_exact b H1) as (_ & _ & _ & S & L & E). rewrite E in L.
  destruct (b_exact b' H2) as (_ & _ & _ & S' & L' & E'). rewrite E' in L'.
  unfold step_ok in H. apply andb_prop in H as [H Hb]. apply andb_prop in H as [He Ha].
  apply Qeq_bool_iff, Qeq_eqR in He. apply Qle_bool_iff, Qle_Rle in Ha, Hb.
  rewrite Q2R_minus in Ha, Hb.
  assert (E0 : band_value b' u = gauss u / u * Q2R (qval b' 0)).
  { unfold u. rewrite <- He. rewrite (qval_band b') by (auto; lra). f_equal.
    apply Qeq_eqR. unfold qval.
    assert (X : forall p, (qev p (shift b' - shift b') == qev p 0)%Q).
    { induction p as [|a p IH]; cbn [qev]; [reflexivity|]. rewrite IH.
      setoid_replace (shift b' - shift b')%Q with 0%Q by ring. reflexivity. }
    rewrite !X. reflexivity. }
  rewrite E0. pose proof (qval_band b (upper b) H1 ltac:(lra)) as E2. fold u in E2. rewrite E2.
  rewrite <- Rmult_minus_distr_l, Rabs_mult.
  assert (Hu : 0.5 <= u) by (unfold u; lra).
  pose proof (gauss_tail u Hu) as T. pose proof (gauss_pos u) as G.
  assert (0 < gauss u / u) by (apply Rdiv_lt_0_compat; lra).
  rewrite (Rabs_pos_eq (gauss _ / _)) by lra.
  assert (Es : Q2R (step_size * (2 + 1 / (upper b * upper b))) = Q2R step_size * (2 + / (u * u))).
  { rewrite Q2R_mult, Q2R_plus, Q2R_div.
    - rewrite Q2R_mult. fold u. unfold Rdiv. replace (Q2R 1) with 1 by (unfold Q2R; cbn; lra).
      replace (Q2R 2) with 2 by (unfold Q2R; cbn; lra). rewrite Rmult_1_l. reflexivity.
    - intros Z. apply Qeq_eqR in Z. rewrite Q2R_mult in Z. fold u in Z.
      replace (Q2R 0) with 0 in Z by (unfold Q2R; cbn; lra).
      assert (0 < u * u) by (apply Rmult_lt_0_compat; lra). lra. }
  rewrite Es.
  replace (Q2R step_size * (2 + / (u * u)) * tail u) with (((2 + / (u * u)) * tail u) * Q2R step_size) by ring.
  apply Rmult_le_compat; try lra. apply Rabs_pos. apply Rabs_le. lra.
Qed.

Lemma area_tail a b : area b - area a = (tail a - tail b) / kappa.
Proof. unfold tail, erf_true. pose proof kappa_pos. field. lra. Qed.

Lemma ksum_ge bs : (forall b, In b bs -> In b bands) -> 2e-10 <= Q2R (ksum bs).
Proof.
  induction bs as [|b r IH]; intros Hin.
  - cbn. right. unfold Q2R; cbn; lra.
  - destruct r as [|b' r]; [cbn; right; unfold Q2R; cbn; lra|].
    change (ksum (b :: b' :: r)) with (step_size * (2 + 1 / (upper b * upper b)) + ksum (b' :: r))%Q.
    rewrite Q2R_plus. specialize (IH (fun x H => Hin x (or_intror H))).
    assert (0 <= Q2R (step_size * (2 + 1 / (upper b * upper b)))); [|lra].
    replace 0 with (Q2R 0) by (unfold Q2R; cbn; lra). apply Qle_Rle.
    apply Qmult_le_0_compat; [discriminate|].
    apply Qle_trans with (2 + 0)%Q; [discriminate|]. apply Qplus_le_compat; [apply Qle_refl|].
    unfold Qdiv. apply Qmult_le_0_compat; [discriminate|]. apply Qinv_le_0_compat.
    destruct (Qlt_le_dec (upper b) 0).
    + setoid_replace (upper b * upper b)%Q with ((- upper b) * (- upper b))%Q by ring.
      apply Qmult_le_0_compat; rewrite <- (Qopp_involutive 0); apply Qopp_le_compat; apply Qlt_le_weak; auto.
    + apply Qmult_le_0_compat; auto.
Qed.

(** within one arm the relative bound at its upper end carries over *)
Lemma rel_in b z u k : In b bands -> Q2R (shift b) <= z <= u -> u <= Q2R (upper b) -> 2e-10 <= k ->
  Rabs (band_value b u - tail u) <= k * tail u -> Rabs (band_value b z - tail z) <= k * tail z.
Proof.
  intros Hin Hz Hu Hk H.
  destruct (b_exact b Hin) as (_ & _ & _ & S & _).
  pose proof (band_drift b z u Hin ltac:(lra) Hu) as D. rewrite area_tail in D.
  assert (T : tail u <= tail z) by (unfold tail; pose proof (erf_true_incr z u ltac:(lra)); lra).
  pose proof (erf_true_tail u ltac:(lra)) as [Tu _]. fold (tail u) in Tu.
  pose proof kappa_between as K.
  assert (D2 : eps1 * ((tail z - tail u) / kappa) <= k * (tail z - tail u)).
  { unfold Rdiv. rewrite (Rmult_comm _ (/ kappa)), <- Rmult_assoc. apply Rmult_le_compat_r; [lra|].
    apply Rmult_le_reg_r with kappa; [lra|]. rewrite Rmult_assoc, Rinv_l by lra.
    assert (2e-10 * 1.128379167 <= k * kappa) by (apply Rmult_le_compat; lra). unfold eps1. lra. }
  replace (band_value b z - tail z)
    with ((band_value b u - tail u) - (band_value b u + erf_true u - (band_value b z + erf_true z)))
    by (unfold tail; ring).
  eapply Rle_trans; [apply Rabs_triang|]. rewrite Rabs_Ropp. lra.
Qed.

Fixpoint ends (bs : list band) : Prop :=
  match bs with
  | [] => True
  | [b] => b = band_last
  | _ :: r => ends r
  end.

Lemma rel_chain bs : (forall b, In b bs -> In b bands) -> steps_ok bs = true -> ends bs ->
  forall z b, match bs with b0 :: _ => Q2R (shift b0) <= z | [] => True end ->
  pick z bs = Some b ->
  Rabs (band_value b z - tail z) <= Q2R (ksum bs) * tail z.
Proof.
  induction bs as [|b0 r IH]; intros Hin Hs He z b Hz Hp; [discriminate|].
  rewrite pick_cons in Hp.
  assert (I0 : In b0 bands) by (apply Hin; left; auto).
  destruct (b_exact b0 I0) as (_ & _ & _ & S & L & E). rewrite E in L.
  destruct r as [|b1 r].
  - cbn in He. subst b0. destruct (Rlt_dec z (Q2R (upper band_last))) as [Hl|]; [|discriminate].
    injection Hp as <-.
    assert (U : Q2R (upper band_last) = 110) by (unfold Q2R; cbn; lra). rewrite U in *.
    apply (rel_in band_last z 110); auto; try lra.
    + apply (ksum_ge [band_last]). auto.
    + replace (Q2R (ksum [band_last])) with 2e-10 by (cbn; unfold Q2R; cbn; lra). apply top_rel.
  - cbn [steps_ok] in Hs. apply andb_prop in Hs as [Hs1 Hs2].
    assert (I1 : In b1 bands) by (apply Hin; right; left; auto).
    destruct (step_jump b0 b1 I0 I1 Hs1) as [E1 _].
    specialize (IH (fun x H => Hin x (or_intror H)) Hs2 He).
    pose proof (ksum_ge (b0 :: b1 :: r) Hin) as K0.
    pose proof (ksum_ge (b1 :: r) (fun x H => Hin x (or_intror H))) as K1.
    pose proof (step_rel b0 b1 I0 I1 Hs1) as J. cbv zeta in J.
    change (ksum (b0 :: b1 :: r)) with (step_size * (2 + 1 / (upper b0 * upper b0)) + ksum (b1 :: r))%Q in *.
    rewrite Q2R_plus in *.
    set (s1 := Q2R (step_size * (2 + 1 / (upper b0 * upper b0)))) in *.
    set (u := Q2R (upper b0)) in *.
    pose proof (erf_true_tail u ltac:(lra)) as [Tu _]. fold (tail u) in Tu.
    destruct (Rlt_dec z u) as [Hl|Hg].
    + injection Hp as <-. apply (rel_in b0 z u _ I0); [lra|apply Rle_refl|lra|].
      specialize (IH u b1 ltac:(lra)). rewrite pick_cons in IH.
      destruct (b_exact b1 I1) as (_ & _ & _ & S1 & L1 & E1'). rewrite E1' in L1.
      destruct (Rlt_dec u (Q2R (upper b1))) as [|N]; [|exfalso; apply N; lra].
      specialize (IH eq_refl).
      replace (band_value b0 u - tail u)
        with ((band_value b1 u - tail u) + - (band_value b1 u - band_value b0 u)) by ring.
      eapply Rle_trans; [apply Rabs_triang|]. rewrite Rabs_Ropp. lra.
    + specialize (IH z b ltac:(lra) Hp).
      eapply Rle_trans; [exact IH|].
      pose proof (erf_true_tail z ltac:(lra)) as [Tz _]. fold (tail z) in Tz.
      apply Rmult_le_compat_r; auto.
      assert (0 <= s1); [|lra]. unfold s1.
      replace 0 with (Q2R 0) by (unfold Q2R; cbn; lra). apply Qle_Rle.
      apply Qmult_le_0_compat; [discriminate|].
      apply Qle_trans with (2 + 0)%Q; [discriminate|]. apply Qplus_le_compat; [apply Qle_refl|].
      unfold Qdiv. apply Qmult_le_0_compat; [discriminate|]. apply Qinv_le_0_compat.
      apply Qmult_le_0_compat; apply Rle_Qle; replace (Q2R 0) with 0 by (unfold Q2R; cbn; lra); fold u; lra.
Qed.

(** from any z below 110, relative to the exact tail *)
Lemma erf_impl_rel z : z < 110 -> Rabs (erf_impl z true - tail z) <= 2.5e-9 * tail z.
Proof.
  intros Hz. destruct (Rle_dec 0.5 z) as [H|H].
  - unfold erf_impl, erf_pos, erf_result. cbv zeta.
    destruct (Rlt_dec z 0); [lra|]. destruct (Rlt_dec z (Q2R 0.5)); [lra|].
    destruct (Rle_dec (Q2R 0.5) z); [|lra]. cbn [andb]. destruct (Rlt_dec z 110); [|lra].
    destruct (pick_some z ltac:(lra)) as (b & Hb). rewrite Hb.
    pose proof (rel_chain bands (fun b H => H) bands_steps eq_refl z b) as R.
    cbn [bands] in R. specialize (R H Hb). fold bands in R.
    pose proof ksum_bands as K. apply Qle_bool_iff, Qle_Rle in K.
    replace (Q2R 2.5e-9) with 2.5e-9 in K by (unfold Q2R; cbn; lra).
    pose proof (erf_true_tail z ltac:(lra)) as [T _]. fold (tail z) in T.
    eapply Rle_trans; [exact R|]. apply Rmult_le_compat_r; auto.
  - pose proof (erf_impl_err z) as E. fold (tail z) in E. eapply Rle_trans; [exact E|].
    assert (0.2 <= tail z); [|lra].
    pose proof (erf_true_incr z 0.5 ltac:(lra)) as I.
    pose proof (arm_a_err 0.5 ltac:(lra)) as A. apply Rabs_le_between in A.
    pose proof (arm_a_bounds 0.5 ltac:(lra)) as B. unfold tail. lra.
Qed.
