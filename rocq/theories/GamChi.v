(** From the incomplete gamma function to the tail of the chi-squared law. *)
From Coq Require Import ZArith QArith Reals Lra Lia Psatz.
From Coquelicot Require Import Coquelicot.
From Verif Require Import NormModel GamSpec GamModel GamInt GamLan4 GamLan5 GamInc GamSer GamFrac GamUr.
Local Open Scope R_scope.

Definition Ch (k x : R) : R := Up (k / 2) (x / 2) / Gam (k / 2).

Lemma density_eq k G t : 0 < t -> G <> 0 -> chi2_density k G t = / 2 * / G * gamma_weight (k / 2) (t / 2).
Proof.
  intros Ht HG. unfold chi2_density, gamma_weight, Rpower. replace (- t / 2) with (- (t / 2)) by field.
  replace (ln (t / 2)) with (ln t - ln 2) by (unfold Rdiv; rewrite ln_mult, ln_Rinv by lra; ring).
  replace ((k / 2 - 1) * (ln t - ln 2)) with ((k / 2 - 1) * ln t + (- (k / 2 * ln 2) + ln 2)) by ring.
  rewrite !exp_plus, (exp_Ropp (k / 2 * ln 2)), (exp_ln 2) by lra. field. split; first [exact HG | apply Rgt_not_eq, exp_pos].
Qed.
Lemma chi2_prim k x : 0 < k -> 0 < x ->
  is_RInt_gen (chi2_density k (Gam (k / 2))) (at_point x) (Rbar_locally p_infty) (Ch k x).
Proof.
  intros Hk Hx. pose proof (gamma_pos (k / 2) ltac:(lra)) as G.
  replace (Ch k x) with (0 - - / Gam (k / 2) * Up (k / 2) (x / 2)) by (unfold Ch; field; lra).
  apply (prim_gen_from (chi2_density k (Gam (k / 2))) (fun t => - / Gam (k / 2) * Up (k / 2) (t / 2))); auto.
  - intros t Ht. rewrite density_eq by lra. evar_last.
    + apply (is_derive_scal (fun t => Up (k / 2) (t / 2)) t (- / Gam (k / 2))).
      apply (is_derive_comp (Up (k / 2)) (fun t => t / 2) t (- gamma_weight (k / 2) (t / 2)) (/ 2)); [apply up_derive; lra|].
      auto_derive; auto. field.
    + change (- / Gam (k / 2) * (/ 2 * - gamma_weight (k / 2) (t / 2)) = / 2 * / Gam (k / 2) * gamma_weight (k / 2) (t / 2)). ring.
  - intros t Ht. apply (ex_derive_continuous (chi2_density k (Gam (k / 2))) t).
    unfold chi2_density, Rpower. auto_derive. auto.
  - assert (Z : limi (fun t => Up (k / 2) (t / 2)) 0).
    { apply (filterlim_comp _ _ _ (fun t => t / 2) (Up (k / 2)) _ (Rbar_locally p_infty)); [|apply up_lim; lra].
      intros P [M HM]. exists (2 * M). intros y Hy. apply HM. lra. }
    apply (limi_scal _ (- / Gam (k / 2))) in Z. replace (- / Gam (k / 2) * 0) with 0 in Z by ring. exact Z.
Qed.
Lemma tail_Ch k x : 0 < k -> 0 < x -> chi2_tail k x (Ch k x).
Proof. intros. exists (Gam (k / 2)). split; [apply gamma_ex; lra|apply chi2_prim; auto]. Qed.
Lemma tail_uniq k x p : 0 < k -> 0 < x -> chi2_tail k x p -> p = Ch k x.
Proof.
  intros Hk Hx (G & HG & H). rewrite <- (gamma_uniq _ _ HG) in H.
  rewrite <- (@is_RInt_gen_unique R_CompleteNormedModule (at_point x) (Rbar_locally p_infty) _ _ _ p H).
  apply (@is_RInt_gen_unique R_CompleteNormedModule (at_point x) (Rbar_locally p_infty) _ _ _ _ (chi2_prim k x Hk Hx)).
Qed.
Lemma Ch_range k x : 0 < k -> 0 < x -> 0 <= Ch k x <= 1.
Proof.
  intros Hk Hx. pose proof (gamma_pos (k / 2) ltac:(lra)) as G. unfold Ch. split.
  - apply Rdiv_le_0_compat; auto. apply up_nonneg; lra.
  - pose proof (series_low (k / 2) 0 (x / 2) ltac:(lra) ltac:(lra)) as S. pose proof (X_pos (x / 2) (k / 2)).
    assert (0 <= Rpower (x / 2) (k / 2) * exp (- (x / 2)) * (Sn (k / 2) 0 (x / 2) / (k / 2))).
    { apply Rmult_le_pos; [lra|]. cbn. apply Rdiv_le_0_compat; lra. }
    unfold low in S. apply Rmult_le_reg_r with (Gam (k / 2)); auto. unfold Rdiv. rewrite Rmult_assoc, Rinv_l by lra. lra.
Qed.
Lemma tail_defined k x : 0 < k -> 0 < x -> exists p, 0 <= p <= 1 /\ chi2_tail k x p /\ forall p', chi2_tail k x p' -> p' = p.
Proof.
  intros Hk Hx. exists (Ch k x). split; [apply Ch_range; auto|]. split; [apply tail_Ch; auto|].
  intros p' H. apply tail_uniq; auto.
Qed.

Definition gives (f : nat -> option outcome) (q : R) : Prop :=
  exists N, forall fuel, (N <= fuel)%nat -> f fuel = Some (Val (Fin q)).

Lemma half : Q2R 0.5 = 1 / 2.
Proof. unfold Q2R. cbn. lra. Qed.
Lemma dof_pos d : (1 <= d)%nat -> 1 / 2 <= INR d / 2.
Proof. intros H. apply le_INR in H. cbn in H. lra. Qed.
Lemma pv_eq fuel x shape : 0 < x -> gamma_sf fuel (Fin x) shape (Q2R 0.5) = gamma_ur fuel shape (x / 2).
Proof.
  intros Hx. unfold gamma_sf. destruct (Rle_dec x 0); [lra|]. rewrite half. f_equal. field.
Qed.
Lemma body_ok f d x p : (forall fuel, f fuel = gamma_ur fuel (INR d / 2) (x / 2)) -> (1 <= d)%nat -> 2 * PREC_ACC <= x ->
  (x < 2 \/ x <= INR d) -> chi2_tail (INR d) x p ->
  exists q, gives f q /\ Rabs (q - p) <= 1e-15 * (1 + sqrt (x / 2) + 1e-14 * (x / 2)).
Proof.
  intros Hf Hd Hx Hc Ht. pose proof (dof_pos d Hd). pose proof prec_eq.
  destruct (ur_series (INR d / 2) (x / 2) ltac:(auto) ltac:(lra) ltac:(lra)) as (N & q & Hq & Hb).
  exists q. rewrite (tail_uniq (INR d) x p ltac:(lra) ltac:(lra) Ht). split; [|exact Hb].
  exists N. intros fuel Hfu. rewrite Hf. auto.
Qed.
Lemma tail_ok f d x p : (forall fuel, f fuel = gamma_ur fuel (INR d / 2) (x / 2)) -> (1 <= d)%nat -> 2 <= x -> INR d < x ->
  chi2_tail (INR d) x p -> exists q, gives f q /\ Rabs (q - p) <= 1.4e-12 * p + 1e-299.
Proof.
  intros Hf Hd Hx Hc Ht. pose proof (dof_pos d Hd).
  destruct (ur_fraction (INR d / 2) (x / 2) ltac:(lra) ltac:(lra)) as (N & q & Hq & Hb).
  exists q. rewrite (tail_uniq (INR d) x p ltac:(lra) ltac:(lra) Ht). split; [|exact Hb].
  exists N. intros fuel Hfu. rewrite Hf. auto.
Qed.
Lemma chi2_eq d x : 0 < x -> forall fuel, chi2_pvalue fuel (Fin x) d = gamma_ur fuel (INR d / 2) (x / 2).
Proof. intros Hx fuel. unfold chi2_pvalue. apply pv_eq; auto. Qed.
Lemma k2_eq x : 0 < x -> forall fuel, k2_pvalue fuel (Fin x) = gamma_ur fuel (INR 2 / 2) (x / 2).
Proof. intros Hx fuel. unfold k2_pvalue. rewrite pv_eq by auto. f_equal. cbn. field. Qed.

Lemma chi2_body d x p : (1 <= d)%nat -> 2.4e-15 <= x -> (x < 2 \/ x <= INR d) -> chi2_tail (INR d) x p ->
  exists q, gives (fun fuel => chi2_pvalue fuel (Fin x) d) q /\ Rabs (q - p) <= 1e-15 * (1 + sqrt (x / 2) + 1e-14 * (x / 2)).
Proof.
  intros Hd Hx Hc Ht. pose proof prec_eq as P.
  pose proof prec_eq as PA.
  apply (body_ok _ d x p); auto; [apply chi2_eq; lra|lra].
Qed.
Lemma chi2_upper d x p : (1 <= d)%nat -> 2 <= x -> INR d < x -> chi2_tail (INR d) x p ->
  exists q, gives (fun fuel => chi2_pvalue fuel (Fin x) d) q /\ Rabs (q - p) <= 1.4e-12 * p + 1e-299.
Proof. intros. apply (tail_ok _ d x p); auto. apply chi2_eq; lra. Qed.
Lemma chi2_small d x p : (1 <= d)%nat -> 0 < x < 2.4e-15 -> chi2_tail (INR d) x p ->
  exists q, gives (fun fuel => chi2_pvalue fuel (Fin x) d) q /\ Rabs (q - p) <= 1.1e-7.
Proof.
  intros Hd Hx Ht. pose proof (dof_pos d Hd) as D.
  destruct (Rlt_dec (x / 2) PREC_ACC) as [L|L].
  - destruct (ur_tiny (INR d / 2) (x / 2) D ltac:(lra)) as [A B]. exists 1. rewrite (tail_uniq (INR d) x p ltac:(lra) ltac:(lra) Ht).
    split; [exists 0%nat; intros; rewrite chi2_eq by lra; apply A|exact B].
  - destruct (body_ok (fun fuel => chi2_pvalue fuel (Fin x) d) d x p) as (q & G & B); auto; [apply chi2_eq; lra|lra|left; lra|].
    exists q. split; auto. apply Rle_trans with (1 := B).
    assert (sqrt (x / 2) <= 1) by (rewrite <- sqrt_1; apply sqrt_le_1; lra). lra.
Qed.
Lemma two_dof x : 0 < x -> chi2_tail 2 x (exp (- x / 2)).
Proof.
  intros Hx. replace (exp (- x / 2)) with (Ch 2 x); [apply tail_Ch; lra|].
  unfold Ch. replace (2 / 2) with 1 by field. rewrite gamma_1.
  assert (U : is_upper_gamma 1 (x / 2) (0 - - exp (- (x / 2)))).
  { apply (prim_gen_from (gamma_weight 1) (fun t => - exp (- t))); [| |lra|].
    - intros t Ht. unfold gamma_weight. replace (1 - 1) with 0 by ring. rewrite Rpower_O by auto. auto_derive; auto. ring.
    - intros. apply w_cont. auto.
    - apply (limi_ext (fun t => -1 * (Rpower t 0 * exp (- t))) _ _ 0).
      + intros t Ht. rewrite Rpower_O by auto. ring.
      + pose proof (limi_scal _ (-1) _ (pow_exp_lim 0)) as Z. replace (-1 * 0) with 0 in Z by ring. exact Z. }
  rewrite (up_uniq _ _ _ U). replace (- x / 2) with (- (x / 2)) by field. field.
Qed.
Lemma k2_body x : 2.4e-15 <= x <= 2 -> exists q, gives (fun fuel => k2_pvalue fuel (Fin x)) q /\ Rabs (q - exp (- x / 2)) <= 2.1e-15.
Proof.
  intros Hx.
  pose proof prec_eq as PA.
  destruct (body_ok (fun fuel => k2_pvalue fuel (Fin x)) 2 x (exp (- x / 2))) as (q & G & B);
    [apply k2_eq; lra|lia|lra|right; cbn; lra|apply (two_dof x); lra|].
  exists q. split; auto. apply Rle_trans with (1 := B).
  assert (sqrt (x / 2) <= 1) by (rewrite <- sqrt_1; apply sqrt_le_1; lra). lra.
Qed.
Lemma k2_upper x : 2 < x -> exists q, gives (fun fuel => k2_pvalue fuel (Fin x)) q /\
  Rabs (q - exp (- x / 2)) <= 1.4e-12 * exp (- x / 2) + 1e-299.
Proof.
  intros Hx. apply (tail_ok _ 2 x); [apply k2_eq; lra|lia|lra|cbn; lra|apply (two_dof x); lra].
Qed.
Lemma edges :
  (forall fuel d, chi2_pvalue fuel NaN d = Some (Val NaN)) /\
  (forall fuel d x, x <= 0 -> chi2_pvalue fuel (Fin x) d = Some (Val (Fin 1))) /\
  (forall fuel d, chi2_pvalue fuel PInf d = Some (Val (Fin 0))) /\
  (forall fuel x, 0 < x -> chi2_pvalue fuel (Fin x) 0 = Some Fails) /\
  (forall fuel, k2_pvalue fuel NaN = Some (Val NaN)) /\
  (forall fuel x, x <= 0 -> k2_pvalue fuel (Fin x) = Some (Val (Fin 1))).
Proof.
  split; [reflexivity|]. split; [|split; [reflexivity|]; split; [|split; [reflexivity|]]].
  - intros. unfold chi2_pvalue, gamma_sf. destruct (Rle_dec x 0); [reflexivity|lra].
  - intros. rewrite chi2_eq by auto. unfold gamma_ur. destruct (Rle_dec _ 0) as [L|L]; [reflexivity|]. cbn in L. lra.
  - intros. unfold k2_pvalue, gamma_sf. destruct (Rle_dec x 0); [reflexivity|lra].
Qed.
Lemma tiny_off : exists x p, 0 < x /\ chi2_tail 1 x p /\
  (forall fuel, chi2_pvalue fuel (Fin x) 1 = Some (Val (Fin 1))) /\ p < 1 - 3e-8.
Proof.
  pose proof prec_eq as P. exists 2e-15, (Ch 1 2e-15). split; [lra|]. split; [apply tail_Ch; lra|]. split.
  - intros fuel. rewrite chi2_eq by lra. destruct (ur_tiny (INR 1 / 2) (2e-15 / 2) ltac:(cbn; lra) ltac:(lra)) as [A _]. apply A.
  - unfold Ch. set (y := 2e-15 / 2). assert (Hy : 0 < y) by (unfold y; lra).
    pose proof (gamma_pos (1 / 2) ltac:(lra)) as G.
    pose proof (gautschi 1 (1 / 2) ltac:(lra) ltac:(lra)) as E. rewrite gamma_1 in E.
    replace (Rpower 1 (1 / 2)) with 1 in E by (unfold Rpower; rewrite ln_1, Rmult_0_r, exp_0; auto).
    replace (1 + 1 / 2) with (1 / 2 + 1) in E by ring. rewrite gamma_step in E by lra.
    pose proof (series_low (1 / 2) 0 y ltac:(lra) Hy) as S. cbn [Sn] in S.
    assert (A : 3.15e-8 <= Rpower y (1 / 2)).
    { unfold Rpower. replace 3.15e-8 with (exp (ln 3.15e-8)) by (apply exp_ln; lra).
      assert (L : 2 * ln 3.15e-8 <= ln y).
      { replace (2 * ln 3.15e-8) with (ln (3.15e-8 * 3.15e-8)) by (rewrite ln_mult by lra; ring). apply ln_mono. unfold y. lra. }
      destruct (Rle_lt_or_eq_dec (ln 3.15e-8) (1 / 2 * ln y)) as [Q|Q]; [lra|left; apply exp_increasing; auto|rewrite Q; right; auto]. }
    assert (B : 1 - y <= exp (- y)) by (pose proof (exp_ineq1_le (- y)); lra).
    assert (C : 3.1e-8 <= Rpower y (1 / 2) * exp (- y)) by (unfold y in *; nra).
    unfold low in S. set (W := Rpower y (1 / 2) * exp (- y)) in *. clearbody W.
    apply Rmult_lt_reg_r with (Gam (1 / 2)); auto. unfold Rdiv at 1. rewrite Rmult_assoc, Rinv_l, Rmult_1_r by lra.
    nra.
Qed.
