(* Where the incomplete beta integral lies relative to two successive convergents of its continued fraction. *)
From Coq Require Import Reals Lra Lia Arith.
From Coquelicot Require Import Coquelicot.
From Verif Require Import GamSpec GamInt GamInc BetaSpec BetaInt BetaFrac.
Local Open Scope R_scope.

(** ** the part of the area beyond a point *)
Definition Upb (a b s : R) : R := RInt_gen (beta_kernel a b) (at_point s) (Rbar_locally p_infty).
Lemma upb_facts a b : 0 < a -> 0 < b -> exists l0 l1, lim0 (bvol a b) l0 /\ limi (bvol a b) l1 /\ Bet a b = l1 - l0 /\
  forall s, 0 < s -> is_RInt_gen (beta_kernel a b) (at_point s) (Rbar_locally p_infty) (Upb a b s) /\ Upb a b s = l1 - bvol a b s.
Proof.
  intros Ha Hb. destruct (bvol_lims a b Ha Hb) as (l0 & l1 & H0 & H1 & _). exists l0, l1.
  repeat split; auto; [apply beta_lims; auto| |].
  all: pose proof (prim_gen_from (beta_kernel a b) (bvol a b) s l1 (fun t Ht => bvol_derive a b t Ht) (fun t Ht => k_cont a b t Ht) H H1) as I.
  all: assert (E : Upb a b s = l1 - bvol a b s)
        by (apply (@is_RInt_gen_unique R_CompleteNormedModule (at_point s) (Rbar_locally p_infty) _ _ _ _ I)).
  - rewrite E. exact I.
  - exact E.
Qed.
Lemma upb_int a b s : 0 < a -> 0 < b -> 0 < s -> is_RInt_gen (beta_kernel a b) (at_point s) (Rbar_locally p_infty) (Upb a b s).
Proof. intros Ha Hb Hs. destruct (upb_facts a b Ha Hb) as (l0 & l1 & _ & _ & _ & H). apply H; auto. Qed.
Lemma upb_derive a b s : 0 < a -> 0 < b -> 0 < s -> is_derive (Upb a b) s (- beta_kernel a b s).
Proof.
  intros Ha Hb Hs. destruct (upb_facts a b Ha Hb) as (l0 & l1 & _ & _ & _ & H).
  apply (is_derive_ext_loc (fun u => l1 - bvol a b u)).
  - exists (mkposreal s Hs). intros y Hy. apply Rabs_def2 in Hy. cbn in Hy. unfold minus, plus, opp in Hy. cbn in Hy.
    symmetry. apply H. lra.
  - eapply is_derive_val; [apply (is_derive_minus (fun _ => l1) (bvol a b)); [exact (is_derive_const (V := R_NormedModule) l1 s)|apply bvol_derive; auto]|].
    unfold minus, plus, opp, zero; cbn. ring.
Qed.
Lemma upb_limi a b : 0 < a -> 0 < b -> limi (Upb a b) 0.
Proof.
  intros Ha Hb. destruct (upb_facts a b Ha Hb) as (l0 & l1 & _ & L1 & _ & H).
  apply (limi_ext (fun x => (fun _ => l1) x + -1 * bvol a b x) _ _ 0); [intros x Hx; destruct (H x Hx) as (_ & ->); ring|].
  replace 0 with (l1 + -1 * l1) by ring. apply limi_plus; [apply filterlim_const|]. apply limi_scal; auto.
Qed.
Lemma upb_lim0 a b : 0 < a -> 0 < b -> lim0 (Upb a b) (Bet a b).
Proof.
  intros Ha Hb. destruct (upb_facts a b Ha Hb) as (l0 & l1 & L0 & _ & E & H).
  apply (lim0_ext (fun x => (fun _ => l1) x + -1 * bvol a b x)); [intros x Hx; destruct (H x Hx) as (_ & ->); ring|].
  rewrite E. replace (l1 - l0) with (l1 + -1 * l0) by ring. apply lim0_plus; [apply filterlim_const|]. apply lim0_scal; auto.
Qed.
Lemma upb_pos a b s : 0 < a -> 0 < b -> 0 < s -> 0 < Upb a b s < Bet a b.
Proof.
  intros Ha Hb Hs.
  assert (S1 : forall u v, 0 < u -> u < v -> Upb a b v < Upb a b u).
  { intros u v Hu Huv. destruct (MVT_gen (Upb a b) u v (fun t => - beta_kernel a b t)) as (c & Hc & E).
    - intros y Hy. rewrite Rmin_left, Rmax_right in Hy by lra. apply upb_derive; lra.
    - intros y Hy. rewrite Rmin_left, Rmax_right in Hy by lra. apply continuity_pt_filterlim.
      apply (ex_derive_continuous (Upb a b) y). eexists. apply upb_derive; lra.
    - pose proof (k_pos a b c). nra. }
  split.
  - assert (0 <= Upb a b (s + 1)); [|pose proof (S1 s (s + 1) Hs ltac:(lra)); lra].
    apply (filterlim_le (F := Rbar_locally p_infty) (Upb a b) (fun _ => Upb a b (s + 1)) (Finite 0) (Finite (Upb a b (s + 1)))).
    + apply (neari _ (s + 1)). intros t Ht. left. apply S1; lra.
    + apply upb_limi; auto.
    + apply filterlim_const.
  - assert (Upb a b (s / 2) <= Bet a b); [|pose proof (S1 (s / 2) s ltac:(lra) ltac:(lra)); lra].
    apply (filterlim_le (F := at_right 0) (fun _ => Upb a b (s / 2)) (Upb a b) (Finite (Upb a b (s / 2))) (Finite (Bet a b))).
    + apply (near0 _ (s / 2)); [lra|]. intros t Ht. left. apply S1; lra.
    + apply filterlim_const.
    + apply upb_lim0; auto.
Qed.

(** ** as an integral from 0 *)
Definition Inc (a b x : R) : R := Upb a b ((1 - x) / x).
Definition wt (a b t : R) : R := Rpower t (a - 1) * Rpower (1 - t) (b - 1).
Definition Wt (a b t : R) : R := Rpower t a * Rpower (1 - t) b.
Lemma wt_pos a b t : 0 < wt a b t. Proof. apply Rmult_lt_0_compat; apply exp_pos. Qed.
Lemma Wt_pos a b t : 0 < Wt a b t. Proof. apply Rmult_lt_0_compat; apply exp_pos. Qed.
Lemma rp_1 t c : 0 < t -> Rpower t c = t * Rpower t (c - 1).
Proof. intros Ht. rewrite <- (Rpower_1 t Ht) at 2. rewrite <- Rpower_plus. f_equal. ring. Qed.
Lemma Wt_wt a b t : 0 < t < 1 -> Wt a b t = t * (1 - t) * wt a b t.
Proof. intros Ht. unfold Wt, wt. rewrite (rp_1 t a), (rp_1 (1 - t) b) by lra. ring. Qed.
Lemma k_wt a b t : 0 < t < 1 -> beta_kernel a b ((1 - t) / t) / (t * t) = wt a b t.
Proof.
  intros Ht. unfold beta_kernel, wt. replace (1 + (1 - t) / t) with (/ t) by (field; lra).
  assert (0 < / t) by (apply Rinv_0_lt_compat; lra).
  unfold Rdiv at 2. rewrite <- Rpower_mult_distr by lra.
  replace (Rpower (/ t) (b - 1)) with (Rpower t (- (b - 1))) by (unfold Rpower; rewrite ln_Rinv by lra; f_equal; ring).
  replace (Rpower (/ t) (- (a + b))) with (Rpower t (a + b)) by (unfold Rpower; rewrite ln_Rinv by lra; f_equal; ring).
  replace (a + b) with ((a - 1) + (b - 1) + 1 + 1) by ring. rewrite !Rpower_plus, !Rpower_1, Rpower_Ropp by lra.
  field. split; (lra || apply Rgt_not_eq, exp_pos).
Qed.
Lemma Inc_derive a b t : 0 < a -> 0 < b -> 0 < t < 1 -> is_derive (Inc a b) t (wt a b t).
Proof.
  intros Ha Hb Ht. assert (0 < (1 - t) / t) by (apply Rdiv_lt_0_compat; lra). unfold Inc.
  eapply is_derive_val.
  - apply (is_derive_comp (Upb a b) (fun u => (1 - u) / u)); [apply upb_derive; auto|]. auto_derive; [lra|reflexivity].
  - unfold scal; cbn; unfold mult; cbn. rewrite <- k_wt by auto. field. lra.
Qed.
Lemma Inc_lim0 a b : 0 < a -> 0 < b -> lim0 (Inc a b) 0.
Proof.
  intros Ha Hb. unfold lim0, Inc. eapply filterlim_comp; [|apply upb_limi; auto].
  intros P [M HM]. apply (near0 _ (/ (Rabs M + 1))).
  - apply Rinv_0_lt_compat. pose proof (Rabs_pos M). lra.
  - intros x [Hx Hx2]. apply HM. pose proof (Rabs_pos M). pose proof (Rle_abs M).
    assert (Rabs M + 1 < / x).
    { rewrite <- (Rinv_inv (Rabs M + 1)). apply Rinv_lt_contravar; auto. apply Rmult_lt_0_compat; auto. apply Rinv_0_lt_compat. lra. }
    replace ((1 - x) / x) with (/ x - 1) by (field; lra). lra.
Qed.
Lemma Inc_pos a b x : 0 < a -> 0 < b -> 0 < x < 1 -> 0 < Inc a b x < Bet a b.
Proof. intros Ha Hb Hx. apply upb_pos; auto. apply Rdiv_lt_0_compat; lra. Qed.
Lemma Wt_derive a b t : 0 < t < 1 -> is_derive (Wt a b) t (wt a b t * (a - (a + b) * t)).
Proof.
  intros Ht. eapply is_derive_val.
  - apply (is_derive_mult (fun u => Rpower u a) (fun u => Rpower (1 - u) b)).
    + apply pow_derive. lra.
    + apply (is_derive_comp (fun v => Rpower v b) (fun u => 1 - u)); [apply pow_derive; lra|]. auto_derive; auto.
    + intros; apply Rmult_comm.
  - unfold plus, scal, mult; cbn. unfold mult; cbn. unfold wt. rewrite (rp_1 t a), (rp_1 (1 - t) b) by lra. ring.
Qed.

Lemma late_alg a D N p w xn q1 q0 e x K : 0 < a -> 1 <= N -> 0 <= p -> 0 < w -> 0 <= xn -> 0 < q1 -> 0 < q0 -> 0 < x < 1 ->
  e * x * q0 * D <= N * q1 -> 1 <= K * (1 - x) ->
  D * (p * e) / (N * (a * (q1 * q1))) * (x * xn * x * w) <= x * (1 - x) * w / a * (K * (p * xn * / (q1 * q0))).
Proof.
  intros Ha HN Hp Hw Hxn H1 H0 Hx F HK. set (Z := x * w * p * xn / (a * q1 * q0)).
  assert (HZ : 0 <= Z). { unfold Z. apply Rdiv_le_0_compat; [repeat apply Rmult_le_pos; lra|repeat apply Rmult_lt_0_compat; lra]. }
  replace (D * (p * e) / (N * (a * (q1 * q1))) * (x * xn * x * w)) with (Z * ((e * x * q0 * D) / (N * q1))) by (unfold Z; field; lra).
  replace (x * (1 - x) * w / a * (K * (p * xn * / (q1 * q0)))) with (Z * (K * (1 - x))) by (unfold Z; field; lra).
  apply Rmult_le_compat_l; auto. apply Rle_trans with 1; auto.
  assert (0 < N * q1) by (apply Rmult_lt_0_compat; lra).
  apply Rmult_le_reg_r with (N * q1); auto. unfold Rdiv. rewrite Rmult_assoc, Rinv_l by lra. lra.
Qed.

Section Err.
Variables a b : R.
Hypothesis Ha : 0 < a.
Hypothesis Hb : 0 < b.
Notation P := (Pn a b).
Notation Q := (Qn a b).
Notation top := (top a b).

Definition En n t := Inc a b t - Wt a b t / a * (P n t / Q n t).
Definition En' n t := wt a b t * ((a + INR n + 1) * pw a b (S n) * t ^ (S n)) / (a * (Q n t * Q n t)).
Lemma En_derive n t : 0 < t <= top -> is_derive (En n) t (En' n t).
Proof.
  intros Ht. destruct (top_1 a b Ha Hb) as (T0 & T1 & _). pose proof (Q_pos a b Ha Hb n t ltac:(lra)) as HQ.
  unfold En. eapply is_derive_val.
  - apply (is_derive_minus (Inc a b) (fun t => Wt a b t / a * (P n t / Q n t))); [apply Inc_derive; auto; lra|].
    apply (is_derive_mult (fun t => Wt a b t / a) (fun t => P n t / Q n t)).
    + apply (is_derive_ext (fun u => / a * Wt a b u)); [intros; unfold Rdiv; apply Rmult_comm|].
      apply (is_derive_scal (Wt a b) t (/ a)). apply Wt_derive. lra.
    + apply (is_derive_div (P n) (Q n)); [exact (proj1 (P_derive a b Ha n t ltac:(lra)))|exact (proj1 (Q_derive a b Ha n t ltac:(lra)))|lra].
    + intros; apply Rmult_comm.
  - pose proof (det a b n t) as D. rewrite Wt_wt by lra. unfold En', dP, dQ. cbn [pw pow].
    revert D HQ. generalize (P n t) (Q n t) (Pp a b n t) (Qp a b n t) (pw a b n) (ee a b n) (qq a b n) (wt a b t) (t ^ n) (INR n).
    intros p q pp qp w0 e k w tn nn D HQ. unfold minus, plus, opp, mult; cbn.
    replace (w * ((a + nn + 1) * (w0 * e) * (t * tn)) / (a * (q * q)))
      with (w * ((a + nn + 1) * e * t * (w0 * tn)) / (a * (q * q))) by (field; lra).
    rewrite <- D. match goal with |- ?u = ?v => change (@eq R u v) end. field. lra.
Qed.

Lemma conv_bnd um u0 n : exists K, 0 <= K /\ forall x, 0 <= x <= 1 ->
  Rabs (fst (conv a b um u0 n x)) <= K /\ Rabs (snd (conv a b um u0 n x)) <= K.
Proof.
  induction n as [|n (K & HK & I)].
  - exists (Rabs u0 + Rabs um). pose proof (Rabs_pos u0). pose proof (Rabs_pos um). split; [lra|]. intros x _. cbn. lra.
  - exists (K + Rabs (ee a b n) * K). pose proof (Rabs_pos (ee a b n)).
    assert (0 <= Rabs (ee a b n) * K) by (apply Rmult_le_pos; auto). split; [lra|].
    intros x Hx. destruct (I x Hx) as [I1 I2]. rewrite conv_S. cbn [fst snd]. split; [|lra].
    eapply Rle_trans; [apply Rabs_triang|]. rewrite Rabs_Ropp, !Rabs_mult, (Rabs_pos_eq x) by lra.
    assert (Rabs (ee a b n) * x * Rabs (snd (conv a b um u0 n x)) <= Rabs (ee a b n) * 1 * K).
    { apply Rmult_le_compat; auto; [apply Rmult_le_pos; lra|apply Rabs_pos|]. apply Rmult_le_compat_l; lra. }
    lra.
Qed.
Lemma pow_lim0 c K : 0 < c -> 0 <= K -> forall e, 0 < e -> exists d, 0 < d /\ forall t, 0 < t < d -> Rpower t c * K < e.
Proof.
  intros Hc HK e He. set (e' := e / (K + 1)). assert (He' : 0 < e') by (apply Rdiv_lt_0_compat; lra).
  exists (Rpower e' (/ c)). split; [apply exp_pos|]. intros t Ht.
  assert (Rpower t c < e').
  { replace e' with (Rpower (Rpower e' (/ c)) c) by (rewrite Rpower_mult, Rinv_l by lra; apply Rpower_1; auto).
    apply Rlt_Rpower_l; auto. }
  assert (Rpower t c * K <= e' * K) by (apply Rmult_le_compat_r; lra).
  assert (e' * K < e); [|lra]. unfold e'. replace e with (e / (K + 1) * (K + 1)) at 2 by (field; lra).
  apply Rmult_lt_compat_l; [exact He'|lra].
Qed.
Lemma En_lim0 n x : 0 < x <= top -> lim0 (En n) 0.
Proof.
  intros Hx. destruct (top_1 a b Ha Hb) as (T0 & T1 & _).
  destruct (conv_bnd 0 1 n) as (K & HK & HB).
  apply (lim0_ext (fun t => Inc a b t + (-1) * (Wt a b t / a * (P n t / Q n t)))); [intros; unfold En; ring|].
  replace 0 with (0 + (-1) * 0) by ring. apply lim0_plus; [apply Inc_lim0; auto|].
  apply (lim0_scal (fun t => Wt a b t / a * (P n t / Q n t)) (-1)). apply lim0_eps. intros e He.
  pose proof (Q_pos a b Ha Hb n x ltac:(lra)) as HQ.
  assert (HK' : 0 <= / a * (K / Q n x)).
  { apply Rmult_le_pos; [left; apply Rinv_0_lt_compat; auto|]. apply Rdiv_le_0_compat; auto. }
  destruct (pow_lim0 a (/ a * (K / Q n x)) Ha HK' e He) as (d & Hd & Hlt).
  exists (Rmin d x). split; [apply Rmin_pos; lra|]. intros t [Ht Ht2].
  assert (t < d) by (eapply Rlt_le_trans; [exact Ht2|apply Rmin_l]). assert (t < x) by (eapply Rlt_le_trans; [exact Ht2|apply Rmin_r]).
  specialize (Hlt t ltac:(lra)). eapply Rle_lt_trans; [|exact Hlt].
  rewrite Rminus_0_r. pose proof (P_pos a b Ha Hb n t ltac:(lra)) as HP. pose proof (Q_pos a b Ha Hb n t ltac:(lra)) as HQt.
  pose proof (Wt_pos a b t) as HW.
  rewrite Rabs_pos_eq by (apply Rmult_le_pos; [apply Rdiv_le_0_compat; lra|apply Rdiv_le_0_compat; lra]).
  destruct (HB t ltac:(lra)) as [B1 _]. fold (P n t) in B1. rewrite Rabs_pos_eq in B1 by lra.
  pose proof (Q_anti a b Ha Hb n t x ltac:(lra) ltac:(lra) ltac:(lra)) as QA.
  assert (P n t / Q n t <= K / Q n x).
  { unfold Rdiv. apply Rmult_le_compat; [lra|left; apply Rinv_0_lt_compat; auto|auto|apply Rinv_le_contravar; auto]. }
  assert (Wt a b t <= Rpower t a).
  { unfold Wt. rewrite <- (Rmult_1_r (Rpower t a)) at 2. apply Rmult_le_compat_l; [left; apply exp_pos|].
    apply Rle_trans with (Rpower 1 b); [apply Rle_Rpower_l; lra|]. unfold Rpower. rewrite ln_1, Rmult_0_r, exp_0. lra. }
  unfold Rdiv at 1. rewrite Rmult_assoc. apply Rmult_le_compat; [lra| |auto|].
  - apply Rmult_le_pos; [left; apply Rinv_0_lt_compat; auto|apply Rdiv_le_0_compat; lra].
  - apply Rmult_le_compat_l; [left; apply Rinv_0_lt_compat; auto|auto].
Qed.

(** the sign of the difference *)
Lemma En_nonneg n x : 0 < x <= top -> 0 <= pw a b (S n) -> 0 <= En n x.
Proof.
  intros Hx Hp. apply (from_zero (En n) (En' n) x); [lra| | |apply (En_lim0 n x); auto].
  - intros t Ht. apply En_derive. lra.
  - intros t Ht. unfold En'. pose proof (Q_pos a b Ha Hb n t ltac:(lra)). pose proof (pos_INR n). pose proof (wt_pos a b t).
    apply Rdiv_le_0_compat; [|repeat apply Rmult_lt_0_compat; auto].
    apply Rmult_le_pos; [lra|]. apply Rmult_le_pos; [apply Rmult_le_pos; lra|apply pow_le; lra].
Qed.
Lemma lim0_opp F : lim0 F 0 -> lim0 (fun t => - F t) 0.
Proof.
  intros H. apply (lim0_ext (fun t => -1 * F t)); [intros; ring|]. replace 0 with (-1 * 0) by ring. apply lim0_scal; auto.
Qed.
Lemma En_nonpos n x : 0 < x <= top -> pw a b (S n) <= 0 -> En n x <= 0.
Proof.
  intros Hx Hp. assert (0 <= - En n x); [|lra].
  apply (from_zero (fun t => - En n t) (fun t => - En' n t) x); [lra| | |apply lim0_opp, (En_lim0 n x); auto].
  - intros t Ht. apply (is_derive_opp (En n) t). apply En_derive. lra.
  - intros t Ht. unfold En'. pose proof (Q_pos a b Ha Hb n t ltac:(lra)). pose proof (pos_INR n). pose proof (wt_pos a b t).
    replace (- (wt a b t * ((a + INR n + 1) * pw a b (S n) * t ^ S n) / (a * (Q n t * Q n t))))
      with (wt a b t * ((a + INR n + 1) * (- pw a b (S n)) * t ^ S n) / (a * (Q n t * Q n t))) by (field; lra).
    apply Rdiv_le_0_compat; [|repeat apply Rmult_lt_0_compat; auto].
    apply Rmult_le_pos; [lra|]. apply Rmult_le_pos; [apply Rmult_le_pos; lra|apply pow_le; lra].
Qed.

(** the size of the difference *)
Definition Bd n t := Rpower t (a + INR n + 1) * Rpower (1 - t) (b - 1).
Lemma Bd_eq n t : 0 < t < 1 -> Bd n t = t ^ (S n) * t * wt a b t.
Proof.
  intros Ht. unfold Bd, wt. replace (a + INR n + 1) with ((a - 1) + INR (S n) + 1) by (rewrite S_INR; ring).
  rewrite !Rpower_plus, Rpower_1, Rpower_pow by lra. ring.
Qed.
Lemma Bd_derive n t : 0 < t < 1 -> is_derive (Bd n) t (t ^ (S n) * wt a b t * (a + INR n + 1 - (b - 1) * (t / (1 - t)))).
Proof.
  intros Ht. eapply is_derive_val.
  - apply (is_derive_mult (fun u => Rpower u (a + INR n + 1)) (fun u => Rpower (1 - u) (b - 1))).
    + apply pow_derive. lra.
    + apply (is_derive_comp (fun v => Rpower v (b - 1)) (fun u => 1 - u)); [apply pow_derive; lra|]. auto_derive; auto.
    + intros; apply Rmult_comm.
  - unfold plus, scal, mult; cbn -[pow INR]. unfold mult; cbn -[pow INR]. unfold wt.
    replace (a + INR n + 1) with ((a - 1) + INR (S n) + 1) by (rewrite S_INR; ring).
    replace (a - 1 + INR (S n) + 1 - 1) with (a - 1 + INR (S n)) by ring.
    rewrite !Rpower_plus, Rpower_1, Rpower_pow by lra. rewrite (rp_1 (1 - t) (b - 1)) by lra. field. lra.
Qed.
Lemma slack n t : 0 < t <= top -> INR n <= a + INR n + 1 - (b - 1) * (t / (1 - t)).
Proof.
  intros Ht. destruct (top_1 a b Ha Hb) as (T0 & T1 & T2).
  assert (t / (1 - t) <= (a + 1) / (b + 1)).
  { apply Rmult_le_reg_r with ((1 - t) * (b + 1)); [apply Rmult_lt_0_compat; lra|].
    replace (t / (1 - t) * ((1 - t) * (b + 1))) with (t * (b + 1)) by (field; lra).
    replace ((a + 1) / (b + 1) * ((1 - t) * (b + 1))) with ((a + 1) * (1 - t)) by (field; lra).
    assert (HT : t * (a + b + 2) <= top * (a + b + 2)) by (apply Rmult_le_compat_r; lra).
    replace (top * (a + b + 2)) with (a + 1) in HT by (unfold BetaFrac.top; field; lra). lra. }
  assert (0 < t / (1 - t)) by (apply Rdiv_lt_0_compat; lra).
  assert (H1 : (b - 1) * (t / (1 - t)) <= a + 1); [|lra].
  destruct (Rle_dec b 1); [assert (0 <= (1 - b) * (t / (1 - t))) by (apply Rmult_le_pos; lra); lra|].
  apply Rle_trans with ((b + 1) * ((a + 1) / (b + 1))).
  - apply Rmult_le_compat; lra.
  - apply Req_le. field. lra.
Qed.
Lemma En_size n x : 0 < x <= top -> (1 <= n)%nat ->
  Rabs (En n x) <= (a + INR n + 1) * Rabs (pw a b (S n)) / (INR n * (a * (Q n x * Q n x))) * Bd n x.
Proof.
  intros Hx Hn. destruct (top_1 a b Ha Hb) as (T0 & T1 & T2).
  assert (Hn1 : 1 <= INR n) by (apply (le_INR 1); auto).
  pose proof (Q_pos a b Ha Hb n x ltac:(lra)) as HQ.
  set (C := (a + INR n + 1) * Rabs (pw a b (S n)) / (INR n * (a * (Q n x * Q n x)))).
  assert (HC : 0 <= C).
  { unfold C. apply Rdiv_le_0_compat; [apply Rmult_le_pos; [lra|apply Rabs_pos]|]. repeat apply Rmult_lt_0_compat; auto; lra. }
  assert (LB : lim0 (fun t => C * Bd n t) 0).
  { replace 0 with (C * 0) by ring. apply lim0_scal. apply lim0_eps. intros e He.
    destruct (pow_lim0 (a + INR n + 1) (Rmax 1 (Rpower (1 - top) (b - 1))) ltac:(lra)
                ltac:(pose proof (Rmax_l 1 (Rpower (1 - top) (b - 1))); lra) e He) as (d & Hd & Hlt).
    exists (Rmin d top). split; [apply Rmin_pos; lra|]. intros t [Ht Ht2].
    assert (t < d) by (eapply Rlt_le_trans; [exact Ht2|apply Rmin_l]). assert (t < top) by (eapply Rlt_le_trans; [exact Ht2|apply Rmin_r]).
    specialize (Hlt t ltac:(lra)). rewrite Rminus_0_r. unfold Bd at 1.
    rewrite Rabs_pos_eq by (left; apply Rmult_lt_0_compat; apply exp_pos).
    eapply Rle_lt_trans; [|exact Hlt]. apply Rmult_le_compat_l; [left; apply exp_pos|].
    destruct (Rle_dec b 1).
    - eapply Rle_trans; [|apply Rmax_r]. replace (b - 1) with (- (1 - b)) by ring. apply rp_anti; lra.
    - eapply Rle_trans; [|apply Rmax_l]. apply Rle_trans with (Rpower 1 (b - 1)); [apply Rle_Rpower_l; lra|].
      unfold Rpower. rewrite ln_1, Rmult_0_r, exp_0. lra. }
  assert (Dom : forall t, 0 < t <= x ->
    Rabs (En' n t) <= C * (t ^ (S n) * wt a b t * (a + INR n + 1 - (b - 1) * (t / (1 - t))))).
  { intros t Ht. unfold En'. pose proof (Q_pos a b Ha Hb n t ltac:(lra)) as HQt. pose proof (wt_pos a b t) as Hw.
    pose proof (Q_anti a b Ha Hb n t x ltac:(lra) ltac:(lra) ltac:(lra)) as QA.
    assert (Hpw : 0 < t ^ S n) by (apply pow_lt; lra).
    unfold Rdiv at 1. rewrite !Rabs_mult. rewrite (Rabs_pos_eq (wt a b t)), (Rabs_pos_eq (t ^ S n)), (Rabs_pos_eq (a + INR n + 1)) by lra.
    rewrite (Rabs_pos_eq (/ (a * (Q n t * Q n t)))) by (left; apply Rinv_0_lt_compat; repeat apply Rmult_lt_0_compat; auto).
    pose proof (slack n t ltac:(lra)) as Sl.
    apply Rle_trans with (C * (t ^ S n * wt a b t * INR n)).
    2:{ apply Rmult_le_compat_l; auto. apply Rmult_le_compat_l; auto. apply Rmult_le_pos; lra. }
    unfold C. set (p := Rabs (pw a b (S n))). assert (Hp : 0 <= p) by apply Rabs_pos.
    replace ((a + INR n + 1) * p / (INR n * (a * (Q n x * Q n x))) * (t ^ S n * wt a b t * INR n))
      with (wt a b t * ((a + INR n + 1) * p * t ^ S n) * / (a * (Q n x * Q n x))) by (field; lra).
    apply Rmult_le_compat_l.
    - apply Rmult_le_pos; [lra|]. apply Rmult_le_pos; [apply Rmult_le_pos; lra|lra].
    - apply Rinv_le_contravar; [repeat apply Rmult_lt_0_compat; auto|]. apply Rmult_le_compat_l; [lra|].
      apply Rmult_le_compat; lra. }
  assert (DB : forall t, 0 < t <= x -> is_derive (fun t => C * Bd n t) t (C * (t ^ (S n) * wt a b t * (a + INR n + 1 - (b - 1) * (t / (1 - t)))))).
  { intros t Ht. apply (is_derive_scal (Bd n) t C). apply Bd_derive. lra. }
  apply Rabs_le. split.
  - assert (0 <= C * Bd n x + En n x); [|lra].
    apply (from_zero (fun t => C * Bd n t + En n t)
      (fun t => C * (t ^ (S n) * wt a b t * (a + INR n + 1 - (b - 1) * (t / (1 - t)))) + En' n t) x); [lra| | |].
    + intros t Ht. apply (is_derive_plus (fun t => C * Bd n t) (En n)); [apply DB; auto|apply En_derive; lra].
    + intros t Ht. specialize (Dom t Ht). apply Rabs_le_between in Dom. lra.
    + replace 0 with (0 + 0) by ring. apply lim0_plus; [exact LB|apply (En_lim0 n x); auto].
  - assert (0 <= C * Bd n x - En n x); [|lra].
    apply (from_zero (fun t => C * Bd n t - En n t)
      (fun t => C * (t ^ (S n) * wt a b t * (a + INR n + 1 - (b - 1) * (t / (1 - t)))) - En' n t) x); [lra| | |].
    + intros t Ht. apply (is_derive_minus (fun t => C * Bd n t) (En n)); [apply DB; auto|apply En_derive; lra].
    + intros t Ht. specialize (Dom t Ht). apply Rabs_le_between in Dom. lra.
    + apply (lim0_ext (fun t => C * Bd n t + - En n t)); [intros; ring|].
      replace 0 with (0 + 0) by ring. apply lim0_plus; [exact LB|apply lim0_opp, (En_lim0 n x); auto].
Qed.

(** the integral is as near the convergent with an odd index as that is to the one before, up to [1/(1-top)] *)
Definition Vn n x := P n x / Q n x.
Lemma V_step n x : 0 < x <= top -> Vn (S n) x - Vn n x = pw a b (S n) * x ^ (S n) / (Q (S n) x * Q n x).
Proof.
  intros Hx. pose proof (Q_pos a b Ha Hb n x ltac:(lra)). pose proof (Q_pos a b Ha Hb (S n) x ltac:(lra)).
  rewrite <- (det a b (S n) x), Pp_S, Qp_S. unfold Vn. field. lra.
Qed.
Lemma ee_sign n : Nat.even n = false -> (b <= (INR n + 1) / 2 -> 0 <= ee a b n) /\ ((INR n + 1) / 2 <= b -> ee a b n <= 0).
Proof.
  intros E. pose proof (qq_pos a b Ha Hb n) as Hq. pose proof (pos_INR n) as Hn. unfold ee, gam. rewrite E.
  split; intros H.
  - apply Rdiv_le_0_compat; [|lra]. apply Rmult_le_pos; [lra|]. apply Rdiv_le_0_compat; lra.
  - assert (0 <= qq a b n * ((b - (INR n + 1) / 2) / (a + INR n)) / (a + INR n + 1)).
    { apply Rdiv_le_0_compat; [|lra]. apply Rmult_le_pos; [lra|]. apply Rdiv_le_0_compat; lra. }
    replace (qq a b n * (((INR n + 1) / 2 - b) / (a + INR n)) / (a + INR n + 1))
      with (- (qq a b n * ((b - (INR n + 1) / 2) / (a + INR n)) / (a + INR n + 1))) by (field; lra). lra.
Qed.
Theorem frac_error n x : 0 < x <= top -> Nat.even (S n) = false ->
  Rabs (Inc a b x - Wt a b x / a * Vn (S n) x) <= Wt a b x / a * ((a + b + 2) / (b + 1) * Rabs (Vn (S n) x - Vn n x)).
Proof.
  intros Hx Ho. destruct (top_1 a b Ha Hb) as (T0 & T1 & T2).
  change (Inc a b x - Wt a b x / a * Vn (S n) x) with (En (S n) x). pose proof (Wt_pos a b x) as HW. set (K := (a + b + 2) / (b + 1)).
  assert (HK0 : 0 < K) by (unfold K; apply Rdiv_lt_0_compat; lra).
  assert (HK : 1 <= K * (1 - x)).
  { apply Rle_trans with (K * (1 - top)).
    - rewrite T2. unfold K. apply Req_le. field. lra.
    - apply Rmult_le_compat_l; lra. }
  assert (HK1 : 1 <= K). { assert (K * (1 - x) <= K * 1) by (apply Rmult_le_compat_l; lra). lra. }
  destruct (ee_sign (S n) Ho) as [S1 S2].
  pose proof (Q_pos a b Ha Hb n x ltac:(lra)) as HQn. pose proof (Q_pos a b Ha Hb (S n) x ltac:(lra)) as HQ.
  destruct (Rle_dec ((INR (S n) + 1) / 2) b) as [Early|Late].
  - specialize (S2 Early).
    assert (D : En n x - En (S n) x = Wt a b x / a * (Vn (S n) x - Vn n x)) by (unfold En, Vn; ring).
    assert (PS : pw a b (S (S n)) = pw a b (S n) * ee a b (S n)) by reflexivity.
    assert (B : Rabs (En (S n) x) <= Rabs (En n x - En (S n) x)).
    { destruct (Rle_dec 0 (pw a b (S n))) as [Pp|Pn].
      - pose proof (En_nonneg n x Hx Pp) as H1.
        assert (pw a b (S (S n)) <= 0).
        { rewrite PS. assert (0 <= pw a b (S n) * (- ee a b (S n))) by (apply Rmult_le_pos; lra). lra. }
        pose proof (En_nonpos (S n) x Hx H) as H2. rewrite Rabs_left1 by lra. rewrite Rabs_pos_eq by lra. lra.
      - pose proof (En_nonpos n x Hx ltac:(lra)) as H1.
        assert (0 <= pw a b (S (S n))).
        { rewrite PS. assert (0 <= (- pw a b (S n)) * (- ee a b (S n))) by (apply Rmult_le_pos; lra). lra. }
        pose proof (En_nonneg (S n) x Hx H) as H2. rewrite Rabs_pos_eq by lra. rewrite Rabs_left1 by lra. lra. }
    rewrite D in B. rewrite Rabs_mult in B. rewrite (Rabs_pos_eq (Wt a b x / a)) in B by (apply Rdiv_le_0_compat; lra).
    eapply Rle_trans; [exact B|]. apply Rmult_le_compat_l; [apply Rdiv_le_0_compat; lra|].
    pose proof (Rabs_pos (Vn (S n) x - Vn n x)) as Hv.
    assert (1 * Rabs (Vn (S n) x - Vn n x) <= K * Rabs (Vn (S n) x - Vn n x)) by (apply Rmult_le_compat_r; lra). lra.
  - specialize (S1 ltac:(lra)).
    eapply Rle_trans; [apply En_size; auto; lia|].
    rewrite V_step by auto. rewrite Bd_eq by lra. rewrite Wt_wt by lra.
    replace (pw a b (S (S n))) with (pw a b (S n) * ee a b (S n)) by reflexivity.
    rewrite Rabs_mult, (Rabs_pos_eq (ee a b (S n))) by auto.
    replace (Rabs (pw a b (S n) * x ^ S n / (Q (S n) x * Q n x)))
      with (Rabs (pw a b (S n)) * x ^ S n * / (Q (S n) x * Q n x)).
    2:{ unfold Rdiv. rewrite !Rabs_mult.
        rewrite (Rabs_pos_eq (/ (Q (S n) x * Q n x))) by (left; apply Rinv_0_lt_compat, Rmult_lt_0_compat; auto).
        rewrite (Rabs_pos_eq (x ^ S n)) by (apply pow_le; lra). reflexivity. }
    assert (N1 : 1 <= INR (S n)) by (apply (le_INR 1); lia).
    destruct (Q_good a b Ha Hb (S (S n)) x ltac:(lra)) as (_ & _ & G & _).
    change (snd (conv a b 1 1 (S (S n)) x)) with (Q (S n) x) in G. change (fst (conv a b 1 1 (S (S n)) x)) with (Q (S (S n)) x) in G.
    rewrite (Qn_S a b (S n)), Qp_S in G.
    pose proof (qq_gam a b Ha (S n)) as QG. assert (Hqq : qq a b (S n) <= INR (S n)).
    { unfold qq. rewrite Ho. lra. }
    assert (F : ee a b (S n) * x * Q n x * (a + INR (S n) + 1) <= INR (S n) * Q (S n) x).
    { apply Rle_trans with (qq a b (S n) * Q (S n) x).
      - assert (X : ee a b (S n) * x * Q n x <= (1 - gam a b (S (S n))) * Q (S n) x) by lra. rewrite QG in X.
        apply Rmult_le_compat_r with (r := a + INR (S n) + 1) in X; [|lra].
        replace (qq a b (S n) / (a + INR (S n) + 1) * Q (S n) x * (a + INR (S n) + 1)) with (qq a b (S n) * Q (S n) x) in X by (field; lra).
        exact X.
      - apply Rmult_le_compat_r; lra. }
    change (x ^ S (S n)) with (x * x ^ S n).
    apply late_alg; auto; [apply Rabs_pos|apply wt_pos|apply pow_le; lra|lra].
Qed.
End Err.
