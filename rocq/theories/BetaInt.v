(* The integral behind the beta function, and Euler's identity B(a,b) Gamma(a+b) = Gamma(a) Gamma(b). *)
From Coq Require Import Reals Lra Lia.
From Coquelicot Require Import Coquelicot.
From Verif Require Import GamSpec GamInt GamInc GamLan5 BetaSpec.
Local Open Scope R_scope.

Lemma k_pos a b s : 0 < beta_kernel a b s.
Proof. unfold beta_kernel, Rpower. apply Rmult_lt_0_compat; apply exp_pos. Qed.
Lemma k_cont a b s : 0 < s -> continuous (beta_kernel a b) s.
Proof.
  intros Hs. apply (ex_derive_continuous (beta_kernel a b) s). unfold beta_kernel, Rpower. auto_derive. split; lra.
Qed.
Lemma k_int a b x y : 0 < x -> 0 < y -> ex_RInt (beta_kernel a b) x y.
Proof.
  intros Hx Hy. apply (ex_RInt_continuous (beta_kernel a b)). intros z [Hz _]. apply k_cont.
  unfold Rmin in Hz. destruct (Rle_dec x y); lra.
Qed.
Definition bvol (a b x : R) : R := RInt (beta_kernel a b) 1 x.
Lemma bvol_derive a b x : 0 < x -> is_derive (bvol a b) x (beta_kernel a b x).
Proof.
  intros Hx. unfold bvol. apply (is_derive_RInt (beta_kernel a b) (bvol a b) 1 x).
  - exists (mkposreal (x / 2) ltac:(lra)). intros y Hy. apply (RInt_correct (beta_kernel a b) 1 y).
    apply k_int; [lra|]. apply Rabs_def2 in Hy. cbn in Hy. unfold minus, plus, opp in Hy. cbn in Hy. lra.
  - apply k_cont; auto.
Qed.
Lemma bvol_incr a b x y : 0 < x -> x <= y -> bvol a b x <= bvol a b y.
Proof.
  intros Hx Hxy. apply (incr_of (bvol a b) (beta_kernel a b)); auto.
  - intros t Ht. apply bvol_derive. lra.
  - intros t _. left. apply k_pos.
Qed.
Lemma bvol_1 a b : bvol a b 1 = 0.
Proof. unfold bvol. rewrite RInt_point. reflexivity. Qed.

Lemma rp_le1 y c : 1 <= y -> 0 <= c -> Rpower y (- c) <= 1.
Proof.
  intros Hy Hc. rewrite <- (Rpower_O y) by lra. apply Rle_Rpower; lra.
Qed.
Lemma rp_anti x y c : 0 < x -> x <= y -> 0 <= c -> Rpower y (- c) <= Rpower x (- c).
Proof.
  intros Hx Hxy Hc. rewrite !Rpower_Ropp. apply Rinv_le_contravar; [apply exp_pos|]. apply Rle_Rpower_l; lra.
Qed.
Lemma k_low a b s : 0 < s -> 0 < a -> 0 < b -> beta_kernel a b s <= Rpower s (b - 1).
Proof.
  intros Hs Ha Hb. unfold beta_kernel. rewrite <- (Rmult_1_r (Rpower s (b - 1))) at 2.
  apply Rmult_le_compat_l; [left; apply exp_pos|]. apply rp_le1; lra.
Qed.
Lemma k_high a b s : 0 < s -> 0 < a -> 0 < b -> beta_kernel a b s <= Rpower s (- a - 1).
Proof.
  intros Hs Ha Hb. unfold beta_kernel. replace (- a - 1) with ((b - 1) + - (a + b)) by ring. rewrite Rpower_plus.
  apply Rmult_le_compat_l; [left; apply exp_pos|]. apply rp_anti; lra.
Qed.
Lemma bvol_low a b x : 0 < a -> 0 < b -> 0 < x <= 1 -> - / b <= bvol a b x.
Proof.
  intros Ha Hb Hx.
  assert (H : Rpower x b / b - bvol a b x <= Rpower 1 b / b - bvol a b 1).
  { apply (incr_of (fun t => Rpower t b / b - bvol a b t) (fun t => Rpower t (b - 1) - beta_kernel a b t)); [lra| |].
    - intros t Ht. apply (is_derive_minus (fun t => Rpower t b / b) (bvol a b)); [|apply bvol_derive; lra].
      evar_last. { apply (is_derive_ext (fun u => / b * Rpower u b)); [intros; unfold Rdiv; apply Rmult_comm|].
        apply (is_derive_scal (fun u => Rpower u b) t (/ b)). apply pow_derive. lra. }
      field. lra.
    - intros t Ht. pose proof (k_low a b t ltac:(lra) Ha Hb). lra. }
  rewrite bvol_1 in H. replace (Rpower 1 b) with 1 in H by (unfold Rpower; rewrite ln_1, Rmult_0_r, exp_0; auto).
  assert (0 < Rpower x b / b) by (apply Rdiv_lt_0_compat; [apply exp_pos|auto]). unfold Rdiv in *. lra.
Qed.
Lemma bvol_high a b x : 0 < a -> 0 < b -> 1 <= x -> bvol a b x <= / a.
Proof.
  intros Ha Hb Hx.
  assert (H : - / a * Rpower 1 (- a) - bvol a b 1 <= - / a * Rpower x (- a) - bvol a b x).
  { apply (incr_of (fun t => - / a * Rpower t (- a) - bvol a b t) (fun t => Rpower t (- a - 1) - beta_kernel a b t)); [lra| |].
    - intros t Ht. apply (is_derive_minus (fun t => - / a * Rpower t (- a)) (bvol a b)); [|apply bvol_derive; lra].
      evar_last. { apply (is_derive_scal (fun u => Rpower u (- a)) t (- / a)). apply pow_derive. lra. }
      field. lra.
    - intros t Ht. pose proof (k_high a b t ltac:(lra) Ha Hb). lra. }
  rewrite bvol_1 in H. replace (Rpower 1 (- a)) with 1 in H by (unfold Rpower; rewrite ln_1, Rmult_0_r, exp_0; auto).
  assert (0 < / a * Rpower x (- a)) by (apply Rmult_lt_0_compat; [apply Rinv_0_lt_compat; auto|apply exp_pos]). lra.
Qed.
Lemma bvol_lims a b : 0 < a -> 0 < b -> exists l0 l1, lim0 (bvol a b) l0 /\ limi (bvol a b) l1 /\
  (forall x, 0 < x <= 1 -> l0 <= bvol a b x) /\ (forall x, 1 <= x -> bvol a b x <= l1).
Proof.
  intros Ha Hb.
  destruct (lim0_mono (bvol a b) 1 (- / b)) as (l0 & H0 & B0); [lra| | |].
  - intros x y Hx Hy. apply bvol_incr; lra.
  - intros x Hx. apply bvol_low; auto.
  - destruct (limi_mono (bvol a b) 1 (/ a)) as (l1 & H1 & B1).
    + intros x y Hx. apply bvol_incr; lra.
    + intros x Hx. apply bvol_high; auto.
    + exists l0, l1. auto.
Qed.
Definition Bet (a b : R) : R := RInt_gen (beta_kernel a b) (at_right 0) (Rbar_locally p_infty).
Lemma beta_uniq a b v : is_Beta a b v -> Bet a b = v.
Proof.
  intros H. unfold Bet.
  apply (@is_RInt_gen_unique R_CompleteNormedModule (at_right 0) (Rbar_locally p_infty) _ _ _ v H).
Qed.
Lemma beta_of F a b l0 l1 : (forall t, 0 < t -> is_derive F t (beta_kernel a b t)) ->
  lim0 F l0 -> limi F l1 -> Bet a b = l1 - l0.
Proof. intros. apply beta_uniq. apply (prim_gen _ F); auto. intros; apply k_cont; auto. Qed.
Lemma beta_ex a b : 0 < a -> 0 < b -> is_Beta a b (Bet a b).
Proof.
  intros Ha Hb. destruct (bvol_lims a b Ha Hb) as (l0 & l1 & H0 & H1 & _).
  assert (H : is_Beta a b (l1 - l0)).
  { apply (prim_gen _ (bvol a b)); auto; intros; [apply bvol_derive|apply k_cont]; auto. }
  rewrite (beta_uniq _ _ _ H). exact H.
Qed.
Lemma beta_lims a b l0 l1 : lim0 (bvol a b) l0 -> limi (bvol a b) l1 -> Bet a b = l1 - l0.
Proof. intros. apply (beta_of (bvol a b)); auto. intros; apply bvol_derive; auto. Qed.
Lemma beta_pos a b : 0 < a -> 0 < b -> 0 < Bet a b.
Proof.
  intros Ha Hb. destruct (bvol_lims a b Ha Hb) as (l0 & l1 & H0 & H1 & B0 & B1).
  rewrite (beta_lims a b l0 l1 H0 H1).
  pose proof (B0 1 ltac:(lra)) as X0. rewrite bvol_1 in X0.
  pose proof (B1 2 ltac:(lra)) as X1.
  assert (0 < bvol a b 2); [|lra].
  destruct (MVT_gen (bvol a b) 1 2 (beta_kernel a b)) as (c & Hc & E).
  - intros y Hy. rewrite Rmin_left, Rmax_right in Hy by lra. apply bvol_derive. lra.
  - intros y Hy. rewrite Rmin_left, Rmax_right in Hy by lra. apply continuity_pt_filterlim.
    apply (ex_derive_continuous (bvol a b) y). eexists. apply bvol_derive. lra.
  - rewrite bvol_1 in E. pose proof (k_pos a b c). lra.
Qed.

(** ** the boundary term [s^b (1+s)^-(a+b)] *)
Definition bnd (a b s : R) : R := Rpower s b * Rpower (1 + s) (- (a + b)).
Lemma bnd_k a b s : 0 < s -> bnd a b s = s * beta_kernel a b s.
Proof.
  intros Hs. unfold bnd, beta_kernel. replace b with ((b - 1) + 1) at 1 by ring.
  rewrite Rpower_plus, Rpower_1 by auto. ring.
Qed.
Lemma bnd_pos a b s : 0 < bnd a b s.
Proof. apply Rmult_lt_0_compat; apply exp_pos. Qed.
Lemma bnd_lim0 a b : 0 < a -> 0 < b -> lim0 (bnd a b) 0.
Proof.
  intros Ha Hb. apply lim0_eps. intros e He. exists (Rpower e (/ b)). split; [apply exp_pos|].
  intros x [Hx Hx2]. rewrite Rminus_0_r.
  assert (Rpower x b < e).
  { replace e with (Rpower (Rpower e (/ b)) b).
    - apply Rlt_Rpower_l; auto.
    - rewrite Rpower_mult, Rinv_l by lra. apply Rpower_1. auto. }
  pose proof (bnd_pos a b x) as P. rewrite Rabs_pos_eq by lra. unfold bnd in *.
  pose proof (rp_le1 (1 + x) (a + b) ltac:(lra) ltac:(lra)). pose proof (exp_pos (b * ln x)) as Q. fold (Rpower x b) in Q.
  assert (Rpower x b * Rpower (1 + x) (- (a + b)) <= Rpower x b * 1) by (apply Rmult_le_compat_l; lra). lra.
Qed.
Lemma bnd_le a b x : 0 < x -> 0 < a -> 0 < b -> bnd a b x <= Rpower x (- a).
Proof.
  intros Hx Ha Hb. unfold bnd. replace (- a) with (b + - (a + b)) by ring. rewrite Rpower_plus.
  apply Rmult_le_compat_l; [left; apply exp_pos|]. apply rp_anti; lra.
Qed.
Lemma bnd_limi a b : 0 < a -> 0 < b -> limi (bnd a b) 0.
Proof.
  intros Ha Hb. apply limi_eps. intros e He. exists (Rmax 0 (Rpower e (- / a))).
  intros x Hx. rewrite Rminus_0_r. pose proof (Rmax_l 0 (Rpower e (- / a))). pose proof (Rmax_r 0 (Rpower e (- / a))).
  pose proof (bnd_pos a b x) as P. rewrite Rabs_pos_eq by lra.
  eapply Rle_lt_trans; [apply bnd_le; auto; lra|].
  replace e with (Rpower (Rpower e (- / a)) (- a)).
  - rewrite (Rpower_Ropp x a), (Rpower_Ropp (Rpower e (- / a)) a).
    apply Rinv_lt_contravar; [apply Rmult_lt_0_compat; apply exp_pos|]. apply Rlt_Rpower_l; auto.
    split; [apply exp_pos|lra].
  - rewrite Rpower_mult. replace (- / a * - a) with 1 by (field; lra). apply Rpower_1. auto.
Qed.
Lemma bnd_derive a b s : 0 < s ->
  is_derive (bnd a b) s (- a * beta_kernel a b s + (a + b) * beta_kernel (a + 1) b s).
Proof.
  intros Hs. evar_last.
  - apply (is_derive_mult (fun u => Rpower u b) (fun u => Rpower (1 + u) (- (a + b)))).
    + apply pow_derive. auto.
    + apply (is_derive_comp (fun v => Rpower v (- (a + b))) (fun u => 1 + u)).
      * apply pow_derive. lra.
      * auto_derive; auto.
    + intros; apply Rmult_comm.
  - unfold plus, scal, mult; cbn. unfold mult; cbn. unfold beta_kernel.
    replace (- (a + b) - 1) with (- (a + 1 + b)) by ring.
    replace (- (a + b)) with (- (a + 1 + b) + 1) by ring. rewrite !Rpower_plus, !Rpower_1 by lra.
    replace (Rpower s b) with (Rpower s (b - 1) * s)
      by (rewrite <- (Rpower_1 s Hs) at 2; rewrite <- Rpower_plus; f_equal; ring).
    ring.
Qed.

(** B(a + 1, b) = a / (a + b) B(a, b) *)
Lemma beta_step a b : 0 < a -> 0 < b -> Bet (a + 1) b = a / (a + b) * Bet a b.
Proof.
  intros Ha Hb. destruct (bvol_lims a b Ha Hb) as (l0 & l1 & H0 & H1 & _).
  rewrite (beta_lims a b l0 l1 H0 H1).
  replace (a / (a + b) * (l1 - l0)) with ((a / (a + b) * l1 + / (a + b) * 0) - (a / (a + b) * l0 + / (a + b) * 0)) by ring.
  apply (beta_of (fun t => a / (a + b) * bvol a b t + / (a + b) * bnd a b t)).
  - intros t Ht. evar_last.
    + apply (is_derive_plus (fun t => a / (a + b) * bvol a b t) (fun t => / (a + b) * bnd a b t)).
      * apply (is_derive_scal (bvol a b) t). apply bvol_derive. auto.
      * apply (is_derive_scal (bnd a b) t). apply bnd_derive. auto.
    + unfold plus; cbn. field. lra.
  - apply lim0_plus; [apply lim0_scal; auto|]. apply lim0_scal. apply bnd_lim0; auto.
  - apply limi_plus; [apply limi_scal; auto|]. apply limi_scal. apply bnd_limi; auto.
Qed.

Lemma beta_gautschi a b s : 0 < a -> 0 < b -> 0 <= s <= 1 -> Bet (a + s) b <= Rpower (a / (a + b)) s * Bet a b.
Proof.
  intros Ha Hb Hs.
  destruct (bvol_lims a b Ha Hb) as (l0 & l1 & H0 & H1 & _).
  destruct (bvol_lims (a + 1) b ltac:(lra) Hb) as (m0 & m1 & M0 & M1 & _).
  destruct (bvol_lims (a + s) b ltac:(lra) Hb) as (n0 & n1 & N0 & N1 & _).
  pose proof (beta_step a b Ha Hb) as St.
  rewrite (beta_lims a b l0 l1 H0 H1), (beta_lims _ _ m0 m1 M0 M1) in St.
  rewrite (beta_lims a b l0 l1 H0 H1), (beta_lims _ _ n0 n1 N0 N1).
  set (c := a / (a + b)) in *. assert (Hc : 0 < c) by (apply Rdiv_lt_0_compat; lra).
  set (k := Rpower c s). assert (Hk : 0 < k) by apply exp_pos.
  assert (L : n1 - n0 <= ((k * (1 - s)) * l1 + (k * s / c) * m1) - ((k * (1 - s)) * l0 + (k * s / c) * m0)).
  { apply (lims_le (bvol (a + s) b) (fun t => (k * (1 - s)) * bvol a b t + (k * s / c) * bvol (a + 1) b t)); auto.
    - intros x y Hxy.
      assert ((k * (1 - s)) * bvol a b x + (k * s / c) * bvol (a + 1) b x - bvol (a + s) b x
              <= (k * (1 - s)) * bvol a b y + (k * s / c) * bvol (a + 1) b y - bvol (a + s) b y); [|lra].
      apply (incr_of (fun t => (k * (1 - s)) * bvol a b t + (k * s / c) * bvol (a + 1) b t - bvol (a + s) b t)
               (fun t => ((k * (1 - s)) * beta_kernel a b t + (k * s / c) * beta_kernel (a + 1) b t) - beta_kernel (a + s) b t)); [lra| |].
      + intros t Ht.
        apply (is_derive_minus (fun t => (k * (1 - s)) * bvol a b t + (k * s / c) * bvol (a + 1) b t) (bvol (a + s) b)).
        * apply (is_derive_plus (fun t => (k * (1 - s)) * bvol a b t) (fun t => (k * s / c) * bvol (a + 1) b t)).
          -- apply (is_derive_scal (bvol a b) t). apply bvol_derive. lra.
          -- apply (is_derive_scal (bvol (a + 1) b) t). apply bvol_derive. lra.
        * apply bvol_derive. lra.
      + intros t Ht. unfold beta_kernel.
        replace (- (a + 1 + b)) with (- (a + b) + - (1)) by ring. replace (- (a + s + b)) with (- (a + b) + - s) by ring.
        rewrite !Rpower_plus. rewrite (Rpower_Ropp (1 + t) 1), Rpower_1 by lra.
        set (z := / (1 + t)). assert (Hy : 0 < z) by (apply Rinv_0_lt_compat; lra).
        pose proof (bernoulli_le s (z / c) Hs ltac:(apply Rdiv_lt_0_compat; lra)) as B.
        assert (E : Rpower (1 + t) (- s) = k * Rpower (z / c) s).
        { unfold k. rewrite Rpower_mult_distr; auto; [|apply Rdiv_lt_0_compat; lra].
          replace (c * (z / c)) with z by (field; lra). unfold z, Rpower. rewrite ln_Rinv by lra. f_equal. ring. }
        rewrite E. set (w := Rpower t (b - 1)). assert (0 < w) by apply exp_pos.
        set (v := Rpower (1 + t) (- (a + b))). assert (0 < v) by apply exp_pos.
        assert (w * v * k * Rpower (z / c) s <= w * v * k * (1 + s * (z / c - 1))) as P.
        { apply Rmult_le_compat_l; auto. left. repeat apply Rmult_lt_0_compat; auto. }
        replace (k * (1 - s) * (w * v) + k * s / c * (w * (v * z)) - w * (v * (k * Rpower (z / c) s)))
          with (w * v * k * (1 + s * (z / c - 1)) - w * v * k * Rpower (z / c) s) by (field; lra).
        lra.
    - apply lim0_plus; apply lim0_scal; auto.
    - apply limi_plus; apply limi_scal; auto. }
  eapply Rle_trans; [exact L|].
  replace (k * (1 - s) * l1 + k * s / c * m1 - (k * (1 - s) * l0 + k * s / c * m0))
    with (k * (1 - s) * (l1 - l0) + k * s / c * (m1 - m0)) by ring.
  rewrite St. apply Req_le. field. lra.
Qed.

Lemma exp_le' x y : x <= y -> exp x <= exp y.
Proof. intros [H| ->]; [left; apply exp_increasing; auto|lra]. Qed.
Lemma beta_one b : 0 < b -> Bet 1 b = / b.
Proof.
  intros Hb. replace (/ b) with (/ b * 1 - / b * 0) by ring.
  apply (beta_of (fun t => / b * Rpower (t / (1 + t)) b)).
  - intros t Ht. assert (0 < t / (1 + t)) by (apply Rdiv_lt_0_compat; lra). evar_last.
    + apply (is_derive_scal (fun t => Rpower (t / (1 + t)) b) t (/ b)).
      apply (is_derive_comp (fun v => Rpower v b) (fun u => u / (1 + u))); [apply pow_derive; auto|].
      auto_derive; [lra|reflexivity].
    + unfold scal; cbn; unfold mult; cbn. unfold beta_kernel.
      replace (- (1 + b)) with (- (b - 1) + - (2)) by ring. rewrite Rpower_plus.
      replace (Rpower (1 + t) (- (2))) with (/ ((1 + t) * (1 + t))).
      2:{ rewrite Rpower_Ropp. f_equal. replace 2 with (1 + 1) by ring. rewrite Rpower_plus, Rpower_1; lra. }
      replace (Rpower (t / (1 + t)) (b - 1)) with (Rpower t (b - 1) * Rpower (1 + t) (- (b - 1))).
      2:{ unfold Rdiv. rewrite <- Rpower_mult_distr; [|lra|apply Rinv_0_lt_compat; lra]. f_equal.
          unfold Rpower. rewrite ln_Rinv by lra. f_equal. ring. }
      field. lra.
  - apply (lim0_scal (fun t => Rpower (t / (1 + t)) b)).
    apply lim0_eps. intros e He. exists (Rpower e (/ b)). split; [apply exp_pos|].
    intros x [Hx Hx2]. rewrite Rminus_0_r. rewrite Rabs_pos_eq by (left; apply exp_pos).
    replace e with (Rpower (Rpower e (/ b)) b) by (rewrite Rpower_mult, Rinv_l by lra; apply Rpower_1; auto).
    apply Rlt_Rpower_l; auto. split; [apply Rdiv_lt_0_compat; lra|].
    apply Rle_lt_trans with x; auto. apply Rmult_le_reg_r with (1 + x); [lra|].
    replace (x / (1 + x) * (1 + x)) with x by (field; lra). nra.
  - apply (limi_scal (fun t => Rpower (t / (1 + t)) b)).
    apply limi_eps. intros e He. exists (Rmax 0 (b / e)). intros x Hx.
    pose proof (Rmax_l 0 (b / e)). pose proof (Rmax_r 0 (b / e)).
    assert (Hy : 0 < / (1 + x)) by (apply Rinv_0_lt_compat; lra).
    assert (L1 : Rpower (x / (1 + x)) b <= 1).
    { unfold Rpower. apply Rle_trans with (exp 0); [|rewrite exp_0; lra]. apply exp_le'. assert (ln (x / (1 + x)) <= 0); [|nra].
      rewrite <- ln_1. apply ln_le; [apply Rdiv_lt_0_compat; lra|]. apply Rmult_le_reg_r with (1 + x); [lra|].
      replace (x / (1 + x) * (1 + x)) with x by (field; lra). lra. }
    assert (L2 : 1 - b / x <= Rpower (x / (1 + x)) b).
    { unfold Rpower. eapply Rle_trans; [|apply exp_ineq1_le]. 
      assert (- / x <= ln (x / (1 + x))).
      { replace (x / (1 + x)) with (/ ((1 + x) / x)) by (field; lra). rewrite ln_Rinv by (apply Rdiv_lt_0_compat; lra).
        apply Ropp_le_contravar. replace ((1 + x) / x) with (1 + / x) by (field; lra).
        assert (0 < / x) by (apply Rinv_0_lt_compat; lra).
        rewrite <- (ln_exp (/ x)) at 2. apply ln_le; [lra|]. apply exp_ineq1_le. }
      unfold Rdiv. nra. }
    assert (b / x < e).
    { apply Rmult_lt_reg_r with x; [lra|]. replace (b / x * x) with b by (field; lra).
      apply Rmult_lt_reg_r with (/ e); [apply Rinv_0_lt_compat; auto|]. replace (e * x * / e) with x by (field; lra). unfold Rdiv in *. lra. }
    apply Rabs_def1; lra.
Qed.

(** ** Euler's identity *)
Definition lb (a b : R) : R := ln (Bet a b).
Lemma lb_step a b : 0 < a -> 0 < b -> lb (a + 1) b = lb a b + ln (a / (a + b)).
Proof.
  intros Ha Hb. unfold lb. rewrite beta_step by auto. rewrite ln_mult; [ring| |apply beta_pos; auto].
  apply Rdiv_lt_0_compat; lra.
Qed.
Lemma lb_up a b s : 0 < a -> 0 < b -> 0 <= s <= 1 -> lb (a + s) b <= lb a b + s * ln (a / (a + b)).
Proof.
  intros Ha Hb Hs. unfold lb. pose proof (beta_gautschi a b s Ha Hb Hs) as G.
  pose proof (beta_pos (a + s) b ltac:(lra) Hb). pose proof (beta_pos a b Ha Hb).
  apply ln_le in G; auto. rewrite ln_mult in G; [|apply exp_pos|auto]. unfold Rpower in G. rewrite ln_exp in G. lra.
Qed.
Lemma ln_frac a b : 0 < a -> 0 < b -> - (b / a) <= ln (a / (a + b)) <= 0.
Proof.
  intros Ha Hb. assert (0 < b / a) by (apply Rdiv_lt_0_compat; auto).
  replace (a / (a + b)) with (/ (1 + b / a)) by (field; lra). rewrite ln_Rinv by lra. split.
  - apply Ropp_le_contravar. rewrite <- (ln_exp (b / a)) at 2. apply ln_le; [lra|]. apply exp_ineq1_le.
  - assert (ln 1 <= ln (1 + b / a)) by (apply ln_le; lra). rewrite ln_1 in H0. lra.
Qed.
Lemma lb_near a b s : 0 < a -> 0 < b -> 0 <= s <= 1 -> - (b / a) <= lb (a + s) b - lb a b <= 0.
Proof.
  intros Ha Hb Hs. pose proof (lb_up a b s Ha Hb Hs) as U.
  pose proof (lb_up (a + s) b (1 - s) ltac:(lra) Hb ltac:(lra)) as L. replace (a + s + (1 - s)) with (a + 1) in L by ring.
  rewrite lb_step in L by auto. pose proof (ln_frac a b Ha Hb) as F. pose proof (ln_frac (a + s) b ltac:(lra) Hb) as F2. nra.
Qed.
Definition gapb (b a : R) : R := lb a b + lg (a + b) - lg a.
Lemma gapb_step b a : 0 < a -> 0 < b -> gapb b (a + 1) = gapb b a.
Proof.
  intros Ha Hb. unfold gapb. rewrite lb_step by auto. replace (a + 1 + b) with (a + b + 1) by ring.
  rewrite !lg_step by lra. unfold Rdiv. rewrite ln_mult, ln_Rinv; [ring|lra|lra|apply Rinv_0_lt_compat; lra].
Qed.
Lemma gapb_steps b a n : 0 < a -> 0 < b -> gapb b (a + INR n) = gapb b a.
Proof.
  intros Ha Hb. induction n as [|n IH]; [cbn; f_equal; ring|]. rewrite S_INR. replace (a + (INR n + 1)) with (a + INR n + 1) by ring.
  rewrite gapb_step; auto. pose proof (pos_INR n). lra.
Qed.
Lemma gapb_near b a s : 1 <= a -> 0 < b -> 0 <= s <= 1 -> Rabs (gapb b (a + s) - gapb b a) <= (2 * b + 2) / a.
Proof.
  intros Ha Hb Hs. unfold gapb. pose proof (lb_near a b s ltac:(lra) Hb Hs) as B.
  pose proof (lg_near a s Ha Hs) as G1. pose proof (lg_near (a + b) s ltac:(lra) Hs) as G2.
  replace (a + s + b) with (a + b + s) by ring. pose proof (ln_frac a b ltac:(lra) Hb) as F.
  replace (ln (a / (a + b))) with (ln a - ln (a + b)) in F
    by (unfold Rdiv; rewrite ln_mult, ln_Rinv; [ring|lra|lra|apply Rinv_0_lt_compat; lra]).
  apply Rabs_le_between in G1. apply Rabs_le_between in G2.
  assert (1 / (a + b) <= 1 / a) by (unfold Rdiv; rewrite !Rmult_1_l; apply Rinv_le_contravar; lra).
  replace ((2 * b + 2) / a) with (2 * (b / a) + 2 * (1 / a)) by (field; lra).
  assert (0 < b / a) by (apply Rdiv_lt_0_compat; lra). assert (0 < 1 / a) by (apply Rdiv_lt_0_compat; lra).
  apply Rabs_le. nra.
Qed.
Lemma gapb_const b a : 0 < a -> 0 < b -> gapb b a = gapb b 1.
Proof.
  intros Ha Hb.
  assert (K : forall e, 0 < e -> Rabs (gapb b a - gapb b 1) <= e).
  { intros e He. set (C := 2 * b + 2). assert (HC : 0 < C) by (unfold C; lra).
    assert (0 < C / e) by (apply Rdiv_lt_0_compat; lra).
    destruct (nfloor_ex (C / e + 1) ltac:(lra)) as [m [_ Hm]].
    set (n := S m). assert (Hn : C / e + 1 < INR n) by (unfold n; rewrite S_INR; lra).
    destruct (archimed (a + INR n)) as [U1 U2].
    set (z := (up (a + INR n) - 1)%Z).
    assert (Z1 : IZR z <= a + INR n < IZR z + 1) by (unfold z; rewrite minus_IZR; lra).
    assert (Z2 : C / e < IZR z) by lra.
    assert (Z0 : (1 <= z)%Z). { assert (0 < z)%Z; [apply lt_IZR; cbn|lia]. lra. }
    assert (Zb : IZR z = 1 + INR (Z.to_nat (z - 1))).
    { rewrite INR_IZR_INZ, Z2Nat.id by lia. rewrite minus_IZR. ring. }
    assert (Hb1 : 1 <= IZR z) by (apply (IZR_le 1); auto).
    pose proof (gapb_near b (IZR z) (a + INR n - IZR z) Hb1 Hb ltac:(lra)) as F3.
    replace (IZR z + (a + INR n - IZR z)) with (a + INR n) in F3 by ring.
    rewrite gapb_steps in F3 by auto. rewrite Zb in F3 at 1. rewrite gapb_steps in F3 by lra.
    eapply Rle_trans; [exact F3|]. fold C. apply Rmult_le_reg_r with (IZR z); [lra|]. unfold Rdiv. rewrite Rmult_assoc, Rinv_l, Rmult_1_r by lra.
    apply Rmult_le_reg_r with (/ e); [apply Rinv_0_lt_compat; auto|].
    replace (e * IZR z * / e) with (IZR z) by (field; lra). unfold Rdiv in *. lra. }
  destruct (Req_dec (gapb b a) (gapb b 1)) as [|N]; auto. exfalso.
  assert (0 < Rabs (gapb b a - gapb b 1)) by (apply Rabs_pos_lt; lra).
  specialize (K (Rabs (gapb b a - gapb b 1) / 2) ltac:(lra)). lra.
Qed.
Theorem euler_log a b : 0 < a -> 0 < b -> ln (Bet a b) = lg a + lg b - lg (a + b).
Proof.
  intros Ha Hb. pose proof (gapb_const b a Ha Hb) as E. unfold gapb in E. unfold lb in E.
  rewrite (beta_one b Hb) in E. rewrite ln_Rinv in E by auto. replace (1 + b) with (b + 1) in E by ring.
  rewrite lg_step in E by auto. assert (L1 : lg 1 = 0) by (unfold lg; rewrite gamma_1; apply ln_1). lra.
Qed.
Theorem euler a b : 0 < a -> 0 < b -> Bet a b = Gam a * Gam b / Gam (a + b).
Proof.
  intros Ha Hb. pose proof (euler_log a b Ha Hb) as E.
  pose proof (beta_pos a b Ha Hb). pose proof (gamma_pos a Ha). pose proof (gamma_pos b Hb). pose proof (gamma_pos (a + b) ltac:(lra)).
  rewrite <- (exp_ln (Bet a b)) by auto. rewrite E. unfold lg, Rminus. rewrite !exp_plus, exp_Ropp, !exp_ln by auto. reflexivity.
Qed.
