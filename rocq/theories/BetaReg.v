(* The value of the incomplete beta function's code against the integral. *)
From Coq Require Import Reals Lra Lia Arith.
From Coquelicot Require Import Coquelicot.
From Verif Require Import GamModel GamSpec GamInt GamLan5 GamInc BetaSpec BetaInt BetaFrac BetaErr BetaModel BetaLentz BetaStop.
Local Open Scope R_scope.

(** ** the two tails add up *)
Lemma wt_swap a b t : wt b a (1 - t) = wt a b t.
Proof. unfold wt. replace (1 - (1 - t)) with t by ring. ring. Qed.
Lemma Wt_swap a b t : Wt b a (1 - t) = Wt a b t.
Proof. unfold Wt. replace (1 - (1 - t)) with t by ring. ring. Qed.
Lemma Bet_swap a b : 0 < a -> 0 < b -> Bet b a = Bet a b.
Proof. intros Ha Hb. rewrite !euler by auto. rewrite (Rplus_comm b a), (Rmult_comm (Gam b)). reflexivity. Qed.
Lemma swap_lim0 a b : 0 < a -> 0 < b -> lim0 (fun t => Inc b a (1 - t)) (Bet b a).
Proof.
  intros Ha Hb. unfold lim0, Inc. apply (filterlim_comp _ _ _ (fun t => (1 - (1 - t)) / (1 - t)) (Upb b a) (at_right 0) (at_right 0)); [|apply upb_lim0; auto].
  intros P [d Hd]. pose proof (cond_pos d) as Hp. apply (near0 _ (Rmin (1 / 2) (d / 2))); [apply Rmin_pos; lra|].
  intros t [T0 T1]. pose proof (Rmin_l (1 / 2) (d / 2)). pose proof (Rmin_r (1 / 2) (d / 2)).
  assert (0 < (1 - (1 - t)) / (1 - t)) by (apply Rdiv_lt_0_compat; lra).
  assert ((1 - (1 - t)) / (1 - t) <= 2 * t).
  { apply Rmult_le_reg_r with (1 - t); [lra|]. unfold Rdiv. rewrite Rmult_assoc, Rinv_l by lra. assert (0 <= t * (1 / 2 - t)) by (apply Rmult_le_pos; lra). lra. }
  apply Hd; auto. unfold ball; cbn; unfold AbsRing_ball; cbn; unfold minus, plus, opp; cbn.
  apply Rabs_def1; lra.
Qed.
Lemma zero_const (F : R -> R) x : 0 < x -> (forall t, 0 < t <= x -> is_derive F t 0) -> lim0 F 0 -> F x = 0.
Proof.
  intros Hx Hd L. assert (0 <= F x) by (apply (from_zero F (fun _ => 0)); auto; intros; lra).
  assert (0 <= - F x); [|lra].
  apply (from_zero (fun t => - F t) (fun _ => - 0)); auto; [|intros; lra|apply lim0_opp; auto].
  intros t Ht. apply (is_derive_opp F). auto.
Qed.
Lemma complement a b x : 0 < a -> 0 < b -> 0 < x < 1 -> Inc a b x + Inc b a (1 - x) = Bet a b.
Proof.
  intros Ha Hb Hx. rewrite <- Bet_swap by auto.
  assert (E : Inc a b x + Inc b a (1 - x) - Bet b a = 0); [|lra].
  apply (zero_const (fun t => Inc a b t + Inc b a (1 - t) - Bet b a) x); [lra| |].
  - intros t Ht. eapply is_derive_val.
    + apply (is_derive_minus (fun t => Inc a b t + Inc b a (1 - t)) (fun _ => Bet b a)).
      * apply (is_derive_plus (Inc a b) (fun t => Inc b a (1 - t))); [apply Inc_derive; auto; lra|].
        apply (is_derive_comp (Inc b a) (fun u => 1 - u)); [apply Inc_derive; auto; lra|]. auto_derive; [exact I|reflexivity].
      * exact (is_derive_const (V := R_NormedModule) (Bet b a) t).
    + rewrite wt_swap. unfold minus, plus, opp, scal, zero; cbn. unfold mult; cbn. ring.
  - replace 0 with (0 + Bet b a + - Bet b a) by ring.
    apply (lim0_plus (fun t => Inc a b t + Inc b a (1 - t)) (fun _ => - Bet b a)); [|apply filterlim_const].
    apply lim0_plus; [apply Inc_lim0; auto|apply swap_lim0; auto].
Qed.

(** ** the factor in front *)
Lemma exp_near d : Rabs d <= 3e-16 -> Rabs (exp d - 1) <= 3.1e-16.
Proof.
  intros H. apply Rabs_le_between in H. pose proof (exp_ineq1_le d) as L.
  assert (U : exp d <= 1 / (1 - d)).
  { pose proof (exp_ineq1_le (- d)) as M. rewrite exp_Ropp in M. pose proof (exp_pos d).
    apply Rmult_le_reg_r with (1 - d); [lra|]. unfold Rdiv. rewrite Rmult_1_l, Rinv_l by lra.
    apply Rmult_le_reg_l with (/ exp d); [apply Rinv_0_lt_compat; auto|]. rewrite <- Rmult_assoc, Rinv_l by lra. lra. }
  assert (1 / (1 - d) <= 1 + 3.1e-16).
  { apply Rmult_le_reg_r with (1 - d); [lra|]. unfold Rdiv. rewrite Rmult_assoc, Rinv_l by lra. lra. }
  apply Rabs_le. lra.
Qed.
Lemma bt_close a b x : 1 / 2 <= a -> 1 / 2 <= b -> 0 < x < 1 ->
  exists E, beta_bt a b x = Wt a b x / Bet a b * E /\ Rabs (E - 1) <= 3.1e-16.
Proof.
  intros Ha Hb Hx. pose proof (ln_gamma_close a Ha) as C1. pose proof (ln_gamma_close b Hb) as C2.
  pose proof (ln_gamma_close (a + b) ltac:(lra)) as C3. apply Rabs_le_between in C1, C2, C3.
  pose proof (euler_log a b ltac:(lra) ltac:(lra)) as EL. unfold lg in EL.
  pose proof (beta_pos a b ltac:(lra) ltac:(lra)) as PB.
  set (d := (ln_gamma (a + b) - ln (Gam (a + b))) - (ln_gamma a - ln (Gam a)) - (ln_gamma b - ln (Gam b))).
  exists (exp d). split; [|apply exp_near; unfold d; apply Rabs_le; lra].
  unfold beta_bt. destruct (Req_EM_T x 0); [lra|]. destruct (Req_EM_T x 1); [lra|].
  unfold Wt, Rpower, Rdiv. rewrite <- (exp_ln (/ Bet a b)) by (apply Rinv_0_lt_compat; auto). rewrite ln_Rinv by auto.
  rewrite <- !exp_plus. f_equal. rewrite EL. unfold d. ring.
Qed.

(** ** one evaluation of the fraction *)
Definition kap (a b : R) : R := (a + b + 2) / (b + 1).
Lemma cf_close a b x : 0 < a -> 0 < b -> 0 < x <= top a b -> a + b + 2 <= huge -> snd (beta_cf a b x) = true ->
  0 < fst (beta_cf a b x) /\
  Rabs (Inc a b x - Wt a b x / a * fst (beta_cf a b x)) <= Wt a b x / a * fst (beta_cf a b x) * (kap a b * 1.1104e-15).
Proof.
  intros Ha Hb Hx Hh Hs. destruct (cf_run a b x Ha Hb Hx Hh) as (k & _ & F & S1 & _). destruct (S1 Hs) as (j & _ & -> & M). rewrite F.
  replace (S (2 * S j)) with (S (S (S (2 * j)))) by lia. unfold meets in M.
  pose proof (V_ge1 a b x Ha Hb Hx (S (S (2 * j)))) as G. pose proof (V_ge1 a b x Ha Hb Hx (S (S (S (2 * j))))) as G'.
  assert (EV : Nat.even (S (S (S (2 * j)))) = false) by (rewrite !even_S, even_2; reflexivity).
  pose proof (frac_error a b Ha Hb (S (S (2 * j))) x Hx EV) as FE.
  set (v := Vn a b (S (S (2 * j))) x) in *. set (w := Vn a b (S (S (S (2 * j)))) x) in *. split; [lra|].
  pose proof (Wt_pos a b x) as WP. assert (WA : 0 < Wt a b x / a) by (apply Rdiv_lt_0_compat; lra).
  apply Rle_trans with (1 := FE). rewrite Rmult_assoc. apply Rmult_le_compat_l; [lra|]. fold (kap a b).
  assert (KP : 0 < kap a b) by (unfold kap; apply Rdiv_lt_0_compat; lra).
  replace (w * (kap a b * 1.1104e-15)) with (kap a b * (1.1104e-15 * w)) by ring. apply Rmult_le_compat_l; [lra|].
  pose proof eps_bounds as [e1 e2]. apply Rabs_le_between in M.
  assert (D : w / v * v = w) by (field; lra).
  assert (L1 : (1 - PREC_ACC) * v <= w) by (rewrite <- D; apply Rmult_le_compat_r; lra).
  assert (L2 : w <= (1 + PREC_ACC) * v) by (rewrite <- D; apply Rmult_le_compat_r; lra).
  assert (PREC_ACC * v <= 1.1103e-15 * v) by (apply Rmult_le_compat_r; lra).
  apply Rabs_le. lra.
Qed.
(** the product with the factor, as the code forms it *)
Definition slack (a b : R) : R := kap a b * 1.1105e-15 + 3.1e-16.
Lemma arm_close a b x : 1 / 2 <= a -> 1 / 2 <= b -> 0 < x <= top a b -> a + b + 2 <= huge -> snd (beta_cf a b x) = true ->
  0 < beta_bt a b x * fst (beta_cf a b x) / a /\
  Rabs (beta_bt a b x * fst (beta_cf a b x) / a - Inc a b x / Bet a b) <= slack a b * (beta_bt a b x * fst (beta_cf a b x) / a).
Proof.
  intros Ha Hb Hx Hh Hs. destruct (cf_close a b x ltac:(lra) ltac:(lra) Hx Hh Hs) as [HP C].
  destruct (top_1 a b ltac:(lra) ltac:(lra)) as (_ & T1 & _).
  destruct (bt_close a b x Ha Hb ltac:(lra)) as (E & -> & HE). apply Rabs_le_between in HE.
  pose proof (beta_pos a b ltac:(lra) ltac:(lra)) as PB. pose proof (Wt_pos a b x) as WP.
  clear Hs. revert HP C. generalize (fst (beta_cf a b x)). intros h HP C.
  set (w := Wt a b x) in *. set (B := Bet a b) in *. set (i := Inc a b x) in *. clearbody w B i.
  assert (KP : 0 < kap a b) by (unfold kap; apply Rdiv_lt_0_compat; lra).
  set (z := w / a * h / B). assert (Hz : 0 < z) by (unfold z; apply Rdiv_lt_0_compat; auto; apply Rmult_lt_0_compat; auto; apply Rdiv_lt_0_compat; lra).
  replace (w / B * E * h / a) with (z * E) by (unfold z; field; lra).
  assert (HzE : 0 < z * E) by (apply Rmult_lt_0_compat; lra). split; auto.
  assert (C' : Rabs (i / B - z) <= z * (kap a b * 1.1104e-15)).
  { replace (i / B - z) with ((i - w / a * h) * / B) by (unfold z; field; lra).
    rewrite Rabs_mult, (Rabs_pos_eq (/ B)) by (left; apply Rinv_0_lt_compat; auto).
    replace (z * (kap a b * 1.1104e-15)) with (w / a * h * (kap a b * 1.1104e-15) * / B) by (unfold z; field; lra).
    apply Rmult_le_compat_r; auto. left. apply Rinv_0_lt_compat; auto. }
  apply Rabs_le_between in C'. unfold slack. set (K := kap a b) in *.
  assert (Zu : z <= z * E * (1 + 3.11e-16)).
  { rewrite Rmult_assoc, <- (Rmult_1_r z) at 1. apply Rmult_le_compat_l; [lra|]. 
    apply Rle_trans with ((1 - 3.1e-16) * (1 + 3.11e-16)); [lra|]. apply Rmult_le_compat_r; lra. }
  assert (Zd : Rabs (z * E - z) <= 3.1e-16 * z).
  { replace (z * E - z) with ((E - 1) * z) by ring. rewrite Rabs_mult, (Rabs_pos_eq z) by lra. apply Rmult_le_compat_r; [lra|]. apply Rabs_le. lra. }
  apply Rabs_le_between in Zd.
  assert (0 <= K * (z * E * (1 + 3.11e-16) - z)) by (apply Rmult_le_pos; lra). assert (0 < K * (z * E)) by (apply Rmult_lt_0_compat; lra).
  assert (K1 : 1 <= K). { unfold K, kap. apply Rmult_le_reg_r with (b + 1); [lra|]. unfold Rdiv. rewrite Rmult_assoc, Rinv_l by lra. lra. }
  assert (z * E <= K * (z * E)). { rewrite <- (Rmult_1_l (z * E)) at 1. apply Rmult_le_compat_r; lra. }
  apply Rabs_le. lra.
Qed.

(** ** the value returned *)
Theorem reg_close a b x : 1 / 2 <= a -> 1 / 2 <= b -> 0 < x < 1 -> a + b + 2 <= huge -> settled a b x = true ->
  (x < top a b -> 0 < beta_reg a b x /\ Rabs (beta_reg a b x - Inc a b x / Bet a b) <= slack a b * beta_reg a b x) /\
  (top a b <= x -> beta_reg a b x < 1 /\ Rabs (beta_reg a b x - Inc a b x / Bet a b) <= slack b a * (1 - beta_reg a b x)).
Proof.
  intros Ha Hb Hx Hh Hs. unfold settled in Hs. unfold beta_reg. fold (top a b) in *.
  pose proof (beta_pos a b ltac:(lra) ltac:(lra)) as PB.
  destruct (Rle_dec (top a b) x) as [T|T]; (split; intros T'; [try lra|try lra]).
  - destruct (top_1 a b ltac:(lra) ltac:(lra)) as (_ & _ & E1).
    assert (Hx' : 0 < 1 - x <= top b a) by (unfold top at 1; rewrite (Rplus_comm b a); lra).
    destruct (arm_close b a (1 - x) Hb Ha Hx' ltac:(lra) Hs) as [P1 C].
    assert (Eb : beta_bt b a (1 - x) = beta_bt a b x).
    { unfold beta_bt. replace (1 - (1 - x)) with x by ring. rewrite (Rplus_comm b a).
      destruct (Req_EM_T (1 - x) 0), (Req_EM_T (1 - x) 1), (Req_EM_T x 0), (Req_EM_T x 1); try lra. f_equal. ring. }
    rewrite Eb in P1, C. set (y := beta_bt a b x * fst (beta_cf b a (1 - x)) / b) in *. clearbody y. split; [lra|].
    rewrite (Bet_swap a b) in C by lra. pose proof (complement a b x ltac:(lra) ltac:(lra) Hx) as CM.
    replace (1 - (1 - y)) with y by ring.
    replace (1 - y - Inc a b x / Bet a b) with (- (y - Inc b a (1 - x) / Bet a b)).
    + rewrite Rabs_Ropp. exact C.
    + replace (Inc b a (1 - x)) with (Bet a b - Inc a b x) by lra. field. lra.
  - apply arm_close; auto. lra.
Qed.
