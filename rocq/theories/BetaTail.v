(* The F and t tails as shares of the beta integral. *)
From Coq Require Import Reals Lra Lia.
From Coquelicot Require Import Coquelicot.
From Verif Require Import GamSpec GamInt GamInc BetaSpec BetaInt BetaFrac BetaErr BetaReg.
Local Open Scope R_scope.

Lemma limi_comp (F g : R -> R) l : (forall M, exists N, forall t, N < t -> M < g t) -> limi F l -> limi (fun t => F (g t)) l.
Proof.
  intros H L. apply (filterlim_comp _ _ _ g F (Rbar_locally p_infty) (Rbar_locally p_infty)); auto.
  intros P [M HM]. destruct (H M) as [N HN]. exists N. intros t Ht. apply HM, HN, Ht.
Qed.
Lemma lim0_comp (F g : R -> R) l : (forall t, 0 < t -> 0 < g t) -> (forall e, 0 < e -> exists d, 0 < d /\ forall t, 0 < t < d -> g t < e) ->
  lim0 F l -> lim0 (fun t => F (g t)) l.
Proof.
  intros G H L. apply (filterlim_comp _ _ _ g F (at_right 0) (at_right 0)); auto.
  intros P [d Hd]. destruct (H d (cond_pos d)) as (m & Hm & HN). apply (near0 _ m Hm). intros t Ht.
  pose proof (HN t Ht). pose proof (G t ltac:(lra)). apply Hd; auto.
  unfold ball; cbn; unfold AbsRing_ball; cbn; unfold minus, plus, opp; cbn. apply Rabs_def1; lra.
Qed.
Lemma cont_of_derive (f : R -> R) (x l : R) : is_derive f x l -> continuous f x.
Proof. intros H. apply (ex_derive_continuous (K := R_AbsRing) (V := R_NormedModule) f x). exists l. exact H. Qed.

(** ** F *)
Section F.
Variables d1 d2 : R.
Hypothesis H1 : 0 < d1.
Hypothesis H2 : 0 < d2.
Let a := d2 / 2.
Let b := d1 / 2.
Let F t := - (d2 / d1) * Upb a b (d1 * t / d2).
Lemma ab_pos : 0 < a /\ 0 < b. Proof. unfold a, b. lra. Qed.
Lemma arg_pos t : 0 < t -> 0 < d1 * t / d2.
Proof. intros Ht. apply Rdiv_lt_0_compat; auto. apply Rmult_lt_0_compat; auto. Qed.
Lemma f_kernel t : f_density d1 d2 t = beta_kernel a b (d1 * t / d2) * Rpower (d1 / d2) (- (b - 1)) \/ ~ 0 < t.
Proof.
  destruct (Rlt_dec 0 t) as [Ht|Ht]; [left|right; auto].
  unfold f_density, beta_kernel. replace (- ((d1 + d2) / 2)) with (- (a + b)) by (unfold a, b; field). fold b.
  replace (d1 * t / d2) with (d1 / d2 * t) by (field; lra). assert (0 < d1 / d2) by (apply Rdiv_lt_0_compat; auto).
  rewrite <- (Rpower_mult_distr (d1 / d2) t) by auto. rewrite (Rpower_Ropp (d1 / d2) (b - 1)). field. apply Rgt_not_eq, exp_pos.
Qed.
Let c := Rpower (d1 / d2) (- (b - 1)).
Lemma c_pos : 0 < c. Proof. apply exp_pos. Qed.
Lemma F_derive t : 0 < t -> is_derive (fun u => c * F u) t (f_density d1 d2 t).
Proof.
  intros Ht. destruct (f_kernel t) as [E|E]; [|contradiction]. destruct ab_pos as [A B]. eapply is_derive_val.
  - apply (is_derive_scal F t c). unfold F. apply (is_derive_scal (fun u => Upb a b (d1 * u / d2)) t (- (d2 / d1))).
    apply (is_derive_comp (Upb a b) (fun u => d1 * u / d2)); [apply upb_derive; auto; apply arg_pos; auto|]. auto_derive; [exact I|reflexivity].
  - rewrite E. fold c. unfold scal; cbn; unfold mult; cbn. field. lra.
Qed.
Lemma f_cont t : 0 < t -> continuous (f_density d1 d2) t.
Proof.
  intros Ht. unfold f_density. pose proof (arg_pos t Ht).
  apply (continuous_mult (K := R_AbsRing) (fun t => Rpower t (d1 / 2 - 1)) (fun t => Rpower (1 + d1 * t / d2) (- ((d1 + d2) / 2)))).
  - eapply cont_of_derive. apply pow_derive. auto.
  - eapply cont_of_derive. apply (is_derive_comp (fun v => Rpower v (- ((d1 + d2) / 2))) (fun u => 1 + d1 * u / d2)); [apply pow_derive; lra|].
    auto_derive; [exact I|reflexivity].
Qed.
Lemma F_lim0 : lim0 (fun u => c * F u) (c * (- (d2 / d1) * Bet a b)).
Proof.
  destruct ab_pos as [A B]. apply lim0_scal. unfold F. apply (lim0_scal (fun t => Upb a b (d1 * t / d2))).
  apply (lim0_comp (Upb a b) (fun t => d1 * t / d2)); [apply arg_pos| |apply upb_lim0; auto].
  intros e He. exists (e * d2 / d1). split; [apply Rdiv_lt_0_compat; auto; apply Rmult_lt_0_compat; auto|].
  intros t [T0 T1]. apply Rmult_lt_reg_r with (d2 / d1); [apply Rdiv_lt_0_compat; auto|].
  replace (d1 * t / d2 * (d2 / d1)) with t by (field; lra). replace (e * (d2 / d1)) with (e * d2 / d1) by (field; lra). lra.
Qed.
Lemma F_limi : limi (fun u => c * F u) 0.
Proof.
  destruct ab_pos as [A B]. replace 0 with (c * (- (d2 / d1) * 0)) by ring. apply limi_scal. unfold F. apply (limi_scal (fun t => Upb a b (d1 * t / d2))).
  apply (limi_comp (Upb a b) (fun t => d1 * t / d2)); [|apply upb_limi; auto].
  intros M. exists (M * d2 / d1). intros t Ht. apply Rmult_lt_reg_r with (d2 / d1); [apply Rdiv_lt_0_compat; auto|].
  replace (d1 * t / d2 * (d2 / d1)) with t by (field; lra). replace (M * (d2 / d1)) with (M * d2 / d1) by (field; lra). lra.
Qed.
Theorem f_tail x : 0 < x -> f_upper_tail d1 d2 x (Inc a b (d2 / (d1 * x + d2)) / Bet a b).
Proof.
  intros Hx. destruct ab_pos as [A B]. pose proof (beta_pos a b A B) as PB. pose proof c_pos. assert (0 < d2 / d1) by (apply Rdiv_lt_0_compat; auto).
  pose proof (prim_gen _ _ _ _ F_derive f_cont F_lim0 F_limi) as T.
  pose proof (prim_gen_from _ _ x _ F_derive f_cont Hx F_limi) as U.
  eexists _, _. split; [exact T|]. split; [exact U|]. split.
  - replace (0 - c * (- (d2 / d1) * Bet a b)) with (c * (d2 / d1) * Bet a b) by ring. apply Rmult_lt_0_compat; auto. apply Rmult_lt_0_compat; auto.
  - unfold F, Inc. replace ((1 - d2 / (d1 * x + d2)) / (d2 / (d1 * x + d2))) with (d1 * x / d2).
    + match goal with |- ?u = ?v => change (@eq R u v) end. field. repeat split; lra.
    + assert (0 < d1 * x) by (apply Rmult_lt_0_compat; auto). field. lra.
Qed.
End F.
Lemma f_tail_uniq d1 d2 x p q : f_upper_tail d1 d2 x p -> f_upper_tail d1 d2 x q -> p = q.
Proof.
  intros (t & u & T & U & _ & ->) (t' & u' & T' & U' & _ & ->).
  assert (P1 : ProperFilter' (at_right 0)) by apply Proper_StrongProper, at_right_proper_filter.
  assert (E : t = t').
  { transitivity (RInt_gen (f_density d1 d2) (at_right 0) (Rbar_locally p_infty)); [symmetry|];
    apply (@is_RInt_gen_unique R_CompleteNormedModule (at_right 0) (Rbar_locally p_infty) _ _); auto. }
  assert (E' : u = u').
  { transitivity (RInt_gen (f_density d1 d2) (at_point x) (Rbar_locally p_infty)); [symmetry|];
    apply (@is_RInt_gen_unique R_CompleteNormedModule (at_point x) (Rbar_locally p_infty) _ _); auto. }
  subst. reflexivity.
Qed.

(** ** Student's t *)
Section T.
Variable nu : R.
Hypothesis Hn : 0 < nu.
Let a := nu / 2.
Notation b := (1 / 2).
Let c := - (sqrt nu / 2).
Let F t := c * Upb a b (t * t / nu).
Lemma Ta : 0 < a. Proof. unfold a. lra. Qed.
Lemma Tb : 0 < b. Proof. lra. Qed.
Lemma targ t : 0 < t -> 0 < t * t / nu.
Proof. intros Ht. apply Rdiv_lt_0_compat; auto. apply Rmult_lt_0_compat; auto. Qed.
Lemma targ0 t : 0 <= t * t / nu.
Proof. apply Rdiv_le_0_compat; auto. apply Rle_0_sqr. Qed.
Lemma t_kernel t : 0 < t -> beta_kernel a b (t * t / nu) = sqrt nu / t * t_density nu t.
Proof.
  intros Ht. unfold beta_kernel, t_density. replace (a + b) with ((nu + 1) / 2) by (unfold a; field). f_equal.
  replace (1 / 2 - 1) with (- (/ 2)) by field. rewrite Rpower_Ropp, Rpower_sqrt by (apply targ; auto).
  unfold Rdiv. rewrite sqrt_mult by (try apply Rle_0_sqr; left; apply Rinv_0_lt_compat; auto). rewrite sqrt_square by lra.
  rewrite sqrt_inv. assert (0 < sqrt nu) by (apply sqrt_lt_R0; auto). field. lra.
Qed.
Lemma T_derive t : 0 < t -> is_derive F t (t_density nu t).
Proof.
  intros Ht. eapply is_derive_val.
  - unfold F. apply (is_derive_scal (fun u => Upb a b (u * u / nu)) t c).
    apply (is_derive_comp (Upb a b) (fun u => u * u / nu)); [apply upb_derive; [apply Ta|apply Tb|apply targ; auto]|]. auto_derive; [exact I|reflexivity].
  - rewrite t_kernel by auto. unfold scal; cbn; unfold mult; cbn. unfold c.
    assert (0 < sqrt nu) by (apply sqrt_lt_R0; auto). pose proof (sqrt_sqrt nu ltac:(lra)) as S.
    match goal with |- _ = ?r => set (f := r) end. 
    replace (- (sqrt nu / 2) * ((1 * t + t * 1) * / nu * - (sqrt nu / t * f))) with ((sqrt nu * sqrt nu) / nu * f) by (field; lra).
    rewrite S. field. lra.
Qed.
Lemma t_cont t : continuous (t_density nu) t.
Proof.
  unfold t_density. pose proof (targ0 t).
  eapply cont_of_derive. apply (is_derive_comp (fun v => Rpower v (- ((nu + 1) / 2))) (fun u => 1 + u * u / nu)); [apply pow_derive; lra|].
  auto_derive; [exact I|reflexivity].
Qed.
Lemma T_lim0 : lim0 F (c * Bet a b).
Proof.
  unfold F. apply (lim0_scal (fun t => Upb a b (t * t / nu))).
  apply (lim0_comp (Upb a b) (fun t => t * t / nu)); [apply targ| |apply upb_lim0; [apply Ta|apply Tb]].
  intros e He. exists (Rmin 1 (e * nu)). assert (0 < e * nu) by (apply Rmult_lt_0_compat; auto). split; [apply Rmin_pos; lra|].
  intros t [T0 T1]. pose proof (Rmin_l 1 (e * nu)). pose proof (Rmin_r 1 (e * nu)).
  apply Rmult_lt_reg_r with nu; auto. unfold Rdiv. rewrite Rmult_assoc, Rinv_l by lra.
  assert (t * t <= t * 1) by (apply Rmult_le_compat_l; lra). lra.
Qed.
Lemma T_limi : limi F 0.
Proof.
  replace 0 with (c * 0) by ring. unfold F. apply (limi_scal (fun t => Upb a b (t * t / nu))).
  apply (limi_comp (Upb a b) (fun t => t * t / nu)); [|apply upb_limi; [apply Ta|apply Tb]].
  intros M. exists (Rmax 1 (M * nu)). intros t Ht. pose proof (Rmax_l 1 (M * nu)). pose proof (Rmax_r 1 (M * nu)).
  apply Rmult_lt_reg_r with nu; auto. unfold Rdiv. rewrite Rmult_assoc, Rinv_l by lra.
  assert (t * 1 <= t * t) by (apply Rmult_le_compat_l; lra). lra.
Qed.
Let tail t := Inc a b (nu / (nu + t * t)) / Bet a b.
Lemma t_half : is_RInt_gen (t_density nu) (at_right 0) (Rbar_locally p_infty) (sqrt nu / 2 * Bet a b).
Proof.
  pose proof (prim_gen _ _ _ _ T_derive (fun t _ => t_cont t) T_lim0 T_limi) as T. replace (sqrt nu / 2 * Bet a b) with (0 - c * Bet a b) by (unfold c; ring). exact T.
Qed.
Lemma t_beyond x : 0 < x -> is_RInt_gen (t_density nu) (at_point x) (Rbar_locally p_infty) (sqrt nu / 2 * Upb a b (x * x / nu)).
Proof.
  intros Hx. pose proof (prim_gen_from _ _ x _ T_derive (fun t _ => t_cont t) Hx T_limi) as T.
  replace (sqrt nu / 2 * Upb a b (x * x / nu)) with (0 - F x) by (unfold F, c; ring). exact T.
Qed.
(** from 0 to x *)
Lemma t_mid x : 0 < x -> is_RInt (t_density nu) 0 x (sqrt nu / 2 * (Bet a b - Upb a b (x * x / nu))).
Proof.
  intros Hx. set (G := fun t => RInt (t_density nu) 0 t).
  assert (I : forall t, is_RInt (t_density nu) 0 t (G t)).
  { intros t. apply (RInt_correct (V := R_CompleteNormedModule)). apply (ex_RInt_continuous (V := R_CompleteNormedModule)). intros; apply t_cont. }
  assert (D : forall t, is_derive G t (t_density nu t)).
  { intros t. apply (is_derive_RInt (t_density nu) G 0 t); [apply filter_forall; exact I|apply t_cont]. }
  assert (G0 : G 0 = 0) by (unfold G; rewrite RInt_point; reflexivity).
  assert (E : G x + -1 * F x + c * Bet a b = 0).
  { apply (zero_const (fun t => G t + -1 * F t + c * Bet a b) x Hx).
    - intros t Ht. eapply is_derive_val.
      + apply (is_derive_plus (fun t => G t + -1 * F t) (fun _ => c * Bet a b)); [|exact (is_derive_const (V := R_NormedModule) (c * Bet a b) t)].
        apply (is_derive_plus G (fun t => -1 * F t)); [apply D|]. apply (is_derive_scal F t (-1)). apply T_derive. lra.
      + unfold plus, scal, zero; cbn. unfold mult; cbn. ring.
    - replace 0 with (0 + -1 * (c * Bet a b) + c * Bet a b) by ring.
      apply (lim0_plus (fun t => G t + -1 * F t) (fun _ => c * Bet a b)); [|apply filterlim_const].
      apply lim0_plus; [|apply lim0_scal, T_lim0].
      rewrite <- G0. intros P HP. pose proof (cont_of_derive G 0 _ (D 0) P HP) as [d Hd]. exists d. intros y Hy _. apply Hd, Hy. }
  replace (sqrt nu / 2 * (Bet a b - Upb a b (x * x / nu))) with (G x); [apply I|]. unfold F, c in E. lra.
Qed.
Lemma t_even x l : is_RInt (t_density nu) 0 x l -> is_RInt (t_density nu) (- x) 0 l.
Proof.
  intros H. apply is_RInt_swap in H.
  assert (H' : is_RInt (t_density nu) (- - x) (- 0) (opp l)) by (rewrite Ropp_involutive, Ropp_0; exact H).
  apply is_RInt_comp_opp in H'. apply is_RInt_opp in H'. rewrite opp_opp in H'.
  apply (is_RInt_ext (fun y => opp (opp (t_density nu (- y))))); auto.
  intros y _. rewrite opp_opp. unfold t_density. replace (- y * - y) with (y * y) by ring. reflexivity.
Qed.
Lemma inc_of x : x <> 0 -> Inc a b (nu / (nu + x * x)) = Upb a b (x * x / nu).
Proof.
  intros Hx. unfold Inc. f_equal. assert (0 < x * x) by (apply Rsqr_pos_lt; auto). field. lra.
Qed.
Theorem t_tail_pos x : 0 < x -> t_upper_tail nu x (tail x / 2).
Proof.
  intros Hx. pose proof (beta_pos a b Ta Tb) as PB. assert (0 < sqrt nu) by (apply sqrt_lt_R0; auto).
  eexists _, _. split; [exact t_half|]. split; [exact (t_beyond x Hx)|]. split; [apply Rmult_lt_0_compat; lra|].
  unfold tail. rewrite inc_of by lra. match goal with |- ?u = ?v => change (@eq R u v) end. field. lra.
Qed.
Theorem t_tail_neg x : 0 < x -> t_upper_tail nu (- x) (1 - tail x / 2).
Proof.
  intros Hx. pose proof (beta_pos a b Ta Tb) as PB. assert (0 < sqrt nu) by (apply sqrt_lt_R0; auto).
  pose proof (t_mid x Hx) as M. pose proof (t_even x _ M) as M'. pose proof (is_RInt_Chasles _ _ _ _ _ _ M' M) as W.
  apply is_RInt_gen_at_point in W.
  pose proof (is_RInt_gen_Chasles (t_density nu) x _ _ W (t_beyond x Hx)) as W2.
  eexists _, _. split; [exact t_half|]. split; [exact W2|]. split; [apply Rmult_lt_0_compat; lra|].
  unfold tail. rewrite inc_of by lra. change plus with Rplus. match goal with |- ?u = ?v => change (@eq R u v) end. field. lra.
Qed.
Theorem t_tail_zero : t_upper_tail nu 0 (1 / 2).
Proof.
  pose proof (beta_pos a b Ta Tb) as PB. assert (0 < sqrt nu) by (apply sqrt_lt_R0; auto).
  pose proof (t_mid 1 ltac:(lra)) as M. apply is_RInt_gen_at_point in M.
  pose proof (is_RInt_gen_Chasles (t_density nu) 1 _ _ M (t_beyond 1 Rlt_0_1)) as W2.
  eexists _, _. split; [exact t_half|]. split; [exact W2|]. split; [apply Rmult_lt_0_compat; lra|].
  change plus with Rplus. match goal with |- ?u = ?v => change (@eq R u v) end. field. lra.
Qed.
End T.
Lemma t_tail_uniq nu x p q : t_upper_tail nu x p -> t_upper_tail nu x q -> p = q.
Proof.
  intros (t & u & T & U & _ & ->) (t' & u' & T' & U' & _ & ->).
  assert (P1 : ProperFilter' (at_right 0)) by apply Proper_StrongProper, at_right_proper_filter.
  assert (E : t = t').
  { transitivity (RInt_gen (t_density nu) (at_right 0) (Rbar_locally p_infty)); [symmetry|];
    apply (@is_RInt_gen_unique R_CompleteNormedModule (at_right 0) (Rbar_locally p_infty) _ _); auto. }
  assert (E' : u = u').
  { transitivity (RInt_gen (t_density nu) (at_point x) (Rbar_locally p_infty)); [symmetry|];
    apply (@is_RInt_gen_unique R_CompleteNormedModule (at_point x) (Rbar_locally p_infty) _ _); auto. }
  subst. reflexivity.
Qed.
