(** Student's quantile against the true distribution. *)
From Coq Require Import Reals ZArith Lra Lia.
From Coquelicot Require Import Coquelicot.
From Verif Require Import MetricSpec GamModel GamSpec GamLan5 TtestModel BetaSpec BetaInt BetaErr BetaModel BetaTail BetaProofs InvModel InvSpec InvProofs.
Local Open Scope R_scope.

Lemma share_inc a b u v : 0 < a -> 0 < b -> 0 < u < 1 -> beta_share a b u v -> v = Inc a b u / Bet a b.
Proof.
  intros A B U (tot & bel & T & L & ->). rewrite (beta_uniq a b tot T). f_equal.
  unfold Inc. symmetry. unfold Upb. apply (@is_RInt_gen_unique R_CompleteNormedModule (at_point ((1 - u) / u)) (Rbar_locally p_infty) _ _). exact L.
Qed.
Lemma share_ex a b u : 0 < a -> 0 < b -> 0 < u < 1 -> beta_share a b u (Inc a b u / Bet a b).
Proof.
  intros A B U. destruct (upb_facts a b A B) as (l0 & l1 & _ & _ & _ & H). destruct (H ((1 - u) / u)) as [H1 _]; [apply Rdiv_lt_0_compat; lra|].
  exists (Bet a b), (Inc a b u). split; [now apply beta_ex|]. split; [exact H1|reflexivity].
Qed.
Lemma slope_wt a b p B : 0 < B -> 0 < p < 1 -> / slope_inv a b (ln B) p = wt a b p / B.
Proof.
  intros HB P. unfold slope_inv, wt. rewrite !exp_plus, exp_ln by exact HB. unfold Rpower.
  replace ((1 - a) * ln p) with (- ((a - 1) * ln p)) by ring. replace ((1 - b) * ln (1 - p)) with (- ((b - 1) * ln (1 - p))) by ring.
  rewrite !exp_Ropp. pose proof (exp_pos ((a - 1) * ln p)). pose proof (exp_pos ((b - 1) * ln (1 - p))). field. repeat split; lra.
Qed.
Lemma newton_slope a b p B (F : R -> R) : 0 < a -> 0 < b -> 0 < p < 1 -> is_Beta a b B ->
  (forall u, 0 < u < 1 -> beta_share a b u (F u)) -> is_derive F p (/ slope_inv a b (ln B) p).
Proof.
  intros A B' P HB HF. pose proof (beta_pos a b A B') as PB. pose proof (beta_uniq a b B HB) as E. rewrite <- E. rewrite slope_wt by assumption.
  apply (is_derive_ext_loc (fun u => Inc a b u / Bet a b)).
  - exists (mkposreal (Rmin p (1 - p)) ltac:(apply Rmin_glb_lt; lra)). intros u U. cbn [pos] in U.
    change (Rabs (u - p) < Rmin p (1 - p)) in U. apply Rabs_def2 in U. pose proof (Rmin_l p (1 - p)). pose proof (Rmin_r p (1 - p)).
    symmetry. apply share_inc; [assumption|assumption|lra|]. apply HF. lra.
  - unfold Rdiv. apply (is_derive_ext (fun u => / Bet a b * Inc a b u)); [intro; apply Rmult_comm|]. rewrite (Rmult_comm (wt a b p)).
    apply (is_derive_scal (Inc a b) p (/ Bet a b)). now apply Inc_derive.
Qed.
Lemma ln_beta_close a b B : 1 / 2 <= a -> 1 / 2 <= b -> is_Beta a b B -> Rabs (ln_beta a b - ln B) <= 3e-16.
Proof.
  intros A B' HB.
  destruct (gamma_defined a ltac:(lra)) as (Ga & HGa & Pa). destruct (gamma_defined b ltac:(lra)) as (Gb & HGb & Pb). destruct (gamma_defined (a + b) ltac:(lra)) as (Gc & HGc & Pc).
  rewrite (euler_thm a b B Ga Gb Gc ltac:(lra) ltac:(lra) HB HGa HGb HGc). unfold Rdiv. rewrite ln_mult, ln_mult, ln_Rinv; try assumption.
  2:{ now apply Rmult_lt_0_compat. } 2:{ now apply Rinv_0_lt_compat. }
  pose proof (ln_gamma_ok a Ga A HGa) as E1. pose proof (ln_gamma_ok b Gb B' HGb) as E2. pose proof (ln_gamma_ok (a + b) Gc ltac:(lra) HGc) as E3.
  unfold ln_beta. apply Rabs_le. apply Rabs_le_between in E1, E2, E3. lra.
Qed.
(** The quantile's true tail, from the residual the solver leaves. *)
Lemma quantile_residual f n df x t p d : 1 <= df <= 10 ^ 12 -> 1 / 2 <= x < 1 -> student_t_ppf beta_reg f n x df = Done (Fin t) -> t_upper_tail df t p ->
  (forall y, inv_beta_reg beta_reg f n (df / 2) (1 / 2) (2 * (1 - x)) = Done y -> Rabs (beta_reg (df / 2) (1 / 2) y - 2 * (1 - x)) <= d) ->
  0 <= t /\ Rabs (p - (1 - x)) <= d / 2 + 4e-16 * (df + 6).
Proof.
  intros D X E T HR. destruct (ppf_sf beta_reg f n x df t ltac:(lra) X E) as (T0 & y & EY & RY & HY & S). split; [exact T0|].
  specialize (HR y EY). destruct (student_close df t p D T) as (v & EV & CV).
  assert (W : v = 1 / 2 * beta_reg (df / 2) (1 / 2) y).
  { destruct (Req_EM_T t 0) as [Z|Z].
    - subst t. rewrite sf_zero in EV by lra. injection EV as <-. replace (df / (df + 0 * 0)) with 1 in HY by (field; lra). subst y. rewrite reg_one by lra. lra.
    - rewrite S in EV by lra. now injection EV as <-. }
  clear EV S EY. revert CV HR. rewrite W. generalize (beta_reg (df / 2) (1 / 2) y). intros b CV HR. apply Rabs_le. apply Rabs_le_between in CV, HR. lra.
Qed.
Lemma quantile_ends f n df x t p : 1 <= df <= 10 ^ 12 -> 3 / 4 <= x < 1 -> student_t_ppf beta_reg f n x df = Done (Fin t) -> t_upper_tail df t p ->
  Rabs (p - (1 - x)) <= 4e-16 * (df + 6) \/
  exists p0 g, 0 < p0 < 1 /\ 0 < g <= 1 /\ Rabs (df / (df + t * t) - p0) <= 4e-7 /\
    df / (df + t * t) = p0 - g * ((beta_reg (df / 2) (1 / 2) p0 - 2 * (1 - x)) * slope_inv (df / 2) (1 / 2) (ln_beta (df / 2) (1 / 2)) p0).
Proof.
  intros D X E T. destruct (ppf_sf beta_reg f n x df t ltac:(lra) ltac:(lra) E) as (T0 & y & EY & RY & HY & _).
  pose proof (inv_ends beta_reg f n (df / 2) (1 / 2) (2 * (1 - x)) ltac:(lra) ltac:(lra) ltac:(lra)) as H. rewrite EY in H.
  destruct H as [[_ H]|(_ & p0 & g & P & G & Y & L)].
  - left. destruct (quantile_residual f n df x t p 0 D ltac:(lra) E T) as [_ Q]; [|lra].
    intros y' Y'. rewrite EY in Y'. injection Y' as <-. rewrite H. replace (2 * (1 - x) - 2 * (1 - x)) with 0 by ring. rewrite Rabs_R0. lra.
  - right. exists p0, g. rewrite HY. split; [exact P|]. split; [exact G|]. split; [|exact Y]. clear - L. generalize dependent (y - p0). intros r L.
    apply Rnot_lt_le. intro C. assert (4e-7 * 4e-7 < r * r). { rewrite <- (Rabs_pos_eq (r * r)) by nra. rewrite Rabs_mult. nra. }
    assert (W : / 10 ^ 13 = 1e-13) by (cbn [pow]; lra). lra.
Qed.
Lemma report_bounds f n df t b se : 0 < df -> 0 <= se -> student_t_ppf beta_reg f n (975 / 1000) df = Done (Fin t) -> b - t * se <= b <= b + t * se.
Proof. intros D S E. destruct (ppf_sf beta_reg f n (975 / 1000) df t D ltac:(lra) E) as [T _]. assert (0 <= t * se) by now apply Rmult_le_pos. lra. Qed.
Lemma share_case : exists F : R -> R, forall u, 0 < u < 1 -> beta_share 2 3 u (F u).
Proof. exists (fun u => Inc 2 3 u / Bet 2 3). intros u U. apply share_ex; lra. Qed.
Lemma ppf_no_dof f n x df : df <= 0 -> 0 < x < 1 -> x <> 1 / 2 -> student_t_ppf beta_reg (S f) n x df = Panicked.
Proof.
  intros D X N. unfold student_t_ppf. destruct (Rlt_dec x 0); [lra|]. destruct (Rlt_dec 1 x); [lra|]. cbv zeta.
  set (x1 := if Rle_dec (1 / 2) x then 1 - x else x). assert (X1 : 0 < x1 < 1 / 2) by (unfold x1; destruct (Rle_dec (1 / 2) x); lra). clearbody x1.
  unfold inv_beta_reg. cbv zeta. destruct (Req_EM_T (2 * x1) 0); [lra|]. destruct (Req_EM_T (2 * x1) 1); [lra|].
  assert (C : forall a b p, a <= 0 \/ b <= 0 -> checked_beta_reg beta_reg a b p = Err).
  { intros a b p H. unfold checked_beta_reg. destruct (Rle_dec a 0); [reflexivity|]. destruct (Rle_dec b 0); [reflexivity|lra]. }
  destruct (Rlt_dec (1 / 2) (2 * x1)); cbn [newton]; rewrite C by lra; reflexivity.
Qed.
