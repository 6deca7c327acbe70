From Coq Require Import Reals List ZArith Arith Lra Lia Psatz.
From Verif Require Import MetricSpec FloatxSpec FloatxModel.
Import ListNotations.
Open Scope R_scope.

Lemma logistic_range x : 0 < logistic x < 1.
Proof.
  unfold logistic. pose proof (exp_pos (- x)). split; [apply Rinv_0_lt_compat; lra|]. rewrite <- Rinv_1. apply Rinv_lt_contravar; lra.
Qed.
Lemma expit_fin x : expit (Fin x) = Fin (logistic x).
Proof. unfold expit, logistic. f_equal. field. pose proof (exp_pos (- x)). lra. Qed.
Lemma logit_in p : 0 < p < 1 -> logit (Fin p) = Fin (log_odds p).
Proof.
  intro H. unfold logit. destruct (Req_EM_T p 0); [lra|]. destruct (Req_EM_T p 1); [lra|]. destruct (Rlt_dec p 0); [lra|]. destruct (Rlt_dec 1 p); [lra|]. reflexivity.
Qed.
Lemma odds_logistic x : log_odds (logistic x) = x.
Proof.
  unfold log_odds, logistic. pose proof (exp_pos (- x)) as P. replace (/ (1 + exp (- x)) / (1 - / (1 + exp (- x)))) with (/ exp (- x)) by (field; lra). rewrite <- exp_Ropp, Ropp_involutive. apply ln_exp.
Qed.
Lemma logistic_odds p : 0 < p < 1 -> logistic (log_odds p) = p.
Proof.
  intro H. unfold logistic, log_odds. rewrite <- ln_Rinv by (apply Rdiv_lt_0_compat; lra). rewrite exp_ln by (apply Rinv_0_lt_compat, Rdiv_lt_0_compat; lra). field. lra.
Qed.
Lemma inverse_thm : (forall x, logit (expit (Fin x)) = Fin x) /\ (forall p, 0 <= p <= 1 -> expit (logit (Fin p)) = Fin p).
Proof.
  split.
  - intro x. rewrite expit_fin, logit_in by apply logistic_range. now rewrite odds_logistic.
  - intros p H. destruct (Req_dec p 0) as [->|N0].
    + unfold logit. destruct (Req_EM_T 0 0); [easy|lra].
    + destruct (Req_dec p 1) as [->|N1].
      * unfold logit. destruct (Req_EM_T 1 0); [lra|]. destruct (Req_EM_T 1 1); [|lra]. cbn. f_equal. field.
      * rewrite logit_in, expit_fin by lra. now rewrite logistic_odds by lra.
Qed.
Lemma logistic_mono x y : x < y -> logistic x < logistic y.
Proof.
  intro H. unfold logistic. pose proof (exp_pos (- x)). pose proof (exp_pos (- y)). assert (exp (- y) < exp (- x)) by (apply exp_increasing; lra). apply Rinv_lt_contravar; nra.
Qed.
Lemma logistic_neg x : logistic (- x) = 1 - logistic x.
Proof. unfold logistic. rewrite Ropp_involutive, exp_Ropp. pose proof (exp_pos x). field. lra. Qed.
Lemma expit_thm x y : expit (Fin x) = Fin (logistic x) /\ 0 < logistic x < 1 /\ (x < y -> logistic x < logistic y) /\ logistic (- x) = 1 - logistic x /\
  expit PInf = Fin 1 /\ expit NInf = Fin 0 /\ expit NaN = NaN.
Proof.
  split; [apply expit_fin|]. split; [apply logistic_range|]. split; [apply logistic_mono|]. split; [apply logistic_neg|]. split; [cbn; f_equal; field|easy].
Qed.
Lemma odds_mono p q : 0 < p < 1 -> 0 < q < 1 -> p < q -> log_odds p < log_odds q.
Proof.
  intros P Q H. apply Rnot_le_lt. intros L. destruct L as [L|L]; [apply logistic_mono in L|apply (f_equal logistic) in L]; rewrite !logistic_odds in L by assumption; lra.
Qed.
Lemma odds_neg p : 0 < p < 1 -> log_odds (1 - p) = - log_odds p.
Proof. intro P. unfold log_odds. rewrite <- ln_Rinv by (apply Rdiv_lt_0_compat; lra). f_equal. field. lra. Qed.
Lemma logit_thm p q : 0 < p < 1 -> 0 < q < 1 ->
  logit (Fin p) = Fin (log_odds p) /\ (p < q -> log_odds p < log_odds q) /\ log_odds (1 - p) = - log_odds p /\
  logit (Fin 0) = NInf /\ logit (Fin 1) = PInf /\ (forall r, r < 0 \/ 1 < r -> logit (Fin r) = NaN) /\ logit NaN = NaN.
Proof.
  intros P Q. split; [now apply logit_in|]. split; [now apply odds_mono|]. split; [now apply odds_neg|]. unfold logit. repeat split.
  - destruct (Req_EM_T 0 0); [easy|lra].
  - destruct (Req_EM_T 1 0); [lra|]. destruct (Req_EM_T 1 1); [easy|lra].
  - intros r H. destruct (Req_EM_T r 0); [lra|]. destruct (Req_EM_T r 1); [lra|]. destruct (Rlt_dec r 0); [easy|]. destruct (Rlt_dec 1 r); [easy|]. lra.
Qed.
Lemma xlogy_thm : (forall y, y <> NaN -> xlogy (Fin 0) y = Fin 0) /\ (forall x, xlogy x NaN = NaN) /\
  (forall x y, 0 < y -> xlogy (Fin x) (Fin y) = Fin (x * ln y)) /\ (forall x, 0 < x -> xlogy (Fin x) (Fin 0) = NInf) /\
  (forall x y, x <> 0 -> y < 0 -> xlogy (Fin x) (Fin y) = NaN).
Proof.
  unfold xlogy. split; [|split; [|split; [|split]]].
  - intros y N. cbn [is_zero]. destruct (Req_EM_T 0 0); [|lra]. now destruct y.
  - intro x. cbn. rewrite Bool.andb_false_r. now destruct x.
  - intros x y P. cbn [is_zero is_nan negb]. destruct (Req_EM_T x 0) as [->|N]; cbn [andb]; [f_equal; ring|]. unfold xln. destruct (Rlt_dec 0 y); [reflexivity|lra].
  - intros x P. cbn [is_zero is_nan negb]. destruct (Req_EM_T x 0); [lra|]. cbn [andb]. unfold xln. destruct (Rlt_dec 0 0); [lra|]. destruct (Req_EM_T 0 0); [|lra]. cbn. destruct (Rlt_dec 0 x); [easy|lra].
  - intros x y N P. cbn [is_zero is_nan negb]. destruct (Req_EM_T x 0); [easy|]. cbn [andb]. unfold xln. destruct (Rlt_dec 0 y); [lra|]. destruct (Req_EM_T y 0); [lra|]. reflexivity.
Qed.
Lemma exp2_thm x y : exp2 (Fin (x + y)) = (match exp2 (Fin x), exp2 (Fin y) with Fin a, Fin b => Fin (a * b) | _, _ => NaN end) /\ (forall n, exp2 (Fin (INR n)) = Fin (2 ^ n)).
Proof. split; cbn; [f_equal; apply Rpower_plus|]. intro n. f_equal. apply Rpower_pow. lra. Qed.
Lemma int_part r : 0 <= r -> 0 <= IZR (Int_part r) <= r /\ r - IZR (Int_part r) < 1.
Proof.
  intro H. destruct (base_Int_part r) as [A B]. split; [split; [|exact A]|lra]. apply IZR_le. apply Z.lt_succ_r. apply lt_IZR. rewrite succ_IZR. lra.
Qed.
Lemma trunc_thm r : exists t f, trunc (Fin r) = Fin t /\ fract (Fin r) = Fin f /\ is_trunc r t /\ r = t + f /\ Rabs f < 1 /\ 0 <= r * f.
Proof.
  exists (truncR r), (r - truncR r). split; [easy|]. split; [easy|]. unfold truncR. destruct (Rlt_dec r 0) as [N|N].
  - destruct (int_part (- r)) as [[A B] C]; [lra|]. set (z := Int_part (- r)) in *. repeat split; try lra.
    + exists (- z)%Z. now rewrite opp_IZR.
    + rewrite Rabs_Ropp, Rabs_pos_eq, Rabs_left by lra. lra.
    + apply Rabs_def1; lra.
    + nra.
    + apply Rabs_def1; lra.
    + nra.
  - destruct (int_part r) as [[A B] C]; [lra|]. set (z := Int_part r) in *. repeat split; try lra.
    + now exists z.
    + rewrite !Rabs_pos_eq by lra. lra.
    + apply Rabs_def1; lra.
    + nra.
    + apply Rabs_def1; lra.
    + nra.
Qed.
Lemma apply_valuewise {A B} (f : A -> B) : valuewise f (apply_values f).
Proof. intro x. unfold apply_values. split; [apply map_length|]. intro i. now rewrite nth_error_map. Qed.
Lemma columns_thm : valuewise logit (fun x => pl_logit (Floats x)) /\ valuewise expit (fun x => pl_expit (Floats x)) /\ valuewise exp2 (fun x => pl_exp2 (Floats x)) /\ valuewise fract (fun x => pl_fract (Floats x)) /\
  (forall x, exists y, pl_trunc (Floats x) = Floats y /\ y = apply_values trunc x) /\
  valuewise (fun z => logit (Fin (IZR z))) (fun x => pl_logit (Ints x)) /\ valuewise (fun z => expit (Fin (IZR z))) (fun x => pl_expit (Ints x)).
Proof.
  split; [apply apply_valuewise|]. split; [apply apply_valuewise|]. split; [apply apply_valuewise|]. split; [apply apply_valuewise|]. split; [intro x; now exists (apply_values trunc x)|]. split; apply apply_valuewise.
Qed.
Lemma fract_ints : exists x : list (option Z), In None x /\ ~ In None (pl_fract (Ints x)).
Proof. exists [None]. split; [now left|]. cbn. intros [H|[]]; easy. Qed.
Lemma xlogy_cols x y i : length x = length y -> nth i (pl_xlogy x y) None = match nth i x None, nth i y None with Some a, Some b => Some (xlogy a b) | _, _ => None end.
Proof.
  revert y i. induction x as [|a x IH]; intros [|b y] [|i] L; try easy. injection L as L. cbn [combine map nth]. exact (IH y i L).
Qed.
(** sinc *)
Lemma sin_le x : 0 <= x -> sin x <= x.
Proof. intros [H|<-]; [left; now apply sin_lt_x|rewrite sin_0; lra]. Qed.
Lemma sin_abs x : Rabs (sin x) <= Rabs x.
Proof.
  destruct (Rle_lt_dec 0 x) as [H|H].
  - rewrite (Rabs_pos_eq x H). apply Rabs_le. split; [|now apply sin_le]. destruct (Rle_lt_dec x PI) as [L|L]; [pose proof (sin_ge_0 x H L); lra|]. pose proof (SIN_bound x). pose proof PI2_1. lra.
  - rewrite (Rabs_left x H), <- Rabs_Ropp, <- sin_neg. apply Rabs_le. split; [|apply sin_le; lra]. destruct (Rle_lt_dec (- x) PI) as [L|L]; [assert (0 <= - x) by lra; pose proof (sin_ge_0 (- x) H0 L); lra|]. pose proof (SIN_bound (- x)). pose proof PI2_1. lra.
Qed.
Lemma sinc_thm x : Rabs (sinc x) <= 1 /\ sinc (- x) = sinc x /\ (x <> 0 -> sinc x = sin (PI * x) / (PI * x)) /\ (forall n : Z, n <> 0%Z -> sinc (IZR n) = 0).
Proof.
  pose proof PI_RGT_0 as P. assert (B : forall y, y <> 0 -> Rabs (sin y / y) <= 1).
  { intros y N. unfold Rdiv. rewrite Rabs_mult, Rabs_inv. pose proof (Rabs_pos_lt y N). apply Rmult_le_reg_r with (Rabs y); [easy|]. rewrite Rmult_assoc, Rinv_l by lra. pose proof (sin_abs y). lra. }
  assert (T : 0 < / 10 ^ 20) by (apply Rinv_0_lt_compat; lra). split; [|split; [|split]].
  - unfold sinc. apply B. destruct (Req_EM_T x 0); nra.
  - unfold sinc. destruct (Req_EM_T x 0) as [->|N]; destruct (Req_EM_T (- _) 0); try lra. replace (PI * - x) with (- (PI * x)) by ring. rewrite sin_neg. field. split; lra.
  - intro N. unfold sinc. destruct (Req_EM_T x 0); [easy|]. reflexivity.
  - intros n N. unfold sinc. destruct (Req_EM_T (IZR n) 0) as [E|E]; [apply eq_IZR in E; easy|]. replace (PI * IZR n) with (IZR n * PI) by ring. rewrite (sin_eq_0_1 (IZR n * PI)) by now exists n. field. split; lra.
Qed.
Lemma sinc_zero : Rabs (sinc 0 - 1) <= / 10 ^ 39.
Proof.
  unfold sinc. destruct (Req_EM_T 0 0); [|lra]. pose proof PI_RGT_0 as P. pose proof PI_4 as P4. assert (T : 0 < / 10 ^ 20) by (apply Rinv_0_lt_compat; lra).
  set (y := PI * / 10 ^ 20). assert (Y : 0 < y) by (unfold y; nra). assert (Y2 : y <= 4 * / 10 ^ 20) by (unfold y; nra).
  assert (Y1 : y <= PI / 2). { assert (/ 10 ^ 20 <= / 8) by (apply Rinv_le_contravar; lra). unfold y. nra. }
  destruct (MVT_cor2 sin cos 0 y Y) as [c [E C]]; [intros; apply derivable_pt_lim_sin|]. rewrite sin_0, !Rminus_0_r in E.
  assert (Q : sin y / y = cos c) by (rewrite E; field; lra). rewrite Q. assert (L : 1 - y ^ 2 / 2 <= cos c).
  { replace c with (2 * (c / 2)) by field. rewrite cos_2a_sin. pose proof (sin_abs (c / 2)) as S. rewrite (Rabs_pos_eq (c / 2)) in S by lra. apply Rabs_le_inv in S || apply Rabs_def2 in S || idtac. assert (- (c / 2) <= sin (c / 2) <= c / 2) by (split; [pose proof (Rle_abs (- sin (c / 2))); rewrite Rabs_Ropp in *; lra|pose proof (Rle_abs (sin (c / 2))); lra]). nra. }
  pose proof (COS_bound c). rewrite Rabs_left1 by lra. assert (y ^ 2 / 2 <= / 10 ^ 39); [|lra].
  assert (y ^ 2 <= (4 * / 10 ^ 20) ^ 2) by nra. replace (/ 10 ^ 39) with (10 * (/ 10 ^ 20) ^ 2) by (field; lra). nra.
Qed.
Lemma floatx_case : 0 < 1 / 4 < 1 /\ 0 < 1 / 2 < 1 /\ 1 / 4 < 1 / 2 /\ trunc (Fin (-3 / 2)) = Fin (-1).
Proof.
  repeat split; try lra. cbn. f_equal. unfold truncR. destruct (Rlt_dec (-3 / 2) 0); [|lra]. assert (E : Int_part (- (-3 / 2)) = 1%Z); [|now rewrite E].
  unfold Int_part. assert (U : up (- (-3 / 2)) = 2%Z); [|now rewrite U]. symmetry. apply tech_up; lra.
Qed.
