(* ln_gamma is within 1e-16 of the logarithm of the gamma function from 1/2 on. *)
From Coq Require Import List ZArith QArith Reals Qreals Lra Lia.
From Coquelicot Require Import Coquelicot.
From Verif Require Import NormModel NormPoly NormPieces NormZero GamSpec GamModel GamInt GamLan GamLan2 GamLan3 GamLan4.
Import ListNotations.
Local Open Scope R_scope.

Definition LG (x : R) : R := ln (lanc x) + LN_2_SQRT_E_OVER_PI + hh x.

Lemma ln_gamma_LG x : 1 / 2 <= x -> ln_gamma x = LG x.
Proof.
  intros Hx. unfold ln_gamma, LG, lanc, hh. pose proof r0_eq as Hr.
  assert (H5 : Q2R 0.5 = 1 / 2) by (unfold Q2R; cbn; lra).
  rewrite H5. destruct (Rlt_dec x (1 / 2)); [lra|].
  change GAMMA_R with r0. f_equal. f_equal.
  assert (E : forall y, 0 < y -> ln (y / exp 1) = ln y - 1).
  { intros y Hy. pose proof (exp_pos 1). unfold Rdiv.
    rewrite ln_mult, ln_Rinv, ln_exp by (auto; apply Rinv_0_lt_compat; auto). ring. }
  rewrite E by lra. reflexivity.
Qed.

Lemma denQ_step x : evZ denQ (x + 1) * x = evZ denQ x * (x + 10).
Proof.
  assert (E : zmul (zshift denQ) [0; 1]%Z = zmul denQ [10; 1]%Z) by (vm_compute; reflexivity).
  assert (F : evZ (zmul (zshift denQ) [0; 1]%Z) x = evZ (zmul denQ [10; 1]%Z) x) by (rewrite E; auto).
  rewrite !evz_mul, evz_shift in F. cbn [evZ] in F.
  replace (0 + x * (1 + x * 0)) with x in F by ring. replace (10 + x * (1 + x * 0)) with (x + 10) in F by ring. exact F.
Qed.
Lemma LG_parts x : 0 < x -> LG x = ln (ev pN x) - ln (evZ denQ x) + LN_2_SQRT_E_OVER_PI + hh x.
Proof.
  intros Hx. unfold LG. destruct (lanc_eq x Hx) as [Hq ->]. pose proof (N_pos x ltac:(lra)).
  unfold Rdiv. rewrite ln_mult, ln_Rinv by (auto; apply Rinv_0_lt_compat; auto). ring.
Qed.
Lemma LG_step x : 0 < x -> LG (x + 1) = LG x + ln x + ff x.
Proof.
  intros Hx. rewrite !LG_parts by lra. unfold ff. rewrite ev_M.
  destruct (lanc_eq x Hx) as [Hq _]. destruct (lanc_eq (x + 1) ltac:(lra)) as [Hq1 _].
  assert (E : ln (evZ denQ (x + 1)) + ln x = ln (evZ denQ x) + ln (x + 10)).
  { rewrite <- !ln_mult by lra. f_equal. apply denQ_step. }
  lra.
Qed.
Lemma LG_near b s : 1 <= b -> 0 <= s <= 1 -> Rabs (LG (b + s) - LG b - s * ln b) <= 60 / b.
Proof.
  intros Hb Hs. rewrite !LG_parts by lra.
  pose proof (lnN_step b (b + s) ltac:(lra) ltac:(lra)) as S1.
  destruct (lanc_eq b ltac:(lra)) as [Hq _]. destruct numN_len as (_ & L & _).
  pose proof (lnz_step denQ 10 b (b + s) denQ_nn L Hq ltac:(lra) ltac:(lra)) as S2.
  replace (INR 10) with 10 in S2 by (cbn; lra).
  pose proof (hh_step b s Hb Hs) as H. apply Rabs_le_between in H.
  assert (0 < / b) by (apply Rinv_0_lt_compat; lra). unfold Rdiv in *. apply Rabs_le. split; lra.
Qed.

(** the gamma function *)
Definition lg (x : R) : R := ln (Gam x).
Lemma lg_step x : 0 < x -> lg (x + 1) = lg x + ln x.
Proof.
  intros Hx. unfold lg. rewrite gamma_step by auto. rewrite ln_mult by (auto; apply gamma_pos; auto). ring.
Qed.
Lemma lg_up b s : 0 < b -> 0 <= s <= 1 -> lg (b + s) <= lg b + s * ln b.
Proof.
  intros Hb Hs. unfold lg. pose proof (gautschi b s Hb Hs) as G.
  apply ln_mono in G || (apply Rle_trans with (ln (Rpower b s * Gam b)); [apply ln_mono; split; [apply gamma_pos; lra|exact G]|]).
  rewrite ln_mult by (apply exp_pos || (apply gamma_pos; auto)). unfold Rpower. rewrite ln_exp. lra.
Qed.
Lemma lg_near b s : 1 <= b -> 0 <= s <= 1 -> Rabs (lg (b + s) - lg b - s * ln b) <= 1 / b.
Proof.
  intros Hb Hs. pose proof (lg_up b s ltac:(lra) Hs) as U.
  pose proof (lg_up (b + s) (1 - s) ltac:(lra) ltac:(lra)) as V.
  replace (b + s + (1 - s)) with (b + 1) in V by ring. rewrite lg_step in V by lra.
  pose proof (ln_diff (b + s) b ltac:(lra)) as [_ L]. replace (b + s - b) with s in L by ring.
  assert (0 < / b) by (apply Rinv_0_lt_compat; lra).
  assert ((1 - s) * (ln (b + s) - ln b) <= (1 - s) * (s / b)) by (apply Rmult_le_compat_l; lra).
  assert ((1 - s) * (s / b) <= 1 / b).
  { unfold Rdiv. rewrite <- Rmult_assoc. apply Rmult_le_compat_r; [lra|].
    assert ((1 - s) * s <= 1 * 1) by (apply Rmult_le_compat; lra). lra. }
  apply Rabs_le. lra.
Qed.

Definition defect (x : R) : R := LG x - lg x.
Lemma defect_step x : 0 < x -> defect (x + 1) = defect x + ff x.
Proof. intros Hx. unfold defect. rewrite LG_step, lg_step by auto. ring. Qed.
Lemma defect_near b s : 1 <= b -> 0 <= s <= 1 -> Rabs (defect (b + s) - defect b) <= 61 / b.
Proof.
  intros Hb Hs. pose proof (LG_near b s Hb Hs) as A. pose proof (lg_near b s Hb Hs) as B.
  apply Rabs_le_between in A. apply Rabs_le_between in B. unfold defect. assert (0 < / b) by (apply Rinv_0_lt_compat; lra).
  unfold Rdiv in *. apply Rabs_le. lra.
Qed.
(** sum of the steps: 1/(y+10)^2 <= 1/(y+9) - 1/(y+10) *)
Definition slope : R := 2e-15 / 6.
Lemma defect_far x n : 0 < x -> Rabs (defect (x + INR n) - defect x) <= slope * (/ (x + 9) - / (x + INR n + 9)).
Proof.
  intros Hx. induction n as [|n IH].
  - cbn [INR]. rewrite Rplus_0_r. rewrite !Rminus_eq_0, Rabs_R0. lra.
  - rewrite S_INR. replace (x + (INR n + 1)) with ((x + INR n) + 1) by ring. pose proof (pos_INR n).
    set (y := x + INR n) in *. assert (Hy : 0 < y) by (unfold y; lra).
    rewrite defect_step by auto. pose proof (ff_bound y ltac:(lra)) as F.
    assert (2e-15 / 6 / (y + 10) ^ 2 <= slope * (/ (y + 9) - / (y + 10))) as S.
    { fold slope. unfold Rdiv. apply Rmult_le_compat_l; [unfold slope; lra|].
      replace (/ (y + 9) - / (y + 10)) with (/ ((y + 9) * (y + 10))) by (field; lra).
      apply Rinv_le_contravar.
      - apply Rmult_lt_0_compat; lra.
      - replace ((y + 10) ^ 2) with ((y + 10) * (y + 10)) by ring. apply Rmult_le_compat_r; lra. }
    replace (y + 1 + 9) with (y + 10) by ring.
    apply Rabs_le_between in IH. apply Rabs_le_between in F. apply Rabs_le. lra.
Qed.
Lemma defect_far' x n : 0 < x -> Rabs (defect (x + INR n) - defect x) <= slope / (x + 9).
Proof.
  intros Hx. eapply Rle_trans; [apply defect_far; auto|]. pose proof (pos_INR n). unfold Rdiv.
  apply Rmult_le_compat_l; [unfold slope; lra|]. assert (0 < / (x + INR n + 9)) by (apply Rinv_0_lt_compat; lra). lra.
Qed.

Lemma defect_tie x : 1 / 2 <= x -> Rabs (defect x - defect 1) <= slope / (x + 9) + slope / 10.
Proof.
  intros Hx.
  assert (H : forall e, 0 < e -> Rabs (defect x - defect 1) <= slope / (x + 9) + slope / 10 + e).
  { intros e He.
    destruct (nfloor_ex (Rmax 0 (61 / e)) (Rmax_l _ _)) as [m [_ Hm]].
    pose proof (Rmax_r 0 (61 / e)) as Hmx. set (n := S m). assert (Hn : 61 / e < INR n) by (unfold n; rewrite S_INR; lra).
    set (n1 := S n). pose proof (defect_far' x n1 ltac:(lra)) as F1.
    (* the integer below x + n1 *)
    destruct (archimed (x + INR n1)) as [U1 U2].
    set (z := (up (x + INR n1) - 1)%Z).
    assert (Z1 : IZR z <= x + INR n1 < IZR z + 1) by (unfold z; rewrite minus_IZR; lra).
    assert (Z0 : (1 <= z)%Z).
    { apply le_IZR. assert (IZR 0 < IZR z); [|apply lt_IZR in H; apply IZR_le; lia].
      unfold n1 in Z1. rewrite S_INR in Z1. pose proof (pos_INR n). lra. }
    assert (Zb : IZR z = 1 + INR (Z.to_nat (z - 1))).
    { rewrite INR_IZR_INZ, Z2Nat.id by lia. rewrite minus_IZR. ring. }
    pose proof (defect_far' 1 (Z.to_nat (z - 1)) ltac:(lra)) as F2. rewrite <- Zb in F2.
    assert (Hb : 1 <= IZR z) by (apply (IZR_le 1); auto).
    pose proof (defect_near (IZR z) (x + INR n1 - IZR z) Hb ltac:(lra)) as F3.
    replace (IZR z + (x + INR n1 - IZR z)) with (x + INR n1) in F3 by ring.
    assert (61 / IZR z <= e).
    { assert (61 / e < IZR z). { unfold n1 in Z1. rewrite S_INR in Z1. lra. }
      apply Rmult_le_reg_r with (IZR z); [lra|]. unfold Rdiv at 1. rewrite Rmult_assoc, Rinv_l, Rmult_1_r by lra.
      apply Rmult_le_reg_r with (/ e); [apply Rinv_0_lt_compat; auto|].
      replace (e * IZR z * / e) with (IZR z) by (field; lra). unfold Rdiv in *. lra. }
    apply Rabs_le_between in F1. apply Rabs_le_between in F2. apply Rabs_le_between in F3.
    replace (1 + 9) with 10 in F2 by ring. apply Rabs_le. lra. }
  destruct (Rle_dec (Rabs (defect x - defect 1)) (slope / (x + 9) + slope / 10)); auto.
  specialize (H ((Rabs (defect x - defect 1) - (slope / (x + 9) + slope / 10)) / 2) ltac:(lra)). lra.
Qed.

(** ** at 1 *)
Definition u1 : Q := 0.2415644752704904446910368915632944245037054558051956.
Fixpoint q_sum (k : Q) (ds : list Q) (s : Q) : Q :=
  match ds with [] => s | d :: ds' => q_sum (k + 1) ds' (s + d / k) end.
Definition y1 : Q := Eval vm_compute in Qred (q_sum 1 GAMMA_DK GAMMA_D0).
Lemma lanc_1 : lanc 1 = Q2R y1.
Proof.
  unfold lanc.
  transitivity (Q2R (q_sum 1 GAMMA_DK GAMMA_D0)).
  2:{ apply Qeq_eqR. unfold y1. vm_compute. reflexivity. }
  unfold GAMMA_DK. cbn [dk_sum q_sum]. rewrite !Q2R_plus. rewrite !Q2R_div by (intros E; vm_compute in E; discriminate).
  rewrite !Q2R_plus. replace (Q2R 1) with 1 by (unfold Q2R; cbn; lra).
  repeat match goal with |- context [?a / (1 + ?k - 1)] => replace (1 + k - 1) with k by ring end. reflexivity.
Qed.

Definition q18 : Q := 1 # 1000000000000000000.
Definition Y1 : Q := (y1 * y1 * 11.400511)%Q.
Lemma qle_R a b : Qle_bool a b = true -> Q2R a <= Q2R b.
Proof. intros H. apply Qle_Rle. apply Qle_bool_iff. exact H. Qed.
(** 1 - u (1 - u/2 (1 - u/3 (...))) *)
Fixpoint horq (n : nat) (k : Z) (u : Q) : Q :=
  match n with O => 1%Q | S m => (1 - u * (1 # Z.to_pos k) * horq m (k + 1) u)%Q end.
Fixpoint horr (n : nat) (k : Z) (u : R) : R :=
  match n with O => 1 | S m => 1 - u * / IZR k * horr m (k + 1) u end.
Lemma horq_R n u : forall k, (0 < k)%Z -> Q2R (horq n k u) = horr n k (Q2R u).
Proof.
  induction n; intros k Hk; cbn [horq horr]; [unfold Q2R; cbn; lra|].
  rewrite Q2R_minus, !Q2R_mult, IHn by lia. f_equal; [unfold Q2R; cbn; lra|]. f_equal. f_equal.
  unfold Q2R. cbn [Qnum Qden]. rewrite Z2Pos.id by auto. lra.
Qed.
Lemma hor_tsum16 u : horr 15 1 u = tsum 16 u.
Proof. cbn [horr tsum rfact Z.add Pos.add Pos.succ Pos.add_carry INR]. field. Qed.
Lemma hor_tsum17 u : horr 16 1 u = tsum 17 u.
Proof. cbn [horr tsum rfact Z.add Pos.add Pos.succ Pos.add_carry INR]. field. Qed.
Definition ulo : Q := 0.24156447527049044469.
Definition uhi : Q := 0.24156447527049044470.
Lemma u1_in : Q2R ulo <= Q2R u1 /\ Q2R u1 <= Q2R uhi.
Proof. split; apply qle_R; vm_compute; reflexivity. Qed.
Lemma num_a : Q2R (Y1 - q18) <= Q2R (horq 15 1 uhi).
Proof. apply qle_R. vm_compute. reflexivity. Qed.
Lemma num_b : Q2R (horq 16 1 ulo) <= Q2R (Y1 + q18).
Proof. apply qle_R. vm_compute. reflexivity. Qed.
Lemma num_c : Q2R (1 # 2) <= Q2R Y1.
Proof. apply qle_R. vm_compute. reflexivity. Qed.
Lemma num_d : Q2R (1 # 1000) <= Q2R y1.
Proof. apply qle_R. vm_compute. reflexivity. Qed.
Lemma Y1_eq : Q2R Y1 = Q2R y1 * Q2R y1 * (1 / 2 + r0).
Proof.
  unfold Y1. rewrite !Q2R_mult. apply f_equal. rewrite r0_eq. unfold Q2R. cbn [Qnum Qden]. lra.
Qed.
Lemma u1_eq : Q2R u1 = 2 * LN_2_SQRT_E_OVER_PI - 1.
Proof. unfold u1, LN_2_SQRT_E_OVER_PI, Q2R. cbn [Qnum Qden]. lra. Qed.
Lemma u1_pos : 0 <= Q2R u1.
Proof. unfold u1, Q2R. cbn [Qnum Qden]. lra. Qed.

Lemma close_logs Y E a b : 1 / 2 <= Y -> Y - 1e-18 <= a -> b <= Y + 1e-18 -> 0 <= E - a -> 0 <= b - E ->
  Rabs (ln Y - ln E) <= 4e-18.
Proof.
  intros HY Ha Hb H1 H2. destruct (Rle_dec E Y).
  - pose proof (ln_diff Y E ltac:(lra)) as D.
    assert ((Y - E) / E <= 4e-18). { apply Rmult_le_reg_r with E; [lra|]. unfold Rdiv. rewrite Rmult_assoc, Rinv_l by lra. lra. }
    assert (0 <= (Y - E) / Y) by (apply Rdiv_le_0_compat; lra). apply Rabs_le. lra.
  - pose proof (ln_diff E Y ltac:(lra)) as D.
    assert ((E - Y) / Y <= 4e-18). { apply Rmult_le_reg_r with Y; [lra|]. unfold Rdiv. rewrite Rmult_assoc, Rinv_l by lra. lra. }
    assert (0 <= (E - Y) / E) by (apply Rdiv_le_0_compat; lra). apply Rabs_le. lra.
Qed.

Lemma exp_16 u : 0 <= u -> 0 <= exp (- u) - tsum 16 u.
Proof. intros Hu. pose proof (exp_tsum 16 u Hu) as E. replace ((-1) ^ 16) with 1 in E by ring. rewrite Rmult_1_l in E. exact E. Qed.
Lemma exp_17 u : 0 <= u -> 0 <= tsum 17 u - exp (- u).
Proof.
  intros Hu. pose proof (exp_tsum 17 u Hu) as E. replace ((-1) ^ 17) with (-1) in E by ring.
  revert E. generalize (tsum 17 u) (exp (- u)). intros. lra.
Qed.

Lemma E18 : Q2R q18 = 1e-18.
Proof. unfold q18, Q2R. cbn [Qnum Qden]. lra. Qed.
Lemma E12 : Q2R (1 # 2) = 1 / 2.
Proof. unfold Q2R; cbn [Qnum Qden]; lra. Qed.
Lemma E1000 : Q2R (1 # 1000) = 1 / 1000.
Proof. unfold Q2R; cbn [Qnum Qden]; lra. Qed.
Lemma exp_le a b : a <= b -> exp (- b) <= exp (- a).
Proof. intros [H| ->]; [left; apply exp_increasing; lra|right; auto]. Qed.
Lemma logs_1 : Rabs (ln (Q2R Y1) - ln (exp (- Q2R u1))) <= 4e-18.
Proof.
  pose proof num_a as A. pose proof num_b as B. pose proof num_c as C. pose proof u1_pos as P.
  destruct u1_in as [U1 U2].
  rewrite Q2R_minus, horq_R, hor_tsum16 in A by lia. rewrite Q2R_plus, horq_R, hor_tsum17 in B by lia.
  rewrite E18 in A, B. rewrite E12 in C.
  assert (P1 : 0 <= Q2R ulo) by (unfold ulo, Q2R; cbn [Qnum Qden]; lra).
  assert (P2 : 0 <= Q2R uhi) by (unfold uhi, Q2R; cbn [Qnum Qden]; lra).
  pose proof (exp_le _ _ U1) as E1. pose proof (exp_le _ _ U2) as E2.
  pose proof (exp_16 _ P2) as F1. pose proof (exp_17 _ P1) as F2.
  refine (close_logs _ _ _ _ C A B _ _).
  - revert E2 F1. generalize (tsum 16 (Q2R uhi)) (exp (- Q2R uhi)) (exp (- Q2R u1)). intros; lra.
  - revert E1 F2. generalize (tsum 17 (Q2R ulo)) (exp (- Q2R ulo)) (exp (- Q2R u1)). intros; lra.
Qed.

Lemma LG_1_gen y u C l : 0 < y -> 0 < 1 / 2 + r0 -> u = 2 * C - 1 -> l = ln y + C + (1 - 1 / 2) * (ln (1 / 2 + r0) - 1) ->
  2 * l = ln (y * y * (1 / 2 + r0)) - ln (exp (- u)).
Proof.
  intros Hy Hr -> ->. rewrite ln_exp. rewrite !ln_mult by (try apply Rmult_lt_0_compat; lra). lra.
Qed.
Lemma LG_1 : Rabs (LG 1) <= 2e-18.
Proof.
  pose proof logs_1 as B. rewrite Y1_eq in B. pose proof num_d as D.
  rewrite E1000 in D.
  pose proof r0_eq as Hr.
  assert (L : LG 1 = ln (Q2R y1) + LN_2_SQRT_E_OVER_PI + (1 - 1 / 2) * (ln (1 / 2 + r0) - 1)).
  { unfold LG, hh. rewrite lanc_1. replace (1 - 1 / 2 + r0) with (1 / 2 + r0) by lra. reflexivity. }
  assert (P : 0 < Q2R y1) by (revert D; generalize (Q2R y1); intros; lra).
  rewrite <- (LG_1_gen (Q2R y1) (Q2R u1) LN_2_SQRT_E_OVER_PI (LG 1) P ltac:(lra) u1_eq L) in B.
  revert B. generalize (LG 1). intros l B. apply Rabs_le_between in B. apply Rabs_le. lra.
Qed.

Theorem ln_gamma_close x : 1 / 2 <= x -> Rabs (ln_gamma x - ln (Gam x)) <= 1e-16.
Proof.
  intros Hx. rewrite ln_gamma_LG by auto. fold (lg x). fold (defect x).
  pose proof (defect_tie x Hx) as T. pose proof LG_1 as O.
  assert (D1 : defect 1 = LG 1) by (unfold defect, lg; rewrite gamma_1, ln_1; ring). rewrite D1 in T.
  assert (slope / (x + 9) <= slope / 9).
  { unfold Rdiv. apply Rmult_le_compat_l; [unfold slope; lra|]. apply inv_le. lra. }
  unfold slope in *. apply Rabs_le_between in T. apply Rabs_le_between in O. apply Rabs_le. lra.
Qed.

Lemma gamma_defined a : 0 < a -> exists G, is_Gamma a G /\ 0 < G.
Proof. intros Ha. exists (Gam a). split; [apply gamma_ex|apply gamma_pos]; auto. Qed.
Lemma gamma_one a G H : is_Gamma a G -> is_Gamma a H -> G = H.
Proof. intros A B. rewrite <- (gamma_uniq a G A). apply gamma_uniq, B. Qed.
Lemma ln_gamma_ok a G : 1 / 2 <= a -> is_Gamma a G -> Rabs (ln_gamma a - ln G) <= 1e-16.
Proof. intros Ha H. rewrite <- (gamma_uniq a G H). apply ln_gamma_close, Ha. Qed.
Lemma gamma_2 : 1 / 2 <= 2 /\ is_Gamma 2 1.
Proof.
  split; [lra|]. replace 1 with (Gam 2); [apply gamma_ex; lra|].
  replace 2 with (1 + 1) by ring. rewrite gamma_step, gamma_1 by lra. ring.
Qed.
