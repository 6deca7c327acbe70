(** The continued-fraction arm of the incomplete gamma function, and the p-values built on it. *)
From Coq Require Import ZArith QArith Reals Lra Lia Psatz.
From Coquelicot Require Import Coquelicot.
From Verif Require Import NormModel GamSpec GamModel GamInt GamLan4 GamLan5 GamInc GamSer GamFrac.
Local Open Scope R_scope.

Lemma big_inv_pos : 0 < big_inv.
Proof.
  replace 0 with (Q2R 0) by (unfold Q2R; cbn; lra). unfold big_inv. apply Qreals.Qlt_Rlt. apply Qlt_alt. vm_compute. reflexivity.
Qed.
#[global] Opaque big big_inv.

(** relative change from one convergent to the next *)
Definition er (a x : R) (n : nat) : R := Rabs ((cf a n x - cf a (S n) x) / cf a (S n) x).
Lemma er_eq a x n : 0 < a < x -> er a x n = Rabs (V a n) / (qs a n x * ps a (S n) x).
Proof.
  intros Ha. unfold er. pose proof (qs_pos a x n ltac:(lra) ltac:(lra)). pose proof (qs_pos a x (S n) ltac:(lra) ltac:(lra)).
  pose proof (ps_pos a x (S n) ltac:(lra) ltac:(lra)).
  replace ((cf a n x - cf a (S n) x) / cf a (S n) x) with (- (V a n / (qs a n x * ps a (S n) x))).
  - rewrite Rabs_Ropp. unfold Rdiv. rewrite Rabs_mult. f_equal. apply Rabs_right. apply Rle_ge. left.
    apply Rinv_0_lt_compat. apply Rmult_lt_0_compat; auto.
  - rewrite <- (V_eq a n x). unfold cf. field. repeat split; lra.
Qed.

Definition at_step (fuel : nat) (a x : R) (n : nat) (s : R) : option R :=
  fraction fuel (INR n + 1 - a) (x + 2 * (INR n + 1) - a) (INR n) (s * ps a n x) (s * (x * qs a n x))
    (s * ps a (S n) x) (s * (x * qs a (S n) x)) (cf a (S n) x).
Lemma at_step_S fuel a x n s : 0 < a < x -> 0 < s -> exists s', 0 < s' /\
  at_step (S fuel) a x n s = if Rle_dec (er a x (S n)) eps then Some (cf a (S (S n)) x) else at_step fuel a x (S n) s'.
Proof.
  intros Ha Hs. unfold at_step at 1. cbn [fraction].
  pose proof (qs_pos a x (S (S n)) ltac:(lra) ltac:(lra)) as Q. pose proof (qs_pos a x (S n) ltac:(lra) ltac:(lra)) as Q1.
  assert (EP : s * ps a (S n) x * (x + 2 * (INR n + 1) - a + 2) - s * ps a n x * ((INR n + 1 - a + 1) * (INR n + 1)) = s * ps a (S (S n)) x).
  { rewrite ps_S. ring. }
  assert (EQ : s * (x * qs a (S n) x) * (x + 2 * (INR n + 1) - a + 2) - s * (x * qs a n x) * ((INR n + 1 - a + 1) * (INR n + 1)) = s * (x * qs a (S (S n)) x)).
  { rewrite qs_S. ring. }
  cbv zeta. rewrite EP, EQ. clear EP EQ.
  set (k := if Rlt_dec big (Rabs (s * ps a (S (S n)) x)) then big_inv else 1).
  assert (K : 0 < k) by (unfold k; destruct (Rlt_dec _ _); [apply big_inv_pos|lra]). clearbody k.
  exists (s * k). split; [apply Rmult_lt_0_compat; auto|].
  destruct (Req_EM_T (s * (x * qs a (S (S n)) x)) 0) as [Z|Z].
  { exfalso. assert (0 < s * (x * qs a (S (S n)) x)) by (apply Rmult_lt_0_compat; auto; apply Rmult_lt_0_compat; lra). lra. }
  assert (E : s * ps a (S (S n)) x / (s * (x * qs a (S (S n)) x)) = cf a (S (S n)) x).
  { unfold cf. field. repeat split; lra. }
  rewrite E. change (Rabs ((cf a (S n) x - cf a (S (S n)) x) / cf a (S (S n)) x)) with (er a x (S n)).
  destruct (Rle_dec (er a x (S n)) eps); [reflexivity|].
  unfold at_step. rewrite S_INR. f_equal; ring.
Qed.
Lemma frac_loop a x : 0 < a < x -> forall d n, er a x (n + S d) <= eps ->
  exists j, (n < j <= n + S d)%nat /\ er a x j <= eps /\
    forall s fuel, 0 < s -> (d < fuel)%nat -> at_step fuel a x n s = Some (cf a (S j) x).
Proof.
  intros Ha. induction d; intros n H.
  - exists (S n). replace (n + 1)%nat with (S n) in H by lia. split; [lia|]. split; [exact H|].
    intros s fuel Hs Hf. destruct fuel; [lia|]. destruct (at_step_S fuel a x n s Ha Hs) as (s' & _ & ->).
    destruct (Rle_dec _ _); [reflexivity|contradiction].
  - destruct (Rle_dec (er a x (S n)) eps) as [L|L].
    + exists (S n). split; [lia|]. split; [exact L|].
      intros s fuel Hs Hf. destruct fuel; [lia|]. destruct (at_step_S fuel a x n s Ha Hs) as (s' & _ & ->).
      destruct (Rle_dec _ _); [reflexivity|contradiction].
    + replace (n + S (S d))%nat with (S n + S d)%nat in H by lia.
      destruct (IHd (S n) H) as (j & Hj & He & Hr). exists j. split; [lia|]. split; [exact He|].
      intros s fuel Hs Hf. destruct fuel; [lia|]. destruct (at_step_S fuel a x n s Ha Hs) as (s' & Hs' & ->).
      destruct (Rle_dec _ _); [contradiction|]. apply Hr; auto. lia.
Qed.

(** ** The loop stops soon *)
Lemma v_ge x j : 1 <= x -> 0 <= j -> j <= 1296 * x -> j / 72 <= sqrt (x * j) / 2.
Proof.
  intros Hx Hj H. pose proof (sqrt_pos (x * j)). pose proof (sqrt_sqrt (x * j) ltac:(nra)).
  apply Rnot_lt_le. intros A. nra.
Qed.
Lemma er_step a x n : 1 / 2 <= a < x -> 1 <= x -> a <= INR n + 1 -> INR n + 2 <= 1296 * x ->
  er a x (S n) <= er a x n * (72 / 73 * (72 / 73)).
Proof.
  intros Ha Hx Hn HM. pose proof (pos_INR n) as N0. rewrite !er_eq by lra. cbn [V].
  pose proof (grow2 a x _ ltac:(lra) Hx (q_starts a x ltac:(lra) ltac:(lra)) n Hn) as GQ.
  pose proof (grow2 a x _ ltac:(lra) Hx (p_starts a x ltac:(lra) ltac:(lra)) (S n) ltac:(rewrite S_INR; lra)) as GP.
  change (fst (rec2 a (x + 2 - a) x n)) with (qs a n x) in GQ. change (fst (rec2 a (x + 2 - a) x (S n))) with (qs a (S n) x) in GQ.
  change (fst (rec2 a (x + 1) x (S n))) with (ps a (S n) x) in GP. change (fst (rec2 a (x + 1) x (S (S n)))) with (ps a (S (S n)) x) in GP.
  rewrite S_INR in GP.
  pose proof (v_ge x (INR n + 1) Hx ltac:(lra) ltac:(lra)) as V1. pose proof (v_ge x (INR n + 1 + 1) Hx ltac:(lra) ltac:(lra)) as V2.
  pose proof (qs_pos a x n ltac:(lra) ltac:(lra)) as q0. pose proof (ps_pos a x (S n) ltac:(lra) ltac:(lra)) as p0.
  pose proof (qs_pos a x (S n) ltac:(lra) ltac:(lra)) as q1. pose proof (ps_pos a x (S (S n)) ltac:(lra) ltac:(lra)) as p1.
  set (q := qs a n x) in *. set (q' := qs a (S n) x) in *. set (p := ps a (S n) x) in *. set (p' := ps a (S (S n)) x) in *.
  assert (A1 : (INR n + 1) * q <= 72 / 73 * q').
  { assert ((INR n + 1 + (INR n + 1) / 72) * q <= q'); [|lra]. apply Rle_trans with (2 := GQ). apply Rmult_le_compat_r; lra. }
  assert (A2 : (INR n + 2) * p <= 72 / 73 * p').
  { assert ((INR n + 1 + 1 + (INR n + 1 + 1) / 72) * p <= p'); [|lra]. apply Rle_trans with (2 := GP). apply Rmult_le_compat_r; lra. }
  rewrite Rabs_mult, (Rabs_right ((INR n + 1) * (INR n + 2 - a))) by (apply Rle_ge, Rmult_le_pos; lra).
  clearbody q q' p p'. set (W := Rabs (V a n)). assert (W0 : 0 <= W) by apply Rabs_pos. clearbody W.
  apply Rmult_le_reg_r with (q' * p'); [apply Rmult_lt_0_compat; auto|].
  replace ((INR n + 1) * (INR n + 2 - a) * W / (q' * p') * (q' * p')) with (W * ((INR n + 1) * (INR n + 2 - a))) by (field; lra).
  replace (W / (q * p) * (72 / 73 * (72 / 73)) * (q' * p')) with (W * ((72 / 73 * q') * (72 / 73 * p') / (q * p))) by (field; lra).
  apply Rmult_le_compat_l; auto. apply Rmult_le_reg_r with (q * p); [apply Rmult_lt_0_compat; auto|].
  replace (72 / 73 * q' * (72 / 73 * p') / (q * p) * (q * p)) with (72 / 73 * q' * (72 / 73 * p')) by (field; lra).
  apply Rle_trans with (((INR n + 1) * q) * ((INR n + 2) * p)).
  - replace ((INR n + 1) * (INR n + 2 - a) * (q * p)) with (((INR n + 1) * q) * ((INR n + 2 - a) * p)) by ring.
    apply Rmult_le_compat_l; [apply Rmult_le_pos; lra|]. apply Rmult_le_compat_r; lra.
  - apply Rmult_le_compat; auto; apply Rmult_le_pos; lra.
Qed.
Lemma er_start a x n : 1 / 2 <= a < x -> 1 <= x -> a <= INR n + 1 < a + 1 -> er a x n <= 2.
Proof.
  intros Ha Hx Hn. pose proof (pos_INR n) as N0. rewrite er_eq by lra. rewrite <- (V_eq a n x).
  destruct (grow1 a x _ ltac:(lra) ltac:(lra) (p_starts a x ltac:(lra) ltac:(lra)) n) as (_ & _ & GP). specialize (GP ltac:(lra)).
  change (fst (rec2 a (x + 1) x n)) with (ps a n x) in GP. change (fst (rec2 a (x + 1) x (S n))) with (ps a (S n) x) in GP.
  pose proof (qs_pos a x n ltac:(lra) ltac:(lra)) as q0. pose proof (ps_pos a x (S n) ltac:(lra) ltac:(lra)) as p1.
  pose proof (qs_pos a x (S n) ltac:(lra) ltac:(lra)) as q1. pose proof (ps_pos a x n ltac:(lra) ltac:(lra)) as p0.
  assert (GQ : qs a (S n) x <= (INR n + x + 2) * qs a n x).
  { destruct n as [|m]; [rewrite qs_1, qs_0; cbn; lra|]. rewrite qs_S. rewrite S_INR in *.
    pose proof (qs_pos a x m ltac:(lra) ltac:(lra)) as q2. pose proof (pos_INR m).
    assert (0 <= (INR m + 1) * (INR m + 2 - a) * qs a m x) by (apply Rmult_le_pos; [apply Rmult_le_pos|]; lra).
    assert ((x + 2 * (INR m + 2) - a) * qs a (S m) x <= (INR m + 1 + x + 2) * qs a (S m) x) by (apply Rmult_le_compat_r; lra). lra. }
  set (q := qs a n x) in *. set (q' := qs a (S n) x) in *. set (p := ps a n x) in *. set (p' := ps a (S n) x) in *. clearbody q q' p p'.
  apply Rmult_le_reg_r with (q * p'); [apply Rmult_lt_0_compat; auto|].
  unfold Rdiv. rewrite Rmult_assoc, Rinv_l, Rmult_1_r by (apply Rgt_not_eq, Rmult_lt_0_compat; auto).
  assert (B : q' * p <= 2 * (q * p')).
  { apply Rle_trans with ((INR n + x + 2) * q * p); [apply Rmult_le_compat_r; lra|].
    apply Rle_trans with (2 * (q * ((INR n + 1 + x) * p))); [|apply Rmult_le_compat_l; [lra|]; apply Rmult_le_compat_l; lra].
    assert (0 < q * p) by (apply Rmult_lt_0_compat; auto).
    replace ((INR n + x + 2) * q * p) with ((INR n + x + 2) * (q * p)) by ring.
    replace (2 * (q * ((INR n + 1 + x) * p))) with (2 * (INR n + 1 + x) * (q * p)) by ring.
    apply Rmult_le_compat_r; lra. }
  assert (0 < q' * p) by (apply Rmult_lt_0_compat; auto). assert (0 < q * p') by (apply Rmult_lt_0_compat; auto).
  apply Rabs_le. lra.
Qed.
Lemma er_power a x n : 1 / 2 <= a < x -> 1 <= x -> a <= INR n + 1 < a + 1 -> forall m, INR m <= 1294 ->
  er a x (n + m) <= 2 * (72 / 73 * (72 / 73)) ^ m.
Proof.
  intros Ha Hx Hn. induction m; intros Hm.
  - rewrite Nat.add_0_r. cbn [pow]. rewrite Rmult_1_r. apply er_start; auto.
  - rewrite S_INR in Hm. specialize (IHm ltac:(lra)). replace (n + S m)%nat with (S (n + m)) by lia.
    pose proof (pos_INR m). pose proof (pos_INR n).
    apply Rle_trans with (1 := er_step a x (n + m) Ha Hx ltac:(rewrite plus_INR; lra) ltac:(rewrite plus_INR; lra)).
    cbn [pow]. nra.
Qed.
Lemma power_small : exists m, INR m = 1288 /\ 2 * (72 / 73 * (72 / 73)) ^ m <= 1e-15.
Proof.
  exists (8 * (7 * 23))%nat. split; [rewrite INR_IZR_INZ; reflexivity|].
  rewrite !pow_mult. set (r := 72 / 73 * (72 / 73)).
  assert (A : 0 <= r ^ 8 <= (1603925443 / 2000000000)) by (unfold r; cbn [pow]; lra).
  assert (B : 0 <= (r ^ 8) ^ 7 <= (213343427 / 1000000000)).
  { split; [apply pow_le; lra|]. apply Rle_trans with ((1603925443 / 2000000000) ^ 7); [apply pow_incr; lra|cbn [pow]; lra]. }
  assert (C : ((r ^ 8) ^ 7) ^ 23 <= (213343427 / 1000000000) ^ 23) by (apply pow_incr; lra).
  assert (D : (213343427 / 1000000000) ^ 23 <= 5e-16) by (cbn [pow]; lra). lra.
Qed.
Lemma index_of a : 0 < a -> exists n, a <= INR n + 1 < a + 1.
Proof.
  intros Ha. destruct (nfloor_ex a ltac:(lra)) as [n Hn].
  destruct (Req_dec a (INR n)) as [E|E].
  - destruct n; [cbn in E; lra|]. exists n. rewrite S_INR in *. lra.
  - exists n. lra.
Qed.
Lemma frac_run a x : 1 / 2 <= a < x -> 1 <= x -> exists j N, (1 <= j)%nat /\ INR j + 1 - a <= 1295 /\ er a x j <= eps /\
  forall fuel, (N <= fuel)%nat -> fraction fuel (1 - a) (x + (1 - a) + 1) 0 1 x (x + 1) ((x + (1 - a) + 1) * x) ((x + 1) / ((x + (1 - a) + 1) * x)) = Some (cf a (S j) x).
Proof.
  intros Ha Hx. destruct (index_of a ltac:(lra)) as [n Hn].
  destruct power_small as (m & Hm & PS).
  pose proof (er_power a x n Ha Hx Hn m ltac:(lra)) as E.
  assert (m1 : (1 <= m)%nat) by (destruct m; [cbn in Hm; lra|lia]).
  assert (E' : er a x (0 + S (n + m - 1)) <= eps).
  { replace (0 + S (n + m - 1))%nat with (n + m)%nat by lia. rewrite eps_eq. lra. }
  destruct (frac_loop a x ltac:(lra) (n + m - 1) 0 E') as (j & Hj & He & Hr).
  exists j, (S (n + m - 1)). split; [lia|]. split.
  { assert (J : (j <= n + m)%nat) by lia. apply le_INR in J. rewrite plus_INR in J. lra. }
  split; [exact He|]. intros fuel Hf. rewrite <- (Hr 1 fuel ltac:(lra) ltac:(lia)).
  unfold at_step. rewrite ps_0, qs_0, ps_1, qs_1. unfold cf. rewrite ps_1, qs_1. cbn [INR].
  f_equal; try ring. f_equal. ring.
Qed.

(** ** and what it has then is close *)
Lemma frac_close a x j : 1 / 2 <= a < x -> 1 <= x -> INR j + 1 - a <= 1295 -> er a x j <= eps ->
  Rabs (Hk a (S j) x) <= 1.3e-12 * Up a x.
Proof.
  intros Ha Hx Hj He. pose proof (pos_INR j) as J0.
  pose proof (cf_pos a x (S j) ltac:(lra) ltac:(lra)) as C1. pose proof (cf_pos a x j ltac:(lra) ltac:(lra)) as C0.
  pose proof (up_le_X a x ltac:(lra) Hx) as UX. pose proof (up_nonneg a x ltac:(lra) ltac:(lra)) as U0.
  assert (X0 : 0 < X a x) by (apply Rmult_lt_0_compat; apply exp_pos).
  set (c := cf a (S j) x) in *. set (d := Rabs (cf a j x - c)).
  assert (D : d <= 1e-15 * c).
  { unfold er in He. fold c in He. unfold Rdiv in He. rewrite Rabs_mult in He. fold d in He.
    rewrite (Rabs_right (/ c)) in He by (apply Rle_ge; left; apply Rinv_0_lt_compat; auto). rewrite eps_eq in He.
    apply Rmult_le_compat_r with (r := c) in He; [|lra]. rewrite Rmult_assoc, Rinv_l in He by lra. lra. }
  assert (D0 : 0 <= d) by apply Rabs_pos.
  assert (HH : Hk a (S j) x = Up a x - X a x * c) by reflexivity.
  assert (H0 : Hk a j x = Up a x - X a x * cf a j x) by reflexivity.
  destruct (Rle_dec a (INR j + 2)) as [L|L].
  - pose proof (Hk_bound a (S j) x ltac:(lra) Hx) as B.
    assert (K : Rabs (V a (S j)) / (x * (qs a (S j) x * qs a (S j) x)) <= 1296 * d).
    { cbn [V]. pose proof (qs_pos a x j ltac:(lra) ltac:(lra)) as q0. pose proof (qs_pos a x (S j) ltac:(lra) ltac:(lra)) as q1.
      destruct (grow1 a x _ ltac:(lra) ltac:(lra) (q_starts a x ltac:(lra) ltac:(lra)) j) as (_ & GQ & _).
      change (fst (rec2 a (x + 2 - a) x j)) with (qs a j x) in GQ. change (fst (rec2 a (x + 2 - a) x (S j))) with (qs a (S j) x) in GQ.
      assert (ED : d = Rabs (V a j) / (x * (qs a (S j) x * qs a j x))).
      { unfold d, c. rewrite Rabs_minus_sym, cf_step by lra. unfold Rdiv. rewrite Rabs_mult. f_equal. apply Rabs_right.
        apply Rle_ge. left. apply Rinv_0_lt_compat. apply Rmult_lt_0_compat; [lra|]. apply Rmult_lt_0_compat; auto. }
      rewrite ED. rewrite Rabs_mult, (Rabs_right ((INR j + 1) * (INR j + 2 - a))) by (apply Rle_ge, Rmult_le_pos; lra).
      set (W := Rabs (V a j)). assert (W0 : 0 <= W) by apply Rabs_pos. clearbody W.
      set (q := qs a j x) in *. set (q' := qs a (S j) x) in *. clearbody q q'.
      apply Rmult_le_reg_r with (x * (q' * q') * q); [repeat apply Rmult_lt_0_compat; lra|].
      replace ((INR j + 1) * (INR j + 2 - a) * W / (x * (q' * q')) * (x * (q' * q') * q)) with (W * ((INR j + 2 - a) * ((INR j + 1) * q))) by (field; lra).
      replace (1296 * (W / (x * (q' * q))) * (x * (q' * q') * q)) with (W * (1296 * q')) by (field; lra).
      apply Rmult_le_compat_l; auto. apply Rmult_le_compat; try lra. apply Rmult_le_pos; lra. }
    assert (K2 : Up a x * (1296 * d) <= Up a x * (1.296e-12 * c)) by (apply Rmult_le_compat_l; lra).
    assert (B1 : Rabs (Hk a (S j) x) <= Up a x * (1.296e-12 * c)).
    { apply Rle_trans with (1 := B). apply Rle_trans with (2 := K2). apply Rmult_le_compat_l; auto. }
    assert (C : c <= 1.001).
    { rewrite HH in B1. apply Rabs_le_between in B1. apply Rnot_lt_le. intros A.
      assert (Up a x * (1.296e-12 * c) <= X a x * (1.296e-12 * c)) by (apply Rmult_le_compat_r; lra). 
      assert (X a x * 1.001 < X a x * c) by (apply Rmult_lt_compat_l; lra).
      assert (X a x * c * (1 - 1.296e-12) <= X a x) by lra. lra. }
    apply Rle_trans with (1 := B1). rewrite (Rmult_comm 1.3e-12). apply Rmult_le_compat_l; lra.
  - destruct (Hk_sign a j x ltac:(lra)) as [S1 S2]. destruct (Hk_sign a (S j) x ltac:(lra)) as [T1 T2].
    assert (B : Rabs (Hk a (S j) x) <= X a x * d).
    { unfold d. rewrite <- (Rabs_right (X a x)) at 1 by lra. rewrite <- Rabs_mult.
      replace (X a x * (cf a j x - c)) with (Hk a (S j) x - Hk a j x) by (rewrite HH, H0; ring).
      cbn [V] in T1, T2. destruct (Rle_dec 0 (V a j)) as [P|P].
      - specialize (S1 P). assert (T : (INR j + 1) * (INR j + 2 - a) * V a j <= 0).
        { assert (0 <= (INR j + 1) * (a - (INR j + 2)) * V a j) by (apply Rmult_le_pos; [apply Rmult_le_pos|]; lra). lra. }
        specialize (T2 T). rewrite !Rabs_left1 by lra. lra.
      - specialize (S2 ltac:(lra)). assert (T : 0 <= (INR j + 1) * (INR j + 2 - a) * V a j).
        { assert (0 <= (INR j + 1) * (a - (INR j + 2)) * - V a j) by (apply Rmult_le_pos; [apply Rmult_le_pos|]; lra). lra. }
        specialize (T1 T). rewrite !Rabs_right by lra. lra. }
    assert (B1 : X a x * d <= X a x * (1e-15 * c)) by (apply Rmult_le_compat_l; lra).
    rewrite HH in *. assert (B2 : Rabs (Up a x - X a x * c) <= X a x * (1e-15 * c)) by lra.
    apply Rabs_le_between in B2. apply Rabs_le. lra.
Qed.

Lemma exp_tiny300 y : y < ln_tiny -> exp y <= 1e-300.
Proof.
  intros H. pose proof tiny_eq. apply Rle_trans with (exp (- (709))); [left; apply exp_increasing; lra|].
  rewrite exp_Ropp.
  assert (E1 : 2.69 <= exp 1).
  { assert (Q : forall n, (65 / 64) ^ n <= exp (INR n * (1 / 64))).
    { induction n; [cbn [pow INR]; rewrite Rmult_0_l, exp_0; lra|]. rewrite S_INR, Rmult_plus_distr_r, exp_plus. cbn [pow].
      pose proof (exp_ineq1_le (1 * (1 / 64))). pose proof (pow_lt (65 / 64) n ltac:(lra)). nra. }
    specialize (Q 64%nat). replace (INR 64 * (1 / 64)) with 1 in Q by (rewrite INR_IZR_INZ; cbn; lra). lra. }
  assert (Q : forall n, 2.69 ^ n <= exp (INR n)).
  { induction n; [cbn [pow INR]; rewrite exp_0; lra|]. rewrite S_INR, exp_plus. cbn [pow].
    pose proof (exp_pos (INR n)). pose proof (pow_lt 2.69 n ltac:(lra)). nra. }
  specialize (Q 709%nat). replace (INR 709) with 709 in Q by (rewrite INR_IZR_INZ; reflexivity).
  assert (Z : (10 ^ 300 * 100 ^ 709 <= 269 ^ 709)%Z) by (vm_compute; discriminate).
  apply IZR_le in Z. rewrite mult_IZR in Z. rewrite <- !(pow_IZR _ 709), <- (pow_IZR _ 300) in Z.
  replace 2.69 with (269 * / 100) in Q by lra. rewrite Rpow_mult_distr, pow_inv in Q.
  assert (P1 : 0 < 100 ^ 709) by (apply pow_lt; lra).
  assert (P2 : 0 < 10 ^ 300) by (apply pow_lt; lra).
  assert (T : 10 ^ 300 <= exp 709).
  { apply Rle_trans with (2 := Q). apply Rmult_le_reg_r with (100 ^ 709); auto. rewrite Rmult_assoc, Rinv_l, Rmult_1_r; [auto|lra]. }
  apply Rle_trans with (/ 10 ^ 300); [apply inv_le; auto|].
  right. lra.
Qed.

(** the second arm: x at least 1 and above the shape *)
Lemma ur_fraction a x : 1 / 2 <= a < x -> 1 <= x ->
  exists N q, (forall fuel, (N <= fuel)%nat -> gamma_ur fuel a x = Some (Val (Fin q))) /\
    Rabs (q - Up a x / Gam a) <= 1.4e-12 * (Up a x / Gam a) + 1e-299.
Proof.
  intros Ha Hx. pose proof (gamma_pos a ltac:(lra)) as G. pose proof (eg_bound a ltac:(lra)) as EG.
  pose proof (up_nonneg a x ltac:(lra) ltac:(lra)) as U0. pose proof (up_le_X a x ltac:(lra) Hx) as UX.
  assert (X0 : 0 < X a x) by (apply Rmult_lt_0_compat; apply exp_pos).
  assert (P0 : 0 <= Up a x / Gam a) by (apply Rdiv_le_0_compat; auto).
  assert (U : forall fuel, gamma_ur fuel a x =
    if Rlt_dec (a * ln x - x - ln_gamma a) ln_tiny then Some (Val (Fin (if Rlt_dec a x then 0 else 1)))
    else match fraction fuel (1 - a) (x + (1 - a) + 1) 0 1 x (x + 1) ((x + (1 - a) + 1) * x) ((x + 1) / ((x + (1 - a) + 1) * x)) with
         | Some ans => Some (Val (Fin (ans * exp (a * ln x - x - ln_gamma a)))) | None => None end).
  { intros fuel. unfold gamma_ur. destruct (Rle_dec a 0); [lra|]. destruct (Rle_dec x 0); [lra|].
    destruct (Rlt_dec x 1); [lra|]. destruct (Rle_dec x a); [lra|]. reflexivity. }
  pose proof (ax_eq a x ltac:(lra) ltac:(lra)) as AX. fold (X a x) in AX.
  set (e := exp (- (ln_gamma a - ln (Gam a)))) in *.
  destruct (Rlt_dec (a * ln x - x - ln_gamma a) ln_tiny) as [T|T].
  - exists 0%nat, 0. split.
    { intros fuel _. rewrite U. destruct (Rlt_dec a x); [reflexivity|lra]. }
    pose proof (exp_tiny300 _ T) as E. rewrite AX in E.
    assert (XG : 0 < X a x / Gam a) by (apply Rdiv_lt_0_compat; auto).
    assert (UG : Up a x / Gam a <= X a x / Gam a) by (apply Rmult_le_compat_r; [left; apply Rinv_0_lt_compat|]; auto).
    rewrite Rminus_0_l, Rabs_Ropp, Rabs_right by lra.
    assert (X a x / Gam a * (1 - 2e-16) <= X a x / Gam a * e) by (apply Rmult_le_compat_l; lra). lra.
  - destruct (frac_run a x Ha Hx) as (j & N & Hj & HM & He & Hr).
    exists N, (cf a (S j) x * exp (a * ln x - x - ln_gamma a)). split.
    { intros fuel Hf. rewrite U, (Hr fuel Hf). reflexivity. }
    pose proof (frac_close a x j Ha Hx HM He) as B. unfold Hk in B. rewrite AX. set (c := cf a (S j) x) in *.
    replace (c * (X a x / Gam a * e) - Up a x / Gam a) with ((X a x * c * e - Up a x) / Gam a) by (field; lra).
    unfold Rdiv at 1. rewrite Rabs_mult, (Rabs_right (/ Gam a)) by (apply Rle_ge; left; apply Rinv_0_lt_compat; auto).
    assert (B2 : Rabs (X a x * c * e - Up a x) <= 1.4e-12 * Up a x).
    { apply Rabs_le_between in B. set (m := X a x * c) in *. assert (0 <= m) by lra. clearbody m.
      assert (m * (1 - 2e-16) <= m * e) by (apply Rmult_le_compat_l; lra).
      assert (m * e <= m * (1 + 2e-16)) by (apply Rmult_le_compat_l; lra). apply Rabs_le. lra. }
    apply Rmult_le_compat_r with (r := / Gam a) in B2; [|left; apply Rinv_0_lt_compat; auto]. unfold Rdiv. lra.
Qed.
