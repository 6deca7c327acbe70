From Coq Require Import Reals List Lra Lia Psatz.
From Verif Require Import DigammaModel DigammaSpec.
Open Scope R_scope.

Definition tail' (z : R) : R :=
  / z + / 2 * / (z ^ 2) + / 6 * / (z ^ 3) - / 30 * / (z ^ 5) + / 42 * / (z ^ 7) - / 30 * / (z ^ 9) + 5 / 66 * / (z ^ 11).
Lemma tail_deriv z : 0 < z -> derivable_pt_lim tail z (tail' z).
Proof.
  intros Hz. unfold tail.
  assert (D : derivable_pt_lim (fun z => ln z + (- / 2) * / z + (- / 12) * (/ z) ^ 2 + / 120 * (/ z) ^ 4 + (- / 252) * (/ z) ^ 6
     + / 240 * (/ z) ^ 8 + (- / 132) * (/ z) ^ 10) z (tail' z)).
  { assert (I : derivable_pt_lim (fun z => / z) z (- / z ^ 2)).
    { replace (- / z ^ 2) with ((0 * id z - 1 * fct_cte 1 z) / (Rsqr (id z))) by (unfold id, fct_cte, Rsqr; field; lra).
      apply (derivable_pt_lim_ext (div_fct (fct_cte 1) id)).
      - intros y. unfold div_fct, fct_cte, id. unfold Rdiv. ring.
      - apply derivable_pt_lim_div; [apply derivable_pt_lim_const|apply derivable_pt_lim_id|unfold id; lra]. }
    assert (Pw : forall n c, derivable_pt_lim (fun z => c * (/ z) ^ n) z (c * (INR n * (/ z) ^ pred n * (- / z ^ 2)))).
    { intros n c. apply (derivable_pt_lim_ext (mult_real_fct c (fun z => (/ z) ^ n))); [intros; reflexivity|].
      apply derivable_pt_lim_scal.
      apply (derivable_pt_lim_ext (comp (fun y => y ^ n) (fun z => / z))); [intros; reflexivity|].
      apply derivable_pt_lim_comp; [exact I|apply derivable_pt_lim_pow]. }
    replace (tail' z) with (/ z + (- / 2) * (INR 1 * (/ z) ^ pred 1 * (- / z ^ 2)) + (- / 12) * (INR 2 * (/ z) ^ pred 2 * (- / z ^ 2))
      + / 120 * (INR 4 * (/ z) ^ pred 4 * (- / z ^ 2)) + (- / 252) * (INR 6 * (/ z) ^ pred 6 * (- / z ^ 2))
      + / 240 * (INR 8 * (/ z) ^ pred 8 * (- / z ^ 2)) + (- / 132) * (INR 10 * (/ z) ^ pred 10 * (- / z ^ 2)))
      by (unfold tail'; cbn [INR pred]; field; lra).
    apply (derivable_pt_lim_ext (fun z => ln z + - / 2 * (/ z) ^ 1 + - / 12 * (/ z) ^ 2 + / 120 * (/ z) ^ 4 + - / 252 * (/ z) ^ 6
       + / 240 * (/ z) ^ 8 + - / 132 * (/ z) ^ 10)); [intros; cbn [pow]; ring|].
    repeat (apply derivable_pt_lim_plus; [|apply Pw]). now apply derivable_pt_lim_ln. }
  revert D. apply derivable_pt_lim_ext. intros y. unfold Rdiv. rewrite !Rmult_1_l. ring.
Qed.

(** A function that decreases to 0 (bounded by K / z) is not negative. *)
Lemma decreasing_to_zero (f f' : R -> R) K : (forall z, 0 < z -> derivable_pt_lim f z (f' z)) ->
  (forall z, 0 < z -> f' z <= 0) -> (forall z, 1 <= z -> - (K / z) <= f z) -> forall z, 0 < z -> 0 <= f z.
Proof.
  intros D N B z Hz. destruct (Rle_or_lt 0 (f z)) as [H|H]; [exact H|exfalso].
  assert (K0 : 0 < K).
  { assert (Dec : forall y, z < y -> f y <= f z).
    { intros y Hy. destruct (MVT_cor2 f f' z y Hy) as (c & E & Hc); [intros c Hc; apply D; lra|].
      assert (f' c <= 0) by (apply N; lra). nra. }
    specialize (Dec (z + 1) ltac:(lra)). specialize (B (z + 1) ltac:(lra)).
    destruct (Rle_or_lt K 0) as [K0|K0]; [|exact K0]. exfalso.
    assert (K / (z + 1) <= 0). { apply Rmult_le_reg_r with (z + 1); [lra|]. replace (K / (z + 1) * (z + 1)) with K by (field; lra). lra. }
    lra. }
  set (y := z + 1 + K / (- f z)).
  assert (P : 0 < K / - f z) by (apply Rdiv_lt_0_compat; lra).
  assert (Hy : z < y) by (unfold y; lra).
  destruct (MVT_cor2 f f' z y Hy) as (c & E & Hc); [intros c Hc; apply D; lra|].
  assert (f' c <= 0) by (apply N; lra). assert (L : f y <= f z) by nra.
  specialize (B y ltac:(unfold y; lra)).
  assert (Q : K / y < - f z).
  { apply Rmult_lt_reg_r with y; [lra|]. replace (K / y * y) with K by (field; lra).
    assert (- f z * y = - f z * (z + 1) + K) by (unfold y; field; lra). nra. }
  lra.
Qed.

(** One step of the asymptotic series misses 1/z by less than the next term. *)
Definition gap (z : R) : R := tail (z + 1) - tail z - / z.
Definition gap' (z : R) : R :=
  - (5/66 + 5/6*z + 62/15*z^2 + 182/15*z^3 + 487/21*z^4 + 625/21*z^5 + 2654/105*z^6 + 1382/105*z^7 + 691/210*z^8) / (z ^ 11 * (z + 1) ^ 11).
Lemma inv_deriv z (Hz : 0 < z) n : derivable_pt_lim (fun z => / z ^ n) z (- INR n * / z ^ S n).
Proof.
  assert (Hn : z ^ n <> 0) by (apply pow_nonzero; lra).
  apply (derivable_pt_lim_ext (div_fct (fct_cte 1) (fun z => z ^ n))).
  - intros y. unfold div_fct, fct_cte, Rdiv. ring.
  - replace (- INR n * / z ^ S n) with ((0 * z ^ n - (INR n * z ^ pred n) * fct_cte 1 z) / Rsqr (z ^ n)).
    + apply derivable_pt_lim_div; [apply derivable_pt_lim_const|apply derivable_pt_lim_pow|exact Hn].
    + unfold fct_cte, Rsqr. destruct n as [|n]; [cbn; field; lra|]. cbn [pred]. cbn [pow] in *. field. split; [|lra]. intros E. apply Hn. rewrite E. ring.
Qed.
Lemma shift_deriv (f : R -> R) z l : derivable_pt_lim f (z + 1) l -> derivable_pt_lim (fun z => f (z + 1)) z l.
Proof.
  intros D. replace l with (l * (1 + 0)) by ring.
  apply (derivable_pt_lim_ext (comp f (plus_fct id (fct_cte 1)))); [intros; reflexivity|].
  apply derivable_pt_lim_comp; [|exact D]. apply derivable_pt_lim_plus; [apply derivable_pt_lim_id|apply derivable_pt_lim_const].
Qed.
Lemma gap_deriv z : 0 < z -> derivable_pt_lim gap z (gap' z).
Proof.
  intros Hz. replace (gap' z) with (tail' (z + 1) - tail' z - (- INR 1 * / z ^ 2)) by (unfold tail', gap'; cbn [INR]; field; lra).
  unfold gap. apply (derivable_pt_lim_ext (fun z => tail (z + 1) - tail z - / z ^ 1)); [intros; now rewrite pow_1|].
  apply derivable_pt_lim_minus; [|now apply inv_deriv]. apply derivable_pt_lim_minus; [|now apply tail_deriv].
  apply shift_deriv, tail_deriv. lra.
Qed.
Lemma Rabs_le_between x a : Rabs x <= a -> - a <= x <= a.
Proof. intros H. pose proof (Rle_abs x). pose proof (Rle_abs (- x)). rewrite Rabs_Ropp in *. lra. Qed.
Lemma rest_bound z : 1 <= z -> Rabs (tail z - ln z) <= / z.
Proof.
  intros Hz. unfold tail. set (r := 1 / z).
  assert (R0 : 0 < r <= 1). { unfold r. split; [apply Rdiv_lt_0_compat; lra|]. apply Rmult_le_reg_r with z; [lra|]. replace (1 / z * z) with 1 by (field; lra). lra. }
  replace (/ z) with r by (unfold r; field; lra).
  assert (S0 : 0 <= r * r <= r) by nra. set (s := r * r) in *. assert (S1 : 0 <= s <= 1) by lra.
  assert (A1 : 0 <= 1 / 240 - s * (1 / 132) <= 1 / 240 \/ - (1/132) <= 1 / 240 - s * (1 / 132) <= 1 / 240) by lra.
  set (a1 := 1 / 240 - s * (1 / 132)) in *. assert (A1' : - 1 / 132 <= a1 <= 1 / 240) by lra.
  assert (A2 : -1/10 <= 1 / 252 - s * a1 <= 1/10) by nra. set (a2 := 1 / 252 - s * a1) in *.
  assert (A3 : -1/5 <= 1 / 120 - s * a2 <= 1/5) by nra. set (a3 := 1 / 120 - s * a2) in *.
  assert (A4 : -1/2 <= 1 / 12 - s * a3 <= 1/2) by nra. set (a4 := 1 / 12 - s * a3) in *.
  apply Rabs_le. nra.
Qed.
Lemma gap_bound z : 1 <= z -> Rabs (gap z) <= 4 / z.
Proof.
  intros Hz. pose proof (rest_bound z Hz) as B1. pose proof (rest_bound (z + 1) ltac:(lra)) as B2.
  assert (L : 0 <= ln (z + 1) - ln z <= / z).
  { split; [assert (ln z < ln (z + 1)) by (apply ln_increasing; lra); lra|].
    assert (E : ln (z + 1) = ln z + ln (1 + / z)). { rewrite <- ln_mult; [f_equal; field; lra|lra|]. assert (0 < / z) by (apply Rinv_0_lt_compat; lra). lra. }
    rewrite E. assert (0 < / z) by (apply Rinv_0_lt_compat; lra).
    assert (ln (1 + / z) <= / z); [|lra].
    apply Rnot_lt_le. intros C. apply exp_increasing in C. rewrite exp_ln in C by lra. pose proof (exp_ineq1 (/ z) ltac:(lra)). lra. }
  assert (I : / (z + 1) <= / z) by (apply Rinv_le_contravar; lra).
  replace (4 / z) with (/ z + / z + / z + / z) by (field; lra). unfold gap.
  apply Rabs_le_between in B1, B2. apply Rabs_le. lra.
Qed.
Theorem gap_nonneg z : 0 < z -> 0 <= gap z.
Proof.
  apply (decreasing_to_zero gap gap' 4 gap_deriv).
  - intros y Hy. unfold gap', Rdiv. rewrite Ropp_mult_distr_l_reverse. apply Ropp_le_cancel. rewrite Ropp_0, Ropp_involutive.
    assert (0 < y ^ 11 * (y + 1) ^ 11) by (apply Rmult_lt_0_compat; apply pow_lt; lra).
    apply Rmult_le_pos; [|left; now apply Rinv_0_lt_compat]. repeat apply Rplus_le_le_0_compat; try lra;
      (apply Rmult_le_pos; [lra|]); try (apply pow_le); lra.
  - intros y Hy. pose proof (gap_bound y Hy) as B. apply Rabs_le_between in B. lra.
Qed.
Definition slack (z : R) : R := next z - next (z + 1) - gap z.
Definition slack' (z : R) : R :=
  - (691/2730 + 691/210*z + 45431/2310*z^2 + 164947/2310*z^3 + 202241/1155*z^4 + 6395/21*z^5 + 40189/105*z^6 + 5191/15*z^7
     + 6533/30*z^8 + 175/2*z^9 + 35/2*z^10) / (z ^ 13 * (z + 1) ^ 13).
Lemma slack_deriv z : 0 < z -> derivable_pt_lim slack z (slack' z).
Proof.
  intros Hz.
  assert (Dn : forall y, 0 < y -> derivable_pt_lim next y (691 / 32760 * (- INR 12 * / y ^ 13))).
  { intros y Hy. unfold next. apply (derivable_pt_lim_ext (mult_real_fct (691 / 32760) (fun z => / z ^ 12))); [intros; reflexivity|].
    apply derivable_pt_lim_scal. now apply inv_deriv. }
  replace (slack' z) with (691 / 32760 * (- INR 12 * / z ^ 13) - 691 / 32760 * (- INR 12 * / (z + 1) ^ 13) - gap' z).
  2: { unfold slack', gap'. replace (INR 12) with 12 by (cbn [INR]; ring). field. lra. }
  unfold slack. apply derivable_pt_lim_minus; [|now apply gap_deriv]. apply derivable_pt_lim_minus; [now apply Dn|].
  apply shift_deriv, Dn. lra.
Qed.
Lemma next_pos z : 0 < z -> 0 < next z.
Proof. intros Hz. unfold next. apply Rmult_lt_0_compat; [lra|]. apply Rinv_0_lt_compat, pow_lt, Hz. Qed.
Theorem gap_small z : 0 < z -> gap z <= next z - next (z + 1).
Proof.
  intros Hz. assert (0 <= slack z); [|unfold slack in *; lra]. revert z Hz.
  apply (decreasing_to_zero slack slack' 5 slack_deriv).
  - intros y Hy. unfold slack', Rdiv. rewrite Ropp_mult_distr_l_reverse. apply Ropp_le_cancel. rewrite Ropp_0, Ropp_involutive.
    assert (0 < y ^ 13 * (y + 1) ^ 13) by (apply Rmult_lt_0_compat; apply pow_lt; lra).
    apply Rmult_le_pos; [|left; now apply Rinv_0_lt_compat]. repeat apply Rplus_le_le_0_compat; try lra;
      (apply Rmult_le_pos; [lra|]); try (apply pow_le); lra.
  - intros y Hy. pose proof (gap_bound y Hy) as B. apply Rabs_le_between in B. unfold slack.
    pose proof (next_pos y ltac:(lra)).
    assert (next (y + 1) <= / y).
    { unfold next. assert (/ (y + 1) ^ 12 <= / y). { apply Rinv_le_contravar; [lra|]. apply Rle_trans with ((y + 1) ^ 1); [cbn; lra|]. apply Rle_pow; [lra|lia]. }
      assert (0 < / (y + 1) ^ 12) by (apply Rinv_0_lt_compat, pow_lt; lra). lra. }
    replace (5 / y) with (4 / y + / y) by (field; lra). lra.
Qed.

(** The loop. *)
Lemma climb_done f r z : 12 <= z -> climb f r z = (r, z).
Proof. intros H. destruct f; cbn; [reflexivity|]. destruct (Rlt_dec z 12); [lra|reflexivity]. Qed.
Lemma climb_shift f a r z : climb f (a + r) z = (a + fst (climb f r z), snd (climb f r z)).
Proof.
  revert r z. induction f as [|f IH]; intros r z; cbn; [reflexivity|]. destruct (Rlt_dec z 12); [|reflexivity].
  replace (a + r - 1 / z) with (a + (r - 1 / z)) by ring. apply IH.
Qed.
Lemma climb_fuel f g r z : 0 < z -> 12 <= z + INR f -> (f <= g)%nat -> climb g r z = climb f r z.
Proof.
  revert g r z. induction f as [|f IH]; intros g r z Hz H L.
  - rewrite climb_done by (cbn in H; lra). reflexivity.
  - destruct g as [|g]; [lia|]. cbn [climb]. destruct (Rlt_dec z 12); [|reflexivity]. apply IH; [lra|rewrite S_INR in H; lra|lia].
Qed.
(** The fuel suffices: the loop ends at or above 12. *)
Theorem digamma_fuel f x r : 0 < x -> 12 <= x + INR f -> 12 <= snd (climb f r x).
Proof.
  revert r x. induction f as [|f IH]; intros r x Hx H; cbn [climb]; [cbn in *; lra|].
  destruct (Rlt_dec x 12); [|cbn; lra]. apply IH; [lra|]. rewrite S_INR in H. lra.
Qed.
Definition dig (x : R) : R := fst (climb 12 0 x) + tail (snd (climb 12 0 x)).
Lemma digamma_dig x : 1 / 1000000 < x -> digamma x = dig x.
Proof.
  intros H. unfold digamma, dig. destruct (Rle_dec x (1 / 1000000)); [lra|].
  rewrite (climb_fuel 12 13) by (try lia; cbn; lra). now destruct (climb 12 0 x).
Qed.
(** psi(x+1) = psi(x) + 1/x: exact below 12, with an error below the first omitted term above. *)
Theorem dig_step x : 0 < x -> dig (x + 1) = dig x + / x + (if Rlt_dec x 12 then 0 else gap x).
Proof.
  intros Hx. unfold dig. destruct (Rlt_dec x 12) as [L|L].
  - rewrite <- (climb_fuel 12 13 0 x) by (try lia; cbn; lra).
    assert (E : climb 13 0 x = climb 12 (- / x + 0) (x + 1)).
    { change (climb 13 0 x) with (if Rlt_dec x 12 then climb 12 (0 - 1 / x) (x + 1) else (0, x)).
      destruct (Rlt_dec x 12); [|lra]. f_equal. field. lra. }
    rewrite E, climb_shift. cbn [fst snd]. ring.
  - rewrite !climb_done by lra. cbn [fst snd]. unfold gap. ring.
Qed.
Theorem digamma_step x : 1 / 1000000 < x -> 0 <= digamma (x + 1) - digamma x - / x <= next (Rmax x 12) - next (Rmax x 12 + 1).
Proof.
  intros H. rewrite !digamma_dig by lra. rewrite dig_step by lra. destruct (Rlt_dec x 12).
  - rewrite Rmax_right by lra. pose proof (gap_small 12 ltac:(lra)). pose proof (gap_nonneg 12 ltac:(lra)). lra.
  - rewrite Rmax_left by lra. pose proof (gap_small x ltac:(lra)). pose proof (gap_nonneg x ltac:(lra)). lra.
Qed.
Lemma harmonic_S k n : (k <= n)%nat -> harmonic k (S n) = harmonic k n + / INR n.
Proof.
  intros H. unfold harmonic. rewrite Nat.sub_succ_l by exact H. rewrite seq_S, map_app. replace (k + (n - k))%nat with n by lia.
  cbn [map]. generalize (map (fun i => / INR i) (seq k (n - k))). induction l as [|a l IH]; cbn [app fold_right map]; [ring|]. rewrite IH. ring.
Qed.
Theorem digamma_harmonic k n : (1 <= k <= n)%nat -> 0 <= digamma (INR n) - digamma (INR k) - harmonic k n <= 1 / 100000000000000.
Proof.
  intros [K L].
  assert (G : forall m, 0 <= digamma (INR (k + m)) - digamma (INR k) - harmonic k (k + m) <= next 12 - next (Rmax (INR (k + m)) 12)).
  { assert (K1 : 1 <= INR k) by (change 1 with (INR 1); now apply le_INR).
    induction m as [|m IH].
    - rewrite Nat.add_0_r. unfold harmonic. rewrite Nat.sub_diag. cbn [seq map fold_right].
      assert (next (Rmax (INR k) 12) <= next 12); [|lra].
      unfold next. apply Rmult_le_compat_l; [lra|]. apply Rinv_le_contravar; [apply pow_lt; lra|]. apply pow_incr. split; [lra|apply Rmax_r].
    - assert (P : 1 <= INR (k + m)) by (rewrite plus_INR; pose proof (pos_INR m); lra).
      replace (k + S m)%nat with (S (k + m)) by lia. rewrite harmonic_S by lia. rewrite S_INR.
      rewrite !digamma_dig in * by lra. rewrite dig_step by lra.
      destruct (Rlt_dec (INR (k + m)) 12) as [Lt|Ge].
      + assert (E : next (Rmax (INR (k + m) + 1) 12) <= next (Rmax (INR (k + m)) 12)).
        { unfold next. apply Rmult_le_compat_l; [lra|]. apply Rinv_le_contravar; [apply pow_lt; pose proof (Rmax_r (INR (k + m)) 12); lra|].
          apply pow_incr. split; [pose proof (Rmax_r (INR (k + m)) 12); lra|]. apply Rle_max_compat_r. lra. }
        lra.
      + rewrite Rmax_left in IH by lra. rewrite Rmax_left by lra.
        pose proof (gap_small (INR (k + m)) ltac:(lra)). pose proof (gap_nonneg (INR (k + m)) ltac:(lra)). lra. }
  specialize (G (n - k)%nat). replace (k + (n - k))%nat with n in G by lia. split; [lra|].
  assert (0 < next (Rmax (INR n) 12)) by (apply next_pos; pose proof (Rmax_r (INR n) 12); lra).
  assert (next 12 <= 1 / 100000000000000); [|lra]. unfold next. lra.
Qed.
(** Below 12 there is no error. *)
Theorem digamma_harmonic_small k n : (1 <= k <= n)%nat -> (n <= 12)%nat -> digamma (INR n) - digamma (INR k) = harmonic k n.
Proof.
  intros [K L] B. assert (K1 : 1 <= INR k) by (change 1 with (INR 1); now apply le_INR).
  assert (G : forall m, (k + m <= 12)%nat -> digamma (INR (k + m)) - digamma (INR k) = harmonic k (k + m)).
  { induction m as [|m IH]; intros Hm.
    - rewrite Nat.add_0_r. unfold harmonic. rewrite Nat.sub_diag. cbn. ring.
    - assert (P : 1 <= INR (k + m)) by (rewrite plus_INR; pose proof (pos_INR m); lra).
      specialize (IH ltac:(lia)). replace (k + S m)%nat with (S (k + m)) by lia. rewrite harmonic_S by lia. rewrite S_INR.
      rewrite !digamma_dig in * by lra. rewrite dig_step by lra. destruct (Rlt_dec (INR (k + m)) 12) as [Lt|Ge]; [lra|].
      exfalso. apply Ge. replace 12 with (INR 12) by (cbn; ring). apply lt_INR. lia. }
  specialize (G (n - k)%nat). replace (k + (n - k))%nat with n in G by lia. apply G. lia.
Qed.
