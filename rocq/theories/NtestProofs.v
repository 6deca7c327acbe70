(** Proofs about normal_test. *)
From Coq Require Import Reals List Bool Arith Lia Lra Permutation.
From Verif Require Import WStatsSpec MetricSpec TtestSpec TtestModel NtestSpec NtestModel LagPropsLemmas TfmModel TfmProofs DescProofs.
Import ListNotations.
Open Scope R_scope.

Lemma cdiv_ok a b : b <> 0 -> cdiv a b = Some (a / b).
Proof. intros H. unfold cdiv. now destruct (Req_EM_T b 0). Qed.
Lemma csqrt_ok a : 0 <= a -> csqrt a = Some (sqrt a).
Proof. intros H. unfold csqrt. destruct (Rlt_dec a 0); [lra|easy]. Qed.
Lemma cln_ok a : 0 < a -> cln a = Some (ln a).
Proof. intros H. unfold cln. destruct (Rlt_dec 0 a); [easy|lra]. Qed.
Lemma div_pos a b : 0 < a -> 0 < b -> 0 < a / b.
Proof. intros. now apply Rdiv_lt_0_compat. Qed.

Lemma lt_div a b c : 0 < b -> a * b < c -> a < c / b.
Proof. intros B H. apply Rmult_lt_reg_r with b; [easy|]. unfold Rdiv. rewrite Rmult_assoc, Rinv_l; lra. Qed.
Lemma div_lt a b c : 0 < b -> c < a * b -> c / b < a.
Proof. intros B H. apply Rmult_lt_reg_r with b; [easy|]. unfold Rdiv. rewrite Rmult_assoc, Rinv_l; lra. Qed.

Section N.
Variable n : R.
Hypothesis Hn : 20 <= n.
Lemma beta2_gt : 3 < 3 * (n ^ 2 + 27 * n - 70) * (n + 1) * (n + 3) / ((n - 2) * (n + 5) * (n + 7) * (n + 9)).
Proof.
  assert (0 < (n - 2) * (n + 5) * (n + 7) * (n + 9)) as D by (repeat apply Rmult_lt_0_compat; lra).
  apply lt_div; [easy|].
  set (m := n - 20). assert (0 <= m) as Hm by (unfold m; lra). replace n with (m + 20) by (unfold m; lra).
  assert (0 <= m * m) by (apply Rmult_le_pos; lra). assert (0 <= m * m * m) by (apply Rmult_le_pos; lra). nra.
Qed.
Lemma W2_gt : 1 < W2 n.
Proof.
  unfold W2. pose proof beta2_gt as B. set (b := _ / _) in *. assert (sqrt 4 < sqrt (2 * (b - 1))) as S by (apply sqrt_lt_1; lra).
  replace 4 with (2 * 2) in S by lra. rewrite sqrt_square in S by lra. lra.
Qed.
Lemma skew_eq g : skew_stat g n = Some (z_skew g n).
Proof.
  pose proof W2_gt as W. pose proof beta2_gt as B. unfold skew_stat. rewrite cdiv_ok by lra. cbn [bind].
  rewrite csqrt_ok by (left; apply div_pos; [apply Rmult_lt_0_compat|]; lra). cbn [bind].
  assert (0 < (n - 2) * (n + 5) * (n + 7) * (n + 9)) as D by (repeat apply Rmult_lt_0_compat; lra).
  rewrite cdiv_ok by lra. cbn [bind]. rewrite csqrt_ok by lra. cbn [bind].
  unfold z_skew, delta, alpha_. unfold W2 in *. cbv zeta in *. set (b := 3 * (n ^ 2 + 27 * n - 70) * (n + 1) * (n + 3) / ((n - 2) * (n + 5) * (n + 7) * (n + 9))) in *.
  replace (sqrt (2 * (b - 1)) - 1) with (-1 + sqrt (2 * (b - 1))) by lra. set (w := -1 + sqrt (2 * (b - 1))) in *.
  rewrite cdiv_ok by lra. cbn [bind]. assert (0 < 2 / (w - 1)) as A by (apply div_pos; lra). rewrite csqrt_ok by lra. cbn [bind].
  pose proof (sqrt_lt_R0 _ A) as A'. rewrite cdiv_ok by lra. cbn [bind]. set (t := _ / sqrt (2 / (w - 1))).
  pose proof (pow2_ge_0 t). rewrite csqrt_ok by lra. cbn [bind].
  assert (0 < t + sqrt (t ^ 2 + 1)) as P.
  { assert (Rabs t < sqrt (t ^ 2 + 1)) as Q. { rewrite <- sqrt_Rsqr_abs. apply sqrt_lt_1; unfold Rsqr; nra. } unfold Rabs in Q. destruct (Rcase_abs t); lra. }
  rewrite cln_ok by easy. cbn [bind]. rewrite cln_ok by lra. cbn [bind].
  assert (0 < ln w) as L by (rewrite <- ln_1; apply ln_increasing; lra). rewrite csqrt_ok by lra. cbn [bind].
  assert (0 < sqrt (ln w * / 2)) as L' by (apply sqrt_lt_R0; lra). rewrite cdiv_ok by lra. f_equal. fold (arcsinh t).
  assert (ln (sqrt w) = ln w * / 2) as ->. { assert (0 < sqrt w) by (apply sqrt_lt_R0; lra). rewrite <- (sqrt_sqrt w) at 2 by lra. rewrite ln_mult by easy. lra. }
  unfold arcsinh. field. lra.
Qed.
Lemma rb_pos : 0 < b2_skew n.
Proof.
  unfold b2_skew. apply Rmult_lt_0_compat; [apply div_pos; nra|]. apply sqrt_lt_R0, div_pos; repeat apply Rmult_lt_0_compat; lra.
Qed.
Lemma A_gt : 6 < A_ n.
Proof.
  pose proof rb_pos as B. unfold A_. assert (0 < 8 / b2_skew n) by (apply div_pos; lra). assert (0 < 2 / b2_skew n) by (apply div_pos; lra).
  pose proof (sqrt_pos (1 + 4 / b2_skew n ^ 2)). nra.
Qed.
Lemma var_pos : 0 < b2_var n.
Proof. unfold b2_var. apply div_pos; repeat apply Rmult_lt_0_compat; nra. Qed.
Lemma cbrt_cube a : 0 <= a -> cbrt a ^ 3 = a /\ 0 <= cbrt a.
Proof.
  intros H. unfold cbrt. destruct (Req_EM_T a 0) as [->|N]; [split; [ring|lra]|]. split; [|left; apply exp_pos].
  rewrite <- Rpower_pow by apply exp_pos. rewrite Rpower_mult. replace (/ 3 * INR 3) with 1 by (cbn; field). apply Rpower_1. lra.
Qed.
Definition kz (b : R) : R := (1 - 2 / (9 * A_ n) - cbrt ((1 - 2 / A_ n) / Rabs (b2_denom b n))) / sqrt (2 / (9 * A_ n)).
Lemma kurt_eq b : kurtosis_stat b n = Some (if Req_EM_T (b2_denom b n) 0 then NaN else Fin (kz b)).
Proof.
  pose proof A_gt as A. pose proof var_pos as V. pose proof rb_pos as B. pose proof (sqrt_lt_R0 _ V) as V'.
  unfold kurtosis_stat. rewrite cdiv_ok by lra. cbn [bind]. rewrite cdiv_ok by (assert (0 < (n + 1) ^ 2 * (n + 3) * (n + 5)) by (repeat apply Rmult_lt_0_compat; try lra; nra); lra).
  cbn [bind]. fold (b2_mean n). fold (b2_var n). rewrite csqrt_ok by lra. cbn [bind]. rewrite cdiv_ok by lra. cbn [bind].
  rewrite cdiv_ok by nra. cbn [bind]. assert (0 < n * (n - 2) * (n - 3)) as Q by (repeat apply Rmult_lt_0_compat; lra). rewrite cdiv_ok by lra. cbn [bind].
  rewrite csqrt_ok by (left; apply div_pos; [|easy]; repeat apply Rmult_lt_0_compat; lra). cbn [bind]. fold (b2_skew n).
  rewrite !cdiv_ok by lra. cbn [bind]. rewrite cdiv_ok by (pose proof (pow_lt _ 2 B); lra). cbn [bind].
  assert (0 < 4 / b2_skew n ^ 2) as U by (apply div_pos; [lra|now apply pow_lt]). rewrite csqrt_ok by lra. cbn [bind]. fold (A_ n).
  rewrite cdiv_ok by lra. cbn [bind]. rewrite cdiv_ok by lra. cbn [bind]. assert (0 < 2 / (A_ n - 4)) by (apply div_pos; lra). rewrite csqrt_ok by lra. cbn [bind].
  fold (b2_denom b n). destruct (Req_EM_T (b2_denom b n) 0) as [E|E]; [easy|]. rewrite cdiv_ok by lra. cbn [bind].
  pose proof (Rabs_pos_lt _ E) as D. rewrite cdiv_ok by lra. cbn [bind].
  assert (0 < (1 - 2 / A_ n) / Rabs (b2_denom b n)) as T. { apply div_pos; [|easy]. apply Rlt_Rminus. apply div_lt; lra. }
  destruct (Rlt_dec _ 0); [lra|]. assert (0 < 2 / (9 * A_ n)) as S by (apply div_pos; lra). rewrite csqrt_ok by lra. cbn [bind]. pose proof (sqrt_lt_R0 _ S).
  rewrite cdiv_ok by lra. reflexivity.
Qed.
Lemma ratio_pos : 0 < 1 - 2 / A_ n /\ 0 < 1 - 2 / (9 * A_ n) /\ 0 < sqrt (2 / (9 * A_ n)).
Proof.
  pose proof A_gt as A. repeat split.
  - apply Rlt_Rminus. apply div_lt; lra.
  - apply Rlt_Rminus. apply div_lt; lra.
  - apply sqrt_lt_R0, div_pos; lra.
Qed.
Lemma kz_pos b : 0 < b2_denom b n -> is_z_kurt b n (kz b).
Proof.
  intros D. pose proof ratio_pos as (A & _). exists (cbrt ((1 - 2 / A_ n) / Rabs (b2_denom b n))). rewrite Rabs_right by lra. split; [|unfold kz; now rewrite Rabs_right by lra].
  apply cbrt_cube. left. now apply div_pos.
Qed.
Lemma cube_inj x y : x ^ 3 = y ^ 3 -> x = y.
Proof.
  intros H. assert ((x - y) * (x * x + x * y + y * y) = 0) as E by (replace ((x - y) * (x * x + x * y + y * y)) with (x ^ 3 - y ^ 3) by ring; lra). apply Rmult_integral in E. destruct E as [E|E]; [lra|].
  pose proof (pow2_ge_0 (x + y / 2)) as P. pose proof (pow2_ge_0 y) as Q. assert (y ^ 2 = 0) as Y by nra. assert (y = 0) as -> by (apply Rsqr_0_uniq; unfold Rsqr; lra).
  apply Rsqr_0_uniq. unfold Rsqr. lra.
Qed.
Lemma z_kurt_unique b z z' : is_z_kurt b n z -> is_z_kurt b n z' -> z = z'.
Proof. intros (c & C & ->) (c' & C' & ->). rewrite <- C' in C. now rewrite (cube_inj _ _ C). Qed.
Lemma z_kurt_exists b : exists z, is_z_kurt b n z.
Proof.
  set (a := (1 - 2 / A_ n) / b2_denom b n). destruct (Rle_dec 0 a) as [P|P].
  - eexists. exists (cbrt a). split; [now apply cbrt_cube|reflexivity].
  - eexists. exists (- cbrt (- a)). split; [|reflexivity]. fold a. destruct (cbrt_cube (- a)) as (Q & _); [lra|]. replace ((- cbrt (- a)) ^ 3) with (- cbrt (- a) ^ 3) by ring. lra.
Qed.
Lemma kz_neg b z : b2_denom b n < 0 -> is_z_kurt b n z -> Rabs (kz b) < z.
Proof.
  intros D (c & C & ->). destruct ratio_pos as (A1 & A2 & A3). unfold kz. rewrite (Rabs_left (b2_denom b n)) by easy. set (t := (1 - 2 / A_ n) / - b2_denom b n).
  assert (0 < t) as T by (apply div_pos; lra). destruct (cbrt_cube t) as (Q & Q'); [lra|]. assert (c = - cbrt t) as ->.
  { apply cube_inj. rewrite C. replace ((- cbrt t) ^ 3) with (- cbrt t ^ 3) by ring. rewrite Q. unfold t. set (u := 1 - _). set (d := b2_denom b n) in *. field. lra. }
  assert (0 < cbrt t) as P. { destruct Q' as [Q'|Q']; [easy|]. rewrite <- Q' in Q. lra. }
  set (s := sqrt _) in *. set (u := 1 - _) in *. unfold Rdiv at 1. rewrite Rabs_mult, (Rabs_right (/ s)) by (apply Rle_ge; left; now apply Rinv_0_lt_compat).
  unfold Rdiv. apply Rmult_lt_compat_r; [now apply Rinv_0_lt_compat|]. unfold Rabs. destruct (Rcase_abs _); lra.
Qed.
Lemma z_odd g : z_skew (- g) n = - z_skew g n.
Proof.
  unfold z_skew. replace (- g * sqrt ((n + 1) * (n + 3) / (6 * (n - 2))) / alpha_ n) with (- (g * sqrt ((n + 1) * (n + 3) / (6 * (n - 2))) / alpha_ n)) by (unfold Rdiv; ring).
  set (t := _ / alpha_ n). assert (arcsinh (- t) = - arcsinh t) as ->; [|ring]. rewrite <- (arcsinh_sinh (- arcsinh t)). f_equal. rewrite <- (sinh_arcsinh t) at 1. unfold sinh. rewrite Ropp_involutive. lra.
Qed.
Lemma z_mono g h : g < h -> z_skew g n < z_skew h n.
Proof.
  intros L. pose proof W2_gt as W. unfold z_skew. apply Rmult_lt_compat_l.
  - unfold delta. apply Rinv_0_lt_compat, sqrt_lt_R0. rewrite <- ln_1. apply ln_increasing; [lra|]. rewrite <- sqrt_1 at 1. apply sqrt_lt_1; lra.
  - apply arcsinh_lt. unfold Rdiv. apply Rmult_lt_compat_r; [apply Rinv_0_lt_compat, sqrt_lt_R0, div_pos; lra|]. apply Rmult_lt_compat_r; [|easy].
    apply sqrt_lt_R0, div_pos; [apply Rmult_lt_0_compat|]; lra.
Qed.
Lemma z_zero : z_skew 0 n = 0.
Proof. pose proof (z_odd 0) as Z. rewrite Ropp_0 in Z. lra. Qed.
Lemma z_abs g h : Rabs g < Rabs h -> z_skew g n ^ 2 < z_skew h n ^ 2.
Proof.
  intros L. assert (forall a, z_skew a n ^ 2 = z_skew (Rabs a) n ^ 2) as E. { intros a. unfold Rabs. destruct (Rcase_abs a); [rewrite z_odd; ring|easy]. }
  rewrite (E g), (E h). pose proof (Rabs_pos g) as P. apply z_mono in L. assert (0 <= z_skew (Rabs g) n). { destruct P as [P|P]; [apply z_mono in P; rewrite z_zero in P; lra|rewrite <- P, z_zero; lra]. } nra.
Qed.
End N.

Lemma ltb20 m : (20 <= m)%nat -> Nat.ltb m 20 = false /\ 20 <= INR m.
Proof. intros H. split; [apply Nat.ltb_ge; lia|]. apply le_INR in H. replace 20 with (INR 20) by (rewrite INR_IZR_INZ; reflexivity). easy. Qed.
Lemma central2 l : central 2 l = pvar l.
Proof. reflexivity. Qed.
Lemma len_ne (l : list R) : (20 <= length l)%nat -> l <> [].
Proof. intros H ->. cbn in H. lia. Qed.
Lemma skew_val l : l <> [] -> ~ constant l -> pl_skew l = Some (Fin (skewness l)) /\ pl_kurtosis l = Some (Fin (kurt l)).
Proof.
  intros N C. pose proof (pvar_pos l N C) as P. unfold pl_skew, pl_kurtosis. destruct l as [|a l]; [easy|]. set (L := a :: l) in *.
  change (moment 2 L) with (pvar L). destruct (Req_EM_T (pvar L) 0); [lra|]. split; [|reflexivity]. unfold skewness. change (central 2 L) with (pvar L). do 2 f_equal.
  change (moment 3 L) with (central 3 L). f_equal. rewrite <- (sqrt_sqrt (pvar L)) at 1 by lra. ring.
Qed.
Lemma sf_ok gamma_ur k : gamma_ok gamma_ur -> 0 <= k -> gamma_sf gamma_ur k 1 (1 / 2) = exp (- k / 2).
Proof.
  intros G H. unfold gamma_sf. destruct (Rle_dec k 0) as [L|L].
  - replace k with 0 by lra. replace (-0 / 2) with 0 by lra. now rewrite exp_0.
  - rewrite G by lra. f_equal. lra.
Qed.
Section T.
Variable gamma_ur : R -> R -> R.
Hypothesis G : gamma_ok gamma_ur.
Lemma run_val y : let l := finite_values y in let n := INR (length l) in (20 <= length l)%nat -> ~ constant l ->
  normal_test gamma_ur y = if Req_EM_T (b2_denom (kurt l) n) 0 then Ok (NaN, NaN) else
    let K := z_skew (skewness l) n ^ 2 + kz n (kurt l) ^ 2 in Ok (Fin K, Fin (exp (- K / 2))).
Proof.
  intros l n H C. destruct (ltb20 _ H) as (B & B'). destruct (skew_val l (len_ne l H) C) as (S1 & S2). unfold normal_test. change (finite_of y) with l. cbv zeta. rewrite S1, S2.
  unfold normal_test_rs. rewrite B. fold n. fold n in B'. rewrite (skew_eq n B'), (kurt_eq n B'). destruct (Req_EM_T _ 0); [easy|].
  replace (z_skew (skewness l) n * z_skew (skewness l) n + kz n (kurt l) * kz n (kurt l)) with (z_skew (skewness l) n ^ 2 + kz n (kurt l) ^ 2) by ring.
  set (K := _ + _). assert (0 <= K) as P by (unfold K; pose proof (pow2_ge_0 (z_skew (skewness l) n)); pose proof (pow2_ge_0 (kz n (kurt l))); lra). now rewrite sf_ok.
Qed.
Lemma stat_thm y : let l := finite_values y in let n := INR (length l) in (20 <= length l)%nat -> ~ constant l -> 0 < b2_denom (kurt l) n ->
  exists zk K, is_z_kurt (kurt l) n zk /\ (forall z, is_z_kurt (kurt l) n z -> z = zk) /\ K = z_skew (skewness l) n ^ 2 + zk ^ 2 /\
    normal_test gamma_ur y = Ok (Fin K, Fin (exp (- K / 2))) /\ 0 <= K /\ 0 < exp (- K / 2) <= 1.
Proof.
  intros l n H C D. pose proof (run_val y H C) as R1. fold l in R1. fold n in R1. cbv zeta in R1. destruct (Req_EM_T _ 0) in R1; [lra|]. destruct (ltb20 _ H) as (_ & B').
  exists (kz n (kurt l)), (z_skew (skewness l) n ^ 2 + kz n (kurt l) ^ 2). pose proof (kz_pos n B' (kurt l) D) as Z. set (K := _ + _).
  assert (0 <= K) as P by (unfold K; pose proof (pow2_ge_0 (z_skew (skewness l) n)); pose proof (pow2_ge_0 (kz n (kurt l))); lra).
  repeat split; try easy; [intros z Hz; apply (z_kurt_unique n (kurt l)); easy|apply exp_pos|].
  rewrite <- exp_0. destruct P as [P|P]; [left; apply exp_increasing; lra|right; f_equal; lra].
Qed.
Lemma neg_thm y : let l := finite_values y in let n := INR (length l) in (20 <= length l)%nat -> ~ constant l -> b2_denom (kurt l) n < 0 ->
  exists zk K, is_z_kurt (kurt l) n zk /\ normal_test gamma_ur y = Ok (Fin K, Fin (exp (- K / 2))) /\ 0 <= K < z_skew (skewness l) n ^ 2 + zk ^ 2 /\
    exp (- (z_skew (skewness l) n ^ 2 + zk ^ 2) / 2) < exp (- K / 2) <= 1.
Proof.
  intros l n H C D. pose proof (run_val y H C) as R1. fold l in R1. fold n in R1. cbv zeta in R1. destruct (Req_EM_T _ 0) in R1; [lra|]. destruct (ltb20 _ H) as (_ & B').
  destruct (z_kurt_exists n (kurt l)) as (z & Z). exists z, (z_skew (skewness l) n ^ 2 + kz n (kurt l) ^ 2). pose proof (kz_neg n B' (kurt l) z D Z) as Q.
  assert (kz n (kurt l) ^ 2 < z ^ 2) as Q2. { rewrite <- (pow2_abs (kz n (kurt l))). pose proof (Rabs_pos (kz n (kurt l))). nra. }
  set (K := _ + kz _ _ ^ 2) in *. assert (0 <= K) as P by (unfold K; pose proof (pow2_ge_0 (z_skew (skewness l) n)); pose proof (pow2_ge_0 (kz n (kurt l))); lra).
  assert (K < z_skew (skewness l) n ^ 2 + z ^ 2) as Q3 by (unfold K; lra). repeat split; try easy; [apply exp_increasing; lra|].
  rewrite <- exp_0. destruct P as [P|P]; [left; apply exp_increasing; lra|right; f_equal; lra].
Qed.
Lemma zero_thm y : let l := finite_values y in (20 <= length l)%nat -> constant l \/ b2_denom (kurt l) (INR (length l)) = 0 -> normal_test gamma_ur y = Ok (NaN, NaN).
Proof.
  intros l H [C|D].
  - destruct (pvar_const l C) as [P|P]; [|apply len_ne in H; easy]. unfold normal_test. change (finite_of y) with l. cbv zeta. destruct (ltb20 _ H) as (B & _). unfold normal_test_rs, pl_skew, pl_kurtosis.
    destruct l as [|a l']; [cbn in H; lia|]. set (L := a :: l') in *. rewrite B. change (moment 2 L) with (pvar L). destruct (Req_EM_T (pvar L) 0); [easy|lra].
  - destruct (Classical_Prop.classic (constant l)) as [C|C].
    + destruct (pvar_const l C) as [P|P]; [|apply len_ne in H; easy]. unfold normal_test. change (finite_of y) with l. cbv zeta. destruct (ltb20 _ H) as (B & _). unfold normal_test_rs, pl_skew, pl_kurtosis.
      destruct l as [|a l']; [cbn in H; lia|]. set (L := a :: l') in *. rewrite B. change (moment 2 L) with (pvar L). destruct (Req_EM_T (pvar L) 0); [easy|lra].
    + pose proof (run_val y H C) as R1. fold l in R1. cbv zeta in R1. rewrite R1. destruct (Req_EM_T _ 0); [easy|lra].
Qed.
End T.
Lemma small_thm gamma_ur y : (length (finite_values y) < 20)%nat -> normal_test gamma_ur y = if Nat.eqb (length (finite_values y)) 0 then Panic else Err.
Proof.
  intros H. unfold normal_test. change (finite_of y) with (finite_values y). cbv zeta. destruct (finite_values y) as [|a l]; [reflexivity|]. set (L := a :: l) in *.
  unfold normal_test_rs, pl_skew, pl_kurtosis, L. fold L. apply Nat.ltb_lt in H. rewrite H. reflexivity.
Qed.
Lemma moment_perm k l l' : Permutation l l' -> moment k l = moment k l'.
Proof. intros P. unfold moment. rewrite (mean_perm _ _ P), (Permutation_length P). f_equal. apply Rsum_perm. now apply Permutation_map. Qed.
Lemma perm_thm gamma_ur y y' : Permutation (finite_values y) (finite_values y') -> normal_test gamma_ur y = normal_test gamma_ur y'.
Proof.
  intros P. unfold normal_test. change (finite_of y) with (finite_values y). change (finite_of y') with (finite_values y'). cbv zeta. rewrite (Permutation_length P).
  assert (forall l l', Permutation l l' -> pl_skew l = pl_skew l' /\ pl_kurtosis l = pl_kurtosis l') as E.
  { intros l l' Q. unfold pl_skew, pl_kurtosis. rewrite !(moment_perm _ _ _ Q). destruct l, l'; try easy; [apply Permutation_nil in Q|symmetry in Q; apply Permutation_nil in Q]; easy. }
  destruct (E _ _ P) as (-> & ->). reflexivity.
Qed.
Lemma moment_affine k s t l : l <> [] -> moment k (map (fun v => s * v + t) l) = s ^ k * moment k l.
Proof.
  intros N. unfold moment. rewrite mean_affine, map_map, map_length by easy.
  assert (Rsum (map (fun x => (s * x + t - (s * mean_of l + t)) ^ k) l) = s ^ k * Rsum (map (fun a => (a - mean_of l) ^ k) l)) as ->; [|unfold Rdiv; ring].
  generalize (mean_of l). intros m. clear N. induction l as [|a l IH]; [cbn; lra|]. cbn [map Rsum]. rewrite IH. replace (s * a + t - (s * m + t)) with (s * (a - m)) by ring. rewrite Rpow_mult_distr. ring.
Qed.
Lemma finite_affine s t y : finite_values (map (affine s t) y) = map (fun v => s * v + t) (finite_values y).
Proof. induction y as [|[[]|] y IH]; cbn; try easy; try (now f_equal). Qed.
Lemma affine_thm gamma_ur s t y : s <> 0 -> normal_test gamma_ur (map (affine s t) y) = normal_test gamma_ur y.
Proof.
  intros S. unfold normal_test. change (finite_of (map (affine s t) y)) with (finite_values (map (affine s t) y)). change (finite_of y) with (finite_values y). cbv zeta.
  rewrite finite_affine, map_length. set (l := finite_values y). destruct (Nat.eq_dec (length l) 0) as [Z|Z]; [apply length_zero_iff_nil in Z; now rewrite Z|].
  assert (l <> []) as N by (intros E; now rewrite E in Z). assert (0 < s ^ 2) as S2 by (replace (s ^ 2) with (Rsqr s) by (unfold Rsqr; ring); now apply Rlt_0_sqr).
  assert (pl_kurtosis (map (fun v => s * v + t) l) = pl_kurtosis l) as ->.
  { unfold pl_kurtosis. rewrite !moment_affine by easy. destruct l as [|a l']; [easy|]. cbn [map]. set (L := a :: l') in *. f_equal. destruct (Req_EM_T (moment 2 L) 0) as [E|E].
    - rewrite E. destruct (Req_EM_T _ 0); [easy|lra].
    - destruct (Req_EM_T (s ^ 2 * moment 2 L) 0) as [E'|E']; [apply Rmult_integral in E'; lra|]. f_equal. field. easy. }
  assert (pl_skew (map (fun v => s * v + t) l) = pl_skew l \/ exists g, pl_skew (map (fun v => s * v + t) l) = Some (Fin (- g)) /\ pl_skew l = Some (Fin g)) as [->|(g & -> & ->)]; [|easy|].
  - unfold pl_skew. rewrite !moment_affine by easy. destruct l as [|a l']; [easy|]. cbn [map]. set (L := a :: l') in *. destruct (Req_EM_T (moment 2 L) 0) as [E|E].
    { left. rewrite E. destruct (Req_EM_T _ 0); [easy|lra]. }
    assert (0 < moment 2 L) as P. { pose proof (pvar_ge0 L ltac:(easy)) as [Q|Q]; [exact Q|]. symmetry in Q. contradiction. }
    destruct (Req_EM_T (s ^ 2 * moment 2 L) 0) as [E'|E']; [apply Rmult_integral in E'; lra|]. rewrite sqrt_mult by lra. pose proof (sqrt_lt_R0 _ P) as SP.
    replace (sqrt (s ^ 2)) with (Rabs s) by (rewrite <- sqrt_Rsqr_abs; f_equal; unfold Rsqr; ring). unfold Rabs. destruct (Rcase_abs s).
    + right. eexists. split; [|reflexivity]. do 2 f_equal. field. repeat split; lra.
    + left. do 2 f_equal. field. repeat split; lra.
  - unfold normal_test_rs. destruct (pl_kurtosis l) as [k|]; [|easy]. destruct (Nat.ltb (length l) 20) eqn:B; [easy|]. apply Nat.ltb_ge in B. destruct (ltb20 _ B) as (_ & B').
    destruct k; try easy. rewrite !(skew_eq _ B'), (kurt_eq _ B'). rewrite z_odd. destruct (Req_EM_T _ 0); [easy|]. set (z := z_skew g _). replace (- z * - z) with (z * z) by ring. reflexivity.
Qed.
Lemma mono_thm gamma_ur y y' : gamma_ok gamma_ur -> let l := finite_values y in let l' := finite_values y' in
  (20 <= length l)%nat -> length l' = length l -> ~ constant l -> ~ constant l' -> kurt l' = kurt l -> b2_denom (kurt l) (INR (length l)) <> 0 -> Rabs (skewness l) < Rabs (skewness l') ->
  exists K p K' p', normal_test gamma_ur y = Ok (Fin K, Fin p) /\ normal_test gamma_ur y' = Ok (Fin K', Fin p') /\ K < K' /\ p' < p.
Proof.
  intros G l l' H E C C' EK D S. assert (20 <= length l')%nat as H' by (rewrite E; easy). pose proof (run_val gamma_ur G y H C) as R1. pose proof (run_val gamma_ur G y' H' C') as R2. cbv zeta in R1, R2. fold l in R1. fold l' in R2.
  rewrite EK, E in R2. destruct (Req_EM_T _ 0); [easy|]. rewrite R1, R2. do 4 eexists. repeat split. all: destruct (ltb20 _ H) as (_ & B'); pose proof (z_abs _ B' _ _ S) as Q.
  - apply Rplus_lt_compat_r. exact Q.
  - apply exp_increasing. lra.
Qed.

(** A column of a hundred rows, half zeros and half ones. *)
Definition coin : list (option xnum) := repeat (Some (Fin 0)) 50 ++ repeat (Some (Fin 1)) 50.
Lemma finite_app a b : finite_values (a ++ b) = finite_values a ++ finite_values b.
Proof. unfold finite_values. apply flat_map_app. Qed.
Lemma finite_repeat r k : finite_values (repeat (Some (Fin r)) k) = repeat r k.
Proof. induction k; cbn; [easy|]. now rewrite <- IHk. Qed.
Lemma map_rep {A B} (f : A -> B) a k : map f (repeat a k) = repeat (f a) k.
Proof. induction k; cbn; congruence. Qed.
Lemma rsum_rep a k : Rsum (repeat a k) = INR k * a.
Proof. induction k; [cbn; ring|]. cbn [repeat Rsum]. rewrite IHk, S_INR. ring. Qed.
Lemma rsum_app a b : Rsum (a ++ b) = Rsum a + Rsum b.
Proof. induction a; cbn [app Rsum]; [ring|]. rewrite IHa. ring. Qed.
Lemma coin_ok : let l := finite_values coin in length l = 100%nat /\ ~ constant l /\ skewness l = 0 /\ kurt l = 1 /\ b2_denom 1 100 < 0.
Proof.
  intros l. assert (l = repeat 0 50 ++ repeat 1 50) as E by (unfold l, coin; now rewrite finite_app, !finite_repeat).
  assert (length l = 100%nat) as L by (rewrite E, app_length, !repeat_length; reflexivity).
  assert (INR 100 = 100) as I1 by (rewrite INR_IZR_INZ; reflexivity). assert (INR 50 = 50) as I5 by (rewrite INR_IZR_INZ; reflexivity).
  assert (mean_of l = 1 / 2) as M. { unfold mean_of. rewrite L, I1, E, rsum_app, !rsum_rep, I5. field. }
  assert (forall k, central k l = ((0 - 1 / 2) ^ k + (1 - 1 / 2) ^ k) / 2) as Ce.
  { intros k. unfold central. rewrite M, L, I1, E, map_app, !map_rep, rsum_app, !rsum_rep, I5. field. }
  split; [easy|]. split; [|split; [|split]].
  - intros C. assert (0 = 1) by (apply C; rewrite E; apply in_or_app; [left|right]; cbn; tauto). lra.
  - unfold skewness. rewrite (Ce 3%nat). assert (((0 - 1 / 2) ^ 3 + (1 - 1 / 2) ^ 3) / 2 = 0) as -> by lra. unfold Rdiv. ring.
  - unfold kurt. rewrite (Ce 4%nat), (Ce 2%nat). field.
  - unfold b2_denom. assert (26 / 100 < sqrt (6 * (100 + 3) * (100 + 5) / (100 * (100 - 2) * (100 - 3)))) as Q. { rewrite <- (sqrt_square (26 / 100)) by lra. apply sqrt_lt_1; lra. }
    assert (127 / 100 < b2_skew 100) as B by (unfold b2_skew; set (q := sqrt _) in *; lra).
    assert (/ b2_skew 100 < / (127 / 100)) as IB by (apply Rinv_lt_contravar; [|easy]; apply Rmult_lt_0_compat; lra). assert (0 < / b2_skew 100) as IP by (apply Rinv_0_lt_compat; lra).
    assert (A_ 100 < 29) as HA. { unfold A_. assert (sqrt (1 + 4 / b2_skew 100 ^ 2) < 2) as SQ. { rewrite <- (sqrt_square 2) by lra. apply sqrt_lt_1; [..|].
        - unfold Rdiv. rewrite <- pow_inv by lra. nra. - lra. - unfold Rdiv. rewrite <- pow_inv by lra. nra. }
      pose proof (sqrt_pos (1 + 4 / b2_skew 100 ^ 2)). unfold Rdiv. nra. }
    pose proof (A_gt 100 ltac:(lra)) as HA'. assert (28 / 100 < sqrt (2 / (A_ 100 - 4))) as SA. { rewrite <- (sqrt_square (28 / 100)) by lra. apply sqrt_lt_1; [lra|left; apply div_pos; lra|].
      apply lt_div; lra. }
    assert (sqrt (b2_var 100) < 46 / 100) as SV. { rewrite <- (sqrt_square (46 / 100)) by lra. pose proof (var_pos 100 ltac:(lra)). apply sqrt_lt_1; [lra..|]. unfold b2_var. lra. }
    pose proof (sqrt_lt_R0 _ (var_pos 100 ltac:(lra))) as SV'. assert (1 - b2_mean 100 < - (194 / 100)) as X by (unfold b2_mean; lra).
    set (v := sqrt (b2_var 100)) in *. set (s := sqrt (2 / _)) in *. assert ((1 - b2_mean 100) / v < - (42 / 10)) as Y.
    { apply div_lt; lra. }
    nra.
Qed.
Lemma denom_pos b n : 20 <= n -> b2_mean n - sqrt (b2_var n) < b -> 0 < b2_denom b n.
Proof.
  intros H B. unfold b2_denom. pose proof (A_gt n H) as A. pose proof (sqrt_lt_R0 _ (var_pos n H)) as V. assert (-1 < (b - b2_mean n) / sqrt (b2_var n)) as X by (apply lt_div; lra).
  assert (0 < sqrt (2 / (A_ n - 4))) by (apply sqrt_lt_R0, div_pos; lra). assert (sqrt (2 / (A_ n - 4)) <= 1) as S. { apply Rle_trans with (sqrt 1); [|rewrite sqrt_1; lra]. apply sqrt_le_1; [left; apply div_pos; lra|lra|]. left. apply div_lt; lra. }
  nra.
Qed.
(** Twenty-one zeros and seven ones; sixteen zeros, six ones and six minus ones: same size and kurtosis, different skewness. *)
Definition lopsided : list (option xnum) := repeat (Some (Fin 0)) 21 ++ repeat (Some (Fin 1)) 7.
Definition balanced : list (option xnum) := repeat (Some (Fin 0)) 16 ++ repeat (Some (Fin 1)) 6 ++ repeat (Some (Fin (-1))) 6.
Ltac inrs := repeat match goal with |- context [INR ?k] => let v := eval vm_compute in (Z.of_nat k) in replace (INR k) with (IZR v) by (rewrite INR_IZR_INZ; reflexivity) end.
Lemma pair_ok : let l := finite_values balanced in let l' := finite_values lopsided in
  (20 <= length l)%nat /\ length l' = length l /\ ~ constant l /\ ~ constant l' /\ kurt l = 7 / 3 /\ kurt l' = 7 / 3 /\ 0 < b2_denom (7 / 3) (INR (length l)) /\ skewness l = 0 /\ Rabs (skewness l) < Rabs (skewness l').
Proof.
  intros l l'. assert (l = repeat 0 16 ++ repeat 1 6 ++ repeat (-1) 6) as E by (unfold l, balanced; now rewrite !finite_app, !finite_repeat).
  assert (l' = repeat 0 21 ++ repeat 1 7) as E' by (unfold l', lopsided; now rewrite finite_app, !finite_repeat).
  assert (length l = 28%nat) as L by (rewrite E, !app_length, !repeat_length; reflexivity). assert (length l' = 28%nat) as L' by (rewrite E', !app_length, !repeat_length; reflexivity).
  assert (mean_of l = 0) as M. { unfold mean_of. rewrite L, E, !rsum_app, !rsum_rep. inrs. field. }
  assert (mean_of l' = 1 / 4) as M'. { unfold mean_of. rewrite L', E', !rsum_app, !rsum_rep. inrs. field. }
  assert (forall k, central k l = (16 * 0 ^ k + 6 * 1 ^ k + 6 * (-1) ^ k) / 28) as Ce. { intros k. unfold central. rewrite M, L, E, !map_app, !map_rep, !rsum_app, !rsum_rep. inrs. rewrite !Rminus_0_r. field. }
  assert (forall k, central k l' = (21 * (0 - 1 / 4) ^ k + 7 * (1 - 1 / 4) ^ k) / 28) as Ce'. { intros k. unfold central. rewrite M', L', E', !map_app, !map_rep, !rsum_app, !rsum_rep. inrs. field. }
  assert (skewness l = 0) as Sk. { unfold skewness. rewrite (Ce 3%nat). assert ((16 * 0 ^ 3 + 6 * 1 ^ 3 + 6 * (-1) ^ 3) / 28 = 0) as -> by lra. unfold Rdiv. ring. }
  rewrite L, L'. repeat split.
  - lia.
  - intros C. assert (0 = 1) by (apply C; rewrite E; [|apply in_or_app; right; apply in_or_app; left]; cbn; tauto). lra.
  - intros C. assert (0 = 1) by (apply C; rewrite E'; apply in_or_app; [left|right]; cbn; tauto). lra.
  - unfold kurt. rewrite (Ce 4%nat), (Ce 2%nat). field.
  - unfold kurt. rewrite (Ce' 4%nat), (Ce' 2%nat). field.
  - inrs. apply denom_pos; [lra|]. assert (7 / 10 < sqrt (b2_var 28)). { rewrite <- (sqrt_square (7 / 10)) by lra. apply sqrt_lt_1; [lra| |]; unfold b2_var; lra. } unfold b2_mean. lra.
  - easy.
  - rewrite Sk, Rabs_R0. apply Rabs_pos_lt. unfold skewness. rewrite (Ce' 3%nat), (Ce' 2%nat). assert (0 < sqrt ((21 * (0 - 1 / 4) ^ 2 + 7 * (1 - 1 / 4) ^ 2) / 28)) as P by (apply sqrt_lt_R0; lra).
    apply Rgt_not_eq. apply div_pos; [lra|]. now apply pow_lt.
Qed.
Lemma refuted_thm : forall gamma_ur, gamma_ok gamma_ur -> exists y zk K p, let l := finite_values y in let n := INR (length l) in
  length l = 100%nat /\ ~ constant l /\ skewness l = 0 /\ kurt l = 1 /\ is_z_kurt (kurt l) n zk /\ normal_test gamma_ur y = Ok (Fin K, Fin p) /\
  K <> z_skew (skewness l) n ^ 2 + zk ^ 2 /\ p <> exp (- (z_skew (skewness l) n ^ 2 + zk ^ 2) / 2).
Proof.
  intros g G. destruct coin_ok as (L & C & S & K1 & D). assert (INR 100 = 100) as I1 by (rewrite INR_IZR_INZ; reflexivity).
  destruct (neg_thm g G coin) as (zk & K & Z & E & (P & Q) & (P' & Q')); [rewrite L; lia|easy|rewrite L, K1, I1; easy|].
  exists coin, zk, K, (exp (- K / 2)). cbv zeta. repeat split; try easy; lra.
Qed.
