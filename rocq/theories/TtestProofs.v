(** Lemmas on t tests. *)
From Coq Require Import Reals Lra Lia Bool Ascii String Arith List Permutation.
From Verif Require Import WStatsSpec WStatsProofs MetricSpec MetricModel MetricProofs LagSpec LagProofs LagPropsLemmas TtestSpec TtestModel.
Import ListNotations.
Open Scope R_scope.

Section Beta.
  Variable I : R -> R -> R -> R.
  Hypothesis B : beta_ok I.
  Lemma h_bounds df t : 0 < df -> 0 < df / (df + t ^ 2) <= 1.
  Proof.
    intros H. pose proof (pow2_ge_0 t). split; [apply Rdiv_lt_0_compat; lra|]. apply Rmult_le_reg_r with (df + t ^ 2); [lra|]. unfold Rdiv. rewrite Rmult_assoc, Rinv_l; lra.
  Qed.
  Lemma h_anti df s t : 0 < df -> s ^ 2 < t ^ 2 -> df / (df + t ^ 2) < df / (df + s ^ 2).
  Proof.
    intros H L. pose proof (pow2_ge_0 s). unfold Rdiv. apply Rmult_lt_compat_l; [easy|]. apply Rinv_lt_contravar; [|lra]. apply Rmult_lt_0_compat; lra.
  Qed.
  Lemma tail_sym df : 0 < df -> symmetric_sf (t_tail I df).
  Proof.
    intros H. destruct (B (df / 2) (1 / 2)) as (R1 & E1 & M); [lra|lra|].
    assert (forall t, 0 <= I (df / 2) (1 / 2) (df / (df + t ^ 2)) <= 1) as R2.
    { intros t. pose proof (h_bounds df t H). apply R1. lra. }
    assert (forall s t, s ^ 2 < t ^ 2 -> I (df / 2) (1 / 2) (df / (df + t ^ 2)) < I (df / 2) (1 / 2) (df / (df + s ^ 2))) as R3.
    { intros s t L. pose proof (h_bounds df s H). pose proof (h_bounds df t H). pose proof (h_anti df s t H L). apply M; lra. }
    assert (I (df / 2) (1 / 2) (df / (df + 0 ^ 2)) = 1) as R0.
    { replace (df / (df + 0 ^ 2)) with 1 by (field; lra). exact E1. }
    split; [|split].
    - intros t. unfold t_tail. specialize (R2 t). destruct (Rle_dec t 0); lra.
    - intros s t L. unfold t_tail. pose proof (R2 s). pose proof (R2 t). destruct (Rle_dec s 0), (Rle_dec t 0).
      + assert (t ^ 2 < s ^ 2) as Q by nra. specialize (R3 _ _ Q). lra.
      + destruct (Req_EM_T s 0) as [->|].
        * assert (0 ^ 2 < t ^ 2) as Q by nra. specialize (R3 _ _ Q). lra.
        * assert (0 ^ 2 < s ^ 2) as Q by nra. specialize (R3 _ _ Q). rewrite R0 in R3. lra.
      + lra.
      + assert (s ^ 2 < t ^ 2) as Q by nra. specialize (R3 _ _ Q). lra.
    - intros t. unfold t_tail. replace ((- t) ^ 2) with (t ^ 2) by ring. destruct (Rle_dec (- t) 0), (Rle_dec t 0); try lra.
      assert (t = 0) as -> by lra. rewrite R0. lra.
  Qed.
  Lemma sf_val df t : 0 < df -> student_t_sf I t df = Ok (t_tail I df t).
  Proof.
    intros H. unfold student_t_sf, checked_beta_reg, t_tail. pose proof (h_bounds df t H) as (h0 & h1). replace (t * t) with (t ^ 2) by ring.
    destruct (Rle_dec (df / 2) 0); [lra|]. destruct (Rle_dec (1 / 2) 0); [lra|].
    destruct (Rle_dec 0 (df / (df + t ^ 2))); [|lra]. destruct (Rle_dec (df / (df + t ^ 2)) 1); [|lra].
    destruct (Rle_dec t 0); f_equal; lra.
  Qed.
  Lemma p_val df t alt : 0 < df -> p_value I t df alt = Ok (p_of (t_tail I df) t alt).
  Proof. intros H. unfold p_value. destruct alt; rewrite sf_val by easy; easy. Qed.
End Beta.
Lemma sf_zero sf : symmetric_sf sf -> sf 0 = 1 / 2.
Proof. intros (_ & _ & S). specialize (S 0). rewrite Ropp_0 in S. lra. Qed.
Lemma p_laws sf t : symmetric_sf sf ->
  p_of sf t Less + p_of sf t Greater = 1 /\ p_of sf t TwoSided = 2 * Rmin (p_of sf t Less) (p_of sf t Greater) /\
  (forall alt, 0 <= p_of sf t alt <= 1) /\ p_of sf 0 TwoSided = 1 /\
  (forall u, Rabs t < Rabs u -> p_of sf u TwoSided < p_of sf t TwoSided) /\
  p_of sf (- t) TwoSided = p_of sf t TwoSided /\ p_of sf (- t) Less = p_of sf t Greater.
Proof.
  intros SS. pose proof (sf_zero sf SS) as Z. destruct SS as (R1 & M & S). cbn [p_of]. rewrite S, !S, Rabs_R0, Rabs_Ropp, Z.
  split; [lra|]. split; [|split; [|split; [|split; [|split]]]].
  - destruct (Rtotal_order t 0) as [L|[->|L]].
    + rewrite Rabs_left by lra. rewrite S. pose proof (M _ _ L). rewrite Rmin_left; lra.
    + rewrite Rabs_R0, Z. rewrite Rmin_left; lra.
    + rewrite Rabs_right by lra. pose proof (M _ _ L). rewrite Rmin_right; lra.
  - intros alt. pose proof (R1 t). destruct alt; cbn [p_of]; rewrite ?S; try lra. pose proof (R1 (Rabs t)). pose proof (Rabs_pos t) as P.
    destruct P as [P|P]; [pose proof (M _ _ P); lra|rewrite <- P; lra].
  - lra.
  - intros u L. pose proof (M _ _ L). lra.
  - easy.
  - lra.
Qed.

(** ** Columns. *)
Lemma finite_eq x : finite_rows x = finite_values x.
Proof. unfold finite_rows, finite_values, knowns. induction x as [|[[r| | |]|] x IH]; cbn; try easy; now rewrite IH. Qed.
Lemma fins_fin l : flat_map (fun v => match v with Fin r => [r] | _ => [] end) (map Fin l) = l.
Proof. induction l; cbn; [easy|]. now rewrite IHl. Qed.
Lemma forallb_fin l : forallb is_fin (map Fin l) = true. Proof. induction l; easy. Qed.
Lemma stat_fin f need l : (need <= length l)%nat -> stat f need (map Fin l) = Some (Fin (f l)).
Proof. intros H. unfold stat. rewrite map_length. destruct (Nat.ltb_spec (length l) need); [lia|]. rewrite forallb_fin, fins_fin. easy. Qed.
Lemma stat_none f need l : (length l < need)%nat -> stat f need l = None.
Proof. intros H. unfold stat. destruct (Nat.ltb_spec (length l) need); [easy|lia]. Qed.
Lemma knowns_fin x : all_finite x -> knowns x = map Fin (finite_values x).
Proof.
  intros H. unfold knowns, finite_values. induction x as [|[v|] x IH]; cbn; [easy| |apply IH; intros u Hu; apply H; now right].
  destruct (H v (or_introl eq_refl)) as (r & ->). cbn. f_equal. apply IH. intros u Hu. apply H. now right.
Qed.
Lemma stat_notfin f need x : ~ all_finite x -> get_or_nan (stat f need (knowns x)) = NaN.
Proof.
  intros H. unfold stat. destruct (length (knowns x) <? need)%nat; [easy|]. destruct (forallb is_fin (knowns x)) eqn:E; [|easy]. exfalso. apply H.
  intros v Hv. rewrite forallb_forall in E. assert (In v (knowns x)) as I by (unfold knowns; apply in_flat_map; exists (Some v); split; [easy|now left]).
  specialize (E v I). destruct v; try discriminate. eauto.
Qed.
Lemma cnt2 l : (2 <= length l)%nat -> 2 <= cnt l. Proof. intros H. apply (le_INR 2) in H. exact H. Qed.
Lemma var_ge0 l : (2 <= length l)%nat -> 0 <= var_of l.
Proof.
  intros H. apply cnt2 in H. unfold var_of. unfold cnt in H. apply Rmult_le_pos; [|left; apply Rinv_0_lt_compat; lra].
  apply (total_ge0 (fun a => (a - mean_of l) ^ 2)). intros. apply pow2_ge_0.
Qed.
Lemma var_zero l : (2 <= length l)%nat -> (var_of l = 0 <-> constant l).
Proof.
  intros H. pose proof (cnt2 _ H) as H2. unfold cnt in H2. split.
  - intros V. assert (total (fun a => (a - mean_of l) ^ 2) l = 0) as T.
    { unfold var_of in V. unfold total. apply Rmult_eq_reg_r with (/ (INR (length l) - 1)); [|apply Rinv_neq_0_compat; lra]. unfold Rdiv in V. lra. }
    intros a b Ha Hb. pose proof (total_zero _ _ (fun a _ => pow2_ge_0 (a - mean_of l)) T) as Z. pose proof (Z a Ha) as Za. pose proof (Z b Hb) as Zb. cbv beta in *.
    assert (forall q, q ^ 2 = 0 -> q = 0) as SQ by (intros q Hq; nra). apply SQ in Za, Zb. lra.
  - intros C. destruct l as [|c l']; [cbn in H; lia|]. set (l := c :: l') in *.
    assert (forall v, In v l -> v = c) as E by (intros v Hv; apply C; [easy|now left]).
    assert (mean_of l = c) as M.
    { rewrite <- (map_id l). change (avg (fun v => v) l = c). rewrite (avg_ext _ (fun _ => c)) by easy. now apply avg_const. }
    unfold var_of. rewrite M. replace (Rsum _) with 0; [unfold Rdiv; ring|]. symmetry.
    change (total (fun a => (a - c) ^ 2) l = 0). rewrite (total_ext _ (fun _ => 0)); [rewrite total_const; ring|]. intros v Hv. rewrite (E v Hv). ring.
Qed.
Lemma vn_pos a b : (2 <= length a)%nat -> (2 <= length b)%nat -> ~ (constant a /\ constant b) -> 0 < var_of a / cnt a + var_of b / cnt b.
Proof.
  intros Ha Hb H. pose proof (var_ge0 a Ha). pose proof (var_ge0 b Hb). pose proof (cnt2 a Ha). pose proof (cnt2 b Hb).
  assert (0 < / cnt a) by (apply Rinv_0_lt_compat; lra). assert (0 < / cnt b) by (apply Rinv_0_lt_compat; lra). unfold Rdiv.
  destruct (Req_EM_T (var_of a) 0) as [E|E]; [destruct (Req_EM_T (var_of b) 0) as [F|F]|].
  - exfalso. apply H. split; now apply var_zero.
  - rewrite E. assert (0 < var_of b) by lra. nra.
  - assert (0 < var_of a) by lra. assert (0 < var_of a * / cnt a) by nra. assert (0 <= var_of b * / cnt b) by nra. lra.
Qed.
Lemma df_bounds_gen u v p q : 0 <= u -> 0 <= v -> 0 < u + v -> 0 < p -> 0 < q ->
  Rmin p q <= (u + v) ^ 2 / (u ^ 2 / p + v ^ 2 / q) <= p + q.
Proof.
  intros Hu Hv Huv Hp Hq. assert (0 < u ^ 2 / p + v ^ 2 / q) as D.
  { assert (0 < / p) by now apply Rinv_0_lt_compat. assert (0 < / q) by now apply Rinv_0_lt_compat. unfold Rdiv.
    assert (0 <= u ^ 2 * / p) by nra. assert (0 <= v ^ 2 * / q) by nra.
    destruct Hu as [Hu| <-]; [assert (0 < u ^ 2 * / p) by (apply Rmult_lt_0_compat; nra); lra|].
    assert (0 < v ^ 2 * / q) by (apply Rmult_lt_0_compat; nra). lra. }
  split.
  - apply Rmult_le_reg_r with (u ^ 2 / p + v ^ 2 / q); [easy|]. unfold Rdiv at 3. rewrite Rmult_assoc, Rinv_l, Rmult_1_r by lra.
    assert (forall w r, 0 < r -> Rmin p q <= r -> Rmin p q * (w ^ 2 / r) <= w ^ 2) as A.
    { intros w r Hr L. apply Rmult_le_reg_r with r; [easy|]. replace (Rmin p q * (w ^ 2 / r) * r) with (Rmin p q * w ^ 2) by (field; lra).
      rewrite (Rmult_comm (w ^ 2)). apply Rmult_le_compat_r; [apply pow2_ge_0|easy]. }
    pose proof (A u p Hp (Rmin_l p q)). pose proof (A v q Hq (Rmin_r p q)). assert (0 <= u * v) by now apply Rmult_le_pos. nra.
  - apply Rmult_le_reg_r with (u ^ 2 / p + v ^ 2 / q); [easy|]. unfold Rdiv at 1. rewrite Rmult_assoc, Rinv_l, Rmult_1_r by lra.
    replace ((p + q) * (u ^ 2 / p + v ^ 2 / q)) with ((u + v) ^ 2 + (q * u - p * v) ^ 2 / (p * q)) by (field; lra).
    assert (0 <= (q * u - p * v) ^ 2 / (p * q)); [|lra]. apply Rmult_le_pos; [apply pow2_ge_0|]. left. apply Rinv_0_lt_compat. nra.
Qed.
Lemma df_bounds a b : (2 <= length a)%nat -> (2 <= length b)%nat -> ~ (constant a /\ constant b) ->
  Rmin (cnt a - 1) (cnt b - 1) <= welch_df a b <= cnt a + cnt b - 2.
Proof.
  intros Ha Hb H. pose proof (vn_pos a b Ha Hb H) as V. pose proof (cnt2 a Ha). pose proof (cnt2 b Hb).
  pose proof (var_ge0 a Ha). pose proof (var_ge0 b Hb). unfold welch_df.
  assert (0 < / cnt a) by (apply Rinv_0_lt_compat; lra). assert (0 < / cnt b) by (apply Rinv_0_lt_compat; lra).
  assert (0 <= var_of a / cnt a) by (unfold Rdiv; nra). assert (0 <= var_of b / cnt b) by (unfold Rdiv; nra).
  pose proof (df_bounds_gen (var_of a / cnt a) (var_of b / cnt b) (cnt a - 1) (cnt b - 1)) as G. lra.
Qed.
Lemma df_pos a b : (2 <= length a)%nat -> (2 <= length b)%nat -> ~ (constant a /\ constant b) -> 0 < welch_df a b.
Proof.
  intros Ha Hb H. pose proof (df_bounds a b Ha Hb H) as (L & _). pose proof (cnt2 a Ha). pose proof (cnt2 b Hb).
  assert (0 < Rmin (cnt a - 1) (cnt b - 1)); [|lra]. apply Rmin_glb_lt; lra.
Qed.
Lemma sqrt_nz r : 0 < r -> sqrt r <> 0. Proof. intros H. pose proof (sqrt_lt_R0 r H). lra. Qed.

Section Thms.
  Variable I : R -> R -> R -> R.
  Hypothesis B : beta_ok I.
  Lemma welch_thm x y alt : let a := finite_values x in let b := finite_values y in
    (2 <= length a)%nat -> (2 <= length b)%nat -> ~ (constant a /\ constant b) ->
    ttest_ind I x y alt false = Ok (Fin (welch_stat a b), Fin (p_of (t_tail I (welch_df a b)) (welch_stat a b) (alternative_from alt))) /\
    symmetric_sf (t_tail I (welch_df a b)) /\ Rmin (cnt a - 1) (cnt b - 1) <= welch_df a b <= cnt a + cnt b - 2.
  Proof.
    intros a b Ha Hb H. pose proof (df_pos a b Ha Hb H) as D. split; [|split; [now apply tail_sym|now apply df_bounds]].
    unfold ttest_ind. rewrite !finite_eq. fold a b. rewrite !stat_fin by lia. unfold welch_t_rs.
    change (INR (length a)) with (cnt a). change (INR (length b)) with (cnt b).
    destruct (Req_EM_T (sqrt (var_of a / cnt a + var_of b / cnt b)) 0) as [E|_]; [exfalso; revert E; apply sqrt_nz; now apply vn_pos|].
    fold (welch_df a b) (welch_stat a b). rewrite p_val by easy. easy.
  Qed.
  Lemma student_thm x y alt : all_finite x -> all_finite y -> let a := finite_values x in let b := finite_values y in
    length a = length b -> (2 <= length a)%nat -> ~ (constant a /\ constant b) ->
    ttest_ind I x y alt true = Ok (Fin (student_t a b), Fin (p_of (t_tail I (cnt a + cnt b - 2)) (student_t a b) (alternative_from alt))) /\
    symmetric_sf (t_tail I (cnt a + cnt b - 2)).
  Proof.
    intros Fx Fy a b E Ha H. assert (2 <= length b)%nat as Hb by lia. pose proof (cnt2 a Ha) as Ca.
    assert (cnt b = cnt a) as Eb by (unfold cnt; now rewrite E).
    pose proof (vn_pos a b Ha Hb H) as V. rewrite Eb in V.
    split; [|apply tail_sym; [easy|lra]]. unfold ttest_ind. rewrite !knowns_fin by easy. fold a b. rewrite !stat_fin by lia. cbn [get_or_nan].
    rewrite map_length. change (INR (length a)) with (cnt a). f_equal. unfold ttest_ind_rs.
    assert ((var_of a + var_of b) / cnt a = var_of a / cnt a + var_of b / cnt a) as -> by (field; lra).
    destruct (Req_EM_T (sqrt (var_of a / cnt a + var_of b / cnt a)) 0) as [Z|_]; [exfalso; revert Z; now apply sqrt_nz|].
    assert ((mean_of a - mean_of b) / sqrt (var_of a / cnt a + var_of b / cnt a) = student_t a b) as ->.
    { unfold student_t, pooled_var. rewrite Eb. do 2 f_equal. field. lra. }
    rewrite p_val by (try easy; lra). cbn [unwrap_or_nan]. rewrite Eb. do 3 f_equal. f_equal. lra.
  Qed.
  Lemma one_thm x mu alt : let a := finite_values x in (2 <= length a)%nat -> ~ constant a ->
    ttest_1samp I x mu alt = Ok (Fin (one_sample_t a mu), Fin (p_of (t_tail I (cnt a - 1)) (one_sample_t a mu) (alternative_from alt))) /\
    symmetric_sf (t_tail I (cnt a - 1)).
  Proof.
    intros a Ha H. pose proof (cnt2 a Ha) as Ca. assert (0 < var_of a / cnt a) as V.
    { apply Rdiv_lt_0_compat; [|lra]. pose proof (var_ge0 a Ha). destruct (Req_EM_T (var_of a) 0) as [E|E]; [|lra]. exfalso. apply H. now apply var_zero. }
    split; [|apply tail_sym; [easy|lra]]. unfold ttest_1samp. rewrite !finite_eq. fold a. rewrite !stat_fin by lia. unfold ttest_1samp_rs.
    change (INR (length a)) with (cnt a). destruct (Req_EM_T (sqrt (var_of a / cnt a)) 0) as [Z|_]; [exfalso; revert Z; now apply sqrt_nz|].
    fold (one_sample_t a mu). rewrite p_val by (try easy; lra). easy.
  Qed.
  Lemma from_stats x b alt : (2 <= length b)%nat -> (forall y, finite_values y = b -> ttest_ind_from_stats I x (mean_of b) (var_of b) (length b) alt false = ttest_ind I x y alt false) /\
    (forall y, all_finite y -> finite_values y = b -> ttest_ind_from_stats I x (mean_of b) (var_of b) (length b) alt true = ttest_ind I x y alt true).
  Proof.
    intros Hb. split.
    - intros y E. unfold ttest_ind_from_stats, ttest_ind. rewrite !finite_eq, E. rewrite (stat_fin mean_of 1 b), (stat_fin var_of 2 b) by lia.
      destruct (stat mean_of 1 (map Fin (finite_values x))) as [[| | |]|]; easy.
    - intros y F E. unfold ttest_ind_from_stats, ttest_ind. rewrite (knowns_fin y) by easy. rewrite E. rewrite (stat_fin mean_of 1 b), (stat_fin var_of 2 b) by lia.
      cbn [get_or_nan]. destruct (get_or_nan (stat mean_of 1 (knowns x))); try easy; destruct (get_or_nan (stat var_of 2 (knowns x))); easy.
  Qed.
  Lemma const_thm x y alt : let a := finite_values x in let b := finite_values y in
    (2 <= length a)%nat -> (2 <= length b)%nat -> constant a -> constant b ->
    ttest_ind I x y alt false = Err /\ (all_finite x -> all_finite y -> ttest_ind I x y alt true = Ok (NaN, NaN)) /\ (forall mu, ttest_1samp I x mu alt = Err).
  Proof.
    intros a b Ha Hb Ka Kb. pose proof (proj2 (var_zero a Ha) Ka) as Va. pose proof (proj2 (var_zero b Hb) Kb) as Vb. split; [|split].
    - unfold ttest_ind. rewrite !finite_eq. fold a b. rewrite !stat_fin by lia. unfold welch_t_rs. rewrite Va, Vb.
      replace (0 / INR (length a) + 0 / INR (length b)) with 0 by (unfold Rdiv; ring). rewrite sqrt_0. destruct (Req_EM_T 0 0); easy.
    - intros Fx Fy. unfold ttest_ind. rewrite !knowns_fin by easy. fold a b. rewrite !stat_fin by lia. cbn [get_or_nan]. unfold ttest_ind_rs. rewrite Va, Vb.
      replace ((0 + 0) / INR (length (map Fin a))) with 0 by (unfold Rdiv; ring). rewrite sqrt_0. destruct (Req_EM_T 0 0); easy.
    - intros mu. unfold ttest_1samp. rewrite !finite_eq. fold a. rewrite !stat_fin by lia. unfold ttest_1samp_rs. rewrite Va.
      replace (0 / INR (length a)) with 0 by (unfold Rdiv; ring). rewrite sqrt_0. destruct (Req_EM_T 0 0); easy.
  Qed.
  Lemma short_thm x y alt : (length (finite_values x) < 2)%nat -> ttest_ind I x y alt false = Panic /\ ttest_ind I y x alt false = Panic /\
    (forall mu, ttest_1samp I x mu alt = Panic).
  Proof.
    intros H. assert (stat var_of 2 (map Fin (finite_values x)) = None) as E by (apply stat_none; now rewrite map_length).
    split; [|split].
    - unfold ttest_ind. rewrite !finite_eq, E. destruct (stat mean_of 1 (map Fin (finite_values x))) as [[| | |]|], (stat mean_of 1 (map Fin (finite_values y))) as [[| | |]|]; easy.
    - unfold ttest_ind. rewrite !finite_eq, E. destruct (stat mean_of 1 (map Fin (finite_values x))) as [[| | |]|], (stat mean_of 1 (map Fin (finite_values y))) as [[| | |]|],
        (stat var_of 2 (map Fin (finite_values y))) as [[| | |]|]; easy.
    - intros mu. unfold ttest_1samp. rewrite !finite_eq, E. destruct (stat mean_of 1 (map Fin (finite_values x))) as [[| | |]|]; easy.
  Qed.
  Lemma notfin_thm x y alt : ~ all_finite x \/ ~ all_finite y -> ttest_ind I x y alt true = Err.
  Proof.
    intros H. unfold ttest_ind. destruct H as [H|H]; rewrite ?(stat_notfin _ _ _ H); [easy|]. destruct (get_or_nan (stat mean_of 1 (knowns x))); easy.
  Qed.
End Thms.

(** ** Invariance of the statistics. *)
Lemma cnt_map f l : cnt (map f l) = cnt l. Proof. unfold cnt. now rewrite map_length. Qed.
Lemma ne_of2 (l : list R) : (2 <= length l)%nat -> l <> []. Proof. destruct l; cbn; [lia|easy]. Qed.
Lemma sqrt_scale s r : 0 < s -> 0 <= r -> sqrt (s ^ 2 * r) = s * sqrt r.
Proof. intros S P. rewrite sqrt_mult by (try apply pow2_ge_0; lra). rewrite sqrt_pow2; lra. Qed.
Lemma div_cancel s n d : s <> 0 -> s * n / (s * d) = n / d.
Proof.
  intros S. destruct (Req_EM_T d 0) as [->|D]; [|field; lra]. unfold Rdiv. rewrite Rmult_0_r. rewrite Rinv_0. ring.
Qed.
Lemma welch_affine a b s t : (2 <= length a)%nat -> (2 <= length b)%nat -> 0 < s ->
  welch_stat (map (fun v => s * v + t) a) (map (fun v => s * v + t) b) = welch_stat a b /\
  welch_df (map (fun v => s * v + t) a) (map (fun v => s * v + t) b) = welch_df a b /\
  welch_stat b a = - welch_stat a b /\ welch_df b a = welch_df a b.
Proof.
  intros Ha Hb S. pose proof (ne_of2 a Ha) as Na. pose proof (ne_of2 b Hb) as Nb. pose proof (cnt2 a Ha). pose proof (cnt2 b Hb).
  pose proof (var_ge0 a Ha). pose proof (var_ge0 b Hb). split; [|split; [|split]].
  - unfold welch_stat. rewrite !cnt_map, !mean_affine, !var_affine by easy.
    replace (s ^ 2 * var_of a / cnt a + s ^ 2 * var_of b / cnt b) with (s ^ 2 * (var_of a / cnt a + var_of b / cnt b)) by (unfold Rdiv; ring).
    assert (0 < / cnt a) by (apply Rinv_0_lt_compat; lra). assert (0 < / cnt b) by (apply Rinv_0_lt_compat; lra).
    rewrite sqrt_scale; [|easy|unfold Rdiv; nra]. rewrite <- (div_cancel s (mean_of a - mean_of b)) by lra. f_equal. ring.
  - unfold welch_df. rewrite !cnt_map, !var_affine by easy. set (u := var_of a / cnt a). set (v := var_of b / cnt b).
    replace (s ^ 2 * var_of a / cnt a) with (s ^ 2 * u) by (unfold u, Rdiv; ring).
    replace (s ^ 2 * var_of b / cnt b) with (s ^ 2 * v) by (unfold v, Rdiv; ring).
    rewrite <- (div_cancel (s ^ 4) ((u + v) ^ 2)) by (apply pow_nonzero; lra). f_equal; [ring|]. unfold Rdiv. ring.
  - unfold welch_stat. rewrite (Rplus_comm (var_of b / cnt b)). unfold Rdiv. ring.
  - unfold welch_df. rewrite (Rplus_comm (var_of b / cnt b)). rewrite (Rplus_comm ((var_of b / cnt b) ^ 2 / (cnt b - 1))). easy.
Qed.
Lemma perm_thm a a' b b' : Permutation a a' -> Permutation b b' -> welch_stat a b = welch_stat a' b' /\ welch_df a b = welch_df a' b' /\ student_t a b = student_t a' b' /\
  (forall mu, one_sample_t a mu = one_sample_t a' mu).
Proof.
  intros Pa Pb. assert (cnt a = cnt a') as Ea by (unfold cnt; now rewrite (Permutation_length Pa)). assert (cnt b = cnt b') as Eb by (unfold cnt; now rewrite (Permutation_length Pb)).
  unfold welch_stat, welch_df, student_t, pooled_var, one_sample_t. rewrite (mean_perm _ _ Pa), (mean_perm _ _ Pb), (var_perm _ _ Pa), (var_perm _ _ Pb), Ea, Eb. easy.
Qed.
Lemma alt_thm : alternative_from "two-sided" = TwoSided /\ alternative_from "less" = Less /\ alternative_from "greater" = Greater /\
  alternative_from "LESS" = Less /\ (forall s, lowercase s <> "less"%string -> lowercase s <> "greater"%string -> alternative_from s = TwoSided).
Proof.
  repeat split; try reflexivity. intros s A1 A2. unfold alternative_from. apply String.eqb_neq in A1, A2. now rewrite A1, A2.
Qed.
(** Unequal counts. *)
Lemma unequal_ex I : beta_ok I -> exists x y t p, all_finite x /\ all_finite y /\ length x = length y /\
  ttest_ind I x y "greater" true = Ok (Fin t, p) /\ t <> student_t (finite_values x) (finite_values y).
Proof.
  intros B. exists [Some (Fin 0); Some (Fin 2); None; None; None; None], [Some (Fin 1); Some (Fin 1); Some (Fin 1); Some (Fin 1); Some (Fin 1); Some (Fin 7)].
  assert (forall l : list (option xnum), forallb (fun o => match o with Some (Fin _) | None => true | _ => false end) l = true -> all_finite l) as A.
  { intros l H v Hv. rewrite forallb_forall in H. specialize (H _ Hv). destruct v; try discriminate. eauto. }
  do 2 eexists. split; [now apply A|]. split; [now apply A|]. split; [easy|]. split.
  - unfold ttest_ind. rewrite !knowns_fin by now apply A. rewrite !stat_fin by (cbn; lia). cbn [get_or_nan]. unfold ttest_ind_rs.
    match goal with |- context [Req_EM_T (sqrt ?q) 0] => assert (q = 4) as Q end.
    { unfold var_of, mean_of. cbn. lra. }
    rewrite Q. destruct (Req_EM_T (sqrt 4) 0) as [Z|Z]; [exfalso; revert Z; apply sqrt_nz; lra|]. reflexivity.
  - unfold student_t. cbn [finite_values flat_map app]. intros E.
    assert (sqrt 4 = 2) as S4 by (replace 4 with (2 ^ 2) by ring; apply sqrt_pow2; lra).
    assert (mean_of [0; 2] - mean_of [1; 1; 1; 1; 1; 7] = -1) as M by (unfold mean_of; cbn; lra).
    assert (pooled_var [0; 2] [1; 1; 1; 1; 1; 7] * (/ cnt [0; 2] + / cnt [1; 1; 1; 1; 1; 7]) = 32 / 9) as P.
    { unfold pooled_var, cnt, var_of, mean_of. cbn. lra. }
    rewrite M, P, S4 in E.
    assert (sqrt (32 / 9) = 2) as S2. { assert (0 < sqrt (32 / 9)) by (apply sqrt_lt_R0; lra). apply Rmult_eq_reg_l with (/ 2 * / sqrt (32 / 9)); [field_simplify; [|lra..]; unfold Rdiv in E|]. 2: { apply Rmult_integral_contrapositive. split; apply Rinv_neq_0_compat; lra. } lra. }
    assert (sqrt (32 / 9) * sqrt (32 / 9) = 32 / 9) by (apply sqrt_sqrt; lra). rewrite S2 in *. lra.
Qed.
Lemma beta_case : exists I, beta_ok I.
Proof. exists (fun _ _ x => x). intros a b _ _. repeat split; intros; lra. Qed.
Lemma tt_case : let x := [Some (Fin 1); None; Some (Fin 3); Some NaN] in let y := [Some (Fin 0); Some (Fin 0)] in
  (2 <= length (finite_values x))%nat /\ (2 <= length (finite_values y))%nat /\ ~ (constant (finite_values x) /\ constant (finite_values y)).
Proof.
  cbn. split; [lia|]. split; [lia|]. intros (C & _). assert (1 = 3) as E by (apply C; cbn; auto). lra.
Qed.
