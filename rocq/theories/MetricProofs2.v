(** R squared, percentage errors, log loss and fairness. *)
From Coq Require Import Reals List Lra Lia Psatz Permutation.
From Coq Require Import ZArith.
From Verif Require Import WStatsSpec WStatsModel WStatsProofs MetricSpec MetricModel MetricProofs.
Import ListNotations.
Open Scope R_scope.

Lemma msle_val a p : pred_known a p -> complete a p <> [] ->
  query_msle a p true = Fin (avg (fun r => (ln (1 + fst r) - ln (1 + snd r)) ^ 2) (complete a p)).
Proof.
  intros K N. unfold query_msle. rewrite res_val, (count_known a p K).
  rewrite xdiv_fin by (apply Rgt_not_eq, inr_pos, N). rewrite avg_total. f_equal. f_equal.
  clear. unfold total. f_equal. revert p. induction a as [|[x|] a IH]; intros [|[y|] p]; cbn; try easy; try apply IH.
  f_equal. apply IH.
Qed.
Lemma msle_zero u v : -1 < u -> -1 < v -> (ln (1 + u) - ln (1 + v)) ^ 2 = 0 -> u = v.
Proof. intros U V E. assert (ln (1 + u) = ln (1 + v)) by nra. apply ln_inv in H; lra. Qed.

(** R squared *)
Lemma tot_val a p : pred_known a p -> sum_tot a = ss_tot (complete a p).
Proof.
  intro K. unfold sum_tot, ss_tot. cbv zeta. rewrite dot_self, values_lift1, map_map. unfold cmean, csum, ccount.
  rewrite (values_known a p K). unfold total, actuals, mean_of. reflexivity.
Qed.
Lemma sq0 x : x ^ 2 = 0 -> x = 0.
Proof. nra. Qed.
Lemma tot_ge0 l : 0 <= ss_tot l.
Proof. apply total_ge0. intros. apply pow2_ge_0. Qed.
Lemma res_ge0 l : 0 <= ss_res l.
Proof. apply total_ge0. intros. apply pow2_ge_0. Qed.
Lemma mean_const l c : l <> [] -> (forall x, In x l -> x = c) -> mean_of l = c.
Proof.
  intros N H. rewrite <- (map_id l) at 1. change (avg (fun x => x) l = c).
  rewrite (avg_ext _ (fun _ => c)) by exact H. now apply avg_const.
Qed.
Lemma tot_zero l : ss_tot l = 0 <-> constant (actuals l).
Proof.
  unfold ss_tot. rewrite total_zero_iff by (intros; apply pow2_ge_0). split.
  - intros H a b Ia Ib. pose proof (sq0 _ (H a Ia)). pose proof (sq0 _ (H b Ib)). lra.
  - intros C x Ix. assert (mean_of (actuals l) = x).
    { apply mean_const; [intro E; now rewrite E in Ix|]. intros y Iy. now apply C. }
    rewrite H. ring.
Qed.
Lemma res_zero l : ss_res l = 0 <-> all_equal l.
Proof.
  unfold ss_res. rewrite total_zero_iff by (intros; apply pow2_ge_0). rewrite all_equal_err.
  split; intros H r I; specialize (H r I); [exact (sq0 _ H)|cbv beta; rewrite H; ring].
Qed.
Lemma r2_val a p : pred_known a p -> ~ constant (actuals (complete a p)) ->
  query_r2 a p = Fin (1 - ss_res (complete a p) / ss_tot (complete a p)) /\ 0 < ss_tot (complete a p).
Proof.
  intros K C. assert (ss_tot (complete a p) <> 0) as Z by (intro E; apply C; now apply tot_zero).
  pose proof (tot_ge0 (complete a p)). split; [|lra]. unfold query_r2, sum_res. rewrite res_val, (tot_val a p K).
  rewrite xdiv_fin by exact Z. reflexivity.
Qed.
Lemma r2_props l : 0 < ss_tot l -> let v := 1 - ss_res l / ss_tot l in
  v <= 1 /\ (v = 1 <-> all_equal l) /\
  ((forall r, In r l -> snd r = mean_of (actuals l)) -> v = 0) /\
  (forall c, (forall r, In r l -> snd r = c) -> v <= 0).
Proof.
  intros T v. pose proof (res_ge0 l) as G. assert (0 < / ss_tot l) by now apply Rinv_0_lt_compat. split; [|split; [|split]].
  - unfold v, Rdiv. nra.
  - rewrite <- res_zero. unfold v, Rdiv. split; [intro E|intros ->; ring].
    assert (ss_res l * / ss_tot l = 0) by lra. apply Rmult_integral in H0. destruct H0; lra.
  - intro H0. assert (ss_res l = ss_tot l).
    { unfold ss_res, ss_tot, total, actuals. rewrite map_map. f_equal. apply map_ext_in. intros r I. unfold err. rewrite (H0 r I). reflexivity. }
    unfold v. rewrite H1. field. lra.
  - intros c Hc. assert (ss_tot l <= ss_res l).
    { assert (E : ss_res l = ss_tot l + INR (length l) * (mean_of (actuals l) - c) ^ 2).
      { unfold ss_res, ss_tot. set (m := mean_of (actuals l)).
        assert (total (fun a => (a - m) ^ 2) (actuals l) = total (fun r => (fst r - m) ^ 2) l) as ->
            by (unfold total, actuals; now rewrite map_map).
        rewrite (total_ext _ (fun r : R * R => (fst r - m) ^ 2 + ((2 * (m - c)) * fst r + ((c - m) * (c + m)))) l).
        - rewrite !total_add, total_scale, total_const. assert (total fst l = INR (length l) * m) as ->.
          { destruct l as [|r0 l0]; [cbn; unfold total; cbn; ring|]. unfold m, mean_of, actuals. rewrite map_length. unfold total.
            field. apply Rgt_not_eq, (inr_pos (r0 :: l0)). easy. }
          ring.
        - intros r I. unfold err. rewrite (Hc r I). ring. }
      rewrite E. pose proof (pos_INR (length l)). pose proof (pow2_ge_0 (mean_of (actuals l) - c)). nra. }
    unfold v, Rdiv. assert (1 <= ss_res l * / ss_tot l); [|lra].
    apply (Rmult_le_reg_r (ss_tot l)); [lra|]. rewrite Rmult_assoc, Rinv_l by lra. lra.
Qed.
Lemma r2_constant a p : pred_known a p -> constant (actuals (complete a p)) ->
  (all_equal (complete a p) -> query_r2 a p = NaN) /\ (~ all_equal (complete a p) -> query_r2 a p = NInf).
Proof.
  intros K C. unfold query_r2, sum_res. rewrite res_val, (tot_val a p K). apply tot_zero in C. rewrite C.
  change (total (fun r => err r ^ 2) (complete a p)) with (ss_res (complete a p)).
  unfold xdiv. destruct (Req_EM_T 0 0); [|easy]. split; intro H.
  - apply res_zero in H. rewrite H. destruct (Req_EM_T 0 0); easy.
  - destruct (Req_EM_T _ 0) as [E|E]; [now apply res_zero in E|]. pose proof (res_ge0 (complete a p)).
    destruct (Rlt_dec _ _); [easy|lra].
Qed.
Lemma complete_map f : forall a p, complete (lift1 f a) (lift1 f p) = map (fun r => (f (fst r), f (snd r))) (complete a p).
Proof. unfold lift1. induction a as [|[x|] a IH]; intros [|[y|] p]; cbn; try easy; now rewrite IH. Qed.
Lemma r2_affine a p s t : s <> 0 -> query_r2 (lift1 (fun v => s * v + t) a) (lift1 (fun v => s * v + t) p) = query_r2 a p.
Proof.
  intro S. unfold query_r2, sum_res. rewrite !res_val, complete_map.
  assert (E1 : total (fun r => err r ^ 2) (map (fun r => (s * fst r + t, s * snd r + t)) (complete a p)) =
               s ^ 2 * total (fun r => err r ^ 2) (complete a p)).
  { rewrite <- total_scale. unfold total. rewrite map_map. f_equal. apply map_ext. intros [u v]. unfold err. cbn. ring. }
  assert (E2 : sum_tot (lift1 (fun v => s * v + t) a) = s ^ 2 * sum_tot a).
  { unfold sum_tot. cbv zeta. rewrite !dot_self, !values_lift1, !map_map. unfold cmean, csum, ccount. rewrite values_lift1, map_length.
    destruct (values a) as [|v0 vs] eqn:Ev; [cbn; ring|]. rewrite <- Ev. set (l := values a) in *.
    assert (0 < INR (length l)) as P by (apply inr_pos; rewrite Ev; easy).
    assert (Rsum (map (fun v => s * v + t) l) = s * Rsum l + INR (length l) * t) as ->.
    { change (total (fun v => s * v + t) l = s * Rsum l + INR (length l) * t). rewrite total_add, total_scale, total_const. unfold total. now rewrite map_id. }
    change (total (fun x => (s * x + t - (s * Rsum l + INR (length l) * t) / INR (length l)) ^ 2) l =
            s ^ 2 * total (fun x => (x - Rsum l / INR (length l)) ^ 2) l).
    rewrite <- total_scale. apply total_ext. intros x _. field. lra. }
  rewrite E1, E2. assert (0 < s ^ 2) by (pose proof (pow2_ge_0 s); nra).
  set (u := total _ _). set (w := sum_tot a). f_equal. unfold xdiv.
  destruct (Req_EM_T (s ^ 2 * w) 0), (Req_EM_T w 0); [|nra|nra|f_equal; field; split; [exact n0|exact S]].
  destruct (Req_EM_T (s ^ 2 * u) 0), (Req_EM_T u 0); [easy|nra|nra|].
  destruct (Rlt_dec 0 (s ^ 2 * u)), (Rlt_dec 0 u); try easy; nra.
Qed.

Lemma u32R_id z : (0 <= z < 2 ^ 32)%Z -> u32R z = IZR z.
Proof. intro H. unfold u32R. now rewrite Z.mod_small. Qed.
Lemma adj_val a p k : pred_known a p -> ~ constant (actuals (complete a p)) -> (0 <= k < Z.of_nat (length a))%Z -> (Z.of_nat (length a) < 2 ^ 32)%Z ->
  (2 <= length a)%nat ->
  query_adj_r2 a p k =
  Fin (1 - ss_res (complete a p) / ss_tot (complete a p) * (INR (length a) - 1) / (INR (length a) - IZR k)).
Proof.
  intros K C Hk Hn H2. destruct (r2_val a p K C) as [_ T]. unfold query_adj_r2, sum_res. rewrite res_val, (tot_val a p K).
  rewrite !u32R_id by lia. rewrite !minus_IZR, <- INR_IZR_INZ.
  assert (IZR k < INR (length a)) by (rewrite INR_IZR_INZ; apply IZR_lt; lia).
  assert (1 < INR (length a)) by (replace 1 with (INR 1) by easy; apply lt_INR; lia).
  rewrite !xdiv_fin by lra. cbn [xquot]. rewrite xdiv_fin.
  - unfold one_minus, xneg, xadd, ss_res. f_equal. field. lra.
  - apply Rmult_integral_contrapositive_currified; [lra|]. apply Rinv_neq_0_compat. lra.
Qed.
