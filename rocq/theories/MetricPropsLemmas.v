(** The statements of MetricProps. *)
From Coq Require Import Reals List Lra Lia Psatz.
From Coq Require Import ZArith.
From Verif Require Import WStatsSpec WStatsModel WStatsProofs MetricSpec MetricModel MetricProofs MetricProofs2 MetricProofs3 MetricProofs4.
Import ListNotations.
Open Scope R_scope.

Lemma r2_thm a p : pred_known a p -> let l := complete a p in ~ constant (actuals l) ->
  exists v, query_r2 a p = Fin v /\ v = 1 - ss_res l / ss_tot l /\ v <= 1 /\ (v = 1 <-> all_equal l) /\
    ((forall r, In r l -> snd r = mean_of (actuals l)) -> v = 0) /\ (forall c, (forall r, In r l -> snd r = c) -> v <= 0).
Proof.
  intros K l C. destruct (r2_val a p K C) as [E T]. fold l in E, T. pose proof (r2_props l T) as [H1 [H2 [H3 H4]]].
  eexists. split; [exact E|]. split; [reflexivity|]. repeat split; try apply H2; assumption.
Qed.
Lemma adj_thm a p k v : pred_known a p -> query_r2 a p = Fin v -> (Z.of_nat (length a) < 2 ^ 32)%Z -> (1 <= k < Z.of_nat (length a))%Z ->
  exists w, query_adj_r2 a p k = Fin w /\ w = 1 - (1 - v) * (INR (length a) - 1) / (INR (length a) - IZR k) /\ w <= v.
Proof.
  intros K E L Hk. assert (C : ~ constant (actuals (complete a p))).
  { intro C. destruct (r2_constant a p K C) as [A B]. destruct (Req_EM_T (ss_res (complete a p)) 0) as [Z|Z].
    - apply res_zero in Z. rewrite A in E by exact Z. discriminate.
    - rewrite B in E; [discriminate|]. intro G. apply Z. now apply res_zero. }
  destruct (r2_val a p K C) as [E' T]. rewrite E in E'. injection E' as ->.
  assert (IZR k < INR (length a)) by (rewrite INR_IZR_INZ; apply IZR_lt; lia).
  assert (1 <= IZR k) by (apply IZR_le; lia).
  eexists. split; [apply adj_val; try assumption; lia|]. set (x := ss_res (complete a p) / ss_tot (complete a p)).
  assert (0 <= x).
  { unfold x. apply Rmult_le_pos; [apply res_ge0|]. apply Rlt_le, Rinv_0_lt_compat, T. }
  split; [field; lra|]. assert (0 < INR (length a) - IZR k) as D by lra.
  assert (x <= x * (INR (length a) - 1) / (INR (length a) - IZR k)); [|lra].
  apply (Rmult_le_reg_r (INR (length a) - IZR k)); [lra|].
  replace (x * (INR (length a) - 1) / (INR (length a) - IZR k) * (INR (length a) - IZR k)) with (x * (INR (length a) - 1)) by (field; lra). nra.
Qed.

Lemma losses_thm a p delta : pred_known a p -> let l := complete a p in l <> [] -> 0 < delta ->
  exists v1 v2 vi vh vc,
    query_l1 a p true = Fin v1 /\ v1 = avg (fun r => Rabs (err r)) l /\
    query_l2 a p true = Fin v2 /\ v2 = avg (fun r => err r ^ 2) l /\
    query_l_inf a p = Some vi /\ greatest (map (fun r => Rabs (err r)) l) vi /\
    query_hubor_loss a p delta = Fin vh /\ vh = avg (fun r => huber_of delta (err r)) l /\
    query_log_cosh a p true = Fin vc /\ vc = avg (fun r => ln (cosh (err r))) l /\
    (0 <= v1 <= vi /\ v1 ^ 2 <= v2 <= vi ^ 2 /\ 0 <= vh <= v2 / 2 /\ vh <= delta * v1 /\ 0 <= vc <= v1 /\ vc <= v2 / 2) /\
    (vi <= delta -> vh = v2 / 2) /\
    (v1 = 0 <-> all_equal l) /\ (v2 = 0 <-> all_equal l) /\ (vi = 0 <-> all_equal l) /\ (vh = 0 <-> all_equal l) /\ (vc = 0 <-> all_equal l).
Proof.
  intros K l N D. destruct (linf_val a p N) as [vi [Ei Gi]]. fold l in Gi.
  exists (avg (fun r => Rabs (err r)) l), (avg (fun r => err r ^ 2) l), vi, (avg (fun r => huber_of delta (err r)) l), (avg (fun r => ln (cosh (err r))) l).
  split; [now apply l1_val|]. split; [reflexivity|]. split; [now apply l2_val|]. split; [reflexivity|]. split; [exact Ei|]. split; [exact Gi|].
  split; [now apply hub_val|]. split; [reflexivity|]. split; [now apply lc_val|]. split; [reflexivity|].
  assert (B : forall r, In r l -> Rabs (err r) <= vi) by (intros r I; apply Gi; apply in_map_iff; eauto).
  assert (V0 : 0 <= vi).
  { destruct l as [|r l']; [easy|]. apply Rle_trans with (Rabs (err r)); [apply Rabs_pos|apply B; now left]. }
  split; [|split; [|split; [|split; [|split; [|split]]]]].
  - assert (avg (fun r => err r ^ 2 / 2) l = avg (fun r => err r ^ 2) l / 2) as H2.
    { rewrite (avg_ext _ (fun r => / 2 * err r ^ 2)) by (intros; field). rewrite avg_scale. field. }
    assert (0 <= avg (fun r => Rabs (err r)) l) by (apply avg_ge0; [exact N|intros; apply Rabs_pos]).
    assert (avg (fun r => Rabs (err r)) l <= vi) by (rewrite <- (avg_const vi l N); apply avg_le; assumption).
    assert (avg (fun r => Rabs (err r)) l ^ 2 <= avg (fun r => err r ^ 2) l).
    { eapply Rle_trans; [apply avg_square; exact N|]. right. apply avg_ext. intros r _. apply pow2_abs. }
    assert (avg (fun r => err r ^ 2) l <= vi ^ 2).
    { rewrite <- (avg_const (vi ^ 2) l N). apply avg_le; [exact N|]. intros r I. rewrite <- pow2_abs. pose proof (Rabs_pos (err r)).
      specialize (B r I). nra. }
    assert (0 <= avg (fun r => huber_of delta (err r)) l) by (apply avg_ge0; [exact N|intros; now apply hub_ge0]).
    assert (avg (fun r => huber_of delta (err r)) l <= avg (fun r => err r ^ 2) l / 2) by (rewrite <- H2; apply avg_le; [exact N|intros; now apply hub_sq]).
    assert (avg (fun r => huber_of delta (err r)) l <= delta * avg (fun r => Rabs (err r)) l) by (rewrite <- avg_scale; apply avg_le; [exact N|intros; now apply hub_abs]).
    assert (0 <= avg (fun r => ln (cosh (err r))) l) by (apply avg_ge0; [exact N|intros; apply lncosh_ge0]).
    assert (avg (fun r => ln (cosh (err r))) l <= avg (fun r => Rabs (err r)) l) by (apply avg_le; [exact N|intros; apply lncosh_abs]).
    assert (avg (fun r => ln (cosh (err r))) l <= avg (fun r => err r ^ 2) l / 2) by (rewrite <- H2; apply avg_le; [exact N|intros; apply lncosh_sq]).
    tauto.
  - intro Hd. rewrite (avg_ext _ (fun r => / 2 * err r ^ 2)); [rewrite avg_scale; field|]. intros r I. rewrite hub_small; [field|].
    specialize (B r I). lra.
  - rewrite avg_zero_iff by (try exact N; intros; apply Rabs_pos). rewrite all_equal_err. split; intros H r I; specialize (H r I).
    + destruct (Req_dec (err r) 0) as [|Q]; [assumption|]. apply Rabs_pos_lt in Q. lra.
    + rewrite H. apply Rabs_R0.
  - rewrite avg_zero_iff by (try exact N; intros; apply pow2_ge_0). rewrite all_equal_err. split; intros H r I; specialize (H r I).
    + exact (sq0 _ H).
    + rewrite H. ring.
  - rewrite all_equal_err. split; intro H.
    + intros r I. specialize (B r I). pose proof (Rabs_pos (err r)). destruct (Req_dec (err r) 0) as [|Q]; [assumption|]. apply Rabs_pos_lt in Q. lra.
    + destruct Gi as [I _]. apply in_map_iff in I. destruct I as [r [<- I]]. rewrite (H r I). apply Rabs_R0.
  - rewrite avg_zero_iff by (try exact N; intros; now apply hub_ge0). rewrite all_equal_err. split; intros H r I; specialize (H r I).
    + now apply hub_zero in H.
    + rewrite H, hub_small; [field|]. rewrite Rabs_R0. lra.
  - rewrite avg_zero_iff by (try exact N; intros; apply lncosh_ge0). rewrite all_equal_err. split; intros H r I; specialize (H r I).
    + now apply lncosh_zero.
    + rewrite H, cosh_0. apply ln_1.
Qed.
Lemma msle_thm a p : pred_known a p -> let l := complete a p in l <> [] -> (forall r, In r l -> -1 < fst r /\ -1 < snd r) ->
  exists v, query_msle a p true = Fin v /\ v = avg (fun r => (ln (1 + fst r) - ln (1 + snd r)) ^ 2) l /\ 0 <= v /\ (v = 0 <-> all_equal l).
Proof.
  intros K l N P. eexists. split; [now apply msle_val|]. split; [reflexivity|]. split; [apply avg_ge0; [exact N|intros; apply pow2_ge_0]|].
  change (complete a p) with l. rewrite avg_zero_iff by (try exact N; intros; apply pow2_ge_0). unfold all_equal. split.
  - intros H u v I. destruct (P _ I). apply msle_zero; [assumption|assumption|]. exact (H _ I).
  - intros H [u v] I. cbn. rewrite (H u v I). ring.
Qed.
Lemma mad_thm x : values x <> [] ->
  exists v, mad_mean x = Some v /\ v = avg (fun y => Rabs (y - mean_of (values x))) (values x) /\ 0 <= v /\
    v ^ 2 <= avg (fun y => (y - mean_of (values x)) ^ 2) (values x) /\
    forall s t, mad_mean (lift1 (fun y => s * y + t) x) = Some (Rabs s * v).
Proof.
  intro N. pose proof (mad_val x N) as E. eexists. split; [exact E|]. split; [reflexivity|]. split; [apply avg_ge0; [exact N|intros; apply Rabs_pos]|].
  split.
  - eapply Rle_trans; [apply avg_square; exact N|]. right. apply avg_ext. intros. apply pow2_abs.
  - intros s t. rewrite mad_affine, E. reflexivity.
Qed.

Lemma smape_thm a p : pred_known a p -> let l := complete a p in l <> [] -> ~ In (0, 0) l ->
  exists v, query_smape a p = Fin v /\ v = avg srel l /\ 0 <= v <= 1 /\ (v = 0 <-> all_equal l) /\
            (v = 1 <-> forall r, In r l -> fst r * snd r <= 0).
Proof.
  intros K l N Z. eexists. split; [now apply smape_val|]. split; [reflexivity|]. change (complete a p) with l.
  assert (B : forall r, In r l -> r <> (0, 0)) by (intros r I E; apply Z; now rewrite <- E).
  split; [split|split].
  - apply avg_ge0; [exact N|]. intros r I. apply srel_bounds, B, I.
  - rewrite <- (avg_const 1 l N). apply avg_le; [exact N|]. intros r I. apply srel_bounds, B, I.
  - rewrite avg_zero_iff; [|exact N|intros r I; apply srel_bounds, B, I]. unfold all_equal. split; intro H.
    + intros u v I. apply (srel_bounds (u, v) (B _ I)). now apply H.
    + intros [u v] I. apply (srel_bounds (u, v) (B _ I)). cbn. now apply H.
  - rewrite avg_one; [|exact N|intros r I; apply srel_bounds, B, I].
    split; intros H r I; now apply (srel_bounds r (B _ I)), H.
Qed.
Lemma mape_thm a p : let l := complete a p in l <> [] -> (forall r, In r l -> fst r <> 0) ->
  exists v, query_mape a p false = Some (Fin v) /\ v = avg (fun r => Rabs (err r) / Rabs (fst r)) l /\ 0 <= v /\ (v = 0 <-> all_equal l).
Proof.
  intros l N Z. eexists. split; [now apply mape_val|]. split; [reflexivity|]. change (complete a p) with l.
  assert (G : forall r, In r l -> 0 <= Rabs (err r) / Rabs (fst r)).
  { intros r I. apply Rmult_le_pos; [apply Rabs_pos|]. apply Rlt_le, Rinv_0_lt_compat, Rabs_pos_lt, Z, I. }
  split; [now apply avg_ge0|]. rewrite avg_zero_iff by assumption. rewrite all_equal_err. split; intros H r I; specialize (H r I).
  - assert (/ Rabs (fst r) <> 0) by (apply Rinv_neq_0_compat, Rabs_no_R0, Z, I). apply Rmult_integral in H. destruct H as [H|H]; [|easy].
    destruct (Req_dec (err r) 0) as [|Q]; [assumption|]. apply Rabs_pos_lt in Q. lra.
  - rewrite H, Rabs_R0. unfold Rdiv. ring.
Qed.
Lemma wmape_thm a p : pred_known a p -> let l := complete a p in (exists r, In r l /\ fst r <> 0) ->
  exists v, query_mape a p true = Some (Fin v) /\ v = total (fun r => Rabs (err r)) l / total (fun r => Rabs (fst r)) l /\ 0 <= v /\
            (v = 0 <-> all_equal l).
Proof.
  intros K l [r0 [I0 Z0]]. assert (P : 0 < total (fun r => Rabs (fst r)) l).
  { assert (0 <= total (fun r => Rabs (fst r)) l) by (apply total_ge0; intros; apply Rabs_pos).
    destruct (Req_EM_T (total (fun r => Rabs (fst r)) l) 0) as [E|E]; [|lra].
    pose proof (total_zero (fun r : R * R => Rabs (fst r)) l (fun r _ => Rabs_pos _) E r0 I0). cbv beta in H0. apply Rabs_pos_lt in Z0. lra. }
  exists (total (fun r => Rabs (err r)) l / total (fun r => Rabs (fst r)) l).
  split; [rewrite wmape_val by exact K; fold l; f_equal; apply xdiv_fin; lra|]. split; [reflexivity|].
  assert (0 <= total (fun r => Rabs (err r)) l) by (apply total_ge0; intros; apply Rabs_pos).
  assert (0 < / total (fun r => Rabs (fst r)) l) by now apply Rinv_0_lt_compat.
  split; [unfold Rdiv; nra|]. assert (Q : total (fun r => Rabs (err r)) l = 0 <-> all_equal l).
  { rewrite total_zero_iff by (intros; apply Rabs_pos). rewrite all_equal_err. split; intros H1 r I; specialize (H1 r I).
    - destruct (Req_dec (err r) 0) as [|Q]; [assumption|]. apply Rabs_pos_lt in Q. lra.
    - rewrite H1. apply Rabs_R0. }
  rewrite <- Q. unfold Rdiv. split; intro H1; [|rewrite H1; ring]. apply Rmult_integral in H1. destruct H1; lra.
Qed.

Lemma ll_thm a p : let l := complete a p in binary l -> l <> [] -> (forall r, In r l -> prob_true r <> 0) ->
  exists v, query_log_loss a p true = Some (Fin v) /\ v = avg (fun r => - ln (prob_true r)) l /\ 0 <= v /\ (v = 0 <-> all_equal l) /\
            query_log_loss a p false = Some (Fin (INR (length l) * v)).
Proof.
  intros l B N Z. destruct (ll_fin a p B N Z) as [E1 E2]. fold l in E1, E2. eexists. split; [exact E1|]. split; [reflexivity|].
  assert (G : forall r, In r l -> 0 < prob_true r <= 1).
  { intros r I. pose proof (prob_le1 l B r I). specialize (Z r I). lra. }
  split; [apply avg_ge0; [exact N|]; intros r I; apply nln_ge0, G, I|]. split.
  - rewrite avg_zero_iff; [|exact N|intros r I; apply nln_ge0, G, I]. rewrite <- (prob_one l B). split; intros H r I; specialize (H r I).
    + apply nln_zero; [apply G, I|exact H].
    + rewrite H, ln_1. ring.
  - rewrite E2. f_equal. f_equal. rewrite avg_total. field. apply Rgt_not_eq, inr_pos, N.
Qed.
Lemma base_thm a : (forall u, In u (values a) -> u = 0 \/ u = 1) -> 0 < mean_of (values a) < 1 -> forall q, 0 < q < 1 ->
  exists vm vq, query_log_loss a (lift1 (fun _ => mean_of (values a)) a) true = Some (Fin vm) /\
                query_log_loss a (lift1 (fun _ => q) a) true = Some (Fin vq) /\ vm <= vq.
Proof.
  intros B M q Q. assert (N : values a <> []).
  { intro E. rewrite E in M. unfold mean_of in M. cbn in M. unfold Rdiv in M. lra. }
  eexists. eexists. split; [now apply ll_const|]. split; [now apply ll_const|]. change (cmean a) with (mean_of (values a)). now apply base_rate_ineq.
Qed.
Lemma ce_thm a p : length a = length p -> a <> [] ->
  (forall i q, In (i, q) (combine a p) -> (i < length q)%nat /\ 0 < nth i q 0 <= 1) ->
  exists v, query_cat_cross_entropy a p true = Some (Fin v) /\ v = avg (fun r => - ln (nth (fst r) (snd r) 0)) (combine a p) /\ 0 <= v /\
            (v = 0 <-> forall i q, In (i, q) (combine a p) -> nth i q 0 = 1) /\
            query_cat_cross_entropy a p false = Some (Fin (INR (length a) * v)).
Proof.
  intros L N H. set (l := combine a p). assert (NL : l <> []) by (unfold l; destruct a, p; easy).
  pose proof (get_all_val a p L (fun i q I => proj1 (H i q I))) as G. fold l in G.
  assert (P : forall v, In v (map (fun r => nth (fst r) (snd r) 0) l) -> 0 < v).
  { intros v I. apply in_map_iff in I. destruct I as [[i q] [<- I]]. apply (H i q I). }
  assert (LL : length (map (fun r => nth (fst r) (snd r) 0) l) = length a) by (unfold l; rewrite map_length, combine_length; lia).
  exists (avg (fun r => - ln (nth (fst r) (snd r) 0)) l). split; [|split; [reflexivity|split; [|split]]].
  - rewrite (ce_gen a p true _ G P LL N). unfold avg. now rewrite map_map.
  - apply avg_ge0; [exact NL|]. intros [i q] I. apply nln_ge0. cbn. apply (H i q I).
  - rewrite avg_zero_iff; [|exact NL|intros [i q] I; apply nln_ge0, (H i q I)]. split.
    + intros Z i q I. apply nln_zero; [apply (H i q I)|exact (Z (i, q) I)].
    + intros Z [i q] I. cbn. rewrite (Z i q I), ln_1. ring.
  - rewrite (ce_gen a p false _ G P LL N). f_equal. f_equal. rewrite avg_total. unfold total. rewrite map_map, <- LL, map_length. field.
    apply Rgt_not_eq, inr_pos, NL.
Qed.
Lemma pct_thm p c : (forall v, In (Some v) p -> v = 0 \/ v = 1) ->
  let u := mean_of (cond_values p c true) in let v := mean_of (cond_values p c false) in
  cond_values p c true <> [] -> cond_values p c false <> [] -> 0 < u \/ 0 < v ->
  exists s, query_p_pct_score p c = Some (Fin s) /\ 0 <= s <= 1 /\ (0 < u -> 0 < v -> s = Rmin (u / v) (v / u)) /\
            (s = 1 <-> u = v) /\ (s = 0 <-> u = 0 \/ v = 0).
Proof.
  intros B u v A1 A2 P.
  assert (G : forall b x, In x (cond_values p c b) -> 0 <= x).
  { intros b x I. unfold cond_values in I. apply in_flat_map in I. destruct I as [[o b'] [I J]].
    destruct o as [w|]; [|easy]. destruct b' as [b'|]; [|easy]. destruct (Bool.eqb b' b); [|easy]. destruct J as [<-|[]].
    destruct (B w) as [->| ->]; [apply in_combine_l in I; exact I|lra|lra]. }
  destruct (pct_val u v (mean_ge0 _ (G true)) (mean_ge0 _ (G false)) P) as [s [E R]]. exists s. split; [|exact R].
  unfold query_p_pct_score, fmean. rewrite cfilter_true, cfilter_false, !rmean_some by assumption. fold u v. now rewrite E.
Qed.
Lemma pct_not p c : query_fairness p (cnot c) = query_fairness p c.
Proof.
  unfold query_fairness, fmean. rewrite !cfilter_true.
  assert (cond_values p (cnot (cnot c)) true = cond_values p c true) as -> by (rewrite !cond_not; easy). rewrite cond_not. cbn [negb].
  destruct (rmean (cond_values p c true)), (rmean (cond_values p c false)); cbn; try easy. f_equal. apply Rabs_minus_sym.
Qed.
Lemma pct_nan p c : cond_values p c true <> [] -> cond_values p c false <> [] ->
  mean_of (cond_values p c true) = 0 -> mean_of (cond_values p c false) = 0 -> query_p_pct_score p c = Some NaN.
Proof.
  intros A B U V. unfold query_p_pct_score, fmean. rewrite cfilter_true, cfilter_false, !rmean_some by assumption. rewrite U, V.
  unfold xdiv. destruct (Req_EM_T 0 0); easy.
Qed.

(** Concrete columns *)
Definition col (l : list Z) : rcol := map (fun z => Some (IZR z)) l.
Lemma known_col l m : length l = length m -> pred_known (col l) (col m).
Proof.
  intro L. unfold col. split; [now rewrite !map_length|]. intros i x E. rewrite nth_error_map in E.
  destruct (nth_error m i) as [z|] eqn:Em; [exists (IZR z); rewrite nth_error_map, Em; easy|].
  apply nth_error_None in Em. rewrite <- L in Em. apply nth_error_None in Em. rewrite Em in E. discriminate.
Qed.
Ltac nums := unfold sum_res, sum_tot, dot, cmean, csum, ccount, lift1, lift2, col, values, u32R; cbn [map combine flat_map app option_map Rsum length fst snd]; cbn [INR].

Lemma null_pred_ex : exists a p, length a = length p /\
  query_l1 a p true = Fin (1 / 2) /\ avg (fun r => Rabs (err r)) (complete a p) = 1 /\
  query_l2 a p true = Fin (1 / 2) /\ avg (fun r => err r ^ 2) (complete a p) = 1.
Proof.
  exists (col [1; 1]%Z), [Some 0; None]. split; [easy|]. unfold query_l1, query_l2. nums.
  unfold avg, mean_of, complete, err. cbn [map Rsum length fst snd]. cbn [INR].
  rewrite !Rminus_0_r, Rabs_R1. rewrite !xdiv_fin by lra. repeat split; try f_equal; field.
Qed.
Lemma r2_null_ex : exists a p, length a = length p /\ query_r2 a p = Fin (11 / 26) /\
  query_r2 (map (fun r => Some (fst r)) (complete a p)) (map (fun r => Some (snd r)) (complete a p)) = Fin (- 9).
Proof.
  exists (col [0; 1; 4]%Z), [Some 1; Some (-1); None]. split; [easy|]. split.
  - unfold query_r2. nums. rewrite xdiv_fin by (apply Rgt_not_eq; lra). cbn. f_equal. field.
  - unfold query_r2, complete, col. cbn [map fst snd]. nums. rewrite xdiv_fin by (apply Rgt_not_eq; lra). cbn. f_equal. field.
Qed.

Lemma adj_textbook_ex : exists a p v, pred_known a p /\ query_r2 a p = Fin v /\ v = 0 /\ length a = 4%nat /\
  query_adj_r2 a p 1 = Fin 0 /\ 1 - (1 - v) * (INR 4 - 1) / (INR 4 - 1 - 1) = - (1 / 2).
Proof.
  exists (col [0; 0; 2; 2]%Z), (col [1; 1; 1; 1]%Z), 0. split; [now apply known_col|].
  assert (E : query_r2 (col [0; 0; 2; 2]%Z) (col [1; 1; 1; 1]%Z) = Fin 0).
  { unfold query_r2. nums. rewrite xdiv_fin by (apply Rgt_not_eq; lra). cbn. f_equal. field. }
  split; [exact E|]. split; [reflexivity|]. split; [reflexivity|]. split.
  - destruct (adj_thm (col [0; 0; 2; 2]%Z) (col [1; 1; 1; 1]%Z) 1 0) as [w [H1 [H2 _]]]; [now apply known_col|exact E|easy|cbn; lia|].
    rewrite H1. f_equal. rewrite H2. cbn. field.
  - cbn. field.
Qed.
Lemma adj_wrap_ex : exists a p v w, pred_known a p /\ length a = 3%nat /\ query_r2 a p = Fin v /\ query_adj_r2 a p 5 = Fin w /\ v = 0 /\ 0.99 < w.
Proof.
  exists (col [0; 1; 2]%Z), (col [1; 1; 1]%Z), 0, (1 - 1 / 2147483647). split; [now apply known_col|]. split; [reflexivity|]. split.
  { unfold query_r2. nums. rewrite xdiv_fin by (apply Rgt_not_eq; lra). cbn. f_equal. field. }
  split; [|lra].
  unfold query_adj_r2. cbn [length col map]. change (Z.of_nat 3) with 3%Z. unfold u32R.
  change ((3 - 5) mod 2 ^ 32)%Z with 4294967294%Z. change ((3 - 1) mod 2 ^ 32)%Z with 2%Z.
  unfold sum_res, sum_tot, dot, cmean, csum, ccount, lift1, lift2, values; cbn [map combine flat_map app option_map Rsum length fst snd]; cbn [INR].
  rewrite !xdiv_fin by lra. cbn [xquot]. rewrite xdiv_fin by lra. unfold one_minus, xneg, xadd. f_equal. field.
Qed.
Lemma adj_null_ex : exists a p w w', pred_known a p /\ query_adj_r2 a p 2 = Fin w /\
  query_adj_r2 (map (fun r => Some (fst r)) (complete a p)) (map (fun r => Some (snd r)) (complete a p)) 2 = Fin w' /\ w = - (1 / 3) /\ w' = - (1 / 2).
Proof.
  exists (col [0; 0; 2; 2]%Z ++ [None]), (col [1; 1; 1; 1]%Z ++ [None]), (- (1 / 3)), (- (1 / 2)). split; [|split; [|split; [|easy]]].
  - split; [easy|]. intros [|[|[|[|[|i]]]]] x E; cbn in *; try discriminate; [..|now destruct i]; eexists; reflexivity.
  - unfold query_adj_r2. cbn [length col map app]. change (Z.of_nat 5) with 5%Z. unfold u32R.
    change ((5 - 2) mod 2 ^ 32)%Z with 3%Z. change ((5 - 1) mod 2 ^ 32)%Z with 4%Z.
    unfold sum_res, sum_tot, dot, cmean, csum, ccount, lift1, lift2, values; cbn [map combine flat_map app option_map Rsum length fst snd]; cbn [INR].
    rewrite !xdiv_fin by lra. cbn [xquot]. rewrite xdiv_fin by lra. unfold one_minus, xneg, xadd. f_equal. field.
  - unfold query_adj_r2. cbn [length col map app complete fst snd]. change (Z.of_nat 4) with 4%Z. unfold u32R.
    change ((4 - 2) mod 2 ^ 32)%Z with 2%Z. change ((4 - 1) mod 2 ^ 32)%Z with 3%Z.
    unfold sum_res, sum_tot, dot, cmean, csum, ccount, lift1, lift2, values; cbn [map combine flat_map app option_map Rsum length fst snd]; cbn [INR].
    rewrite !xdiv_fin by lra. cbn [xquot]. rewrite xdiv_fin by lra. unfold one_minus, xneg, xadd. f_equal. field.
Qed.
Lemma smape_ex : exists a p, pred_known a p /\ complete a p <> [] /\ query_smape a p = NaN.
Proof.
  exists (col [0; 3]%Z), (col [0; 4]%Z). split; [now apply known_col|]. split; [easy|]. apply smape_nan. now left.
Qed.
Lemma pct_ex : exists p c, (forall v, In (Some v) p -> v = 0 \/ v = 1) /\ cond_values p c true <> [] /\ cond_values p c false <> [] /\
  mean_of (cond_values p c true) = mean_of (cond_values p c false) /\ query_p_pct_score p c = Some NaN.
Proof.
  exists [Some 0; Some 0], [Some true; Some false]. split; [intros v [E|[E|[]]]; injection E as <-; now left|].
  split; [easy|]. split; [easy|]. split; [reflexivity|]. apply pct_nan; try easy; unfold mean_of; cbn; field.
Qed.
Lemma sums_thm a p : query_l1 a p false = Fin (total (fun r => Rabs (err r)) (complete a p)) /\
  query_l2 a p false = Fin (total (fun r => err r ^ 2) (complete a p)) /\
  query_log_cosh a p false = Fin (total (fun r => ln (cosh (err r))) (complete a p)).
Proof. split; [apply l1_sum|split; [apply l2_sum|apply lc_sum]]. Qed.
Lemma ce_oob a p norm : length a = length p -> (exists i q, In (i, q) (combine a p) /\ (length q <= i)%nat) -> query_cat_cross_entropy a p norm = None.
Proof. intros L H. unfold query_cat_cross_entropy. now rewrite get_all_oob. Qed.
Lemma mase_zero a p t : query_mase a p t 0 = None.
Proof. reflexivity. Qed.
(** A column with a null: actual 1, null, 3, 5 and predictions 2, 7, 3, 1. *)
Definition a0 : rcol := [Some 1; None; Some 3; Some 5].
Definition p0 : rcol := [Some 2; Some 7; Some 3; Some 1].
Lemma known0 : pred_known a0 p0.
Proof. split; [easy|]. intros [|[|[|[|i]]]] x E; cbn in *; try discriminate; [..|now destruct i]; eexists; reflexivity. Qed.
Lemma complete0 : complete a0 p0 = [(1, 2); (3, 3); (5, 1)].
Proof. reflexivity. Qed.
Lemma nonconst0 : ~ constant (actuals (complete a0 p0)).
Proof. rewrite complete0. intro C. specialize (C 1 3). cbn in C. assert (1 = 3) by (apply C; auto). lra. Qed.
