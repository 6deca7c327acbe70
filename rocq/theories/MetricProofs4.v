(** Base rate, cross entropy, scaled errors, fairness. *)
From Coq Require Import Reals List Lra Lia Psatz Permutation.
From Coq Require Import ZArith.
From Verif Require Import WStatsSpec WStatsModel WStatsProofs MetricSpec MetricModel MetricProofs MetricProofs2 MetricProofs3.
Import ListNotations.
Open Scope R_scope.

Lemma complete_const q : forall a, complete a (lift1 (fun _ => q) a) = map (fun u => (u, q)) (values a).
Proof. unfold lift1, values. induction a as [|[x|] a IH]; cbn; try easy. now rewrite IH. Qed.
Lemma complete_some : forall a p, complete (map Some a) (map Some p) = combine a p.
Proof. induction a as [|x a IH]; intros [|y p]; cbn; try easy. now rewrite IH. Qed.
Lemma nlp_lin u q : (u = 0 \/ u = 1) -> - ln (prob_true (u, q)) = u * - ln q + (1 - u) * - ln (1 - q).
Proof. intros [->| ->]; unfold prob_true; cbn; destruct (Req_EM_T _ 1); lra. Qed.
Lemma base_rate_ineq m q : 0 < m < 1 -> 0 < q < 1 -> m * - ln m + (1 - m) * - ln (1 - m) <= m * - ln q + (1 - m) * - ln (1 - q).
Proof.
  intros M Q. assert (A1 : ln q - ln m <= q / m - 1).
  { replace (ln q - ln m) with (ln (q / m)); [apply ln_le_lin, Rdiv_lt_0_compat; lra|].
    unfold Rdiv. rewrite ln_mult, ln_Rinv; try lra. apply Rinv_0_lt_compat; lra. }
  assert (A2 : ln (1 - q) - ln (1 - m) <= (1 - q) / (1 - m) - 1).
  { replace (ln (1 - q) - ln (1 - m)) with (ln ((1 - q) / (1 - m))); [apply ln_le_lin, Rdiv_lt_0_compat; lra|].
    unfold Rdiv. rewrite ln_mult, ln_Rinv; try lra. apply Rinv_0_lt_compat; lra. }
  assert (m * (ln q - ln m) <= q - m).
  { apply Rle_trans with (m * (q / m - 1)); [nra|]. right. field. lra. }
  assert ((1 - m) * (ln (1 - q) - ln (1 - m)) <= m - q).
  { apply Rle_trans with ((1 - m) * ((1 - q) / (1 - m) - 1)); [nra|]. right. field. lra. }
  lra.
Qed.
Lemma ll_const a q : (forall u, In u (values a) -> u = 0 \/ u = 1) -> values a <> [] -> 0 < q < 1 ->
  query_log_loss a (lift1 (fun _ => q) a) true =
  Some (Fin (cmean a * - ln q + (1 - cmean a) * - ln (1 - q))).
Proof.
  intros B N Q. destruct (ll_fin a (lift1 (fun _ => q) a)) as [E _]; rewrite ?complete_const in *.
  - intros r I. apply in_map_iff in I. destruct I as [u [<- I]]. cbn. split; [now apply B|lra].
  - destruct (values a); easy.
  - intros r I. apply in_map_iff in I. destruct I as [u [<- I]]. unfold prob_true. cbn. destruct (Req_EM_T _ _); lra.
  - rewrite E. f_equal. f_equal. unfold avg. rewrite map_map. change (avg (fun u => - ln (prob_true (u, q))) (values a) = cmean a * - ln q + (1 - cmean a) * - ln (1 - q)).
    rewrite (avg_ext _ (fun u => (- ln q + ln (1 - q)) * u + - ln (1 - q))) by (intros u I; rewrite nlp_lin by (now apply B); ring).
    rewrite avg_total, total_add, total_scale, total_const. unfold cmean, csum, ccount, total. rewrite map_id. field.
    apply Rgt_not_eq, inr_pos, N.
Qed.

(** Cross entropy *)
Lemma get_all_val : forall a p, length a = length p -> (forall i q, In (i, q) (combine a p) -> (i < length q)%nat) ->
  get_all p a = Some (map (fun r => nth (fst r) (snd r) 0) (combine a p)).
Proof.
  induction a as [|i a IH]; intros [|q p] L H; try discriminate; cbn; [easy|].
  assert (i < length q)%nat as B by (apply H; now left). rewrite IH; [|cbn in L; lia|intros; apply H; now right].
  now rewrite (nth_error_nth' q 0 B).
Qed.
Lemma get_all_oob : forall a p, length a = length p -> (exists i q, In (i, q) (combine a p) /\ (length q <= i)%nat) -> get_all p a = None.
Proof.
  induction a as [|i a IH]; intros [|q p] L [j [r [I B]]]; try easy. cbn. destruct I as [E|I].
  - injection E as -> ->. apply nth_error_None in B. now rewrite B.
  - rewrite IH; [now destruct (nth_error q i)|cbn in L; lia|eauto].
Qed.
Lemma ce_gen a p norm (y : list R) : get_all p a = Some y -> (forall v, In v y -> 0 < v) -> length y = length a -> a <> [] ->
  query_cat_cross_entropy a p norm = Some (Fin (if norm then avg (fun v => - ln v) y else total (fun v => - ln v) y)).
Proof.
  intros G P L N. unfold query_cat_cross_entropy. rewrite G. cbn [option_map].
  assert (map xln y = map Fin (map ln y)) as ->.
  { rewrite map_map. apply map_ext_in. intros v I. unfold xln. destruct (Rlt_dec 0 v); [easy|]. now apply P in I. }
  rewrite xsum_fin. cbn [xneg xover]. assert (E : - Rsum (map ln y) = total (fun v => - ln v) y).
  { rewrite (total_ext _ (fun v => -1 * ln v)) by (intros; ring). rewrite total_scale. unfold total. ring. }
  rewrite E. destruct norm; [|reflexivity]. rewrite xdiv_fin by (apply Rgt_not_eq, inr_pos, N). rewrite avg_total. now rewrite L.
Qed.

Lemma ce_two rows norm : rows <> [] -> (forall r, In r rows -> (fst r < 2)%nat /\ 0 < snd r < 1) ->
  query_cat_cross_entropy (map fst rows) (map two rows) norm =
  query_log_loss (map (fun r => Some (INR (fst r))) rows) (map (fun r => Some (snd r)) rows) norm.
Proof.
  intros N H. set (l := map (fun r => (INR (fst r), snd r)) rows).
  assert (C : complete (map (fun r => Some (INR (fst r))) rows) (map (fun r => Some (snd r)) rows) = l).
  { unfold l. clear. induction rows as [|r rows IH]; cbn; [easy|]. now rewrite IH. }
  assert (B : bin l).
  { intros r I. apply in_map_iff in I. destruct I as [r0 [<- I]]. destruct (H _ I) as [H1 H2]. cbn. split; [|lra].
    destruct (fst r0) as [|[|k]]; cbn; [now left|now right|lia]. }
  assert (Z : forall r, In r l -> 0 < prob_true r).
  { intros r I. apply in_map_iff in I. destruct I as [r0 [<- I]]. destruct (H _ I) as [H1 H2]. unfold prob_true. cbn. destruct (Req_EM_T _ _); lra. }
  assert (G : get_all (map two rows) (map fst rows) = Some (map prob_true l)).
  { unfold l. clear - H. induction rows as [|r rows IH]; [easy|]. cbn [map get_all]. rewrite IH by (intros; apply H; now right).
    destruct (H r (or_introl eq_refl)) as [H1 H2]. destruct r as [i q]. cbn in H1. unfold two, prob_true. cbn [fst snd].
    destruct i as [|[|i]]; cbn [nth_error]; [| |lia].
    - cbn [INR]. destruct (Req_EM_T 0 1); [lra|easy].
    - cbn [INR]. destruct (Req_EM_T 1 1); [easy|lra]. }
  rewrite (ce_gen _ _ norm _ G); [| |unfold l; now rewrite !map_length|destruct rows; easy].
  2:{ intros v I. apply in_map_iff in I. destruct I as [r [<- I]]. now apply Z. }
  destruct (ll_fin (map (fun r => Some (INR (fst r))) rows) (map (fun r => Some (snd r)) rows)) as [E1 E2]; rewrite ?C.
  - exact B.
  - unfold l. destruct rows; easy.
  - intros r I. specialize (Z r I). lra.
  - rewrite C in E1, E2. destruct norm; [rewrite E1|rewrite E2]; f_equal; f_equal; unfold avg, total, mean_of; now rewrite !map_map, ?map_length.
Qed.

(** MASE *)
Lemma complete_shift0 : forall u t, complete (map Some u) (firstn (length u) (map Some t)) = combine u t.
Proof. induction u as [|x u IH]; intros [|y t]; cbn; try easy. now rewrite IH. Qed.
Lemma complete_shift : forall f u t, complete (map Some u) (firstn (length u) (repeat None f ++ map Some t)) = combine (skipn f u) t.
Proof.
  induction f as [|f IH]; intros u t; [apply complete_shift0|]. destruct u as [|x u]; [now destruct t|]. cbn. apply IH.
Qed.
Lemma diff_val f t : values (lift1 Rabs (diff_n f (map Some t))) = changes f t.
Proof.
  unfold diff_n, shift_by. rewrite values_lift1, values_lift2, map_length, complete_shift. unfold changes. now rewrite map_map.
Qed.
Lemma rmean_some l : l <> [] -> rmean l = Some (mean_of l).
Proof. destruct l; easy. Qed.
Lemma mase_val a p t f : (1 <= f)%nat -> complete a p <> [] -> changes f t <> [] -> mean_of (changes f t) <> 0 ->
  query_mase a p (Train (map Some t)) f = Some (Some (Fin (avg (fun r => Rabs (err r)) (complete a p) / mean_of (changes f t)))).
Proof.
  intros F N C Z. unfold query_mase. destruct (Nat.ltb_spec f 1); [lia|]. rewrite diff_val, values_lift1, values_lift2, map_map.
  rewrite !rmean_some; [|exact C|destruct (complete a p); easy]. rewrite xdiv_fin by exact Z. reflexivity.
Qed.
Lemma mase_pre a p l f : (1 <= f)%nat -> complete a p <> [] -> l <> 0 ->
  query_mase a p (Precomputed l) f = Some (Some (Fin (avg (fun r => Rabs (err r)) (complete a p) / l))).
Proof.
  intros F N Z. unfold query_mase. destruct (Nat.ltb_spec f 1); [lia|]. rewrite values_lift1, values_lift2, map_map.
  rewrite !rmean_some; [|destruct (complete a p); easy]. rewrite xdiv_fin by exact Z. reflexivity.
Qed.
Lemma combine_firstn_l {A B} : forall (u : list A) (t : list B), combine u (firstn (length u) t) = combine u t.
Proof. induction u as [|x u IH]; intros [|y t]; cbn; try easy. now rewrite IH. Qed.
Lemma mase_naive t f : (1 <= f)%nat -> changes f t <> [] -> mean_of (changes f t) <> 0 ->
  query_mase (map Some (skipn f t)) (map Some (firstn (length t - f) t)) (Train (map Some t)) f = Some (Some (Fin 1)).
Proof.
  intros F C Z. assert (E : complete (map Some (skipn f t)) (map Some (firstn (length t - f) t)) = combine (skipn f t) t).
  { rewrite complete_some. rewrite <- (skipn_length f t). apply combine_firstn_l. }
  rewrite mase_val; try easy.
  - rewrite E. f_equal. f_equal. f_equal. change (avg (fun r => Rabs (err r)) (combine (skipn f t) t)) with (mean_of (changes f t)). now apply Rinv_r.
  - rewrite E. intro Q. apply C. unfold changes. now rewrite Q.
Qed.
Lemma shift_lift g n x : shift_by n (lift1 g x) = lift1 g (shift_by n x).
Proof.
  unfold shift_by, lift1. rewrite map_length, <- firstn_map, map_app. f_equal. f_equal.
  induction n as [|n IH]; [easy|]. cbn. now f_equal.
Qed.
Lemma abs_diff_scale s x y : values (lift1 Rabs (lift2 Rminus (lift1 (fun v => s * v) x) (lift1 (fun v => s * v) y))) =
  map (fun v => Rabs s * v) (values (lift1 Rabs (lift2 Rminus x y))).
Proof.
  rewrite !values_lift1, !values_lift2, (complete_map (fun v => s * v)), !map_map. apply map_ext. intros [u v]. cbn.
  rewrite <- Rabs_mult. f_equal. ring.
Qed.
Lemma rmean_scale s l : rmean (map (fun v => s * v) l) = option_map (fun m => s * m) (rmean l).
Proof.
  unfold rmean. destruct l as [|a l]; [easy|]. cbn [map option_map]. f_equal. change (s * a :: map (fun v => s * v) l) with (map (fun v => s * v) (a :: l)).
  rewrite map_length. change (Rsum (map (fun v => s * v) (a :: l))) with (total (fun v => s * v) (a :: l)).
  rewrite total_scale. unfold total. rewrite map_id. unfold Rdiv. ring.
Qed.
Lemma mase_scale a p t f s : s <> 0 ->
  query_mase (lift1 (fun v => s * v) a) (lift1 (fun v => s * v) p) (Train (lift1 (fun v => s * v) t)) f = query_mase a p (Train t) f.
Proof.
  intro S. unfold query_mase. destruct (f <? 1)%nat; [easy|]. unfold diff_n. rewrite shift_lift, !abs_diff_scale, !rmean_scale.
  assert (0 < Rabs s) by now apply Rabs_pos_lt. f_equal. clear S.
  destruct (rmean (values (lift1 Rabs (lift2 Rminus a p)))) as [u|]; cbn; [|easy].
  destruct (rmean (values (lift1 Rabs (lift2 Rminus t (shift_by f t))))) as [w|]; cbn; [|easy]. f_equal.
  set (c := Rabs s) in *. unfold xdiv.
  destruct (Req_EM_T (c * w) 0), (Req_EM_T w 0); [|nra|nra|f_equal; field; lra].
  destruct (Req_EM_T (c * u) 0), (Req_EM_T u 0); [easy|nra|nra|].
  destruct (Rlt_dec 0 (c * u)), (Rlt_dec 0 u); try easy; nra.
Qed.

(** Fairness *)
Lemma cfilter_true : forall p c, values (cfilter p c) = cond_values p c true.
Proof.
  unfold cfilter, cond_values, values. induction p as [|o p IH]; intros [|b c]; cbn; try easy.
  destruct b as [[|]|]; cbn; rewrite ?IH; destruct o; cbn; rewrite ?IH; easy.
Qed.
Lemma cfilter_false : forall p c, values (cfilter p (cnot c)) = cond_values p c false.
Proof.
  unfold cfilter, cond_values, values, cnot. induction p as [|o p IH]; intros [|b c]; cbn; try easy.
  destruct b as [[|]|]; cbn; rewrite ?IH; destruct o; cbn; rewrite ?IH; easy.
Qed.
Lemma fair_val p c : cond_values p c true <> [] -> cond_values p c false <> [] ->
  query_fairness p c = Some (Rabs (mean_of (cond_values p c true) - mean_of (cond_values p c false))).
Proof. intros A B. unfold query_fairness, fmean. rewrite cfilter_true, cfilter_false, !rmean_some; easy. Qed.
Lemma fair_null p c : cond_values p c true = [] \/ cond_values p c false = [] -> query_fairness p c = None /\ query_p_pct_score p c = None.
Proof.
  intro H. unfold query_fairness, query_p_pct_score, fmean. rewrite cfilter_true, cfilter_false.
  destruct H as [-> | ->]; cbn; [easy|]. destruct (rmean _); easy.
Qed.
Lemma cond_not p c b : cond_values p (cnot c) b = cond_values p c (negb b).
Proof.
  unfold cond_values, cnot. revert c. induction p as [|o p IH]; intros [|x c]; cbn; try easy. rewrite IH.
  destruct o, x as [[|]|], b; easy.
Qed.
Lemma pct_val u v : 0 <= u -> 0 <= v -> 0 < u \/ 0 < v ->
  exists s, xmin (xdiv u v) (xquot (Fin 1) (xdiv u v)) = Fin s /\ 0 <= s <= 1 /\ (0 < u -> 0 < v -> s = Rmin (u / v) (v / u)) /\
            (s = 1 <-> u = v) /\ (s = 0 <-> u = 0 \/ v = 0).
Proof.
  intros U V P. unfold xdiv. destruct (Req_EM_T v 0) as [->|Nv].
  - destruct (Req_EM_T u 0); [lra|]. destruct (Rlt_dec 0 u); [|lra]. cbn. exists 0. repeat split; intros; try lra; now right.
  - destruct (Req_dec u 0) as [->|Nu].
    + cbn [xquot]. unfold xdiv, Rdiv. rewrite Rmult_0_l. destruct (Req_EM_T 0 0); [|easy]. destruct (Req_EM_T 1 0); [lra|]. destruct (Rlt_dec 0 1); [|lra].
      cbn. exists 0. repeat split; intros; try lra; now left.
    + assert (0 < u) by lra. assert (0 < v) by lra. cbn [xquot]. assert (0 < u / v) by now apply Rdiv_lt_0_compat.
      rewrite xdiv_fin by lra. cbn [xmin]. assert (1 / (u / v) = v / u) as -> by (field; lra). exists (Rmin (u / v) (v / u)).
      assert (0 < v / u) by now apply Rdiv_lt_0_compat.
      assert (Q : (u / v) * (v / u) = 1) by (field; lra). assert (Q1 : (u / v) * v = u) by (field; lra). assert (Q2 : (v / u) * u = v) by (field; lra).
      set (x := u / v) in *. set (y := v / u) in *.
      unfold Rmin. destruct (Rle_dec x y); repeat split; intros; try nra; try (destruct H3; lra).
Qed.
Lemma mean_ge0 l : (forall x, In x l -> 0 <= x) -> 0 <= mean_of l.
Proof.
  intro H. destruct l as [|a l]; [unfold mean_of; cbn; unfold Rdiv; lra|]. rewrite <- (map_id (a :: l)). apply (avg_ge0 (fun x => x)); easy.
Qed.

(** Mean absolute deviation *)
Lemma mad_val x : values x <> [] -> mad_mean x = Some (avg (fun v => Rabs (v - mean_of (values x))) (values x)).
Proof.
  intro N. unfold mad_mean. rewrite !values_lift1, map_map. rewrite rmean_some; [reflexivity|]. destruct (values x); easy.
Qed.
Lemma mad_affine x s t : mad_mean (lift1 (fun v => s * v + t) x) = option_map (Rmult (Rabs s)) (mad_mean x).
Proof.
  destruct (values x) as [|v0 vs] eqn:E.
  - unfold mad_mean. rewrite !values_lift1, E. easy.
  - rewrite !mad_val; [|rewrite E; easy|rewrite values_lift1, E; easy]. cbn [option_map]. f_equal.
    rewrite values_lift1. set (l := values x) in *. assert (P : 0 < INR (length l)) by (apply inr_pos; rewrite E; easy).
    assert (M : mean_of (map (fun v => s * v + t) l) = s * mean_of l + t).
    { change (avg (fun v => s * v + t) l = s * mean_of l + t). rewrite avg_total, total_add, total_scale, total_const.
      unfold mean_of, total. rewrite map_id. field. lra. }
    rewrite M, <- avg_scale. unfold avg. rewrite map_map. f_equal. apply map_ext. intro v. rewrite <- Rabs_mult. f_equal. ring.
Qed.
