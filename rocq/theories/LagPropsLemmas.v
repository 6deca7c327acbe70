(** The statements of LagProps. *)
From Coq Require Import Reals List ZArith Arith Lra Lia Psatz Permutation.
From Verif Require Import WStatsSpec WStatsModel WStatsProofs MetricSpec MetricModel MetricProofs LagSpec LagModel LagProofs.
Import ListNotations.
Open Scope R_scope.

Lemma mac_val x : query_mean_abs_change x = match pairs_at 1 x with [] => None | l => Some (avg (fun p => Rabs (snd p - fst p)) l) end.
Proof.
  unfold query_mean_abs_change. assert (E : values (lift1 Rabs (tl (diff_n 1 x))) = map (fun p => Rabs (snd p - fst p)) (pairs_at 1 x)).
  { rewrite values_lift1. transitivity (map Rabs (values (diff_n 1 x))).
    - f_equal. unfold diff_n, shift_by. destruct x as [|o x]; [easy|]. cbn. destruct o; reflexivity.
    - unfold diff_n. rewrite values_by, map_map. reflexivity. }
  rewrite E, rmean_avg. destruct (pairs_at 1 x); reflexivity.
Qed.
Lemma perm_nil {A} (l l' : list A) : Permutation l l' -> l <> [] -> l' <> [].
Proof. intros P H ->. apply Permutation_sym, Permutation_nil in P. easy. Qed.
Lemma map_nil {A B} (f : A -> B) l : l <> [] -> map f l <> [].
Proof. now destruct l. Qed.
Lemma mac_thm x : pairs_at 1 x <> [] ->
  exists v, query_mean_abs_change x = Some v /\ v = avg (fun p => Rabs (snd p - fst p)) (pairs_at 1 x) /\ 0 <= v /\
    (v = 0 <-> forall a b, In (a, b) (pairs_at 1 x) -> a = b) /\
    query_mean_abs_change (rev x) = Some v /\
    forall s t, query_mean_abs_change (lift1 (fun y => s * y + t) x) = Some (Rabs s * v).
Proof.
  intro N. exists (avg (fun p => Rabs (snd p - fst p)) (pairs_at 1 x)). split; [rewrite mac_val; now destruct (pairs_at 1 x)|]. split; [easy|].
  split; [apply avg_ge0; [exact N|]; intros; apply Rabs_pos|]. split.
  { rewrite avg_zero_iff by (try exact N; intros; apply Rabs_pos). split.
    - intros H a b I. specialize (H (a, b) I). cbn in H. destruct (Req_dec (b - a) 0); [lra|]. now apply Rabs_no_R0 in H.
    - intros H [a b] I. cbn. rewrite (H a b I), Rminus_diag_eq, Rabs_R0; reflexivity. }
  split.
  - rewrite mac_val. pose proof (pairs_rev 1 x) as P. assert (M : pairs_at 1 (rev x) <> []).
    { apply (perm_nil _ _ (Permutation_sym P)). now apply map_nil. }
    assert (E : avg (fun p => Rabs (snd p - fst p)) (pairs_at 1 (rev x)) = avg (fun p => Rabs (snd p - fst p)) (pairs_at 1 x)).
    { rewrite (avg_perm _ _ _ P), avg_map. apply avg_ext. intros [a b] _. cbn. apply Rabs_minus_sym. }
    rewrite <- E. destruct (pairs_at 1 (rev x)); easy.
  - intros s t. rewrite mac_val, pairs_lift1. rewrite <- avg_scale.
    replace (avg (fun p => Rabs s * Rabs (snd p - fst p)) (pairs_at 1 x)) with (avg (fun p => Rabs (snd p - fst p)) (map (fun p => (s * fst p + t, s * snd p + t)) (pairs_at 1 x))).
    + destruct (pairs_at 1 x); [easy|reflexivity].
    + rewrite avg_map. apply avg_ext. intros [a b] _. cbn [fst snd]. rewrite <- Rabs_mult. f_equal. ring.
Qed.
Lemma get_cons o x i : get (o :: x) (S i) = get x i.
Proof. reflexivity. Qed.
Lemma pairs1_cons a b l : pairs_at 1 (map Some (a :: b :: l)) = (a, b) :: pairs_at 1 (map Some (b :: l)).
Proof.
  unfold pairs_at. cbn [map length seq flat_map]. change (get (Some a :: Some b :: map Some l) 0) with (Some a).
  change (get (Some a :: Some b :: map Some l) (0 + 1)) with (Some b). cbn [app]. f_equal. cbn [seq flat_map].
  rewrite <- !seq_shift. rewrite !flat_map_map. reflexivity.
Qed.
Lemma pairs1_one a : pairs_at 1 (map Some [a]) = [].
Proof. reflexivity. Qed.
Lemma telescoping a l : l <> [] -> exists v, query_mean_abs_change (map Some (a :: l)) = Some v /\ Rabs (last l a - a) <= INR (length l) * v.
Proof.
  intro N. assert (T : forall l a, Rabs (last l a - a) <= total (fun p => Rabs (snd p - fst p)) (pairs_at 1 (map Some (a :: l))) /\ length (pairs_at 1 (map Some (a :: l))) = length l).
  { clear. induction l as [|b l IH]; intro a.
    - rewrite pairs1_one. cbn. unfold total. cbn. rewrite Rminus_diag_eq, Rabs_R0 by easy. split; [lra|easy].
    - rewrite pairs1_cons. destruct (IH b) as [I L]. split; [|cbn [length]; now rewrite L]. unfold total in *. cbn [map Rsum fst snd] in *.
      replace (last (b :: l) a) with (last l b). 2:{ clear. revert a b. induction l as [|c l IH]; intros a b; [easy|]. cbn [last] in *. destruct l; [easy|]. apply (IH a b). }
      replace (last l b - a) with ((b - a) + (last l b - b)) by ring. eapply Rle_trans; [apply Rabs_triang|]. lra. }
  destruct (T l a) as [I L]. rewrite mac_val. assert (M : pairs_at 1 (map Some (a :: l)) <> []) by (intro E; rewrite E in L; now destruct l).
  exists (avg (fun p => Rabs (snd p - fst p)) (pairs_at 1 (map Some (a :: l)))). split; [now destruct (pairs_at 1 (map Some (a :: l)))|].
  rewrite avg_total, L. assert (0 < INR (length l)) by now apply inr_pos.
  match goal with |- _ <= _ * (?t / _) => replace (INR (length l) * (t / INR (length l))) with t by (field; lra) end. exact I.
Qed.

(** c3 *)
Lemma c3_val x lag : query_c3_stats x lag = xdiv (total (fun t => let '(a, b, c) := t in a * b * c) (triples_at lag x)) (u32R (Z.of_nat (length x) - Z.of_nat (2 * lag))).
Proof.
  unfold query_c3_stats, csum. rewrite values_c3. f_equal. unfold total. f_equal. apply map_ext. intros [[a b] c]. ring.
Qed.
Lemma u32_small z : (0 <= z < 2 ^ 32)%Z -> u32R z = IZR z.
Proof. intro H. unfold u32R. now rewrite Z.mod_small. Qed.
Lemma c3_thm x lag : (Z.of_nat (length x) < 2 ^ 32)%Z -> (2 * lag < length x)%nat ->
  exists v, query_c3_stats x lag = Fin v /\ v = total (fun t => let '(a, b, c) := t in a * b * c) (triples_at lag x) / INR (length x - 2 * lag) /\
    query_c3_stats (rev x) lag = Fin v /\
    (forall l, x = map Some l -> v = avg (fun t => let '(a, b, c) := t in a * b * c) (triples_at lag x)).
Proof.
  intros B L. assert (0 < INR (length x - 2 * lag)) as P by (apply lt_0_INR; lia).
  assert (U : u32R (Z.of_nat (length x) - Z.of_nat (2 * lag)) = INR (length x - 2 * lag)).
  { rewrite u32_small by lia. rewrite INR_IZR_INZ. f_equal. lia. }
  eexists. split; [rewrite c3_val, U; apply xdiv_fin; lra|]. split; [reflexivity|]. split.
  - rewrite c3_val, rev_length, U, xdiv_fin by lra. do 2 f_equal. rewrite (total_perm _ _ _ (triples_rev lag x)), total_map. apply total_ext.
    intros [[a b] c] _. cbn. ring.
  - intros l ->. rewrite avg_total. f_equal. rewrite triples_trunc, map_length. symmetry. f_equal.
    assert (K : forall i, (i < length l)%nat -> exists a, get (map Some l) i = Some a).
    { intros i I. unfold get. rewrite nth_error_map. destruct (nth_error l i) as [a|] eqn:E; [now exists a|]. apply nth_error_None in E. lia. }
    assert (G : forall k m, (k + m + 2 * lag <= length l)%nat -> length (flat_map (fun i => match get (map Some l) i, get (map Some l) (i + lag), get (map Some l) (i + 2 * lag) with
        Some a, Some b, Some c => [(a, b, c)] | _, _, _ => [] end) (seq k m)) = m).
    { intros k m. revert k. induction m as [|m IH]; intros k Q; [easy|]. cbn [seq flat_map]. rewrite app_length, IH by lia.
      destruct (K k) as [a ->]; [lia|]. destruct (K (k + lag)%nat) as [b ->]; [lia|]. destruct (K (k + 2 * lag)%nat) as [c ->]; [lia|]. easy. }
    apply G. rewrite map_length in L. lia.
Qed.
Lemma c3_short x lag : (Z.of_nat (length x) < 2 ^ 32)%Z -> (length x = 2 * lag)%nat -> query_c3_stats x lag = NaN.
Proof.
  intros B L. rewrite c3_val, triples_trunc. replace (length x - 2 * lag)%nat with 0%nat by lia. cbn [seq flat_map]. unfold total, u32R. cbn [map Rsum].
  replace (Z.of_nat (length x) - Z.of_nat (2 * lag))%Z with 0%Z by lia. rewrite Z.mod_0_l by lia. unfold xdiv. destruct (Req_EM_T 0 0); [|lra]. now destruct (Req_EM_T 0 0).
Qed.
Lemma c3_null_ex : exists x, triples_at 1 x = [(2, 2, 2)] /\ query_c3_stats x 1 = Fin 4.
Proof.
  exists [Some 2; Some 2; Some 2; None]. split; [reflexivity|]. rewrite c3_val. change (triples_at 1 [Some 2; Some 2; Some 2; None]) with [(2, 2, 2)].
  cbn [length]. rewrite u32_small by lia. unfold total. cbn [map Rsum]. replace (IZR (Z.of_nat 4 - Z.of_nat (2 * 1))) with 2 by reflexivity.
  rewrite xdiv_fin by lra. f_equal. field.
Qed.

(** time reversal asymmetry *)
Definition tra_term (t : R * R * R) : R := let '(a, b, c) := t in c ^ 2 * b - b * a ^ 2.
Lemma tra_val x n : query_tra x n = match triples_at n x with [] => None | l => Some (avg tra_term l) end.
Proof.
  unfold query_tra. rewrite values_tra, rmean_avg. destruct (triples_at n x) as [|t l]; [easy|]. f_equal. apply avg_ext. intros [[a b] c] _. unfold tra_term. ring.
Qed.
Lemma tra_thm x n : triples_at n x <> [] ->
  exists v, query_tra x n = Some v /\ v = avg (fun t => let '(a, b, c) := t in c ^ 2 * b - b * a ^ 2) (triples_at n x) /\
    query_tra (rev x) n = Some (- v) /\ (rev x = x -> v = 0) /\
    forall s, query_tra (lift1 (fun y => s * y) x) n = Some (s ^ 3 * v).
Proof.
  intro N. exists (avg tra_term (triples_at n x)). split; [rewrite tra_val; now destruct (triples_at n x)|]. split; [reflexivity|].
  assert (RV : query_tra (rev x) n = Some (- avg tra_term (triples_at n x))).
  { rewrite tra_val. pose proof (triples_rev n x) as P. assert (M : triples_at n (rev x) <> []).
    { apply (perm_nil _ _ (Permutation_sym P)). now apply map_nil. }
    assert (E : avg tra_term (triples_at n (rev x)) = - avg tra_term (triples_at n x)).
    { rewrite (avg_perm _ _ _ P), avg_map. replace (- avg tra_term (triples_at n x)) with (-1 * avg tra_term (triples_at n x)) by ring. rewrite <- avg_scale.
      apply avg_ext. intros [[a b] c] _. unfold tra_term, swap3. ring. }
    rewrite <- E. now destruct (triples_at n (rev x)). }
  split; [exact RV|]. split.
  - intro E. rewrite E, tra_val in RV. destruct (triples_at n x) eqn:Q; [easy|]. injection RV. intro H. lra.
  - intro s. rewrite tra_val, triples_lift1. rewrite <- avg_scale.
    assert (E : avg tra_term (map (fun t : R * R * R => let '(a, b, c) := t in (s * a, s * b, s * c)) (triples_at n x)) = avg (fun t => s ^ 3 * tra_term t) (triples_at n x)).
    { rewrite avg_map. apply avg_ext. intros [[a b] c] _. unfold tra_term. ring. }
    rewrite <- E. destruct (triples_at n x); [easy|reflexivity].
Qed.

(** complexity estimate *)
Definition sqd (p : R * R) : R := (fst p - snd p) ^ 2.
Lemma ce_val x : query_cid_ce x false = Fin (sqrt (total sqd (pairs_at 1 x))).
Proof.
  unfold query_cid_ce. do 2 f_equal. rewrite dot_self, values_up, map_map. reflexivity.
Qed.
Lemma ce_norm x : (2 <= length (values x))%nat -> 0 < var_of (values x) ->
  query_cid_ce x true = Fin (sqrt (total sqd (pairs_at 1 x) / var_of (values x))).
Proof.
  intros L V. unfold query_cid_ce. destruct (Nat.ltb_spec (length (values x)) 2); [lia|]. pose proof (sqrt_lt_R0 _ V) as S.
  destruct (Req_EM_T (sqrt (var_of (values x))) 0); [lra|]. do 2 f_equal. rewrite dot_self, values_up, map_map, pairs_lift1, map_map.
  transitivity (total (fun p => / var_of (values x) * sqd p) (pairs_at 1 x)); [|rewrite total_scale; unfold Rdiv; ring].
  unfold total. f_equal. apply map_ext. intros [a b]. unfold sqd. cbn [fst snd].
  assert (Q : var_of (values x) = sqrt (var_of (values x)) * sqrt (var_of (values x))) by (symmetry; apply sqrt_sqrt; lra).
  set (sd := sqrt (var_of (values x))) in *. clearbody sd. rewrite Q. field. lra.
Qed.
Lemma mean_affine s t l : l <> [] -> mean_of (map (fun y => s * y + t) l) = s * mean_of l + t.
Proof.
  intro N. pose proof (inr_pos l N). unfold mean_of. rewrite map_length. assert (E : Rsum (map (fun y => s * y + t) l) = s * Rsum l + INR (length l) * t).
  { clear. induction l as [|a l IH]; [cbn; ring|]. cbn [map Rsum length]. rewrite S_INR, IH. ring. }
  rewrite E. field. lra.
Qed.
Lemma ssd_affine s t l : l <> [] -> ssd (map (fun y => s * y + t) l) = s ^ 2 * ssd l.
Proof.
  intro N. unfold ssd. rewrite mean_affine by exact N. rewrite map_map. transitivity (total (fun a => s ^ 2 * (a - mean_of l) ^ 2) l); [|apply total_scale]. unfold total. f_equal. apply map_ext. intro a. ring.
Qed.
Lemma var_affine s t l : l <> [] -> var_of (map (fun y => s * y + t) l) = s ^ 2 * var_of l.
Proof. intro N. unfold var_of. 
  fold (ssd (map (fun y => s * y + t) l)). fold (ssd l). rewrite ssd_affine by exact N. rewrite map_length. unfold Rdiv. ring.
Qed.
Lemma mean_perm l l' : Permutation l l' -> mean_of l = mean_of l'.
Proof. intro P. unfold mean_of. rewrite (Permutation_length P). f_equal. induction P; cbn; lra. Qed.
Lemma var_perm l l' : Permutation l l' -> var_of l = var_of l'.
Proof.
  intro P. unfold var_of. rewrite (mean_perm _ _ P), (Permutation_length P). f_equal. apply (total_perm (fun a => (a - mean_of l') ^ 2) l l' P).
Qed.
Lemma sqd_rev x : total sqd (pairs_at 1 (rev x)) = total sqd (pairs_at 1 x).
Proof. rewrite (total_perm _ _ _ (pairs_rev 1 x)), total_map. apply total_ext. intros [a b] _. unfold sqd, swap2. cbn. ring. Qed.
Lemma ce_thm x : exists v, query_cid_ce x false = Fin v /\ v = sqrt (total (fun p => (fst p - snd p) ^ 2) (pairs_at 1 x)) /\
  (v = 0 <-> forall a b, In (a, b) (pairs_at 1 x) -> a = b) /\ query_cid_ce (rev x) false = Fin v /\
  forall s t, query_cid_ce (lift1 (fun y => s * y + t) x) false = Fin (Rabs s * v).
Proof.
  eexists. split; [apply ce_val|]. split; [reflexivity|]. assert (G : 0 <= total sqd (pairs_at 1 x)) by (apply total_ge0; intros; apply pow2_ge_0). split.
  { split.
    - intros E a b I. apply sqrt_eq_0 in E; [|exact G]. rewrite total_zero_iff in E by (intros; apply pow2_ge_0). specialize (E (a, b) I). unfold sqd in E. cbn [fst snd] in E. nra.
    - intro H. rewrite <- sqrt_0. f_equal. apply total_zero_iff; [intros; apply pow2_ge_0|]. intros [a b] I. unfold sqd. cbn [fst snd]. rewrite (H a b I). ring. }
  split; [now rewrite ce_val, sqd_rev|]. intros s t. rewrite ce_val, pairs_lift1, total_map. f_equal.
  rewrite <- sqrt_Rsqr_abs, <- sqrt_mult; [|apply Rle_0_sqr|exact G]. f_equal. rewrite <- total_scale. apply total_ext. intros [a b] _. unfold sqd, Rsqr. cbn [fst snd]. ring.
Qed.
Lemma ce_norm_thm x : (2 <= length (values x))%nat -> 0 < var_of (values x) ->
  exists v, query_cid_ce x true = Fin v /\ v = sqrt (total (fun p => (fst p - snd p) ^ 2) (pairs_at 1 x) / var_of (values x)) /\
    query_cid_ce (rev x) true = Fin v /\ forall s t, s <> 0 -> query_cid_ce (lift1 (fun y => s * y + t) x) true = Fin v.
Proof.
  intros L V. eexists. split; [now apply ce_norm|]. split; [reflexivity|]. split.
  - rewrite ce_norm; rewrite ?(Permutation_length (values_rev x)), ?(var_perm _ _ (values_rev x)); [|exact L|exact V]. now rewrite sqd_rev.
  - intros s t S. assert (N : values x <> []) by (intro E; rewrite E in L; cbn in L; lia). assert (S2 : 0 < s ^ 2) by (rewrite <- Rsqr_pow2; now apply Rlt_0_sqr).
    rewrite ce_norm; rewrite values_lift1, ?map_length, ?var_affine by exact N; [|exact L|nra].
    do 2 f_equal. rewrite pairs_lift1, total_map. rewrite (total_ext _ (fun p => s ^ 2 * sqd p)).
    + rewrite total_scale. field. split; [lra|exact S].
    + intros [a b] _. unfold sqd. cbn [fst snd]. ring.
Qed.

(** autocorrelation *)
Lemma cmean_mean x : cmean x = mean_of (values x).
Proof. reflexivity. Qed.
Lemma ac_val x lag ddof : (ddof < length (values x))%nat -> (lag < length x)%nat -> 0 < ssd (values x) ->
  query_auto_corr x lag ddof true = Some (Fin (total (fun p => (fst p - mean_of (values x)) * (snd p - mean_of (values x))) (pairs_at lag x) /
    (INR (length x - lag) * (ssd (values x) / INR (length (values x) - ddof))))).
Proof.
  intros D L S. unfold query_auto_corr. destruct (Nat.leb_spec (length (values x)) ddof); [lia|]. destruct (Nat.ltb_spec (length x) lag); [lia|].
  rewrite !cmean_mean. fold (ssd (values x)). assert (0 < INR (length x - lag)) by (apply lt_0_INR; lia). assert (0 < INR (length (values x) - ddof)) by (apply lt_0_INR; lia).
  rewrite xdiv_fin.
  - do 3 f_equal. unfold dot, csum. rewrite values_up, pairs_lift1, map_map. reflexivity.
  - apply Rgt_not_eq. apply Rmult_lt_0_compat; [lra|]. now apply Rdiv_lt_0_compat.
Qed.
Lemma ac_bound x lag ddof v : (ddof < length (values x))%nat -> (lag < length x)%nat -> 0 < ssd (values x) ->
  query_auto_corr x lag ddof true = Some (Fin v) -> Rabs v <= INR (length (values x) - ddof) / INR (length x - lag).
Proof.
  intros D L S E. rewrite ac_val in E by assumption. injection E as <-. set (m := mean_of (values x)).
  assert (C : Rabs (total (fun p => (fst p - m) * (snd p - m)) (pairs_at lag x)) <= ssd (values x)).
  { pose proof (pairs_cauchy lag (lift1 (fun v => v - m) x)) as C. rewrite pairs_lift1, total_map, values_lift1 in C. unfold total at 2 in C. rewrite map_map in C. exact C. }
  set (T := total _ _) in *. clearbody T. clear m. assert (P1 : 0 < INR (length x - lag)) by (apply lt_0_INR; lia). assert (P2 : 0 < INR (length (values x) - ddof)) by (apply lt_0_INR; lia).
  set (A := INR (length x - lag)) in *. set (B := INR (length (values x) - ddof)) in *. set (Q := ssd (values x)) in *. clearbody A B Q.
  assert (PD : 0 < A * (Q / B)) by (apply Rmult_lt_0_compat; [lra|]; now apply Rdiv_lt_0_compat).
  unfold Rdiv at 1. rewrite Rabs_mult, Rabs_inv, (Rabs_pos_eq (A * (Q / B))) by lra. fold (Rdiv (Rabs T) (A * (Q / B))).
  apply (Rmult_le_reg_r (A * (Q / B))); [lra|]. replace (Rabs T / (A * (Q / B)) * (A * (Q / B))) with (Rabs T) by (field; repeat split; lra).
  replace (B / A * (A * (Q / B))) with Q by (field; lra). exact C.
Qed.
Lemma pairs0 x : pairs_at 0 x = map (fun v => (v, v)) (values x).
Proof.
  unfold pairs_at. rewrite values_get, map_flat. apply flat_ext. intros i _. rewrite Nat.add_0_r. now destruct (get x i).
Qed.
Lemma ac_thm x lag ddof : (ddof < length (values x))%nat -> (lag < length x)%nat -> 0 < ssd (values x) ->
  exists v, query_auto_corr x lag ddof true = Some (Fin v) /\
    v = total (fun p => (fst p - mean_of (values x)) * (snd p - mean_of (values x))) (pairs_at lag x) / (INR (length x - lag) * (ssd (values x) / INR (length (values x) - ddof))) /\
    Rabs v <= INR (length (values x) - ddof) / INR (length x - lag) /\
    query_auto_corr (rev x) lag ddof true = Some (Fin v) /\
    forall s t, s <> 0 -> query_auto_corr (lift1 (fun y => s * y + t) x) lag ddof true = Some (Fin v).
Proof.
  intros D L S. eexists. split; [now apply ac_val|]. split; [reflexivity|]. split; [now apply (ac_bound x lag ddof _ D L S), ac_val|]. split.
  - pose proof (values_rev x) as P. assert (SP : ssd (values (rev x)) = ssd (values x)).
    { unfold ssd. rewrite (mean_perm _ _ P). apply (total_perm (fun a => (a - mean_of (values x)) ^ 2) _ _ P). }
    rewrite ac_val; rewrite ?SP, ?rev_length, ?(Permutation_length P); [|exact D|exact L|exact S]. rewrite (mean_perm _ _ P). do 3 f_equal.
    rewrite (total_perm _ _ _ (pairs_rev lag x)), total_map. apply total_ext. intros [a b] _. cbn. ring.
  - intros s t Z. assert (N : values x <> []) by (intro E; rewrite E in D; cbn in D; lia). assert (S2 : 0 < s ^ 2) by (rewrite <- Rsqr_pow2; now apply Rlt_0_sqr).
    assert (LL : length (lift1 (fun y => s * y + t) x) = length x) by (unfold lift1; apply map_length).
    rewrite ac_val; rewrite ?values_lift1, ?LL, ?map_length, ?ssd_affine by exact N; [|exact D|exact L|nra].
    rewrite mean_affine by exact N. rewrite pairs_lift1, total_map. do 2 f_equal.
    rewrite (total_ext _ (fun p => s ^ 2 * ((fst p - mean_of (values x)) * (snd p - mean_of (values x))))) by (intros [a b] _; cbn; ring).
    rewrite total_scale. assert (0 < INR (length x - lag)) by (apply lt_0_INR; lia). assert (0 < INR (length (values x) - ddof)) by (apply lt_0_INR; lia). field. repeat split; lra.
Qed.
Lemma ac_lag0 x : (forall o, In o x -> o <> None) -> x <> [] -> 0 < ssd (values x) -> query_auto_corr x 0 0 true = Some (Fin 1).
Proof.
  intros K N S. assert (LV : length (values x) = length x).
  { clear - K. induction x as [|[a|] x IH]; [easy| |exfalso; apply (K None); [now left|easy]]. cbn. rewrite <- IH; [reflexivity|]. intros o I. apply K. now right. }
  assert (0 < length x)%nat by (destruct x; [easy|cbn; lia]). assert (0 < INR (length x)) by now apply lt_0_INR.
  rewrite ac_val by (rewrite ?LV; assumption || lia). rewrite pairs0, total_map, LV, Nat.sub_0_r. do 2 f_equal. cbn [fst snd].
  rewrite (total_ext _ (fun v => (v - mean_of (values x)) ^ 2)) by (intros; ring). change (total (fun v => (v - mean_of (values x)) ^ 2) (values x)) with (ssd (values x)). field. lra.
Qed.
Lemma ac_ex : exists x, length x = 5%nat /\ query_auto_corr x 4 0 true = Some (Fin (3 / 2)).
Proof.
  exists [Some 1; Some 0; Some 0; Some 0; Some 1]. split; [easy|].
  assert (E : ssd (values [Some 1; Some 0; Some 0; Some 0; Some 1]) = 6 / 5) by (unfold ssd, mean_of; cbn; field).
  rewrite ac_val; [|cbn; lia|cbn; lia|lra]. rewrite E. change (pairs_at 4 [Some 1; Some 0; Some 0; Some 0; Some 1]) with [(1, 1)]. do 2 f_equal.
  unfold total, mean_of. cbn. field.
Qed.
Lemma ac_null_ex : exists x, pairs_at 1 x = [(1, -1)] /\ query_auto_corr x 1 0 true = Some (Fin (- (1 / 2))).
Proof.
  exists [Some 1; Some (-1); None]. split; [reflexivity|].
  assert (E : ssd (values [Some 1; Some (-1); None]) = 2) by (unfold ssd, mean_of; cbn; field).
  rewrite ac_val; [|cbn; lia|cbn; lia|lra]. rewrite E. change (pairs_at 1 [Some 1; Some (-1); None]) with [(1, -1)]. do 2 f_equal.
  unfold total, mean_of. cbn. field.
Qed.
Lemma ac_raw x lag ddof : query_auto_corr x lag ddof false = match pairs_at lag x with [] => None | l => Some (Fin (avg (fun p => fst p * snd p) l)) end.
Proof. unfold query_auto_corr. rewrite values_up, rmean_avg. destruct (pairs_at lag x); reflexivity. Qed.
