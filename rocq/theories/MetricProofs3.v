(** Percentage errors, log loss, scaled errors and fairness. *)
From Coq Require Import Reals List Lra Lia Psatz Permutation.
From Coq Require Import ZArith.
From Verif Require Import WStatsSpec WStatsModel WStatsProofs MetricSpec MetricModel MetricProofs MetricProofs2.
Import ListNotations.
Open Scope R_scope.

Lemma fold_nan l : fold_left xadd l NaN = NaN.
Proof. induction l as [|a l IH]; cbn; [easy|]. exact IH. Qed.
Lemma xadd_nan x : xadd x NaN = NaN.
Proof. now destruct x. Qed.
Lemma xsum_nan l : In NaN l -> xsum l = NaN.
Proof.
  unfold xsum. generalize (Fin 0). induction l as [|a l IH]; intros s I; [easy|]. cbn. destruct I as [->|I].
  - rewrite xadd_nan. apply fold_nan.
  - now apply IH.
Qed.
Lemma xsum_pinf l : In PInf l -> (forall x, In x l -> x = PInf \/ exists r, x = Fin r) -> xsum l = PInf.
Proof.
  unfold xsum. intros I H. assert (G : forall l s, (forall x, In x l -> x = PInf \/ exists r, x = Fin r) ->
    (s = PInf \/ (exists r, s = Fin r) /\ In PInf l) -> fold_left xadd l s = PInf).
  { clear. induction l as [|a l IH]; intros s H [->|[[r ->] I]]; cbn; try easy.
    - apply IH; [intros; apply H; now right|]. left. destruct (H a (or_introl eq_refl)) as [->|[r ->]]; easy.
    - apply IH; [intros; apply H; now right|]. destruct I as [->|I]; [now left|].
      destruct (H a (or_introl eq_refl)) as [->|[r' ->]]; [now left|]. right. split; [cbn; eauto|exact I]. }
  apply G; [exact H|]. right. split; eauto.
Qed.
Lemma xsum_ninf l : In NInf l -> (forall x, In x l -> x = NInf \/ exists r, x = Fin r) -> xsum l = NInf.
Proof.
  unfold xsum. intros I H. assert (G : forall l s, (forall x, In x l -> x = NInf \/ exists r, x = Fin r) ->
    (s = NInf \/ (exists r, s = Fin r) /\ In NInf l) -> fold_left xadd l s = NInf).
  { clear. induction l as [|a l IH]; intros s H [->|[[r ->] I]]; cbn; try easy.
    - apply IH; [intros; apply H; now right|]. left. destruct (H a (or_introl eq_refl)) as [->|[r ->]]; easy.
    - apply IH; [intros; apply H; now right|]. destruct I as [->|I]; [now left|].
      destruct (H a (or_introl eq_refl)) as [->|[r' ->]]; [now left|]. right. split; [cbn; eauto|exact I]. }
  apply G; [exact H|]. right. split; eauto.
Qed.

Lemma xmean_nil l : xvalues l <> [] -> xmean l = Some (xover (xsum (xvalues l)) (INR (length (xvalues l)))).
Proof. unfold xmean. destruct (xvalues l); easy. Qed.
(** sMAPE *)
Lemma smape_val a p : pred_known a p -> complete a p <> [] -> ~ In (0, 0) (complete a p) ->
  query_smape a p = Fin (avg srel (complete a p)).
Proof.
  intros K N Z. unfold query_smape. rewrite xvalues_xlift2, (count_known a p K).
  assert (map (fun r => xdiv (Rabs (fst r - snd r)) (Rabs (fst r) + Rabs (snd r))) (complete a p) = map Fin (map srel (complete a p))) as ->.
  { rewrite map_map. apply map_ext_in. intros [u v] I. cbn. apply xdiv_fin. intro E.
    pose proof (Rabs_pos u). pose proof (Rabs_pos v).
    destruct (Req_dec u 0) as [->|U]; [destruct (Req_dec v 0) as [->|V]; [easy|apply Rabs_pos_lt in V; lra]|apply Rabs_pos_lt in U; lra]. }
  rewrite xsum_fin. cbn [xover]. rewrite xdiv_fin by (apply Rgt_not_eq, inr_pos, N). now rewrite avg_total.
Qed.
Lemma smape_nan a p : In (0, 0) (complete a p) -> query_smape a p = NaN.
Proof.
  intro I. unfold query_smape. rewrite xvalues_xlift2, xsum_nan; [easy|]. apply in_map_iff. exists (0, 0). split; [|exact I]. cbn.
  unfold xdiv. rewrite !Rminus_0_r, Rabs_R0, Rplus_0_r. destruct (Req_EM_T 0 0); easy.
Qed.
Lemma srel_bounds r : r <> (0, 0) -> 0 <= srel r <= 1 /\ (srel r = 0 <-> fst r = snd r) /\ (srel r = 1 <-> fst r * snd r <= 0).
Proof.
  destruct r as [u v]. intro Z. unfold srel, err. cbn.
  assert (0 < Rabs u + Rabs v) as P.
  { pose proof (Rabs_pos u). pose proof (Rabs_pos v).
    destruct (Req_dec u 0) as [->|U]; [destruct (Req_dec v 0) as [->|V]; [easy|apply Rabs_pos_lt in V; lra]|apply Rabs_pos_lt in U; lra]. }
  pose proof (Rabs_pos (u - v)) as G. pose proof (Rabs_triang u (- v)) as T. rewrite Rabs_Ropp in T. fold (u - v) in T.
  set (d := Rabs u + Rabs v) in *. set (x := Rabs (u - v)) in *.
  assert (Hx : x / d * d = x) by (unfold Rdiv; rewrite Rmult_assoc, Rinv_l; lra).
  set (q := x / d) in *. split; [split; nra|]. split.
  - split; intro E.
    + assert (x = 0) by nra. unfold x in H. destruct (Req_dec (u - v) 0); [lra|]. apply Rabs_pos_lt in H0. lra.
    + assert (x = 0) by (unfold x; rewrite E, Rminus_diag_eq by easy; apply Rabs_R0). nra.
  - split; intro E.
    + assert (x = d) as Ed by nra. destruct (Rle_dec (u * v) 0) as [L|L]; [exact L|]. exfalso.
      unfold x, d, Rabs in Ed. destruct (Rcase_abs (u - v)), (Rcase_abs u), (Rcase_abs v); nra.
    + assert (x = d); [|nra]. unfold x, d, Rabs. destruct (Rcase_abs (u - v)), (Rcase_abs u), (Rcase_abs v); nra.
Qed.
Lemma avg_one {A} (f : A -> R) l : l <> [] -> (forall x, In x l -> f x <= 1) -> (avg f l = 1 <-> forall x, In x l -> f x = 1).
Proof.
  intros N H. assert (E : avg (fun x => 1 - f x) l = 1 - avg f l).
  { rewrite !avg_total. rewrite (total_ext (fun x => 1 - f x) (fun x => 1 + -1 * f x)) by (intros; ring).
    rewrite total_add, total_scale, total_const. field. apply Rgt_not_eq, inr_pos, N. }
  pose proof (avg_zero_iff (fun x => 1 - f x) l N) as Z. rewrite E in Z. destruct Z as [Z1 Z2]; [intros x I; specialize (H x I); lra|].
  split; intro G.
  - intros x I. assert (1 - f x = 0); [apply Z1; [lra|exact I]|lra].
  - assert (1 - avg f l = 0); [|lra]. apply Z2. intros x I. rewrite (G x I). ring.
Qed.

(** MAPE *)
Lemma mape_val a p : complete a p <> [] -> (forall r, In r (complete a p) -> fst r <> 0) ->
  query_mape a p false = Some (Fin (avg (fun r => Rabs (err r) / Rabs (fst r)) (complete a p))).
Proof.
  intros N Z. unfold query_mape.
  assert (map (fun r => xabs (xadd (Fin 1) (xneg (xdiv (snd r) (fst r))))) (complete a p) =
          map Fin (map (fun r => Rabs (err r) / Rabs (fst r)) (complete a p))) as E.
  { rewrite map_map. apply map_ext_in. intros [u v] I. cbn. specialize (Z _ I). cbn in Z. rewrite xdiv_fin by exact Z. cbn. f_equal.
    unfold err. cbn. unfold Rdiv at 2. rewrite <- Rabs_inv, <- Rabs_mult. f_equal. field. exact Z. }
  rewrite xmean_nil; rewrite xvalues_xlift2, E; [|destruct (complete a p); easy].
  rewrite xsum_fin, !map_length. cbn [xover]. rewrite xdiv_fin by (apply Rgt_not_eq, inr_pos, N). now rewrite avg_total.
Qed.
Lemma mape_zero a p : (exists v, In (0, v) (complete a p)) -> forall r, query_mape a p false <> Some (Fin r).
Proof.
  intros [v I] r. unfold query_mape, xmean. rewrite xvalues_xlift2. set (g := fun r => xabs _). set (l := map g (complete a p)).
  assert (B : exists b, In b l /\ (b = PInf \/ b = NaN)).
  { exists (g (0, v)). split; [apply in_map, I|]. unfold g. cbn. unfold xdiv. destruct (Req_EM_T 0 0); [|easy].
    destruct (Req_EM_T v 0); [now right|]. destruct (Rlt_dec 0 v); now left. }
  assert (S : forall x, xsum l <> Fin x).
  { destruct B as [b [Ib Hb]]. revert Ib Hb. unfold xsum. generalize l. clear. intro l.
    assert (forall l s, (forall x, s <> Fin x) -> forall x, fold_left xadd l s <> Fin x) as G.
    { clear. induction l as [|c l IH]; intros s H x; cbn; [apply H|]. apply IH. intros y. destruct s; [now specialize (H r)|..]; destruct c; easy. }
    generalize (Fin 0). induction l as [|c l IH]; intros s I H x; [easy|]. cbn. destruct I as [->|I]; [|now apply IH].
    apply G. intro y. destruct s, H as [->| ->]; easy. }
  destruct l as [|c l']; [easy|]. intro E. injection E as E. destruct (xsum (c :: l')) eqn:Es; try discriminate. now apply (S r0).
Qed.
Lemma wmape_val a p : pred_known a p -> query_mape a p true = Some (xdiv (total (fun r => Rabs (err r)) (complete a p)) (total (fun r => Rabs (fst r)) (complete a p))).
Proof.
  intro K. unfold query_mape, csum. rewrite !values_lift1, values_lift2, map_map, (values_known a p K), map_map. reflexivity.
Qed.

(** Log loss *)
Definition bin (l : list (R * R)) : Prop := forall r, In r l -> (fst r = 0 \/ fst r = 1) /\ 0 <= snd r <= 1.
Lemma term_val u v : (u = 0 \/ u = 1) -> 0 <= v <= 1 ->
  xadd (xlogy u v) (xlogy (1 - u) (1 - v)) = if Req_EM_T (prob_true (u, v)) 0 then NInf else Fin (ln (prob_true (u, v))).
Proof.
  intros [->| ->] V; unfold xlogy, prob_true, xln; cbn [fst snd].
  - destruct (Req_EM_T 0 0) as [_|]; [|easy]. destruct (Req_EM_T 0 1); [lra|]. destruct (Req_EM_T (1 - 0) 0); [lra|].
    destruct (Req_EM_T (1 - v) 0) as [E|E].
    + destruct (Rlt_dec 0 (1 - v)); [lra|]. cbn. destruct (Req_EM_T (1 - 0) 0); [lra|]. destruct (Rlt_dec 0 (1 - 0)); [easy|lra].
    + destruct (Rlt_dec 0 (1 - v)); [|lra]. cbn. f_equal. ring.
  - destruct (Req_EM_T 1 0); [lra|]. destruct (Req_EM_T (1 - 1) 0); [|lra]. destruct (Req_EM_T 1 1); [|easy].
    destruct (Req_EM_T v 0) as [E|E].
    + destruct (Rlt_dec 0 v); [lra|]. cbn. destruct (Req_EM_T 1 0); [lra|]. destruct (Rlt_dec 0 1); [easy|lra].
    + destruct (Rlt_dec 0 v); [|lra]. cbn. f_equal. ring.
Qed.
Lemma terms_val a p : bin (complete a p) ->
  xvalues (log_terms a p) = map (fun r => if Req_EM_T (prob_true r) 0 then NInf else Fin (ln (prob_true r))) (complete a p).
Proof.
  intro B. unfold log_terms. rewrite xvalues_xlift2. apply map_ext_in. intros [u v] I. destruct (B _ I). now apply term_val.
Qed.
Lemma ll_fin a p : bin (complete a p) -> complete a p <> [] -> (forall r, In r (complete a p) -> prob_true r <> 0) ->
  query_log_loss a p true = Some (Fin (avg (fun r => - ln (prob_true r)) (complete a p))) /\
  query_log_loss a p false = Some (Fin (total (fun r => - ln (prob_true r)) (complete a p))).
Proof.
  intros B N H. unfold query_log_loss. pose proof (terms_val a p B) as T.
  assert (T' : xvalues (log_terms a p) = map Fin (map (fun r => ln (prob_true r)) (complete a p))).
  { rewrite T, map_map. apply map_ext_in. intros r I. destruct (Req_EM_T (prob_true r) 0); [now apply H in e|easy]. }
  assert (E : total (fun r => - ln (prob_true r)) (complete a p) = - Rsum (map (fun r => ln (prob_true r)) (complete a p))).
  { rewrite (total_ext _ (fun r => -1 * ln (prob_true r))) by (intros; ring). rewrite total_scale. unfold total. ring. }
  rewrite xmean_nil, T', xsum_fin, !map_length; [|rewrite T'; destruct (complete a p); easy].
  cbn [option_map xover xneg]. rewrite xdiv_fin by (apply Rgt_not_eq, inr_pos, N). cbn [xneg]. rewrite avg_total, E.
  split; [|reflexivity]. f_equal. f_equal. unfold Rdiv. ring.
Qed.
Lemma ll_inf a p norm : bin (complete a p) -> (exists r, In r (complete a p) /\ prob_true r = 0) ->
  query_log_loss a p norm = Some PInf.
Proof.
  intros B [r [I Z]]. pose proof (terms_val a p B) as T. assert (S : xsum (xvalues (log_terms a p)) = NInf).
  { apply xsum_ninf; rewrite T.
    - apply in_map_iff. exists r. split; [|exact I]. destruct (Req_EM_T (prob_true r) 0); easy.
    - intros x Ix. apply in_map_iff in Ix. destruct Ix as [r' [<- _]]. destruct (Req_EM_T (prob_true r') 0); eauto. }
  unfold query_log_loss. destruct norm; [|now rewrite S]. rewrite xmean_nil, S; [easy|]. rewrite T. destruct (complete a p); easy.
Qed.
Lemma prob_le1 l : bin l -> forall r, In r l -> 0 <= prob_true r <= 1.
Proof. intros B r I. destruct (B r I) as [_ V]. unfold prob_true. destruct (Req_EM_T _ _); lra. Qed.
Lemma nln_ge0 x : 0 < x <= 1 -> 0 <= - ln x.
Proof. intros [P [L| ->]]; [|rewrite ln_1; lra]. pose proof (ln_increasing x 1 P L). rewrite ln_1 in H. lra. Qed.
Lemma nln_zero x : 0 < x -> - ln x = 0 -> x = 1.
Proof. intros P E. apply ln_inv; [exact P|lra|rewrite ln_1; lra]. Qed.
Lemma prob_one l : bin l -> ((forall r, In r l -> prob_true r = 1) <-> all_equal l).
Proof.
  intro B. unfold all_equal, prob_true. split.
  - intros H u v I. specialize (H _ I). destruct (B _ I) as [L _]. cbn in *. destruct (Req_EM_T u 1); [lra|]. destruct L; lra.
  - intros H [u v] I. specialize (H _ _ I). destruct (B _ I) as [L _]. cbn in *. destruct (Req_EM_T u 1); [lra|]. destruct L; lra.
Qed.
