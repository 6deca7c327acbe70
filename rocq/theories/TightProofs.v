(** Further facts about single branches of the metric, descriptive, scalar and weighted-mean functions. *)
From Coq Require Import Reals List ZArith Lra Lia.
From Verif Require Import WStatsSpec WStatsModel WStatsProofs MetricSpec MetricModel MetricProofs DescModel DescProofs FloatxModel.
Import ListNotations.
Open Scope R_scope.

Lemma mid_range_ok x hi lo : greatest (values x) hi -> In lo (values x) -> (forall v, In v (values x) -> lo <= v) ->
  query_mid_range x = Some ((hi - lo) / 2).
Proof.
  intros [HI HG] LI LG. unfold query_mid_range, rmax, rmin. destruct (values x) as [|a l]; [contradiction|].
  destruct (rmax_fold l a) as [I G]. destruct (rmin_fold l a) as [I' G'].
  replace (fold_left Rmax l a) with hi by (apply Rle_antisym; [now apply G|now apply HG]).
  replace (fold_left Rmin l a) with lo by (apply Rle_antisym; [now apply LG|now apply G']). reflexivity.
Qed.
Lemma mid_range_none x : values x = [] -> query_mid_range x = None.
Proof. unfold query_mid_range. now intros ->. Qed.
Lemma mid_range_bad : exists a b v, a < b /\ query_mid_range [Some a; Some b] = Some v /\ v < a /\ v <> (a + b) / 2.
Proof.
  exists 10, 12, 1. repeat split; try lra. rewrite (mid_range_ok _ 12 10).
  - f_equal. lra.
  - split; [cbn; auto|]. cbn. intros v [<-|[<-|[]]]; lra.
  - cbn; auto.
  - cbn. intros v [<-|[<-|[]]]; lra.
Qed.

Lemma fract_ints x : length (pl_fract (Ints x)) = length x /\
  forall i v, nth_error x i = Some v -> nth_error (pl_fract (Ints x)) i = Some (Some (Fin 0)).
Proof.
  cbn. split; [apply repeat_length|]. induction x as [|a x IH]; intros [|i] v; cbn; try easy. apply IH.
Qed.

Lemma xlogy_inf y : 0 < y ->
  (1 < y -> xlogy PInf (Fin y) = PInf /\ xlogy NInf (Fin y) = NInf) /\
  (y < 1 -> xlogy PInf (Fin y) = NInf /\ xlogy NInf (Fin y) = PInf) /\
  (y = 1 -> xlogy PInf (Fin y) = NaN /\ xlogy NInf (Fin y) = NaN).
Proof.
  intro Y. unfold xlogy, is_zero, xln, xmul. cbn [andb]. destruct (Rlt_dec 0 y) as [_|]; [|lra]. repeat split; intros.
  all: try (assert (L : 0 < ln y) by (rewrite <- ln_1; apply ln_increasing; lra)).
  all: try (assert (L : ln y < 0) by (rewrite <- ln_1; apply ln_increasing; lra)).
  all: try (assert (L : ln y = 0) by (subst; apply ln_1)).
  all: destruct (Rlt_dec 0 (ln y)); destruct (Rlt_dec (ln y) 0); try reflexivity; lra.
Qed.

Lemma whm_normalized x w : Forall (fun a => a <> 0) x -> x <> [] -> Rsum w = 1 ->
  weighted_hmean (map Some x) (map Some w) true = 1 / INR (length x) /\
  weighted_hmean (map Some x) (map Some w) true = weighted_hmean (map Some x) (map Some w) false.
Proof.
  intros X E W. assert (S : weighted_hmean (map Some x) (map Some w) true = weighted_hmean (map Some x) (map Some w) false).
  { unfold weighted_hmean. cbv zeta. replace (csum (map Some w)) with (Rsum w); [rewrite W; f_equal; lra|].
    unfold csum. f_equal. induction w; cbn; [reflexivity|]. f_equal. clear -a. induction w; cbn; congruence. }
  split; [|exact S]. rewrite S, whm_some by assumption. now rewrite W.
Qed.

Lemma dot_self_nonneg x : 0 <= dot x x.
Proof.
  rewrite dot_self. induction (values x) as [|a l IH]; cbn [map Rsum]; [lra|]. assert (0 <= a ^ 2) by (apply pow2_ge_0). lra.
Qed.
Lemma adj_saturated a p v : query_r2 a p = Fin v -> v < 1 -> (2 <= length a)%nat -> (Z.of_nat (length a) < 2 ^ 32)%Z ->
  query_adj_r2 a p (Z.of_nat (length a)) = NInf.
Proof.
  intros E V L B. unfold query_r2, one_minus, xdiv in E.
  assert (T : 0 <= sum_tot a) by (apply dot_self_nonneg). assert (S : 0 <= sum_res a p) by (apply dot_self_nonneg).
  destruct (Req_EM_T (sum_tot a) 0) as [|NT]; [destruct (Req_EM_T (sum_res a p) 0); [discriminate|]; destruct (Rlt_dec 0 (sum_res a p)); discriminate|].
  cbn in E. injection E as E.
  assert (SP : sum_res a p <> 0). { intro Z0. rewrite Z0 in E. unfold Rdiv in E. rewrite Rmult_0_l in E. lra. }
  unfold query_adj_r2, u32R. cbv zeta. rewrite Z.sub_diag, Z.mod_0_l by lia. rewrite Z.mod_small by lia.
  assert (N1 : 0 < IZR (Z.of_nat (length a) - 1)) by (apply IZR_lt; lia).
  unfold xdiv at 1. destruct (Req_EM_T (IZR 0) 0) as [_|]; [|exfalso; now apply n].
  destruct (Req_EM_T (sum_res a p) 0); [contradiction|]. destruct (Rlt_dec 0 (sum_res a p)); [|lra].
  unfold xdiv. destruct (Req_EM_T (IZR (Z.of_nat (length a) - 1)) 0); [lra|].
  assert (0 < sum_tot a / IZR (Z.of_nat (length a) - 1)) by (apply Rdiv_lt_0_compat; lra).
  unfold xquot. destruct (Rlt_dec _ 0); [lra|]. reflexivity.
Qed.
Lemma saturated_case : exists v, query_r2 [Some 0; Some 2] [Some 0; Some 1] = Fin v /\ v < 1.
Proof.
  assert (T : sum_tot [Some 0; Some 2] = 2) by (unfold sum_tot, dot, cmean, csum, ccount; cbn; lra).
  assert (S : sum_res [Some 0; Some 2] [Some 0; Some 1] = 1) by (unfold sum_res, dot; cbn; lra).
  unfold query_r2, one_minus, xdiv. rewrite T, S. destruct (Req_EM_T 2 0); [lra|]. eexists. split; [reflexivity|lra].
Qed.
