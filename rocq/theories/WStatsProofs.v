From Coq Require Import Reals List Lia Lra Psatz.
From Coquelicot Require Import Rcomplements.
From Verif Require Import WStatsSpec WStatsModel.
Import ListNotations.
Open Scope R_scope.

Lemma Rsum_app a b : Rsum (a ++ b) = Rsum a + Rsum b.
Proof. induction a as [|x a IH]; cbn [app Rsum]; [ring|]. rewrite IH. ring. Qed.
Lemma Rsum_ge0 l : Forall (fun a => 0 <= a) l -> 0 <= Rsum l.
Proof. induction 1; cbn; [lra|]. lra. Qed.
Lemma Rsum_gt0 l : l <> [] -> Forall (fun a => 0 < a) l -> 0 < Rsum l.
Proof.
  intros N H. destruct H as [|a l Ha H]; [congruence|]. cbn. assert (0 <= Rsum l).
  { apply Rsum_ge0. eapply Forall_impl; [|exact H]. intros; lra. } lra.
Qed.
Lemma values_some l : values (map Some l) = l.
Proof. induction l as [|a l IH]; cbn; [reflexivity|]. unfold values in *. now rewrite IH. Qed.
Lemma lift1_some f l : lift1 f (map Some l) = map Some (map f l).
Proof. unfold lift1. rewrite !map_map. reflexivity. Qed.
Lemma lift2_some f a b : lift2 f (map Some a) (map Some b) = map Some (map (fun p => f (fst p) (snd p)) (combine a b)).
Proof.
  unfold lift2. revert b. induction a as [|x a IH]; intros [|y b]; cbn; try reflexivity. now rewrite IH.
Qed.
Lemma csum_some l : csum (map Some l) = Rsum l.
Proof. unfold csum. now rewrite values_some. Qed.
Lemma ccount_some l : ccount (map Some l) = INR (length l).
Proof. unfold ccount. now rewrite values_some. Qed.
Lemma dot_some a b : dot (map Some a) (map Some b) = Rsum (map (fun p => fst p * snd p) (combine a b)).
Proof. unfold dot. now rewrite lift2_some, csum_some. Qed.

(** Columns without nulls, seen as rows. *)
Lemma combine_fst {A B} (r : list (A * B)) : combine (map fst r) (map snd r) = r.
Proof. induction r as [|[a b] r IH]; cbn; [reflexivity|]. now rewrite IH. Qed.
Lemma wm_rows r : weighted_mean (map Some (map fst r)) (map Some (map snd r)) false = wsum (fun a => a) r / wtotal r.
Proof.
  unfold weighted_mean. rewrite dot_some, csum_some, combine_fst. unfold wsum, wtotal. do 2 f_equal. apply map_ext. intros [a b]. cbn. ring.
Qed.
Lemma dot_w_f f r : dot (map Some (map snd r)) (lift1 f (map Some (map fst r))) = wsum f r.
Proof.
  rewrite lift1_some, dot_some. unfold wsum. f_equal. induction r as [|[a b] r IH]; cbn; [reflexivity|]. now rewrite IH.
Qed.
Lemma wv_rows r b : weighted_var (map Some (map fst r)) (map Some (map snd r)) b =
  wsum (fun a => (a - wsum (fun a => a) r / wtotal r) ^ 2) r / (if b then wtotal r - 1 else wtotal r).
Proof.
  unfold weighted_var. rewrite wm_rows, dot_w_f, csum_some. fold (wtotal r). now destruct b.
Qed.

Lemma wsum_ext f g r : (forall p, In p r -> f (fst p) = g (fst p)) -> wsum f r = wsum g r.
Proof. intros H. unfold wsum. f_equal. apply map_ext_in. intros p Hp. now rewrite H. Qed.
Lemma wsum_le f g r : Forall (fun p => 0 < snd p) r -> (forall p, In p r -> f (fst p) <= g (fst p)) -> wsum f r <= wsum g r.
Proof.
  intros P. induction P as [|p r Hp P IH]; intros H; unfold wsum; cbn; [lra|]. 
  fold (wsum f r) (wsum g r). assert (snd p * f (fst p) <= snd p * g (fst p)) by (apply Rmult_le_compat_l; [lra|apply H; now left]).
  specialize (IH (fun q Hq => H q (or_intror Hq))). lra.
Qed.
Lemma wsum_const c r : wsum (fun _ => c) r = c * wtotal r.
Proof.
  unfold wsum, wtotal. induction r as [|p r IH]; cbn; [ring|]. rewrite IH. ring.
Qed.
Lemma wsum_lin a f b g r : wsum (fun v => a * f v + b * g v) r = a * wsum f r + b * wsum g r.
Proof.
  unfold wsum. induction r as [|p r IH]; cbn; [ring|]. rewrite IH. ring.
Qed.
Lemma wtotal_pos r : r <> [] -> Forall (fun p => 0 < snd p) r -> 0 < wtotal r.
Proof. intros N P. apply Rsum_gt0; [now destruct r|]. rewrite Forall_map. exact P. Qed.

Lemma wm_bounds r lo hi : r <> [] -> Forall (fun p => 0 < snd p) r -> Forall (fun p => lo <= fst p <= hi) r ->
  lo <= weighted_mean (map Some (map fst r)) (map Some (map snd r)) false <= hi.
Proof.
  intros N P B. rewrite wm_rows. pose proof (wtotal_pos r N P) as T. rewrite Forall_forall in B.
  pose proof (wsum_le (fun _ => lo) (fun a => a) r P (fun p Hp => proj1 (B p Hp))) as L.
  pose proof (wsum_le (fun a => a) (fun _ => hi) r P (fun p Hp => proj2 (B p Hp))) as U.
  rewrite wsum_const in L, U. split; [apply Rle_div_r; lra|apply Rle_div_l; lra].
Qed.

(** ** Integer frequencies *)
Lemma Rsum_repeat a c : Rsum (repeat a c) = INR c * a.
Proof. induction c as [|c IH]; [cbn; ring|]. rewrite S_INR. cbn [repeat Rsum]. rewrite IH. ring. Qed.
Lemma map_repeat' {A B} (f : A -> B) a c : map f (repeat a c) = repeat (f a) c.
Proof. induction c as [|c IH]; cbn; [reflexivity|]. now rewrite IH. Qed.
Lemma replicate_sum f x k : length x = length k ->
  Rsum (map f (replicate x k)) = wsum f (combine x (map INR k)) /\ INR (length (replicate x k)) = wtotal (combine x (map INR k)).
Proof.
  revert k. induction x as [|a x IH]; intros [|c k] L; cbn in L; try discriminate; [split; reflexivity|].
  destruct (IH k ltac:(lia)) as [E1 E2]. unfold wsum, wtotal in *. cbn [replicate map combine Rsum fst snd]. split.
  - rewrite map_app, Rsum_app, map_repeat', Rsum_repeat, E1. reflexivity.
  - rewrite app_length, plus_INR, repeat_length, E2. reflexivity.
Qed.
Lemma combine_map_fst {A B} (a : list A) (b : list B) : length a = length b -> map fst (combine a b) = a /\ map snd (combine a b) = b.
Proof.
  revert b. induction a as [|x a IH]; intros [|y b] L; cbn in *; try discriminate; [auto|]. destruct (IH b ltac:(lia)) as [-> ->]. auto.
Qed.
Lemma freq_mean x k : length x = length k -> weighted_mean (map Some x) (map Some (map INR k)) false = mean_of (replicate x k).
Proof.
  intros L. destruct (combine_map_fst x (map INR k) ltac:(rewrite map_length; exact L)) as [E1 E2].
  pose proof (wm_rows (combine x (map INR k))) as W. rewrite E1, E2 in W. rewrite W. unfold mean_of. destruct (replicate_sum (fun a => a) x k L) as [H1 H2].
  rewrite map_id in H1. now rewrite H1, H2.
Qed.
Lemma freq_var x k : length x = length k -> weighted_var (map Some x) (map Some (map INR k)) true = var_of (replicate x k).
Proof.
  intros L. destruct (combine_map_fst x (map INR k) ltac:(rewrite map_length; exact L)) as [E1 E2].
  pose proof (wm_rows (combine x (map INR k))) as W. pose proof (wv_rows (combine x (map INR k)) true) as V. rewrite E1, E2 in W, V.
  rewrite V. unfold var_of. rewrite <- freq_mean, W by exact L.
  set (m := _ / wtotal _). destruct (replicate_sum (fun a => (a - m) ^ 2) x k L) as [H1 H2]. now rewrite H1, H2.
Qed.

(** ** Means of positive numbers *)
Lemma ln_le_lin t : 0 < t -> ln t <= t - 1.
Proof.
  intros H. destruct (Req_dec t 1) as [->|N]; [rewrite ln_1; lra|]. pose proof (exp_ineq1 (ln t)) as E.
  assert (ln t <> 0) by (intros E0; apply N; rewrite <- (exp_ln t H), E0; apply exp_0). specialize (E H0). rewrite exp_ln in E by exact H. lra.
Qed.
(** Weighted AM-GM. *)
Lemma wgm_le r : r <> [] -> Forall (fun p => 0 < snd p) r -> Forall (fun p => 0 < fst p) r ->
  exp (wsum ln r / wtotal r) <= wsum (fun a => a) r / wtotal r.
Proof.
  intros N P X. pose proof (wtotal_pos r N P) as T. set (A := wsum (fun a => a) r / wtotal r).
  assert (PA : 0 < A).
  { apply Rdiv_lt_0_compat; [|exact T]. apply Rsum_gt0; [now destruct r|]. apply Forall_forall. intros v Hv. apply in_map_iff in Hv.
    destruct Hv as (p & <- & Hp). rewrite Forall_forall in P, X. apply Rmult_lt_0_compat; auto. }
  rewrite <- (exp_ln A PA). assert (G : wsum ln r / wtotal r <= ln A).
  { apply Rle_div_l; [exact T|].
    apply Rle_trans with (wsum (fun a => ln A * 1 + 1 * (a / A - 1)) r).
    - apply wsum_le; [exact P|]. intros p Hp. rewrite Forall_forall in X. specialize (X p Hp). pose proof (ln_le_lin (fst p / A) ltac:(now apply Rdiv_lt_0_compat)) as B.
      unfold Rdiv in B at 1. rewrite ln_mult, ln_Rinv in B by (try apply Rinv_0_lt_compat; assumption). lra.
    - rewrite (wsum_lin (ln A) (fun _ => 1) 1 (fun a => a / A - 1)). rewrite wsum_const.
      rewrite (wsum_ext (fun a => a / A - 1) (fun a => / A * (fun a => a) a + (-1) * (fun _ => 1) a)) by (intros; field; lra).
      rewrite (wsum_lin (/ A) (fun a => a) (-1) (fun _ => 1)), wsum_const. assert (W : wsum (fun a => a) r = A * wtotal r) by (unfold A; field; lra).
      rewrite W. right. field. lra. }
  destruct G as [G|G]; [left; now apply exp_increasing|right; now rewrite G].
Qed.
Lemma wgm_rows r : weighted_gmean (map Some (map fst r)) (map Some (map snd r)) false = exp (wsum ln r / wtotal r).
Proof.
  unfold weighted_gmean. rewrite lift1_some, dot_some, csum_some. do 2 f_equal. unfold wsum. f_equal.
  induction r as [|[a b] r IH]; cbn; [reflexivity|]. rewrite IH. f_equal. ring.
Qed.
Definition ones (x : list R) : list (R * R) := map (fun a => (a, 1)) x.
Lemma ones_sum f x : wsum f (ones x) = Rsum (map f x).
Proof. unfold wsum, ones. rewrite map_map. f_equal. apply map_ext. intros a. cbn. ring. Qed.
Lemma ones_total x : wtotal (ones x) = INR (length x).
Proof. unfold wtotal, ones. induction x as [|a x IH]; [reflexivity|]. cbn [map Rsum snd length]. rewrite S_INR, IH. ring. Qed.
Lemma ones_pos x : Forall (fun p => 0 < snd p) (ones x).
Proof. apply Forall_forall. intros p H. apply in_map_iff in H. destruct H as (a & <- & _). cbn. lra. Qed.
Lemma gmean_some x : gmean (map Some x) = exp (Rsum (map ln x) / INR (length x)).
Proof. unfold gmean, cmean. rewrite lift1_some, csum_some, ccount_some, map_length. reflexivity. Qed.
Lemma hmean_some x : hmean (map Some x) = INR (length x) / Rsum (map (fun a => 1 / a) x).
Proof. unfold hmean. rewrite lift1_some, csum_some, ccount_some. reflexivity. Qed.
Lemma gmean_le_mean x : x <> [] -> Forall (fun a => 0 < a) x -> gmean (map Some x) <= mean_of x.
Proof.
  intros N P. rewrite gmean_some. unfold mean_of.
  pose proof (wgm_le (ones x) ltac:(destruct x; cbn; congruence) (ones_pos x)) as W.
  rewrite !ones_sum, ones_total, map_id in W. apply W. unfold ones. rewrite Forall_map. exact P.
Qed.
Lemma hmean_le_gmean x : x <> [] -> Forall (fun a => 0 < a) x -> hmean (map Some x) <= gmean (map Some x).
Proof.
  intros N P. assert (Li : 0 < INR (length x)) by (apply lt_0_INR; destruct x; cbn; [congruence|lia]).
  assert (P' : Forall (fun a => 0 < a) (map (fun a => 1 / a) x)).
  { rewrite Forall_map. eapply Forall_impl; [|exact P]. cbn. intros a Ha. apply Rdiv_lt_0_compat; lra. }
  pose proof (gmean_le_mean (map (fun a => 1 / a) x) ltac:(destruct x; cbn; congruence) P') as G.
  rewrite gmean_some in G. unfold mean_of in G. rewrite map_length, map_map in G.
  rewrite hmean_some, gmean_some. set (S1 := Rsum (map (fun a => 1 / a) x)) in *.
  assert (PS : 0 < S1) by (apply Rsum_gt0; [destruct x; cbn; congruence|exact P']).
  assert (E : Rsum (map (fun a => ln (1 / a)) x) = - Rsum (map ln x)).
  { clear - P. induction P as [|a x Ha P IH]; cbn; [ring|]. rewrite IH. unfold Rdiv. rewrite Rmult_1_l, ln_Rinv by exact Ha. ring. }
  rewrite E in G. replace (- Rsum (map ln x) / INR (length x)) with (- (Rsum (map ln x) / INR (length x))) in G by (field; lra).
  rewrite exp_Ropp in G. set (e := exp (Rsum (map ln x) / INR (length x))) in *. assert (Pe : 0 < e) by apply exp_pos.
  apply Rle_div_l; [exact PS|]. apply (Rmult_le_compat_r (e * INR (length x))) in G; [|nra].
  replace (/ e * (e * INR (length x))) with (INR (length x)) in G by (field; lra).
  replace (S1 / INR (length x) * (e * INR (length x))) with (e * S1) in G by (field; lra). exact G.
Qed.
(** [weighted_hmean] ignores the variable. *)
Lemma whm_some x w : Forall (fun a => a <> 0) x -> x <> [] -> weighted_hmean (map Some x) (map Some w) false = Rsum w / INR (length x).
Proof.
  intros P N. unfold weighted_hmean. rewrite lift1_some, dot_some, csum_some.
  assert (E : Rsum (map (fun p => fst p * snd p) (combine x (map (fun a => 1 / a) x))) = INR (length x)).
  { clear N. induction P as [|a x Ha P IH]; [reflexivity|]. cbn [map combine Rsum length fst snd]. rewrite IH, S_INR. field. exact Ha. }
  rewrite E. assert (Li : 0 < INR (length x)) by (apply lt_0_INR; destruct x; cbn; [congruence|lia]).
  destruct (Req_dec (Rsum w) 0) as [Z|Z]; [|field; lra]. rewrite Z. unfold Rdiv. rewrite Rinv_0. ring_simplify. rewrite Rmult_0_r, Rinv_0. ring.
Qed.

(** ** Cauchy-Schwarz *)
Definition rs {A} (f : A -> R) (l : list A) : R := Rsum (map f l).
Lemma rs_lin {A} (f g : A -> R) a b l : rs (fun x => a * f x + b * g x) l = a * rs f l + b * rs g l.
Proof. unfold rs. induction l as [|x l IH]; cbn; [ring|]. rewrite IH. ring. Qed.
Lemma rs_ext {A} (f g : A -> R) l : (forall x, In x l -> f x = g x) -> rs f l = rs g l.
Proof. intros H. unfold rs. f_equal. now apply map_ext_in. Qed.
Lemma rs_ge0 {A} (f : A -> R) l : (forall x, In x l -> 0 <= f x) -> 0 <= rs f l.
Proof. intros H. apply Rsum_ge0. apply Forall_forall. intros v Hv. apply in_map_iff in Hv. destruct Hv as (x & <- & Hx). auto. Qed.
Lemma cauchy {A} (w f g : A -> R) l : (forall x, In x l -> 0 <= w x) ->
  (rs (fun x => w x * (f x * g x)) l) ^ 2 <= rs (fun x => w x * f x ^ 2) l * rs (fun x => w x * g x ^ 2) l.
Proof.
  intros W. set (a := rs (fun x => w x * f x ^ 2) l). set (b := rs (fun x => w x * (f x * g x)) l). set (c := rs (fun x => w x * g x ^ 2) l).
  assert (Q : forall t, 0 <= a + 2 * t * b + t ^ 2 * c).
  { intros t. replace (a + 2 * t * b + t ^ 2 * c) with (rs (fun x => w x * (f x + t * g x) ^ 2) l).
    - apply rs_ge0. intros x Hx. apply Rmult_le_pos; [auto|apply pow2_ge_0].
    - rewrite (rs_ext _ (fun x => 1 * (1 * (w x * f x ^ 2) + (2 * t) * (w x * (f x * g x))) + t ^ 2 * (w x * g x ^ 2))) by (intros; ring).
      rewrite (rs_lin (fun x => 1 * (w x * f x ^ 2) + (2 * t) * (w x * (f x * g x)))), (rs_lin (fun x => w x * f x ^ 2)). fold a b c. ring. }
  assert (C0 : 0 <= c) by (apply rs_ge0; intros x Hx; apply Rmult_le_pos; [auto|apply pow2_ge_0]).
  destruct (Req_dec c 0) as [Z|Z].
  - rewrite Z in *. assert (b = 0).
    { destruct (Req_dec b 0) as [|Nb]; [assumption|]. exfalso. specialize (Q (- (a + 1) / (2 * b))).
      replace (a + 2 * (- (a + 1) / (2 * b)) * b + (- (a + 1) / (2 * b)) ^ 2 * 0) with (-1) in Q by (field; exact Nb). lra. }
    rewrite H. right. ring.
  - specialize (Q (- b / c)). replace (a + 2 * (- b / c) * b + (- b / c) ^ 2 * c) with ((a * c - b ^ 2) / c) in Q by (field; exact Z).
    assert (0 < c) by lra. apply (Rmult_le_compat_r c) in Q; [|lra]. replace ((a * c - b ^ 2) / c * c) with (a * c - b ^ 2) in Q by (field; exact Z). lra.
Qed.
Lemma ratio_bound b a c : 0 < a -> 0 < c -> b ^ 2 <= a * c -> -1 <= b / sqrt (a * c) <= 1.
Proof.
  intros Ha Hc H. assert (P : 0 < a * c) by nra. pose proof (sqrt_lt_R0 _ P) as Ps. pose proof (sqrt_sqrt (a * c) ltac:(lra)) as SS.
  assert (B : Rabs b <= sqrt (a * c)).
  { apply Rsqr_incr_0_var; [|lra]. rewrite <- Rsqr_abs. unfold Rsqr. rewrite SS. lra. }
  apply Rabs_le_between in B. split; [apply Rle_div_r; lra|apply Rle_div_l; lra].
Qed.

(** ** Columns given by functions of a row *)
Definition colf {A} (f : A -> R) (l : list A) : rcol := map Some (map f l).
Lemma lift1_f {A} h (f : A -> R) l : lift1 h (colf f l) = colf (fun t => h (f t)) l.
Proof. unfold colf. rewrite lift1_some, !map_map. reflexivity. Qed.
Lemma lift2_f {A} h (f g : A -> R) l : lift2 h (colf f l) (colf g l) = colf (fun t => h (f t) (g t)) l.
Proof. unfold colf. rewrite lift2_some. f_equal. induction l as [|a l IH]; cbn; [reflexivity|]. now rewrite IH. Qed.
Lemma csum_f {A} (f : A -> R) l : csum (colf f l) = rs f l.
Proof. unfold colf. now rewrite csum_some. Qed.
Lemma dot_f {A} (f g : A -> R) l : dot (colf f l) (colf g l) = rs (fun t => f t * g t) l.
Proof. unfold dot. rewrite lift2_f, csum_f. reflexivity. Qed.
Lemma wm_f {A} (f w : A -> R) l : weighted_mean (colf f l) (colf w l) false = rs (fun t => f t * w t) l / rs w l.
Proof. unfold weighted_mean. rewrite dot_f, csum_f. reflexivity. Qed.
Lemma wcov_f {A} (f g w : A -> R) l :
  weighted_cov (colf f l) (colf g l) (colf w l) =
  rs (fun t => w t * ((f t - rs (fun t => f t * w t) l / rs w l) * (g t - rs (fun t => g t * w t) l / rs w l))) l / rs w l.
Proof. unfold weighted_cov. rewrite !wm_f, !lift1_f, lift2_f, dot_f, csum_f. reflexivity. Qed.
Lemma wvar_f {A} (f w : A -> R) l :
  weighted_var (colf f l) (colf w l) false = rs (fun t => w t * (f t - rs (fun t => f t * w t) l / rs w l) ^ 2) l / rs w l.
Proof. unfold weighted_var. rewrite wm_f, lift1_f, dot_f, csum_f. reflexivity. Qed.
Lemma cov_sym {A} (f g w : A -> R) l : weighted_cov (colf f l) (colf g l) (colf w l) = weighted_cov (colf g l) (colf f l) (colf w l).
Proof. rewrite !wcov_f. f_equal. apply rs_ext. intros; ring. Qed.
Lemma cov_self {A} (f w : A -> R) l : weighted_cov (colf f l) (colf f l) (colf w l) = weighted_var (colf f l) (colf w l) false.
Proof. rewrite wcov_f, wvar_f. f_equal. apply rs_ext. intros; ring. Qed.
Lemma cov_cs {A} (f g w : A -> R) l : (forall t, In t l -> 0 <= w t) -> 0 < rs w l ->
  weighted_cov (colf f l) (colf g l) (colf w l) ^ 2 <= weighted_var (colf f l) (colf w l) false * weighted_var (colf g l) (colf w l) false.
Proof.
  intros W T. rewrite wcov_f, !wvar_f. set (mf := rs (fun t => f t * w t) l / rs w l). set (mg := rs (fun t => g t * w t) l / rs w l).
  pose proof (cauchy w (fun t => f t - mf) (fun t => g t - mg) l W) as C. cbv beta in C.
  set (a := rs (fun t => w t * ((f t - mf) * (g t - mg))) l) in *. set (b := rs (fun t => w t * (f t - mf) ^ 2) l) in *. set (c := rs (fun t => w t * (g t - mg) ^ 2) l) in *.
  replace ((a / rs w l) ^ 2) with (a ^ 2 / rs w l ^ 2) by (field; lra). replace (b / rs w l * (c / rs w l)) with (b * c / rs w l ^ 2) by (field; lra).
  apply Rmult_le_compat_r; [|exact C]. left. apply Rinv_0_lt_compat. nra.
Qed.
Lemma var_nonneg {A} (f w : A -> R) l : (forall t, In t l -> 0 <= w t) -> 0 < rs w l -> 0 <= weighted_var (colf f l) (colf w l) false.
Proof.
  intros W T. rewrite wvar_f. apply Rmult_le_pos; [|left; now apply Rinv_0_lt_compat]. apply rs_ge0. intros t Ht. apply Rmult_le_pos; [auto|apply pow2_ge_0].
Qed.
Lemma var_affine {A} (f w : A -> R) l a b : rs w l <> 0 ->
  weighted_var (colf (fun t => a * f t + b) l) (colf w l) false = a ^ 2 * weighted_var (colf f l) (colf w l) false.
Proof.
  intros T. rewrite !wvar_f.
  assert (E : rs (fun t => (a * f t + b) * w t) l / rs w l = a * (rs (fun t => f t * w t) l / rs w l) + b).
  { rewrite (rs_ext _ (fun t => a * (f t * w t) + b * w t)) by (intros; ring). rewrite (rs_lin (fun t => f t * w t)). change (rs (fun x => w x) l) with (rs w l). field. exact T. }
  rewrite E. set (m := rs (fun t => f t * w t) l / rs w l).
  rewrite (rs_ext _ (fun t => a ^ 2 * (w t * (f t - m) ^ 2) + 0 * 0)) by (intros; ring). rewrite (rs_lin (fun t => w t * (f t - m) ^ 2) (fun _ => 0)). field. exact T.
Qed.
Lemma wcos_f {A} (f g w : A -> R) l : weighted_cosine_sim (colf f l) (colf g l) (colf w l) =
  rs (fun t => w t * (f t * g t)) l / sqrt (rs (fun t => w t * f t ^ 2) l * rs (fun t => w t * g t ^ 2) l).
Proof.
  unfold weighted_cosine_sim. rewrite lift2_f, !lift1_f, !dot_f. rewrite (rs_ext (fun t => w t * f t * g t) (fun t => w t * (f t * g t))) by (intros; ring).
  rewrite (rs_ext (fun t => f t ^ 2 * w t) (fun t => w t * f t ^ 2)), (rs_ext (fun t => g t ^ 2 * w t) (fun t => w t * g t ^ 2)) by (intros; ring). reflexivity.
Qed.
Lemma sq_sum_pos {A} (f w : A -> R) l : (forall t, In t l -> 0 < w t) -> (exists t, In t l /\ f t <> 0) -> 0 < rs (fun t => w t * f t ^ 2) l.
Proof.
  intros W (t & Ht & Nz). unfold rs. induction l as [|a l IH]; [destruct Ht|]. cbn [map Rsum].
  assert (G : 0 <= Rsum (map (fun t => w t * f t ^ 2) l)).
  { apply (rs_ge0 (fun t => w t * f t ^ 2)). intros x Hx. apply Rmult_le_pos; [left; apply W; now right|apply pow2_ge_0]. }
  assert (Ga : 0 <= w a * f a ^ 2) by (apply Rmult_le_pos; [left; apply W; now left|apply pow2_ge_0]).
  destruct Ht as [->|Ht].
  - assert (0 < w t * f t ^ 2); [|lra]. apply Rmult_lt_0_compat; [apply W; now left|]. apply pow2_gt_0. exact Nz.
  - assert (0 < Rsum (map (fun t => w t * f t ^ 2) l)); [|lra]. apply IH; [|exact Ht]. intros x Hx. apply W. now right.
Qed.
Lemma wcos_bound {A} (f g w : A -> R) l : (forall t, In t l -> 0 < w t) -> (exists t, In t l /\ f t <> 0) -> (exists t, In t l /\ g t <> 0) ->
  -1 <= weighted_cosine_sim (colf f l) (colf g l) (colf w l) <= 1.
Proof.
  intros W F G. rewrite wcos_f. apply ratio_bound; [now apply sq_sum_pos|now apply sq_sum_pos|]. apply cauchy. intros x Hx. left. auto.
Qed.
Lemma wcos_self {A} (f w : A -> R) l : (forall t, In t l -> 0 < w t) -> (exists t, In t l /\ f t <> 0) ->
  weighted_cosine_sim (colf f l) (colf f l) (colf w l) = 1.
Proof.
  intros W F. rewrite wcos_f. pose proof (sq_sum_pos f w l W F) as P. rewrite sqrt_square by lra.
  rewrite (rs_ext (fun t => w t * (f t * f t)) (fun t => w t * f t ^ 2)) by (intros; ring). field. lra.
Qed.
Lemma wcos_sym {A} (f g w : A -> R) l : weighted_cosine_sim (colf f l) (colf g l) (colf w l) = weighted_cosine_sim (colf g l) (colf f l) (colf w l).
Proof.
  rewrite !wcos_f. rewrite (rs_ext (fun t => w t * (f t * g t)) (fun t => w t * (g t * f t))) by (intros; ring). f_equal. f_equal. ring.
Qed.
(** [cosine_sim x x] is the norm of [x]. *)
Lemma cos_self x : cosine_sim (map Some x) (map Some x) = sqrt (Rsum (map (fun a => a * a) x)).
Proof.
  replace (map Some x) with (colf (fun a => a) x) by (unfold colf; now rewrite map_id). unfold cosine_sim. rewrite dot_f. unfold rs.
  set (s := Rsum _). assert (P : 0 <= s). { apply (rs_ge0 (fun a => a * a)). intros a _. apply Rle_0_sqr. }
  pose proof (sqrt_pos s) as Q. rewrite sqrt_sqrt by exact P. destruct (Req_dec s 0) as [->|N]; [rewrite sqrt_0; unfold Rdiv; ring|].
  assert (0 < sqrt s) by (apply sqrt_lt_R0; lra). rewrite <- (sqrt_sqrt s) at 1 by exact P. field. lra.
Qed.

(** ** Biweight midcorrelation *)
Section Bicor.
Variable median : rcol -> R.
Definition bw {A} (c : R) (f : A -> R) (l : list A) (t : A) : R :=
  let med := median (colf f l) in
  let scale := c * median (colf (fun t => Rabs (f t - med)) l) in
  let v := (f t - med) / scale in
  (f t - med) * ((1 - v ^ 2) ^ 2 * (if Rlt_dec 0 (1 - Rabs v) then 1 else 0)).
Lemma biweight_f {A} c (f : A -> R) l : biweight median c (colf f l) = colf (bw c f l) l.
Proof. unfold biweight. rewrite !lift1_f, lift2_f. reflexivity. Qed.
Lemma bicor_f {A} c (f g : A -> R) l : bicor median (colf f l) (colf g l) c =
  rs (fun t => 1 * (bw c f l t * bw c g l t)) l / sqrt (rs (fun t => 1 * bw c f l t ^ 2) l * rs (fun t => 1 * bw c g l t ^ 2) l).
Proof.
  unfold bicor. rewrite !biweight_f, !dot_f.
  assert (E : forall h k : A -> R, rs (fun t => h t * k t) l = rs (fun t => 1 * (h t * k t)) l) by (intros; apply rs_ext; intros; ring).
  assert (E2 : forall h : A -> R, rs (fun t => h t * h t) l = rs (fun t => 1 * h t ^ 2) l) by (intros; apply rs_ext; intros; ring).
  now rewrite E, !E2.
Qed.
Lemma bicor_sym {A} c (f g : A -> R) l : bicor median (colf f l) (colf g l) c = bicor median (colf g l) (colf f l) c.
Proof.
  rewrite !bicor_f. f_equal; [apply rs_ext; intros; ring|]. f_equal. ring.
Qed.
Lemma bicor_bound {A} c (f g : A -> R) l : (exists t, In t l /\ bw c f l t <> 0) -> (exists t, In t l /\ bw c g l t <> 0) ->
  -1 <= bicor median (colf f l) (colf g l) c <= 1.
Proof.
  intros F G. rewrite bicor_f. apply ratio_bound; [apply (sq_sum_pos (bw c f l) (fun _ => 1)); [intros; lra|exact F]|apply (sq_sum_pos (bw c g l) (fun _ => 1)); [intros; lra|exact G]|].
  apply (cauchy (fun _ => 1)). intros; lra.
Qed.
Lemma bicor_self {A} c (f : A -> R) l : (exists t, In t l /\ bw c f l t <> 0) -> bicor median (colf f l) (colf f l) c = 1.
Proof.
  intros F. rewrite bicor_f. pose proof (sq_sum_pos (bw c f l) (fun _ => 1) l ltac:(intros; lra) F) as P. rewrite sqrt_square by lra.
  rewrite (rs_ext (fun t => 1 * (bw c f l t * bw c f l t)) (fun t => 1 * bw c f l t ^ 2)) by (intros; ring). field. lra.
Qed.
(** For a median that commutes with affine maps, changing location and (positive) scale changes nothing. *)
Definition affine_median := (forall A (f : A -> R) l a b, l <> [] -> 0 < a -> median (colf (fun t => a * f t + b) l) = a * median (colf f l) + b).
Lemma colf_ext {A} (f g : A -> R) l : (forall t, In t l -> f t = g t) -> colf f l = colf g l.
Proof. intros H. unfold colf. f_equal. now apply map_ext_in. Qed.
Lemma bw_affine {A} c (f : A -> R) l a b t : affine_median -> l <> [] -> 0 < a -> bw c (fun t => a * f t + b) l t = a * bw c f l t.
Proof.
  intros M N Ha. unfold bw. rewrite M by assumption. set (m := median (colf f l)).
  rewrite (colf_ext (fun t => Rabs (a * f t + b - (a * m + b))) (fun t => a * Rabs (f t - m) + 0)).
  2:{ intros s _. replace (a * f s + b - (a * m + b)) with (a * (f s - m)) by ring. rewrite Rabs_mult, (Rabs_pos_eq a) by lra. ring. }
  rewrite (M A (fun t => Rabs (f t - m))) by assumption. set (mad := median _).
  replace ((a * f t + b - (a * m + b)) / (c * (a * mad + 0))) with ((f t - m) / (c * mad)).
  - ring.
  - destruct (Req_dec (c * mad) 0) as [Z|Z]; [replace (c * (a * mad + 0)) with (a * (c * mad)) by ring; rewrite Z, Rmult_0_r; unfold Rdiv; rewrite Rinv_0; ring|].
    assert (c <> 0) by (intros ->; apply Z; ring). assert (mad <> 0) by (intros Q; apply Z; rewrite Q; ring). field. lra.
Qed.
Lemma bicor_affine {A} c (f g : A -> R) l a b : affine_median -> l <> [] -> 0 < a -> bicor median (colf (fun t => a * f t + b) l) (colf g l) c = bicor median (colf f l) (colf g l) c.
Proof.
  intros M N Ha. rewrite !bicor_f.
  rewrite (rs_ext (fun t => 1 * (bw c (fun t => a * f t + b) l t * bw c g l t)) (fun t => a * (1 * (bw c f l t * bw c g l t)) + 0 * 0)) by (intros; rewrite bw_affine by assumption; ring).
  rewrite (rs_ext (fun t => 1 * bw c (fun t => a * f t + b) l t ^ 2) (fun t => a ^ 2 * (1 * bw c f l t ^ 2) + 0 * 0)) by (intros; rewrite bw_affine by assumption; ring).
  rewrite (rs_lin (fun t => 1 * (bw c f l t * bw c g l t)) (fun _ => 0)), (rs_lin (fun t => 1 * bw c f l t ^ 2) (fun _ => 0)).
  set (p := rs (fun t => 1 * bw c f l t ^ 2) l). set (q := rs (fun t => 1 * bw c g l t ^ 2) l).
  assert (P : 0 <= p) by (apply rs_ge0; intros; pose proof (pow2_ge_0 (bw c f l x)); lra).
  assert (Q : 0 <= q) by (apply rs_ge0; intros; pose proof (pow2_ge_0 (bw c g l x)); lra).
  replace ((a ^ 2 * p + 0 * rs (fun _ => 0) l) * q) with ((a * a) * (p * q)) by ring. rewrite sqrt_mult_alt, sqrt_square by nra.
  destruct (Req_dec (sqrt (p * q)) 0) as [Z|Z]; [rewrite Z; unfold Rdiv; rewrite Rmult_0_r, Rinv_0; ring|]. field. lra.
Qed.
End Bicor.
