(** Lemmas on transforms. *)
From Coq Require Import Reals Lra Lia List Bool Arith ZArith.
From Verif Require Import WStatsSpec WStatsModel WStatsProofs MetricSpec MetricModel MetricProofs LagSpec LagProofs LagPropsLemmas TransSpec TransModel.
Import ListNotations.
Open Scope R_scope.

(** ** Monotonicity. *)
Lemma in_pairs x a b : In (a, b) (pairs_at 1 x) <-> exists i, get x i = Some a /\ get x (S i) = Some b.
Proof.
  unfold pairs_at. rewrite in_flat_map. split.
  - intros (i & Hi & H). exists i. rewrite Nat.add_1_r in H. destruct (get x i), (get x (S i)); cbn in H; intuition; inversion H0; auto.
  - intros (i & Ha & Hb). exists i. split.
    + apply in_seq. destruct (Nat.lt_ge_cases i (length x)); [lia|]. rewrite get_out in Ha by easy. discriminate.
    + rewrite Nat.add_1_r, Ha, Hb. now left.
Qed.
Lemma ltb_iff a b : ltb a b = true <-> a < b. Proof. unfold ltb. destruct (Rlt_dec a b); intuition discriminate. Qed.
Lemma leb_iff a b : leb a b = true <-> a <= b. Proof. unfold leb. destruct (Rle_dec a b); intuition discriminate. Qed.
Lemma inc_iff x s : is_increasing x s = true <-> forall i a b, get x i = Some a -> get x (S i) = Some b -> before s a b.
Proof.
  unfold is_increasing, diff_n. rewrite values_by. destruct s; rewrite forallb_forall; unfold before; split.
  - intros H i a b Ha Hb. assert (In (a, b) (pairs_at 1 x)) as I by (apply in_pairs; eauto).
    specialize (H (b - a) (proj2 (in_map_iff _ _ _) (ex_intro _ (a, b) (conj eq_refl I)))). apply ltb_iff in H. lra.
  - intros H d Hd. apply in_map_iff in Hd. destruct Hd as ((a & b) & <- & I). apply in_pairs in I. destruct I as (i & Ha & Hb).
    apply ltb_iff. specialize (H i a b Ha Hb). cbn. lra.
  - intros H i a b Ha Hb. assert (In (a, b) (pairs_at 1 x)) as I by (apply in_pairs; eauto).
    specialize (H (b - a) (proj2 (in_map_iff _ _ _) (ex_intro _ (a, b) (conj eq_refl I)))). apply leb_iff in H. lra.
  - intros H d Hd. apply in_map_iff in Hd. destruct Hd as ((a & b) & <- & I). apply in_pairs in I. destruct I as (i & Ha & Hb).
    apply leb_iff. specialize (H i a b Ha Hb). cbn. lra.
Qed.
Lemma dec_iff x s : is_decreasing x s = true <-> forall i a b, get x i = Some a -> get x (S i) = Some b -> before s b a.
Proof.
  unfold is_decreasing, diff_n. rewrite values_by. destruct s; rewrite forallb_forall; unfold before; split.
  - intros H i a b Ha Hb. assert (In (a, b) (pairs_at 1 x)) as I by (apply in_pairs; eauto).
    specialize (H (b - a) (proj2 (in_map_iff _ _ _) (ex_intro _ (a, b) (conj eq_refl I)))). apply ltb_iff in H. lra.
  - intros H d Hd. apply in_map_iff in Hd. destruct Hd as ((a & b) & <- & I). apply in_pairs in I. destruct I as (i & Ha & Hb).
    apply ltb_iff. specialize (H i a b Ha Hb). cbn. lra.
  - intros H i a b Ha Hb. assert (In (a, b) (pairs_at 1 x)) as I by (apply in_pairs; eauto).
    specialize (H (b - a) (proj2 (in_map_iff _ _ _) (ex_intro _ (a, b) (conj eq_refl I)))). apply leb_iff in H. lra.
  - intros H d Hd. apply in_map_iff in Hd. destruct Hd as ((a & b) & <- & I). apply in_pairs in I. destruct I as (i & Ha & Hb).
    apply leb_iff. specialize (H i a b Ha Hb). cbn. lra.
Qed.
Lemma get_some l i : (i < length l)%nat -> get (map Some l) i = Some (nth i l 0).
Proof. intros H. unfold get. rewrite nth_error_map, (nth_error_nth' l 0 H). reflexivity. Qed.
Lemma get_some_inv l i a : get (map Some l) i = Some a -> (i < length l)%nat /\ a = nth i l 0.
Proof.
  intros H. destruct (Nat.lt_ge_cases i (length l)) as [L|L].
  - rewrite get_some in H by easy. inversion H. auto.
  - rewrite get_out in H by (rewrite map_length; easy). discriminate.
Qed.
Lemma before_trans s a b c : before s a b -> before s b c -> before s a c.
Proof. destruct s; cbn; lra. Qed.
Lemma chain (P : nat -> nat -> Prop) n : (forall i j k, P i j -> P j k -> P i k) -> (forall i, (S i < n)%nat -> P i (S i)) ->
  forall i j, (i < j < n)%nat -> P i j.
Proof.
  intros T H i j. induction j; intros; [lia|]. destruct (Nat.eq_dec i j) as [->|]; [apply H; lia|].
  apply T with j; [apply IHj; lia|apply H; lia].
Qed.
Lemma inc_full l s : is_increasing (map Some l) s = true <-> increasing s l.
Proof.
  rewrite inc_iff. split.
  - intros H. unfold increasing. apply chain with (P := fun i j => before s (nth i l 0) (nth j l 0)); [intros; eauto using before_trans|].
    intros i L. apply H with i; apply get_some; lia.
  - intros H i a b Ha Hb. apply get_some_inv in Ha, Hb. destruct Ha as (? & ->), Hb as (? & ->). apply H. lia.
Qed.
Lemma dec_full l s : is_decreasing (map Some l) s = true <-> decreasing s l.
Proof.
  rewrite dec_iff. split.
  - intros H. unfold decreasing. apply chain with (P := fun i j => before s (nth j l 0) (nth i l 0)); [intros; eauto using before_trans|].
    intros i L. apply H with i; apply get_some; lia.
  - intros H i a b Ha Hb. apply get_some_inv in Ha, Hb. destruct Ha as (? & ->), Hb as (? & ->). apply H. lia.
Qed.
Lemma mono_null : forall s, is_increasing [Some 3; None; Some 1] s = true /\ is_decreasing [Some 1; None; Some 3] s = true.
Proof.
  intros s. rewrite inc_iff, dec_iff. split; intros i a b Ha Hb; destruct i as [|[|[|i]]]; cbn in Ha, Hb; try discriminate;
    destruct i; discriminate.
Qed.

(** ** Centring and z-normalising. *)
Lemma center_thm x : values x <> [] -> mean_of (values (center x)) = 0 /\ length (center x) = length x /\
  (forall i, get (center x) i = option_map (fun v => v - mean_of (values x)) (get x i)).
Proof.
  intros H. unfold center. rewrite values_lift1. split; [|split].
  - rewrite (map_ext _ (fun y => 1 * y + - cmean x)) by (intros; lra). rewrite mean_affine by easy. rewrite cmean_mean. lra.
  - unfold lift1. apply map_length.
  - intros i. apply get_lift1.
Qed.
Definition fins (l : list (option xnum)) : list R := flat_map (fun o => match o with Some (Fin r) => [r] | _ => [] end) l.
Lemma fins_map (f : R -> R) x : fins (map (option_map (fun v => Fin (f v))) x) = map f (values x).
Proof. induction x as [|[a|] x IH]; cbn; [easy| |]; unfold fins in *; now rewrite IH. Qed.
Lemma zn_val x : (2 <= length (values x))%nat -> 0 < var_of (values x) ->
  z_normalize x = map (option_map (fun v => Fin (/ sqrt (var_of (values x)) * v + - (mean_of (values x) / sqrt (var_of (values x)))))) x.
Proof.
  intros L V. assert (0 < sqrt (var_of (values x))) as P by now apply sqrt_lt_R0.
  unfold z_normalize, cstd. destruct (Nat.ltb_spec (length (values x)) 2); [lia|]. apply map_ext. intros [v|]; cbn; [|easy].
  rewrite xdiv_fin, cmean_mean by lra. do 2 f_equal. field. lra.
Qed.
Lemma zn_thm x : (2 <= length (values x))%nat -> 0 < var_of (values x) ->
  exists y, z_normalize x = map (option_map Fin) y /\ (forall i, get y i = None <-> get x i = None) /\ length y = length x /\
    mean_of (values y) = 0 /\ var_of (values y) = 1.
Proof.
  intros L V. assert (0 < sqrt (var_of (values x))) as P by now apply sqrt_lt_R0.
  assert (values x <> []) as NE by (destruct (values x); cbn in L; [lia|easy]).
  set (s := sqrt (var_of (values x))) in *. set (f := fun v => / s * v + - (mean_of (values x) / s)).
  exists (lift1 f x). split; [|split; [|split; [|split]]].
  - rewrite zn_val by easy. unfold lift1. rewrite map_map. apply map_ext. intros [v|]; reflexivity.
  - intros i. rewrite get_lift1. destruct (get x i); cbn; intuition discriminate.
  - unfold lift1. apply map_length.
  - rewrite values_lift1. unfold f. rewrite mean_affine by easy. field. lra.
  - rewrite values_lift1. unfold f. rewrite var_affine by easy.
    assert (var_of (values x) = s ^ 2) as E by (unfold s; rewrite pow2_sqrt; lra). rewrite E. field. lra.
Qed.
Lemma zn_affine x s t : (2 <= length (values x))%nat -> 0 < var_of (values x) -> 0 < s -> z_normalize (lift1 (fun v => s * v + t) x) = z_normalize x.
Proof.
  intros L V S. assert (values x <> []) as NE by (destruct (values x); cbn in L; [lia|easy]).
  assert (0 < sqrt (var_of (values x))) as P by now apply sqrt_lt_R0.
  assert (var_of (values (lift1 (fun v => s * v + t) x)) = s ^ 2 * var_of (values x)) as EV by (rewrite values_lift1; now apply var_affine).
  assert (sqrt (s ^ 2 * var_of (values x)) = s * sqrt (var_of (values x))) as ES by (rewrite sqrt_mult by nra; rewrite sqrt_pow2 by lra; easy).
  rewrite !zn_val; rewrite ?values_lift1, ?map_length; try easy.
  - rewrite values_lift1 in EV. rewrite EV, ES, mean_affine by easy. unfold lift1. rewrite map_map. apply map_ext. intros [v|]; cbn; [|easy].
    do 2 f_equal. field. lra.
  - rewrite values_lift1 in EV. rewrite EV. apply Rmult_lt_0_compat; [nra|easy].
Qed.
Lemma nth_map_err {A B} (h : A -> option B) x i : nth i (map h x) None = match nth_error x i with Some o => h o | None => None end.
Proof. revert i. induction x as [|a x IH]; intros [|i]; cbn; auto. Qed.
Lemma zn_const x c : (2 <= length (values x))%nat -> (forall v, In v (values x) -> v = c) ->
  forall i, nth i (z_normalize x) None = match get x i with Some _ => Some NaN | None => None end.
Proof.
  intros L H i. assert (values x <> []) as NE by (destruct (values x); cbn in L; [lia|easy]).
  assert (mean_of (values x) = c) as M.
  { rewrite <- (map_id (values x)). change (avg (fun v => v) (values x) = c). rewrite (avg_ext _ (fun _ => c)) by easy. now apply avg_const. }
  assert (var_of (values x) = 0) as V.
  { unfold var_of. rewrite M. replace (Rsum _) with 0; [unfold Rdiv; ring|].
    symmetry. change (total (fun a => (a - c) ^ 2) (values x) = 0). rewrite (total_ext _ (fun _ => 0)); [rewrite total_const; ring|].
    intros v Hv. rewrite (H v Hv). ring. }
  unfold z_normalize, cstd. destruct (Nat.ltb_spec (length (values x)) 2); [lia|].
  rewrite nth_map_err.
  unfold get. destruct (nth_error x i) as [[v|]|] eqn:E.
  - cbn [option_map]. assert (v = c) as ->.
    { apply H. unfold values. apply in_flat_map. exists (Some v). split; [eapply nth_error_In; eauto|now left]. }
    rewrite cmean_mean, M, V, sqrt_0. unfold xdiv. destruct (Req_EM_T 0 0); [|easy]. destruct (Req_EM_T (c - c) 0); [easy|lra].
  - easy.
  - easy.
Qed.
Lemma zn_one x : (length (values x) < 2)%nat -> forall i, nth i (z_normalize x) None = None.
Proof.
  intros L i. unfold z_normalize, cstd. destruct (Nat.ltb_spec (length (values x)) 2); [|lia].
  destruct (Nat.lt_ge_cases i (length x)); [|rewrite nth_overflow; [easy|now rewrite map_length]].
  rewrite nth_map_err. now destruct (nth_error x i).
Qed.

(** ** Softmax. *)
Lemma pow_split n m : 2 ^ (n + m) = 2 ^ n * 2 ^ m. Proof. apply pow_add. Qed.
Lemma max_lo : 2 ^ 1023 <= f64_max.
Proof.
  unfold f64_max. assert (0 < 2 ^ 1023) by (apply pow_lt; lra). assert (0 < / 2 ^ 52 <= 1).
  { split; [apply Rinv_0_lt_compat, pow_lt; lra|]. rewrite <- Rinv_1. apply Rinv_le_contravar; [lra|]. apply pow_R1_Rle. lra. }
  nra.
Qed.
Lemma max_hi : f64_max < 2 ^ 1024.
Proof.
  unfold f64_max. assert (0 < 2 ^ 1023) by (apply pow_lt; lra). assert (0 < / 2 ^ 52) by (apply Rinv_0_lt_compat, pow_lt; lra).
  change 1024%nat with (1 + 1023)%nat. rewrite pow_split. change (2 ^ 1) with (2 * 1). nra.
Qed.
Lemma tiny_pos : 0 < f64_tiny. Proof. unfold f64_tiny. apply Rinv_0_lt_compat, pow_lt. lra. Qed.
Lemma le_exp a b : a <= b -> exp a <= exp b.
Proof. intros [H|<-]; [left; now apply exp_increasing|lra]. Qed.
Lemma exp_nat n : exp (INR n) = exp 1 ^ n.
Proof.
  induction n; [cbn; apply exp_0|]. rewrite S_INR, exp_plus, IHn. cbn. ring.
Qed.
Lemma exp1_lo : 2 <= exp 1. Proof. pose proof (exp_ineq1 1). lra. Qed.
Lemma exp_big v : 1024 <= v -> f64_max < exp v.
Proof.
  intros H. apply Rlt_le_trans with (2 ^ 1024); [apply max_hi|]. apply Rle_trans with (exp (INR 1024)).
  - rewrite exp_nat. apply pow_incr. split; [lra|apply exp1_lo].
  - replace (INR 1024) with 1024 by (rewrite INR_IZR_INZ; f_equal). now apply le_exp.
Qed.
Lemma exp_small v : v <= -1075 -> exp v <= f64_tiny.
Proof.
  intros H. apply Rle_trans with (exp (- INR 1075)).
  - replace (INR 1075) with 1075 by (rewrite INR_IZR_INZ; f_equal). apply le_exp. lra.
  - rewrite exp_Ropp, exp_nat. unfold f64_tiny. apply Rinv_le_contravar; [apply pow_lt; lra|]. apply pow_incr. split; [lra|apply exp1_lo].
Qed.
Lemma exp600 : exp 600 <= 2 ^ 991.
Proof.
  replace 600 with (INR 600) by (rewrite INR_IZR_INZ; f_equal). rewrite exp_nat. apply Rle_trans with (3 ^ 600).
  - apply pow_incr. split; [left; apply exp_pos|apply exp_le_3].
  - rewrite (pow_IZR 3 600), (pow_IZR 2 991). apply IZR_le. apply Z.leb_le. vm_compute. reflexivity.
Qed.
Lemma exp_range v : -600 <= v <= 600 -> f64_tiny < exp v <= 2 ^ 991.
Proof.
  intros (L & U). split.
  - apply Rlt_le_trans with (exp (Ropp 600)); [|apply le_exp; lra]. rewrite exp_Ropp. apply Rlt_le_trans with (/ 2 ^ 991).
    + unfold f64_tiny. apply Rinv_lt_contravar; [apply Rmult_lt_0_compat; apply pow_lt; lra|]. apply Rlt_pow; [lra|]. apply Nat.ltb_lt. vm_compute. reflexivity.
    + apply Rinv_le_contravar; [apply exp_pos|apply exp600].
  - apply Rle_trans with (exp 600); [now apply le_exp|apply exp600].
Qed.
Lemma clamp_id r : f64_tiny < r <= f64_max -> clamp r = Fin r.
Proof. intros H. unfold clamp. destruct (Rle_dec r f64_tiny); [lra|]. destruct (Rle_dec r f64_max); [easy|lra]. Qed.
Lemma sum_exp l : forall s, (s = 0 \/ f64_tiny < s) -> (forall v, In v l -> f64_tiny < exp v <= f64_max) -> 0 <= s -> s + total exp l <= f64_max ->
  fold_left fplus (map fexp l) (Fin s) = Fin (s + total exp l).
Proof.
  induction l as [|a l IH]; intros s S H P B; cbn [map fold_left]; [f_equal; unfold total; cbn; ring|].
  pose proof (H a (or_introl eq_refl)) as Ha. pose proof tiny_pos. unfold fexp at 2. rewrite clamp_id by easy. cbn [fplus].
  assert (total exp (a :: l) = exp a + total exp l) as E by reflexivity.
  assert (0 <= total exp l) by (apply total_ge0; intros; left; apply exp_pos).
  rewrite clamp_id by lra. rewrite IH; [f_equal; rewrite E; ring| |intros; apply H; now right| |]; lra.
Qed.
Lemma sm_range x : (forall v, In v (values x) -> -600 <= v <= 600) -> (Z.of_nat (length (values x)) <= 2 ^ 32)%Z ->
  total exp (values x) <= f64_max.
Proof.
  intros H L. apply Rle_trans with (2 ^ 1023); [|apply max_lo]. apply Rle_trans with (INR (length (values x)) * 2 ^ 991).
  - rewrite <- total_const. apply total_le. intros v Hv. apply exp_range, H, Hv.
  - change 1023%nat with (32 + 991)%nat. rewrite pow_split. apply Rmult_le_compat_r; [left; apply pow_lt; lra|].
    rewrite INR_IZR_INZ, (pow_IZR 2 32). apply IZR_le. exact L.
Qed.
Lemma sm_val x : (forall v, In v (values x) -> -600 <= v <= 600) -> (Z.of_nat (length (values x)) <= 2 ^ 32)%Z ->
  softmax x = map (option_map (fun v => Fin (exp v / total exp (values x)))) x.
Proof.
  intros H L. pose proof (sm_range x H L) as B. unfold softmax.
  assert (forall v, In v (values x) -> f64_tiny < exp v <= f64_max) as R1.
  { intros v Hv. pose proof (exp_range v (H v Hv)). split; [easy|]. apply Rle_trans with (total exp (values x)); [|easy].
    clear - Hv. unfold total. induction (values x) as [|a l IH]; [easy|]. cbn. pose proof (exp_pos a).
    assert (0 <= Rsum (map exp l)) by (apply Rsum_ge0, Forall_forall; intros y Hy; apply in_map_iff in Hy; destruct Hy as (? & <- & _); left; apply exp_pos).
    destruct Hv as [->|Hv]; [lra|]. specialize (IH Hv). lra. }
  rewrite (sum_exp _ 0); [|now left|easy|lra|lra]. rewrite Rplus_0_l. apply map_ext_in. intros [v|] Hv; [|easy]. cbn [option_map].
  assert (In v (values x)) as Iv by (unfold values; apply in_flat_map; exists (Some v); split; [easy|now left]).
  unfold fexp. rewrite clamp_id by now apply R1. cbn [fdiv]. rewrite xdiv_fin; [easy|].
  assert (0 < total exp (values x)); [|lra]. unfold total. apply Rsum_gt0; [destruct (values x); easy|].
  apply Forall_forall. intros y Hy. apply in_map_iff in Hy. destruct Hy as (? & <- & _). apply exp_pos.
Qed.
Lemma total_exp_pos l : l <> [] -> 0 < total exp l.
Proof.
  intros N. unfold total. apply Rsum_gt0; [destruct l; easy|].
  apply Forall_forall. intros y Hy. apply in_map_iff in Hy. destruct Hy as (? & <- & _). apply exp_pos.
Qed.
Lemma sm_thm x : values x <> [] -> (forall v, In v (values x) -> -600 <= v <= 600) -> (Z.of_nat (length (values x)) <= 2 ^ 32)%Z ->
  exists y, softmax x = map (option_map Fin) y /\ length y = length x /\ (forall i, get y i = None <-> get x i = None) /\
    probabilities (values y) /\
    (forall i j a b p q, get x i = Some a -> get x j = Some b -> get y i = Some p -> get y j = Some q -> p / q = exp (a - b)).
Proof.
  intros N H L. exists (lift1 (fun v => exp v / total exp (values x)) x). pose proof (total_exp_pos _ N) as P.
  split; [|split; [|split; [|split]]].
  - rewrite sm_val by easy. unfold lift1. rewrite map_map. apply map_ext. intros [v|]; reflexivity.
  - unfold lift1. apply map_length.
  - intros i. rewrite get_lift1. destruct (get x i); cbn; intuition discriminate.
  - rewrite values_lift1. split.
    + intros p Hp. apply in_map_iff in Hp. destruct Hp as (v & <- & _). apply Rdiv_lt_0_compat; [apply exp_pos|easy].
    + change (total (fun v => exp v / total exp (values x)) (values x) = 1).
      rewrite (total_ext _ (fun v => / total exp (values x) * exp v)) by (intros; unfold Rdiv; ring). rewrite total_scale. field. lra.
  - intros i j a b p q Ha Hb. rewrite !get_lift1, Ha, Hb. cbn. intros Ep Eq. inversion Ep. inversion Eq.
    unfold Rminus. rewrite exp_plus, exp_Ropp. pose proof (exp_pos a). pose proof (exp_pos b). field. lra.
Qed.
Lemma sm_shift x c : (forall v, In v (values x) -> -600 <= v <= 600) -> (forall v, In v (values x) -> -600 <= v + c <= 600) ->
  (Z.of_nat (length (values x)) <= 2 ^ 32)%Z -> softmax (lift1 (fun v => v + c) x) = softmax x.
Proof.
  intros H H' L. destruct (values x) as [|v0 l0] eqn:Ev.
  { assert (forall o, In o x -> o = None) as A. { intros [v|] Ho; [|easy]. exfalso. assert (In v (values x)) by (unfold values; apply in_flat_map; exists (Some v); split; [easy|now left]). rewrite Ev in *. easy. }
    unfold softmax, lift1. rewrite map_map. apply map_ext_in. intros o Ho. now rewrite (A o Ho). }
  rewrite <- Ev in *. assert (values x <> []) as N by (rewrite Ev; easy). clear Ev v0 l0.
  rewrite !sm_val; [| easy | easy | intros v Hv; rewrite values_lift1 in Hv; apply in_map_iff in Hv; destruct Hv as (u & <- & Hu); now apply H' |
    rewrite values_lift1, map_length; easy].
  unfold lift1 at 2. rewrite map_map. apply map_ext. intros [v|]; [|easy]. cbn [option_map]. do 2 f_equal.
  rewrite values_lift1. rewrite total_map. rewrite (total_ext _ (fun v => exp c * exp v)) by (intros; rewrite exp_plus; ring).
  rewrite total_scale, exp_plus. pose proof (total_exp_pos _ N). pose proof (exp_pos c). field. lra.
Qed.
Lemma fold_inf l : fold_left fplus l PInf = PInf.
Proof. induction l; [easy|]. cbn. exact IHl. Qed.
Lemma clamp_cases r : (exists a, clamp r = Fin a) \/ clamp r = PInf.
Proof. unfold clamp. destruct (Rle_dec r f64_tiny); [eauto|]. destruct (Rle_dec r f64_max); eauto. Qed.
Lemma fold_has_inf l : forall s, (exists a, s = Fin a) \/ s = PInf -> (exists v, In v l /\ fexp v = PInf) -> fold_left fplus (map fexp l) s = PInf.
Proof.
  induction l as [|a l IH]; intros s S (v & Hv & E); [easy|]. cbn [map fold_left].
  destruct S as [(b & ->)| ->]; [|cbn; apply fold_inf]. destruct Hv as [->|Hv].
  - rewrite E. apply fold_inf.
  - destruct (clamp_cases (exp a)) as [(c & Ec)|Ec]; unfold fexp at 2; rewrite Ec; cbn [fplus]; [|apply fold_inf].
    apply IH; [apply clamp_cases|eauto].
Qed.
Lemma nth_softmax x i v : get x i = Some v -> nth i (softmax x) None = Some (fdiv (fexp v) (fold_left fplus (map fexp (values x)) (Fin 0))).
Proof.
  intros G. unfold softmax. unfold get in G. destruct (nth_error x i) as [[u|]|] eqn:E; try discriminate. inversion G; subst u.
  apply nth_error_nth. rewrite nth_error_map, E. reflexivity.
Qed.
Lemma get_values x i v : get x i = Some v -> In v (values x).
Proof. unfold get. destruct (nth_error x i) as [[u|]|] eqn:E; try discriminate. intros H; inversion H; subst. unfold values. apply in_flat_map. exists (Some v). split; [eapply nth_error_In; eauto|now left]. Qed.
Lemma fexp_big v : 1024 <= v -> fexp v = PInf.
Proof.
  intros H. pose proof (exp_big v H). pose proof max_lo. pose proof tiny_pos. unfold fexp, clamp. destruct (Rle_dec (exp v) f64_tiny) as [T|]; [|destruct (Rle_dec (exp v) f64_max); [lra|easy]].
  exfalso. assert (f64_tiny <= 1). { unfold f64_tiny. rewrite <- Rinv_1. apply Rinv_le_contravar; [lra|]. apply pow_R1_Rle. lra. }
  assert (1 <= 2 ^ 1023) by (apply pow_R1_Rle; lra). lra.
Qed.
Lemma sm_over x i v : get x i = Some v -> 1024 <= v -> nth i (softmax x) None = Some NaN.
Proof.
  intros G H. rewrite (nth_softmax x i v G). rewrite (fexp_big v H). rewrite fold_has_inf; [easy|left; eauto|].
  exists v. split; [eapply get_values; eauto|now apply fexp_big].
Qed.
Lemma fexp_small v : v <= -1075 -> fexp v = Fin 0.
Proof. intros H. pose proof (exp_small v H). unfold fexp, clamp. destruct (Rle_dec (exp v) f64_tiny); [easy|lra]. Qed.
Lemma sm_under x : (forall v, In v (values x) -> v <= -1075) -> forall i v, get x i = Some v -> nth i (softmax x) None = Some NaN.
Proof.
  intros H i v G. rewrite (nth_softmax x i v G). rewrite fexp_small by (apply H; eapply get_values; eauto).
  assert (fold_left fplus (map fexp (values x)) (Fin 0) = Fin 0) as E.
  { clear G. induction (values x) as [|a l IH]; [easy|]. cbn [map fold_left]. rewrite fexp_small by (apply H; now left). cbn [fplus].
    replace (0 + 0) with 0 by ring. unfold clamp at 1. pose proof tiny_pos. destruct (Rle_dec 0 f64_tiny); [|lra]. apply IH. intros; apply H; now right. }
  rewrite E. cbn [fdiv]. unfold xdiv. destruct (Req_EM_T 0 0); easy.
Qed.

(** ** Detrending. *)
Lemma as_nth (l : list R) : l = map (fun i => nth i l 0) (seq 0 (length l)).
Proof.
  apply (nth_ext _ _ 0 0); [now rewrite map_length, seq_length|]. intros i H.
  symmetry.
  rewrite (nth_indep _ 0 ((fun i => nth i l 0) 0%nat)) by now rewrite map_length, seq_length. rewrite (map_nth (fun i => nth i l 0)). now rewrite seq_nth.
Qed.
Lemma combine_maps {A B C} (f : A -> B) (g : A -> C) l : combine (map f l) (map g l) = map (fun a => (f a, g a)) l.
Proof. induction l; cbn; [easy|]. now rewrite IHl. Qed.
Lemma sum_ramp n : Rsum (ramp n) = INR n * (INR n - 1) / 2.
Proof.
  unfold ramp. induction n; [cbn; field|]. rewrite seq_S, map_app, Rsum_app, IHn. cbn [map Rsum plus]. rewrite S_INR. field.
Qed.
Lemma ramp_len n : length (ramp n) = n. Proof. unfold ramp. now rewrite map_length, seq_length. Qed.
Lemma mean_ramp n : (1 <= n)%nat -> mean_of (ramp n) = (INR n - 1) / 2.
Proof. intros H. unfold mean_of. rewrite sum_ramp, ramp_len. apply le_INR in H. cbn in H. field. lra. Qed.
Section Fit.
  Variable l : list R.
  Hypothesis L : (2 <= length l)%nat.
  Let n := length l.
  Let f i := nth i l 0.
  Let m := mean_of l.
  Let mx := (INR n - 1) / 2.
  Let c := cov_of l (ramp n) / var_of (ramp n).
  Lemma n2 : 2 <= INR n. Proof. apply (le_INR 2) in L. exact L. Qed.
  Lemma tot_f : total f (seq 0 n) = INR n * m.
  Proof. unfold total, f. rewrite <- as_nth. unfold m, mean_of. fold n. pose proof n2. field. lra. Qed.
  Lemma tot_i : total INR (seq 0 n) = INR n * mx.
  Proof. unfold total. change (map INR (seq 0 n)) with (ramp n). rewrite sum_ramp. unfold mx. field. Qed.
  Lemma tot_1 k : total (fun _ : nat => k) (seq 0 n) = INR n * k.
  Proof. rewrite total_const, seq_length. easy. Qed.
  Lemma vx_pos : 0 < total (fun i => (INR i - mx) ^ 2) (seq 0 n).
  Proof.
    assert (0 <= total (fun i => (INR i - mx) ^ 2) (seq 0 n)) as G by (apply total_ge0; intros; apply pow2_ge_0).
    destruct G as [G|G]; [easy|]. exfalso. symmetry in G.
    pose proof (total_zero _ _ (fun i _ => pow2_ge_0 (INR i - mx)) G) as Z. pose proof n2.
    assert ((INR 0 - mx) ^ 2 = 0) as Z0 by (apply Z, in_seq; unfold n in *; lia). unfold mx in Z0. cbn in Z0. nra.
  Qed.
  Lemma c_val : c * total (fun i => (INR i - mx) ^ 2) (seq 0 n) = total (fun i => (f i - m) * (INR i - mx)) (seq 0 n).
  Proof.
    unfold c, cov_of, var_of. rewrite ramp_len. fold n m. rewrite mean_ramp by (unfold n; lia). fold mx.
    assert (Rsum (map (fun p => (fst p - m) * (snd p - mx)) (combine l (ramp n))) = total (fun i => (f i - m) * (INR i - mx)) (seq 0 n)) as E1.
    { rewrite (as_nth l) at 1. fold n. unfold ramp. rewrite combine_maps, map_map. reflexivity. }
    assert (Rsum (map (fun a => (a - mx) ^ 2) (ramp n)) = total (fun i => (INR i - mx) ^ 2) (seq 0 n)) as E2.
    { unfold ramp. rewrite map_map. reflexivity. }
    rewrite E1, E2. pose proof vx_pos. pose proof n2. field. lra.
  Qed.
  Let r i := f i - INR i * c - (m - c * mx).
  Lemma r_sum : total r (seq 0 n) = 0.
  Proof.
    rewrite (total_ext _ (fun i => (f i + (- c) * INR i) + - (m - c * mx))) by (intros; unfold r; ring).
    rewrite !total_add, total_scale, tot_1, tot_f, tot_i. ring.
  Qed.
  Lemma r_trend : total (fun i => INR i * r i) (seq 0 n) = 0.
  Proof.
    assert (total (fun i => (INR i - mx) * r i) (seq 0 n) = 0) as E.
    { rewrite (total_ext _ (fun i => (f i - m) * (INR i - mx) + (- c) * (INR i - mx) ^ 2)) by (intros; unfold r; ring).
      rewrite total_add, total_scale, <- c_val. ring. }
    rewrite (total_ext _ (fun i => (INR i - mx) * r i + mx * r i)) by (intros; ring). rewrite total_add, total_scale, E, r_sum. ring.
  Qed.
  Lemma r_line a b : total (fun i => (a + b * INR i) * r i) (seq 0 n) = 0.
  Proof.
    rewrite (total_ext _ (fun i => a * r i + b * (INR i * r i))) by (intros; ring). rewrite total_add, !total_scale, r_sum, r_trend. ring.
  Qed.
  Lemma r_best a b : total (fun i => r i ^ 2) (seq 0 n) <= line_loss a b l.
  Proof.
    unfold line_loss. fold n. set (a' := a - (m - c * mx)). set (b' := b - c).
    rewrite (total_ext (fun i => (nth i l 0 - (a + b * INR i)) ^ 2) (fun i => r i ^ 2 + ((-2) * ((a' + b' * INR i) * r i) + (a' + b' * INR i) ^ 2)))
      by (intros; unfold r, a', b', f; ring).
    rewrite !total_add, total_scale, r_line. assert (0 <= total (fun i => (a' + b' * INR i) ^ 2) (seq 0 n)) by (apply total_ge0; intros; apply pow2_ge_0). lra.
  Qed.
  Lemma detr : detrend (map Some l) Linear = Some (map Some (map r (seq 0 n))).
  Proof.
    cbn [detrend]. unfold detrend_linear. rewrite values_some, map_length, Nat.eqb_refl. cbn [negb].
    destruct (Nat.ltb_spec (length l) 2); [lia|]. f_equal. rewrite lift2_some. f_equal. fold n.
    assert (combine l (ramp n) = map (fun i => (f i, INR i)) (seq 0 n)) as ->.
    { rewrite (as_nth l) at 1. fold n. unfold ramp. apply combine_maps. }
    rewrite map_map. apply map_ext. intros i. cbn [fst snd].
    rewrite cmean_mean, values_some. fold m c. unfold r, f, mx. lra.
  Qed.
  Lemma r_nth i : (i < n)%nat -> nth i (map r (seq 0 n)) 0 = r i.
  Proof. intros H. rewrite (nth_indep _ 0 (r 0%nat)) by now rewrite map_length, seq_length. rewrite map_nth, seq_nth; easy. Qed.
End Fit.
Lemma total_pos_ext (f g : nat -> R) n : (forall i, (i < n)%nat -> f i = g i) -> total f (seq 0 n) = total g (seq 0 n).
Proof. intros H. apply total_ext. intros i Hi. apply in_seq in Hi. apply H. lia. Qed.
Lemma detrend_thm l : (2 <= length l)%nat -> exists r a b, detrend (map Some l) Linear = Some (map Some r) /\ length r = length l /\
  (forall i, (i < length l)%nat -> nth i l 0 = a + b * INR i + nth i r 0) /\
  (forall a' b', line_loss a b l <= line_loss a' b' l) /\ mean_of r = 0 /\ trend r = 0.
Proof.
  intros L. pose proof (detr l L) as D. cbv zeta in D.
  set (c := cov_of l (ramp (length l)) / var_of (ramp (length l))) in *. set (k := mean_of l - c * ((INR (length l) - 1) / 2)) in *.
  set (f := fun i => nth i l 0 - INR i * c - k) in *. exists (map f (seq 0 (length l))), k, c.
  assert (length (map f (seq 0 (length l))) = length l) as E by now rewrite map_length, seq_length.
  assert (forall i, (i < length l)%nat -> nth i (map f (seq 0 (length l))) 0 = f i) as Nf.
  { intros i Hi. rewrite (nth_indep _ 0 (f 0%nat)) by now rewrite E. rewrite map_nth, seq_nth; easy. }
  split; [exact D|]. split; [exact E|]. split; [|split; [|split]].
  - intros i Hi. rewrite Nf by easy. unfold f. ring.
  - intros a' b'. pose proof (r_best l L a' b') as B. cbv zeta in B. fold c k in B.
    replace (line_loss k c l) with (total (fun i => f i ^ 2) (seq 0 (length l))); [exact B|].
    unfold line_loss. apply total_ext. intros i _. unfold f. ring.
  - unfold mean_of. change (Rsum (map f (seq 0 (length l)))) with (total f (seq 0 (length l))).
    pose proof (r_sum l L) as S0. cbv zeta in S0. fold c k in S0. unfold f. rewrite S0. unfold Rdiv. ring.
  - unfold trend. rewrite E. rewrite (total_pos_ext _ (fun i => INR i * f i)) by (intros; now rewrite Nf).
    pose proof (r_trend l L) as T0. cbv zeta in T0. fold c k in T0. exact T0.
Qed.
Lemma normal_eq l a b : (2 <= length l)%nat -> (forall i, (i < length l)%nat -> nth i l 0 = a + b * INR i) -> mean_of l = 0 -> trend l = 0 -> a = 0 /\ b = 0.
Proof.
  intros L H M T. set (n := length l) in *. assert (2 <= INR n) as N2 by (apply (le_INR 2); exact L).
  assert (total (fun i => a + b * INR i) (seq 0 n) = 0) as S0.
  { rewrite (total_pos_ext _ (fun i => nth i l 0)) by (intros; symmetry; now apply H). unfold total, n. rewrite <- as_nth.
    unfold mean_of in M. fold n in M. apply Rmult_eq_reg_r with (/ INR n); [|apply Rinv_neq_0_compat; lra]. unfold Rdiv in M. lra. }
  assert (total (fun i => INR i * (a + b * INR i)) (seq 0 n) = 0) as T0.
  { rewrite (total_pos_ext _ (fun i => INR i * nth i l 0)); [exact T|]. intros i Hi. now rewrite H. }
  assert (total (fun i => (a + b * INR i) ^ 2) (seq 0 n) = 0) as Q.
  { rewrite (total_ext _ (fun i => a * (a + b * INR i) + b * (INR i * (a + b * INR i)))) by (intros; ring).
    rewrite total_add, !total_scale, S0, T0. ring. }
  pose proof (total_zero _ _ (fun i _ => pow2_ge_0 (a + b * INR i)) Q) as Z.
  assert ((a + b * INR 0) ^ 2 = 0) as Z0 by (apply Z, in_seq; lia). assert ((a + b * INR 1) ^ 2 = 0) as Z1 by (apply Z, in_seq; lia).
  change (INR 0) with 0 in Z0. change (INR 1) with 1 in Z1.
  assert (forall q, q ^ 2 = 0 -> q = 0) as SQ by (intros q Hq; nra). apply SQ in Z0, Z1. split; lra.
Qed.
Lemma detrend_line l t u l' : (2 <= length l)%nat -> length l' = length l -> (forall i, (i < length l)%nat -> nth i l' 0 = nth i l 0 + (t + u * INR i)) ->
  detrend (map Some l') Linear = detrend (map Some l) Linear.
Proof.
  intros L E H. destruct (detrend_thm l L) as (r & a & b & -> & Lr & Hr & _ & Mr & Tr).
  destruct (detrend_thm l') as (r' & a' & b' & -> & Lr' & Hr' & _ & Mr' & Tr'); [lia|]. do 2 f_equal.
  set (d := map (fun i => nth i r' 0 - nth i r 0) (seq 0 (length l))).
  assert (length d = length l) as Ld by (unfold d; now rewrite map_length, seq_length).
  assert (forall i, (i < length l)%nat -> nth i d 0 = nth i r' 0 - nth i r 0) as Nd.
  { intros i Hi. unfold d. rewrite (nth_indep _ 0 ((fun i => nth i r' 0 - nth i r 0) 0%nat)) by now rewrite map_length, seq_length.
    rewrite (map_nth (fun i => nth i r' 0 - nth i r 0)), seq_nth; easy. }
  assert (2 <= INR (length l)) as N2 by (apply (le_INR 2); exact L).
  assert (a + t - a' = 0 /\ b + u - b' = 0) as (A0 & B0).
  { apply (normal_eq d); rewrite ?Ld; [easy| | |].
    - intros i Hi. rewrite Nd by easy. specialize (H i Hi). specialize (Hr i Hi). specialize (Hr' i ltac:(lia)). lra.
    - unfold mean_of. replace (Rsum d) with 0; [unfold Rdiv; ring|]. symmetry.
      change (Rsum d) with (total (fun i => nth i r' 0 - nth i r 0) (seq 0 (length l))).
      rewrite (total_ext _ (fun i => nth i r' 0 + -1 * nth i r 0)) by (intros; ring). rewrite total_add, total_scale.
      unfold total. rewrite <- Lr at 2. rewrite <- as_nth. replace (length l) with (length r') by lia. rewrite <- as_nth.
      unfold mean_of in Mr, Mr'. rewrite Lr in Mr. rewrite Lr', E in Mr'.
      assert (Rsum r = 0) by (apply Rmult_eq_reg_r with (/ INR (length l)); [|apply Rinv_neq_0_compat; lra]; unfold Rdiv in Mr; lra).
      assert (Rsum r' = 0) by (apply Rmult_eq_reg_r with (/ INR (length l)); [|apply Rinv_neq_0_compat; lra]; unfold Rdiv in Mr'; lra). lra.
    - unfold trend. rewrite Ld. rewrite (total_pos_ext _ (fun i => INR i * nth i r' 0 + -1 * (INR i * nth i r 0))) by (intros; rewrite Nd by easy; ring).
      rewrite total_add, total_scale. unfold trend in Tr, Tr'. rewrite Lr in Tr. rewrite Lr', E in Tr'. rewrite Tr, Tr'. ring. }
  apply (nth_ext _ _ 0 0); [lia|]. intros i Hi. specialize (H i ltac:(lia)). specialize (Hr i ltac:(lia)). specialize (Hr' i ltac:(lia)).
  replace a' with (a + t) in Hr' by lra. replace b' with (b + u) in Hr' by lra. lra.
Qed.
Lemma detrend_null ts : In None ts -> detrend ts Linear = None.
Proof.
  intros H. cbn [detrend]. unfold detrend_linear. destruct (Nat.eqb_spec (length (values ts)) (length ts)) as [E|]; [|easy]. exfalso.
  assert (forall x : rcol, (length (values x) <= length x)%nat) as B by (induction x as [|[a|] x IH]; cbn; [|unfold values in *; cbn in *|unfold values in *]; lia).
  revert E. induction ts as [|o ts IH]; [easy|]. pose proof (B ts). destruct H as [->|H].
  - cbn. unfold values in *. lia.
  - destruct o; cbn; unfold values in *; [intros E; apply IH; [easy|lia]|lia].
Qed.
Lemma detrend_mean ts : values ts <> [] -> exists r, detrend ts Mean = Some r /\ length r = length ts /\ mean_of (values r) = 0 /\
  (forall i, get r i = option_map (fun v => v - mean_of (values ts)) (get ts i)).
Proof. intros H. destruct (center_thm ts H) as (A & B & C). exists (center ts). split; [reflexivity|easy]. Qed.

(** ** Horizontal norms. *)
Lemma abs_list_le (m : R) l : (forall v, In v l -> Rabs v <= m) -> Rsum (map (fun a => a ^ 2) l) <= m * Rsum (map Rabs l).
Proof.
  intros H. change (total (fun a => a ^ 2) l <= m * total Rabs l). rewrite <- total_scale. apply total_le. intros v Hv.
  rewrite <- pow2_abs. pose proof (Rabs_pos v). specialize (H v Hv). nra.
Qed.
Lemma l2_l1 l : Rsum (map (fun a => a ^ 2) l) <= Rsum (map Rabs l) ^ 2.
Proof.
  assert (0 <= Rsum (map Rabs l)) as P by (apply (total_ge0 Rabs); intros; apply Rabs_pos).
  induction l as [|a l IH]; cbn [map Rsum]; [lra|].
  assert (0 <= Rsum (map Rabs l)) as P' by (apply (total_ge0 Rabs); intros; apply Rabs_pos). specialize (IH P').
  rewrite <- pow2_abs. pose proof (Rabs_pos a). nra.
Qed.
Lemma l1_l2 l : Rsum (map Rabs l) ^ 2 <= INR (length l) * Rsum (map (fun a => a ^ 2) l).
Proof.
  destruct l as [|a l']; [cbn; lra|]. set (l := a :: l'). assert (l <> []) as N by easy.
  pose proof (avg_square Rabs l N) as A. rewrite !avg_total in A. pose proof (inr_pos l N) as P. unfold total in A.
  rewrite (map_ext (fun x => Rabs x ^ 2) (fun a => a ^ 2)) in A by (intros; apply pow2_abs).
  assert (Rsum (map Rabs l) ^ 2 = (Rsum (map Rabs l) / INR (length l)) ^ 2 * (INR (length l) ^ 2)) as -> by (field; lra).
  replace (INR (length l) * Rsum (map (fun a => a ^ 2) l)) with (Rsum (map (fun a => a ^ 2) l) / INR (length l) * INR (length l) ^ 2) by (field; lra).
  apply Rmult_le_compat_r; [apply pow2_ge_0|easy].
Qed.
Lemma norms_thm row : values row <> [] -> exists m, l_inf_horizontal row false = Some m /\ greatest (map Rabs (values row)) m /\
  (let k := INR (length (values row)) in let l1 := l1_horizontal row false in let l2 := l2_sq_horizontal row false in
   l1 = total Rabs (values row) /\ l2 = total (fun a => a ^ 2) (values row) /\
   m <= l1 <= k * m /\ m ^ 2 <= l2 <= l1 ^ 2 /\ l1 ^ 2 <= k * l2 /\ l2 <= m * l1).
Proof.
  intros H. unfold l_inf_horizontal, l1_horizontal, l2_sq_horizontal, by_dim.
  assert (exists m, rmax (map Rabs (values row)) = Some m /\ greatest (map Rabs (values row)) m) as (m & -> & G).
  { destruct (values row) as [|a l]; [easy|]. cbn [map rmax]. eexists. split; [reflexivity|]. apply rmax_fold. }
  exists m. split; [easy|]. split; [easy|]. cbv zeta. destruct G as (Gi & Gm).
  apply in_map_iff in Gi. destruct Gi as (v & Ev & Hv). split; [easy|]. split; [easy|].
  assert (forall g : R -> R, (forall u, 0 <= g u) -> g v <= Rsum (map g (values row))) as B.
  { intros g Hg. clear - Hv Hg. induction (values row) as [|a l IH]; [easy|]. cbn.
    assert (0 <= Rsum (map g l)) by (apply (total_ge0 g); intros; apply Hg). pose proof (Hg a). destruct Hv as [->|Hv]; [lra|]. specialize (IH Hv). lra. }
  split; [split|split; [split|split]].
  - rewrite <- Ev. apply (B Rabs), Rabs_pos.
  - change (total Rabs (values row) <= INR (length (values row)) * m). rewrite <- total_const. apply total_le. intros u Hu. apply Gm, in_map, Hu.
  - rewrite <- Ev, pow2_abs. apply (B (fun a => a ^ 2)). intros. apply pow2_ge_0.
  - apply l2_l1.
  - apply l1_l2.
  - apply abs_list_le. intros u Hu. apply Gm, in_map, Hu.
Qed.
Lemma norms_normalized row : l_inf_horizontal row true = option_map (fun m => m / INR (length row)) (l_inf_horizontal row false) /\
  l1_horizontal row true = l1_horizontal row false / INR (length row) /\ l2_sq_horizontal row true = l2_sq_horizontal row false / INR (length row).
Proof. unfold l_inf_horizontal, l1_horizontal, l2_sq_horizontal, by_dim. destruct (rmax _); easy. Qed.
Lemma norms_null row : values row = [] -> l_inf_horizontal row false = None /\ l1_horizontal row false = 0 /\ l2_sq_horizontal row false = 0.
Proof. intros H. unfold l_inf_horizontal, l1_horizontal, l2_sq_horizontal, by_dim. rewrite H. easy. Qed.
Lemma trans_case : let x : list (option R) := [Some 1; None; Some 3] in
  (2 <= length (values x))%nat /\ 0 < var_of (values x) /\ (forall v, In v (values x) -> -600 <= v <= 600) /\ increasing true [1; 2; 5].
Proof.
  cbn zeta. cbn [values flat_map app length]. split; [lia|]. split; [unfold var_of, mean_of; cbn; lra|]. split.
  - cbn. intros v [<-|[<-|[]]]; lra.
  - intros i j H. cbn in H. destruct i as [|[|i]], j as [|[|[|j]]]; cbn; try lia; lra.
Qed.
