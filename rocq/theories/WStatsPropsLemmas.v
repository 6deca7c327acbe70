From Coq Require Import Reals List Lia Lra Psatz Arith.
From Verif Require Import WStatsSpec WStatsModel WStatsProofs.
Import ListNotations.
Open Scope R_scope.

Lemma as_rows (x w : list R) : length x = length w -> exists r, map fst r = x /\ map snd r = w /\ r = combine x w.
Proof. intros L. exists (combine x w). destruct (combine_map_fst x w L). auto. Qed.

Lemma wmean_bounds x w lo hi : length x = length w -> x <> [] -> Forall (fun a => 0 < a) w -> Forall (fun a => lo <= a <= hi) x ->
  lo <= weighted_mean (map Some x) (map Some w) false <= hi.
Proof.
  intros L N P B. destruct (as_rows x w L) as (r & <- & <- & _). apply wm_bounds.
  - intros ->. now apply N.
  - rewrite Forall_map in P. exact P.
  - rewrite Forall_map in B. exact B.
Qed.
(** A null in the variable: the weights of its row still count. *)
Lemma wmean_null : exists x w, weighted_mean x w false = 1 /\
  values x = [2] /\ w = [Some 1; Some 1].
Proof.
  exists [Some 2; None], [Some 1; Some 1]. split; [|auto]. unfold weighted_mean, dot, csum, lift2. cbn. field.
Qed.
Lemma wgmean_le_wmean x w : length x = length w -> x <> [] -> Forall (fun a => 0 < a) w -> Forall (fun a => 0 < a) x ->
  weighted_gmean (map Some x) (map Some w) false <= weighted_mean (map Some x) (map Some w) false.
Proof.
  intros L N P B. destruct (as_rows x w L) as (r & <- & <- & _). rewrite wgm_rows, wm_rows. apply wgm_le.
  - intros ->. now apply N.
  - rewrite Forall_map in P. exact P.
  - rewrite Forall_map in B. exact B.
Qed.
Lemma means_order x : x <> [] -> Forall (fun a => 0 < a) x ->
  hmean (map Some x) <= gmean (map Some x) <= mean_of x.
Proof. intros N P. split; [now apply hmean_le_gmean|now apply gmean_le_mean]. Qed.
Lemma whm_witness : exists x w, Forall (fun a => 0 < a) w /\ weighted_hmean (map Some x) (map Some w) false <> Rsum w / Rsum (map (fun p => snd p / fst p) (combine x w)).
Proof.
  exists [1; 4], [1; 1]. split; [repeat constructor; lra|]. rewrite whm_some; [|repeat constructor; lra|congruence]. cbn. lra.
Qed.

(** Three columns as functions of the row number. *)
Lemma colf_nth (x : list R) n : length x = n -> map Some x = colf (fun i => nth i x 0) (seq 0 n).
Proof.
  intros <-. unfold colf. f_equal. apply (nth_ext _ _ 0 0); [now rewrite map_length, seq_length|]. intros i Hi.
  rewrite (nth_indep (map _ _) 0 ((fun i => nth i x 0) 0%nat)) by (now rewrite map_length, seq_length). now rewrite (map_nth (fun i => nth i x 0)), seq_nth.
Qed.
Lemma nth_pos w n : length w = n -> Forall (fun a => 0 < a) w -> forall t, In t (seq 0 n) -> 0 < nth t w 0.
Proof. intros <- P t Ht. apply in_seq in Ht. rewrite Forall_forall in P. apply P, nth_In. lia. Qed.
Lemma nth_nz x n : length x = n -> Exists (fun a => a <> 0) x -> exists t, In t (seq 0 n) /\ nth t x 0 <> 0.
Proof.
  intros <- E. apply Exists_exists in E. destruct E as (a & Ha & Nz). apply (In_nth _ _ 0) in Ha. destruct Ha as (i & Hi & <-). exists i. split; [apply in_seq; lia|exact Nz].
Qed.
Lemma rs_nth w n : length w = n -> rs (fun i => nth i w 0) (seq 0 n) = Rsum w.
Proof. intros L. rewrite <- (csum_f (fun i => nth i w 0)), <- (colf_nth w n L). apply csum_some. Qed.

Lemma wcosine x y w : length x = length w -> length y = length w -> Forall (fun a => 0 < a) w -> Exists (fun a => a <> 0) x -> Exists (fun a => a <> 0) y ->
  let s := weighted_cosine_sim (map Some x) (map Some y) (map Some w) in
  -1 <= s <= 1 /\ s = weighted_cosine_sim (map Some y) (map Some x) (map Some w) /\ weighted_cosine_sim (map Some x) (map Some x) (map Some w) = 1.
Proof.
  intros Lx Ly P Ex Ey s. unfold s. rewrite (colf_nth x _ Lx), (colf_nth y _ Ly), (colf_nth w _ eq_refl).
  pose proof (nth_pos w _ eq_refl P) as PP. pose proof (nth_nz x _ Lx Ex). pose proof (nth_nz y _ Ly Ey).
  split; [now apply (wcos_bound (fun i => nth i x 0) (fun i => nth i y 0) (fun i => nth i w 0))|]. split; [apply wcos_sym|].
  now apply (wcos_self (fun i => nth i x 0) (fun i => nth i w 0)).
Qed.
Lemma wcov_laws x y w : length x = length w -> length y = length w -> w <> [] -> Forall (fun a => 0 < a) w ->
  let X := map Some x in let Y := map Some y in let W := map Some w in
  weighted_cov X Y W = weighted_cov Y X W /\ weighted_cov X X W = weighted_var X W false /\ 0 <= weighted_var X W false /\
  weighted_cov X Y W ^ 2 <= weighted_var X W false * weighted_var Y W false /\
  (forall a b, weighted_var (map Some (map (fun v => a * v + b) x)) W false = a ^ 2 * weighted_var X W false).
Proof.
  intros Lx Ly N P X Y W. pose proof (Rsum_gt0 w N P) as T. unfold X, Y, W.
  assert (A : forall a b, map Some (map (fun v => a * v + b) x) = colf (fun i => a * nth i x 0 + b) (seq 0 (length w))).
  { intros a b. unfold colf. f_equal. rewrite <- (map_map (fun i => nth i x 0) (fun v => a * v + b)). f_equal.
    pose proof (colf_nth x _ Lx) as C. unfold colf in C. rewrite <- (values_some x), C at 1. now rewrite values_some. }
  rewrite (colf_nth x _ Lx), (colf_nth y _ Ly), (colf_nth w _ eq_refl).
  pose proof (nth_pos w _ eq_refl P) as PP. rewrite <- (rs_nth w _ eq_refl) in T.
  assert (PN : forall t, In t (seq 0 (length w)) -> 0 <= nth t w 0) by (intros t Ht; left; auto).
  split; [apply cov_sym|]. split; [apply cov_self|]. split; [now apply (var_nonneg (fun i => nth i x 0) (fun i => nth i w 0))|].
  split; [now apply (cov_cs (fun i => nth i x 0) (fun i => nth i y 0) (fun i => nth i w 0))|].
  intros a b. rewrite A. apply (var_affine (fun i => nth i x 0) (fun i => nth i w 0)). lra.
Qed.
Lemma cosine_refuted : exists x, Exists (fun a => a <> 0) x /\ cosine_sim (map Some x) (map Some x) = 5.
Proof. exists [3; 4]. split; [left; lra|]. rewrite cos_self. cbn. replace (3 * 3 + (4 * 4 + 0)) with (5 * 5) by ring. apply sqrt_square. lra. Qed.
Lemma wcorr_refuted : exists x y w, Forall (fun a => 0 < a) w /\ 1 < weighted_corr (map Some x) (map Some y) (map Some w) /\
  weighted_corr (map Some x) (map Some y) (map Some w) <> weighted_corr (map Some y) (map Some x) (map Some w).
Proof.
  exists [0; 2], [0; 20], [1; 1]. split; [repeat constructor; lra|].
  assert (E1 : weighted_corr (map Some [0; 2]) (map Some [0; 20]) (map Some [1; 1]) = 20 / sqrt 328).
  { unfold weighted_corr, weighted_cov, weighted_mean, dot, csum, lift1, lift2. cbn -[sqrt]. f_equal; [field|]. f_equal. field. }
  assert (E2 : weighted_corr (map Some [0; 20]) (map Some [0; 2]) (map Some [1; 1]) = 20 / sqrt 72400).
  { unfold weighted_corr, weighted_cov, weighted_mean, dot, csum, lift1, lift2. cbn -[sqrt]. f_equal; [field|]. f_equal. field. }
  rewrite E1, E2. assert (S1 : sqrt 328 < 20). { rewrite <- (sqrt_square 20) by lra. apply sqrt_lt_1; lra. }
  assert (S0 : 0 < sqrt 328) by (apply sqrt_lt_R0; lra). assert (S2 : sqrt 328 < sqrt 72400) by (apply sqrt_lt_1; lra).
  split; [apply (Rmult_lt_reg_r (sqrt 328)); [exact S0|]; unfold Rdiv; rewrite Rmult_assoc, Rinv_l by lra; lra|].
  assert (/ sqrt 72400 < / sqrt 328) by (apply Rinv_lt_contravar; nra). unfold Rdiv. lra.
Qed.

(** The median commutes with increasing affine maps. *)
Lemma insert_map g a l : (forall u v, u <= v <-> g u <= g v) -> map g (insert_R a l) = insert_R (g a) (map g l).
Proof.
  intros M. induction l as [|b l IH]; [reflexivity|]. cbn. destruct (Rle_dec a b) as [H|H], (Rle_dec (g a) (g b)) as [H'|H']; cbn.
  - reflexivity.
  - apply M in H. contradiction.
  - apply M in H'. contradiction.
  - now rewrite IH.
Qed.
Lemma sort_map g l : (forall u v, u <= v <-> g u <= g v) -> map g (sort_R l) = sort_R (map g l).
Proof. intros M. induction l as [|a l IH]; [reflexivity|]. cbn. now rewrite insert_map, IH. Qed.
Lemma insert_len a l : length (insert_R a l) = S (length l).
Proof. induction l as [|b l IH]; [reflexivity|]. cbn. destruct (Rle_dec a b); cbn; [reflexivity|]. now rewrite IH. Qed.
Lemma sort_len l : length (sort_R l) = length l.
Proof. induction l as [|a l IH]; [reflexivity|]. cbn. now rewrite insert_len, IH. Qed.
Definition polars_median (x : rcol) : R := median_of (values x).
Lemma median_affine : affine_median polars_median.
Proof.
  intros A f l a b N Ha. unfold polars_median, colf. rewrite !values_some. unfold median_of.
  assert (M : forall u v, u <= v <-> a * u + b <= a * v + b) by (intros u v; split; intros; nra).
  assert (Q : map (fun t => a * f t + b) l = map (fun v => a * v + b) (map f l)) by now rewrite map_map.
  rewrite Q, <- (sort_map (fun v => a * v + b)) by exact M. rewrite map_length, sort_len, map_length.
  assert (Hn : forall i, (i < length l)%nat -> nth i (map (fun v => a * v + b) (sort_R (map f l))) 0 = a * nth i (sort_R (map f l)) 0 + b).
  { intros i Hi. rewrite (nth_indep _ 0 ((fun v => a * v + b) 0)) by (rewrite map_length, sort_len, map_length; exact Hi). apply (map_nth (fun v => a * v + b)). }
  assert (Ln : (0 < length l)%nat) by (destruct l; [congruence|cbn; lia]).
  pose proof (Nat.div_mod (length l) 2 ltac:(lia)) as DM. pose proof (Nat.mod_upper_bound (length l) 2 ltac:(lia)).
  destruct (Nat.even (length l)); [rewrite !Hn by lia; field|rewrite Hn by lia; reflexivity].
Qed.
Lemma bicor_laws median x y c : length x = length y ->
  (exists d, In (Some d) (biweight median c (map Some x)) /\ d <> 0) -> (exists d, In (Some d) (biweight median c (map Some y)) /\ d <> 0) ->
  let s := bicor median (map Some x) (map Some y) c in
  -1 <= s <= 1 /\ s = bicor median (map Some y) (map Some x) c /\ bicor median (map Some x) (map Some x) c = 1.
Proof.
  intros L Ex Ey s. unfold s. rewrite (colf_nth x _ L), (colf_nth y _ eq_refl) in *. set (l := seq 0 (length y)) in *.
  assert (G : forall f : nat -> R, (exists d, In (Some d) (biweight median c (colf f l)) /\ d <> 0) -> exists t, In t l /\ bw median c f l t <> 0).
  { intros f (d & Hd & Nz). rewrite biweight_f in Hd. unfold colf in Hd. rewrite map_map in Hd. apply in_map_iff in Hd. destruct Hd as (t & E & Ht). injection E as E. exists t. rewrite E. auto. }
  apply G in Ex, Ey. split; [now apply bicor_bound|]. split; [apply bicor_sym|]. now apply bicor_self.
Qed.
Lemma bicor_shift x y c a b : length x = length y -> x <> [] -> 0 < a ->
  bicor polars_median (map Some (map (fun v => a * v + b) x)) (map Some y) c = bicor polars_median (map Some x) (map Some y) c.
Proof.
  intros L N Ha. assert (A : map Some (map (fun v => a * v + b) x) = colf (fun i => a * nth i x 0 + b) (seq 0 (length y))).
  { unfold colf. f_equal. rewrite <- (map_map (fun i => nth i x 0) (fun v => a * v + b)). f_equal.
    pose proof (colf_nth x _ L) as C. unfold colf in C. rewrite <- (values_some x), C at 1. now rewrite values_some. }
  rewrite A, (colf_nth x _ L), (colf_nth y _ eq_refl). apply bicor_affine; [apply median_affine| |exact Ha].
  destruct x; [congruence|]. cbn in L. rewrite <- L. discriminate.
Qed.
Lemma bicor_case : exists d, In (Some d) (biweight polars_median 9 (map Some [0; 1; 3])) /\ d <> 0.
Proof.
  assert (M1 : polars_median (map Some [0; 1; 3]) = 1).
  { unfold polars_median. rewrite values_some. unfold median_of. cbn [sort_R insert_R]. repeat (destruct Rle_dec; try lra; cbn [insert_R]). reflexivity. }
  assert (M2 : polars_median (map Some [1; 0; 2]) = 1).
  { unfold polars_median. rewrite values_some. unfold median_of. cbn [sort_R insert_R]. repeat (destruct Rle_dec; try lra; cbn [insert_R]). reflexivity. }
  unfold biweight. rewrite M1. cbv zeta. rewrite !lift1_some. cbn [map].
  replace (Rabs (0 - 1)) with 1 by (rewrite Rabs_left; lra). replace (Rabs (1 - 1)) with 0 by (rewrite Rabs_right; lra). replace (Rabs (3 - 1)) with 2 by (rewrite Rabs_right; lra).
  cbn [map] in M2. rewrite M2. unfold lift2. cbn [map combine In].
  eexists. split; [left; reflexivity|]. replace ((0 - 1) / (9 * 1)) with (- (1 / 9)) by field. rewrite Rabs_Ropp, Rabs_right by lra. destruct Rlt_dec; [|lra]. nra.
Qed.

From Coq Require Import Permutation Sorted.
From Verif Require Import XiModel XiSpec XiProofs.
Fixpoint ins_row (p : R * R) (l : list (R * R)) : list (R * R) := match l with [] => [p] | q :: l' => if Rle_dec (fst p) (fst q) then p :: l else q :: ins_row p l' end.
Fixpoint sort_rows (l : list (R * R)) : list (R * R) := match l with [] => [] | p :: l' => ins_row p (sort_rows l') end.
Lemma ins_row_ok p l : StronglySorted (fun p q => fst p <= fst q) l -> Permutation (ins_row p l) (p :: l) /\ StronglySorted (fun p q => fst p <= fst q) (ins_row p l).
Proof.
  induction l as [|q l IH]; intros H; cbn [ins_row]; [split; repeat constructor|]. pose proof (StronglySorted_inv H) as [H1 H2]. destruct (Rle_dec (fst p) (fst q)) as [L|L].
  - split; [reflexivity|]. constructor; [exact H|]. constructor; [exact L|]. eapply Forall_impl; [|exact H2]. cbn. intros; lra.
  - destruct (IH H1) as [P S1]. split; [rewrite P; apply perm_swap|]. constructor; [exact S1|]. rewrite Forall_forall in *. intros r Hr.
    apply (Permutation_in _ P) in Hr. destruct Hr as [<-|Hr]; [lra|auto].
Qed.
Lemma sort_rows_ok : order_ok sort_rows.
Proof.
  intros l. induction l as [|p l [P S1]]; [split; constructor|]. cbn [sort_rows]. destruct (ins_row_ok p (sort_rows l) S1) as [P2 S2]. split; [now rewrite P2, P|exact S2].
Qed.
Lemma xi_case : NoDup (map snd [(2, 5); (1, 3); (3, 9)]) /\ StronglySorted Rlt (map snd (sort_rows [(2, 5); (1, 3); (3, 9)])).
Proof.
  split.
  - cbn. repeat constructor; cbn; lra.
  - cbn [sort_rows ins_row fst]. repeat (destruct Rle_dec; cbn [fst] in *; try lra; cbn [ins_row fst]). cbn. repeat constructor; lra.
Qed.
