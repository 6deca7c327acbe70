From Coq Require Import Bool List Arith NArith ZArith Lia Permutation Sorted Reals Lra.
From Flocq Require Import Core IEEE754.BinarySingleNaN.
From Verif Require Import Num F64 KdModel KdSpec KdProofs KdSound PyKdModel PyKdSpec PyKdProofs KnnExprModel KnnExprSpec KnnExprProofs KnnExprSem
  MetricSpec DigammaModel DigammaSpec DigammaProofs KnnEntModel KnnEntSpec KnnEntProofs KnnEntProofs2.
Import ListNotations.
Open Scope nat_scope.

(** The distance to the k-th nearest other row is determined. *)
Lemma filter_mono {X} (g h : X -> bool) l : (forall x, g x = true -> h x = true) -> length (filter g l) <= length (filter h l).
Proof.
  intros H. induction l as [|a l IH]; [reflexivity|]. cbn. destruct (g a) eqn:E; [rewrite (H a E); cbn; lia|]. destruct (h a); cbn; lia.
Qed.
Lemma kth_unique m rows k i r s : kth_nearest m rows k i r -> kth_nearest m rows k i s -> r = s.
Proof.
  assert (G : forall r s, (r < s)%R -> kth_nearest m rows k i r -> kth_nearest m rows k i s -> False).
  { intros a b L [_ A] [B _]. assert (others m rows i (fun x => Rleb x a) <= others m rows i (fun x => Rltb x b)); [|lia].
    unfold others. apply filter_mono. intros j. rewrite !andb_true_iff. intros [E F]. split; [exact E|]. revert F. unfold Rleb, Rltb.
    destruct (Rle_dec _ _); [|discriminate]. destruct (Rlt_dec _ _); [reflexivity|]. lra. }
  intros A B. destruct (Rtotal_order r s) as [L|[E|L]]; [exfalso; eauto|exact E|exfalso; eauto].
Qed.

Lemma xln_nonneg (d : f64) : is_finite d = true -> (0 <= B2R d)%R -> xln d = if Rltb 0 (B2R d) then Fin (ln (B2R d)) else NInf.
Proof.
  unfold Rltb. destruct d as [s|s| |s mn e H]; intros F P; try discriminate.
  - cbn [B2R]. destruct (Rlt_dec 0 0); [lra|reflexivity].
  - destruct s.
    + exfalso. assert (B2R (B754_finite true mn e H) < 0)%R by (apply F2R_lt_0; reflexivity). lra.
    + destruct (Rlt_dec 0 _) as [|n]; [reflexivity|]. exfalso. apply n. apply F2R_gt_0. reflexivity.
Qed.
Lemma xsum_logs (r : nat -> R) l : xsum (map (fun i => if Rltb 0 (r i) then Fin (ln (r i)) else NInf) l) =
  if forallb (fun i => Rltb 0 (r i)) l then Fin (fold_right Rplus 0%R (map (fun i => ln (r i)) l)) else NInf.
Proof.
  induction l as [|a l IH]; [reflexivity|]. cbn [map xsum fold_right forallb]. fold (xsum (map (fun i => if Rltb 0 (r i) then Fin (ln (r i)) else NInf) l)).
  rewrite IH. destruct (Rltb 0 (r a)), (forallb _ l); reflexivity.
Qed.

(** Rows that are not finite are never among the neighbours (metric l2). *)
Lemma add_fin (x y : f64) : is_finite (Bplus mode_NE x y) = true -> is_finite x = true /\ is_finite y = true.
Proof. destruct x as [[]|[]| |[]], y as [[]|[]| |[]]; intros H; try discriminate H; split; reflexivity. Qed.
Lemma sub_fin (x y : f64) : is_finite (Bminus mode_NE x y) = true -> is_finite x = true /\ is_finite y = true.
Proof. destruct x as [[]|[]| |[]], y as [[]|[]| |[]]; intros H; try discriminate H; split; reflexivity. Qed.
Lemma sq_fin (x : f64) : is_finite (Bmult mode_NE x x) = true -> is_finite x = true.
Proof. destruct x as [[]|[]| |[]]; intros H; try discriminate H; reflexivity. Qed.
Lemma sqrt_fin (x b : f64) : nle N (Bsqrt mode_NE x) b = true -> is_finite b = true -> is_finite x = true.
Proof. destruct x as [[]|[]| |[]], b as [[]|[]| |[]]; intros H F; try discriminate H; try discriminate F; reflexivity. Qed.
Lemma near_fin p q : length p = length q -> nle N (spec_dist N ML2 p q) (nmaxv N) = true -> all_finite N p.
Proof.
  intros L H. apply (sqrt_fin _ (nmaxv N)) in H; [|reflexivity]. unfold sum_of in H.
  assert (G : forall p q (acc : f64), length p = length q ->
    is_finite (fold_left (fun acc xy => nadd N acc (nmul N (nsub N (fst xy) (snd xy)) (nsub N (fst xy) (snd xy)))) (combine p q) acc) = true ->
    is_finite acc = true /\ all_finite N p).
  { clear. induction p as [|x p IH]; intros [|y q] acc L H; try discriminate L; [split; [exact H|constructor]|].
    cbn [combine fold_left fst snd] in H. destruct (IH q _ (eq_add_S _ _ L) H) as [A F]. destruct (add_fin _ _ A) as [A1 A2].
    split; [exact A1|]. constructor; [|exact F]. exact (proj1 (sub_fin _ _ (sq_fin _ A2))). }
  exact (proj2 (G p q _ L H)).
Qed.
Lemma finite_rowb p : finite_row N p = true <-> all_finite N p.
Proof. unfold finite_row. rewrite forallb_forall. unfold all_finite. rewrite Forall_forall. reflexivity. Qed.
Lemma filter_map_pair {X} (g : X -> bool) rows : filter (fun p : unit * X => g (snd p)) (map (pair tt) rows) = map (pair tt) (filter g rows).
Proof. induction rows as [|a l IH]; [reflexivity|]. cbn. destruct (g a); cbn; now rewrite IH. Qed.
Lemma filter_all {X} (g : X -> bool) l : (forall x, In x l -> g x = true) -> filter g l = l.
Proof. intros H. induction l as [|a l IH]; [reflexivity|]. cbn. rewrite (H a (or_introl eq_refl)), IH; [reflexivity|]. intros; apply H. now right. Qed.
Lemma exact_filter n rows k q out dim : n = Dl2 \/ (n = Dinf /\ Forall (all_finite N) rows) ->
  Forall (fun p => length p = dim) rows -> length q = dim ->
  knn_exact N unit (metric_of n) (map (pair tt) rows) k q (nmaxv N) out ->
  knn_exact N unit (metric_of n) (map (pair tt) (finite_rows rows)) k q (nmaxv N) out.
Proof.
  intros M FL Lq (ch & rest & P & E & S & L & B & X).
  set (g := fun p : unit * pt => finite_row N (snd p)).
  exists ch, (filter g rest). split.
  - unfold finite_rows. rewrite <- filter_map_pair. fold g.
    assert (Hc : filter g ch = ch).
    { apply filter_all. intros p Hp. unfold g. apply finite_rowb.
      assert (Hin : In (snd p) rows).
      { assert (H : In p (ch ++ rest)) by (apply in_or_app; now left). apply (Permutation_in p (Permutation_sym P)) in H. apply in_map_iff in H. now destruct H as (r & <- & Hr). }
      rewrite Forall_forall in *. destruct M as [-> | [-> F]]; [|now apply F].
      apply (near_fin (snd p) q); [rewrite Lq; now apply FL|]. apply (B (fst p, spec_dist N ML2 (snd p) q)). rewrite E. apply in_map_iff. eauto. }
    rewrite <- Hc at 1. rewrite <- filter_app. now apply filter_perm.
  - split; [exact E|]. split; [exact S|]. split; [exact L|]. split; [exact B|]. intros p Hp Hn. apply filter_In in Hp. now apply X.
Qed.

(** Steps over rows of which some are skipped. *)
Lemma traverse_nth (f : pt -> option step) l o : traverse f l = Some o ->
  length o = length l /\ forall i, i < length l -> f (nth i l []) = Some (nth i o Keep).
Proof.
  revert o. induction l as [|a l IH]; intros o H; cbn [traverse] in H; [injection H as <-; split; [reflexivity|cbn [length]; lia]|].
  destruct (f a) as [s|] eqn:E; [|discriminate]. destruct (traverse f l) as [u|]; [|discriminate]. injection H as <-.
  destruct (IH u eq_refl) as [L G]. split; [cbn [length]; now rewrite L|]. intros [|i] Hi; [exact E|]. apply G. cbn [length] in Hi. lia.
Qed.
Lemma traverse_skip (f : pt -> option step) (g : pt -> bool) l :
  (forall p, In p l -> g p = false -> f p = Some Keep) -> (forall p, In p l -> g p = true -> exists s, f p = Some s) ->
  exists o u, traverse f l = Some o /\ traverse f (filter g l) = Some u /\ xsum (map contrib o) = xsum (map contrib u).
Proof.
  induction l as [|a l IH]; intros A B; [exists [], []; auto|].
  destruct IH as (o & u & E1 & E2 & E3); [intros; apply A; [now right|assumption]|intros; apply B; [now right|assumption]|].
  cbn [traverse filter]. destruct (g a) eqn:G.
  - destruct (B a (or_introl eq_refl) G) as (s & Es). cbn [traverse]. rewrite Es, E1, E2. eexists _, _. split; [reflexivity|]. split; [reflexivity|].
    cbn [map xsum fold_right]. fold (xsum (map contrib o)) (xsum (map contrib u)). now rewrite E3.
  - rewrite (A a (or_introl eq_refl) G), E1, E2. eexists _, _. split; [reflexivity|]. split; [reflexivity|].
    cbn [map xsum fold_right contrib]. fold (xsum (map contrib o)). now rewrite xplus_0_l.
Qed.

Section Main.
Variables (lib : SplitLib N unit) (gamma : R -> R).
Hypothesis LO : lib_ok N unit lib.
Hypothesis GO : gamma_half_ok gamma.

Lemma tree_ok h cols : cols <> [] -> 0 < h ->
  exists t, from_leaves_unchecked N unit lib MIDPOINT (slice_to_empty_leaves N (flat_map (row_at N cols) (seq 0 h)) (length cols)) = Some (length cols, t) /\
    twf N unit (length cols) t /\ Permutation (elems N unit t) (slice_to_empty_leaves N (flat_map (row_at N cols) (seq 0 h)) (length cols)).
Proof.
  intros NE Hh. assert (Hm : 0 < length cols) by (destruct cols; [congruence|simpl; lia]).
  set (leaves := slice_to_empty_leaves N _ (length cols)).
  assert (EL : map (prA N (A:=unit)) leaves = map (fun j => (tt, row_at N cols j)) (seq 0 h)) by (now apply empty_leaves_rows).
  assert (FL : Forall (fun l => length (row_vec l) = length cols) leaves) by now apply empty_leaves_length.
  destruct (tree_of_ok N f64_laws lib (fun _ _ => nzero N) Dinf (length cols) leaves LO Hm) as (t & E & W & P); [|exact FL|].
  { intros Z. rewrite Z in EL. destruct h; [lia|discriminate]. }
  unfold tree_of in E. destruct (from_leaves_unchecked N unit lib MIDPOINT leaves) as [[dim t']|]; [|discriminate].
  injection E as -> ->. exists t. auto.
Qed.

Lemma step_skip dim dist t k p : finite_row N p = false -> row_step dim dist t k p = Some Keep.
Proof.
  intros H. unfold row_step, knn. replace (existsb (fun x => negb (nfinite N x)) p) with true; [now rewrite orb_true_r|].
  symmetry. unfold finite_row in H. induction p as [|x p IH]; [discriminate|]. cbn [existsb forallb] in *.
  destruct (nfinite N x); [|reflexivity]. now apply IH.
Qed.
Lemma step_ok n h cols k t : n = Dl2 \/ (n = Dinf /\ Forall (all_finite N) (rows_of h cols)) -> cols <> [] ->
  let fr := finite_rows (rows_of h cols) in 1 <= k -> k < length fr -> moderate (metric_of n) fr ->
  twf N unit (length cols) t -> Permutation (elems N unit t) (slice_to_empty_leaves N (flat_map (row_at N cols) (seq 0 h)) (length cols)) ->
  forall i, i < length fr -> exists s, row_step (length cols) (to_DIST N (metric_of n)) t k (nth i fr []) = Some s /\
    exists d : f64, s = Dist (nmul N two d) /\ is_finite (Bmult mode_NE (two : f64) d) = true /\ (0 <= B2R d)%R /\
      kth_nearest (metric_of n) fr k i (B2R d).
Proof.
  intros M NE fr K1 Kh MOD W P i Hi. set (leaves := slice_to_empty_leaves N _ (length cols)) in *.
  assert (EL : map (prA N (A:=unit)) leaves = map (pair tt) (rows_of h cols)) by (unfold rows_of; rewrite map_map; now apply empty_leaves_rows).
  assert (FL : Forall (fun l => length (row_vec l) = length cols) leaves) by now apply empty_leaves_length.
  assert (Hin : In (nth i fr []) fr) by (now apply nth_In).
  set (q := nth i fr []) in *. pose proof Hin as Hin2. apply filter_In in Hin2. destruct Hin2 as [Hin2 FI]. apply finite_rowb in FI.
  assert (LR : Forall (fun p => length p = length cols) (rows_of h cols)).
  { apply Forall_forall. intros p Hp. apply in_map_iff in Hp. destruct Hp as (j & <- & _). apply row_at_length. }
  assert (Lq : length q = length cols) by (rewrite Forall_forall in LR; now apply LR).
  assert (FIN2 : Forall (fun p => length p = length cols /\ all_finite N p) fr).
  { rewrite Forall_forall in *. intros p Hp. apply filter_In in Hp. destruct Hp as [Hp F]. split; [now apply LR|now apply finite_rowb]. }
  destruct (tree_knn_exact N f64_laws n (length cols) leaves t (k + 1) q (nmaxv N) W P FL) as (nbs & E & X).
  { intros D. destruct M as [M|[_ FIN]]; [congruence|]. rewrite EL. apply Forall_map. eapply Forall_impl; [|exact FIN]. intros p Hp. cbn. eapply Forall_impl; [|exact Hp].
    intros x Hx. now apply (finite_nan N f64_laws). }
  { exact Lq. }
  { exact FI. }
  { lia. }
  unfold row_step, knn. rewrite Lq, Nat.eqb_refl.
  replace (k + 1 =? 0) with false by (symmetry; apply Nat.eqb_neq; lia).
  replace (existsb (fun x => negb (nfinite N x)) q) with false.
  2:{ symmetry. clear - FI. induction FI as [|x l Hx F IH]; [reflexivity|]. cbn [existsb]. rewrite Hx, IH. reflexivity. }
  cbn [orb negb]. rewrite E, last_dist_nth.
  rewrite EL in X. apply (exact_filter n _ _ _ _ (length cols) M LR Lq) in X. fold fr in X.
  destruct (kth_of_exact n fr (length cols) FIN2 MOD k i (map (nbA N (A:=unit)) nbs)) as (d & -> & F & Pd & K); [exact Hi|lia|lia|exact X|].
  eexists. split; [reflexivity|]. exists d. auto.
Qed.

Lemma nth_of_in {X} (l : list X) a d : In a l -> exists i, i < length l /\ nth i l d = a.
Proof. intros H. apply (In_nth l a d) in H. destruct H as (i & Hi & E). eauto. Qed.
Lemma estimate_ok n h cols trace k par : n = Dl2 \/ (n = Dinf /\ Forall (all_finite N) (rows_of h cols)) ->
  table N h cols -> interleaving (all_writes N (length cols) 0 cols) trace -> par_ok par ->
  let fr := finite_rows (rows_of h cols) in 1 <= k -> k < length fr -> moderate (metric_of n) fr ->
  exists v, query_knn_entropy gamma lib n cols trace (Z.of_nat k) par = Ok v /\
    kl_sum (metric_of n) fr (length cols) k h (digamma (INR h) - digamma (INR k)) v.
Proof.
  intros M TB IL PO fr K1 Kf MOD. pose proof TB as [NE _].
  assert (Hm : 0 < length cols) by (destruct cols; [congruence|simpl; lia]).
  set (data := flat_map (row_at N cols) (seq 0 h)).
  assert (Ld : length data = h * length cols) by apply (flat_map_len _ _ (row_at_length N cols)).
  assert (Ln : length data / length cols = h) by (rewrite Ld; apply Nat.div_mul; lia).
  assert (Lr : length (rows_of h cols) = h) by (unfold rows_of; now rewrite map_length, seq_length).
  assert (Kh : k < h) by (rewrite <- Lr; pose proof (filter_short (finite_row N) (rows_of h cols)) as FS; change (filter _ _) with fr in FS; lia).
  assert (MN : n = Dl2 \/ n = Dinf) by tauto.
  assert (EQ : query_knn_entropy gamma lib n cols trace (Z.of_nat k) par = pl_knn_entropy gamma lib n cols trace k par).
  { unfold query_knn_entropy. replace (Z.of_nat k <=? 0)%Z with false by (symmetry; apply Z.leb_gt; lia). rewrite Nat2Z.id. destruct MN as [-> | ->]; reflexivity. }
  rewrite EQ. unfold pl_knn_entropy. rewrite (row_major_ok N h cols trace TB IL). fold data. rewrite Ln.
  replace (h <=? k) with false by (symmetry; apply Nat.leb_gt; lia).
  destruct (tree_ok h cols NE) as (t & Et & W & P); [lia|]. fold data in Et, P. rewrite Et.
  set (f := row_step (length cols) (to_DIST N (metric_of n)) t k).
  assert (SO : forall i, i < length fr -> exists s, f (nth i fr []) = Some s /\ exists d : f64, s = Dist (nmul N two d) /\
      is_finite (Bmult mode_NE (two : f64) d) = true /\ (0 <= B2R d)%R /\ kth_nearest (metric_of n) fr k i (B2R d)) by exact (step_ok n h cols k t M NE K1 Kf MOD W P).
  destruct (traverse_skip f (finite_row N) (rows_of h cols)) as (all & out & Ea & Eo & ES).
  { intros p _ H. now apply step_skip. }
  { intros p Hp H. assert (Hf : In p fr) by (apply filter_In; auto). destruct (nth_of_in fr p [] Hf) as (i & Hi & <-). destruct (SO i Hi) as (s & Es & _). eauto. }
  change (filter (finite_row N) (rows_of h cols)) with fr in Eo. destruct (traverse_nth f fr out Eo) as [Lo Ho].
  assert (EH : entropy_helper f (length cols) data par = Some (xsum (map contrib out))).
  { rewrite (helper_par _ _ _ h par Hm Ld PO). unfold fold_rows, data. rewrite chunks_table by exact NE. fold (rows_of h cols). rewrite Ea, fold_steps, xplus_0_l, ES. reflexivity. }
  set (rho := fun i => match nth i out Keep with Dist d => (B2R d / 2)%R | _ => 0%R end).
  assert (HR : forall i, i < length fr -> (0 <= rho i)%R /\ kth_nearest (metric_of n) fr k i (rho i) /\
             contrib (nth i out Keep) = if Rltb 0 (2 * rho i) then Fin (ln (2 * rho i)) else NInf).
  { intros i Hi. destruct (SO i Hi) as (s & Es & d & Ed & F & Pd & K). rewrite (Ho i Hi) in Es. injection Es as Es. unfold rho. rewrite Es, Ed.
    pose proof (double_ok d F) as [_ E2]. change (nmul N two d) with (Bmult mode_NE (two : f64) d). cbn [contrib]. clear Es Ed.
    generalize dependent (Bmult mode_NE (two : f64) d). intros y Fy Ey.
    assert (E3 : (B2R y / 2)%R = B2R d) by lra. rewrite E3, <- Ey. split; [exact Pd|]. split; [exact K|]. apply xln_nonneg; [exact Fy|lra]. }
  assert (XS : xsum (map contrib out) = if forallb (fun i => Rltb 0 (rho i)) (seq 0 (length fr)) then Fin (fold_right Rplus 0%R (map (fun i => ln (2 * rho i)) (seq 0 (length fr)))) else NInf).
  { rewrite <- (nth_map_seq Keep out), Lo, map_map.
    rewrite (map_ext_in _ (fun i => if Rltb 0 (2 * rho i) then Fin (ln (2 * rho i)) else NInf)).
    2:{ intros i Hi. apply in_seq in Hi. apply HR. lia. }
    rewrite (xsum_logs (fun i => 2 * rho i)%R). replace (forallb (fun i => Rltb 0 (2 * rho i)) (seq 0 (length fr))) with (forallb (fun i => Rltb 0 (rho i)) (seq 0 (length fr))); [reflexivity|].
    generalize (seq 0 (length fr)). induction l as [|a l IH]; [reflexivity|]. cbn [forallb]. rewrite IH. f_equal. unfold Rltb.
    destruct (Rlt_dec 0 (rho a)), (Rlt_dec 0 (2 * rho a)); try reflexivity; lra. }
  exists (xplus (Fin (digamma (INR h) - digamma (INR k) + ln (ball_constant gamma n (INR (length cols))))) (xscale (INR (length cols) / INR h) (xsum (map contrib out)))).
  split.
  - subst f. destruct MN as [-> | ->]; cbn [to_DIST metric_of] in EH; rewrite EH; reflexivity.
  - exists rho. split; [intros i Hi; destruct (HR i Hi) as (A & B & _); auto|].
    assert (BV : ball_constant gamma n (INR (length cols)) = ball_volume (metric_of n) (length cols)).
    { destruct MN as [-> | ->]; [now apply ball_l2|reflexivity]. }
    rewrite XS, BV. destruct (forallb _ _); [|reflexivity]. cbn [xscale xplus]. f_equal. ring.
Qed.

Lemma harm h k g : 1 <= k <= h -> g = (digamma (INR h) - digamma (INR k))%R ->
  (0 <= g - harmonic k h <= 1 / 100000000000000)%R /\ (h <= 12 -> g = harmonic k h).
Proof. intros B ->. split; [apply digamma_harmonic; lia|]. intros S. apply digamma_harmonic_small; lia. Qed.

(** Rows with a null, NaN or infinity (metric l2): left out of the sum, counted in the constants. *)
Theorem entropy_nulls h cols trace k par : table N h cols -> interleaving (all_writes N (length cols) 0 cols) trace -> par_ok par ->
  1 <= k -> k < length (finite_rows (rows_of h cols)) -> moderate ML2 (finite_rows (rows_of h cols)) ->
  exists v g, query_knn_entropy gamma lib Dl2 cols trace (Z.of_nat k) par = Ok v /\
    (0 <= g - harmonic k h <= 1 / 100000000000000)%R /\ (h <= 12 -> g = harmonic k h) /\
    kl_sum ML2 (finite_rows (rows_of h cols)) (length cols) k h g v.
Proof.
  intros TB IL PO K1 Kh MOD. destruct (estimate_ok Dl2 h cols trace k par (or_introl eq_refl) TB IL PO K1 Kh MOD) as (v & E & X).
  exists v, (digamma (INR h) - digamma (INR k))%R. split; [exact E|].
  destruct (harm h k _ (conj K1 (Nat.le_trans _ _ _ (Nat.lt_le_incl _ _ Kh) (Nat.le_trans _ _ _ (filter_short _ _) (Nat.eq_le_incl _ _ (eq_trans (map_length _ _) (seq_length h 0)))))) eq_refl) as [A B].
  auto.
Qed.
Theorem entropy_ok n h cols trace k par : n = Dl2 \/ n = Dinf -> table N h cols -> interleaving (all_writes N (length cols) 0 cols) trace ->
  par_ok par -> 1 <= k -> k < h -> Forall (all_finite N) (rows_of h cols) -> moderate (metric_of n) (rows_of h cols) ->
  exists v g, query_knn_entropy gamma lib n cols trace (Z.of_nat k) par = Ok v /\
    (0 <= g - harmonic k h <= 1 / 100000000000000)%R /\ (h <= 12 -> g = harmonic k h) /\
    kl_estimate (metric_of n) (rows_of h cols) (length cols) k g v.
Proof.
  intros M TB IL PO K1 Kh FIN MOD.
  assert (FR : finite_rows (rows_of h cols) = rows_of h cols).
  { apply filter_all. intros p Hp. apply finite_rowb. rewrite Forall_forall in FIN. now apply FIN. }
  assert (Lr : length (rows_of h cols) = h) by (unfold rows_of; now rewrite map_length, seq_length).
  destruct (estimate_ok n h cols trace k par) as (v & E & X); try assumption; rewrite ?FR; try assumption; try lia; [tauto|].
  exists v, (digamma (INR h) - digamma (INR k))%R. split; [exact E|].
  destruct (harm h k _ ltac:(lia) eq_refl) as [A B]. split; [exact A|]. split; [exact B|]. unfold kl_estimate. rewrite Lr, <- FR at 1. now rewrite FR in X |- *.
Qed.

Theorem few_rows n h cols trace k par : n = Dl2 \/ n = Dinf -> table N h cols -> interleaving (all_writes N (length cols) 0 cols) trace ->
  1 <= k -> h <= k -> query_knn_entropy gamma lib n cols trace (Z.of_nat k) par = Ok NaN.
Proof.
  intros M TB IL K1 Kh. pose proof TB as [NE _].
  assert (Hm : 0 < length cols) by (destruct cols; [congruence|simpl; lia]).
  unfold query_knn_entropy. replace (Z.of_nat k <=? 0)%Z with false by (symmetry; apply Z.leb_gt; lia). rewrite Nat2Z.id.
  assert (E : forall n, pl_knn_entropy gamma lib n cols trace k par = Ok NaN).
  { intros n'. unfold pl_knn_entropy. rewrite (row_major_ok N h cols trace TB IL), (flat_map_len _ _ (row_at_length N cols)).
    rewrite Nat.div_mul by lia. now replace (h <=? k) with true by (symmetry; apply Nat.leb_le; lia). }
  destruct M as [-> | ->]; apply E.
Qed.

(** The schedule does not matter, whatever the values. *)
Theorem par_seq n h cols trace k par : table N h cols -> interleaving (all_writes N (length cols) 0 cols) trace -> par_ok par ->
  query_knn_entropy gamma lib n cols trace k par = query_knn_entropy gamma lib n cols trace k None.
Proof.
  intros TB IL PO. pose proof TB as [NE _].
  assert (Hm : 0 < length cols) by (destruct cols; [congruence|simpl; lia]).
  unfold query_knn_entropy. destruct (k <=? 0)%Z eqn:Ek; [reflexivity|]. apply Z.leb_gt in Ek.
  assert (E : forall n, pl_knn_entropy gamma lib n cols trace (Z.to_nat k) par = pl_knn_entropy gamma lib n cols trace (Z.to_nat k) None).
  { intros n'. unfold pl_knn_entropy. rewrite (row_major_ok N h cols trace TB IL).
    assert (Ld : length (flat_map (row_at N cols) (seq 0 h)) = h * length cols) by apply (flat_map_len _ _ (row_at_length N cols)).
    destruct (_ / _ <=? _) eqn:B; [reflexivity|]. rewrite Ld, Nat.div_mul in B by lia. apply Nat.leb_gt in B.
    destruct (tree_ok h cols NE) as (t & Et & W & P); [lia|]. rewrite Et. rewrite !(helper_par _ _ _ h par Hm Ld PO). reflexivity. }
  destruct n; try reflexivity; apply E.
Qed.
End Main.
