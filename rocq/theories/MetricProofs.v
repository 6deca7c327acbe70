(** Lemmas on the metrics. *)
From Coq Require Import Reals List Lra Lia Psatz Permutation.
From Coq Require Import ZArith.
From Coquelicot Require Import Coquelicot.
From Verif Require Import WStatsSpec WStatsModel WStatsProofs MetricSpec MetricModel.
Import ListNotations.
Open Scope R_scope.

Lemma values_lift1 f x : values (lift1 f x) = map f (values x).
Proof. unfold values, lift1. induction x as [|[v|] x IH]; cbn; [easy| |easy]. now rewrite IH. Qed.
Lemma values_lift2 f : forall a p, values (lift2 f a p) = map (fun r => f (fst r) (snd r)) (complete a p).
Proof.
  unfold values, lift2. induction a as [|[x|] a IH]; intros [|[y|] p]; cbn; try easy; rewrite ?IH; easy.
Qed.
Lemma xvalues_xlift2 f : forall a p, xvalues (xlift2 f a p) = map (fun r => f (fst r) (snd r)) (complete a p).
Proof.
  unfold xvalues, xlift2. induction a as [|[x|] a IH]; intros [|[y|] p]; cbn; try easy; rewrite ?IH; easy.
Qed.
Lemma pred_known_tl o o' a p : pred_known (o :: a) (o' :: p) -> pred_known a p.
Proof. intros [L H]. split; [cbn in L; lia|]. intros i x E. exact (H (S i) x E). Qed.
Lemma values_known : forall a p, pred_known a p -> values a = map fst (complete a p).
Proof.
  unfold values. induction a as [|[x|] a IH]; intros p H.
  - now destruct p.
  - destruct p as [|o p]; [destruct H; discriminate|].
    destruct (proj2 H 0%nat x eq_refl) as [y E]. cbn in E. injection E as ->. cbn. f_equal. apply IH. exact (pred_known_tl _ _ _ _ H).
  - destruct p as [|o p]; [destruct H; discriminate|].
    cbn. destruct o; apply IH; exact (pred_known_tl _ _ _ _ H).
Qed.
Lemma count_known a p : pred_known a p -> ccount a = INR (length (complete a p)).
Proof. intro H. unfold ccount. rewrite (values_known a p H). now rewrite map_length. Qed.
Lemma xadd_fold l : forall s, fold_left xadd (map Fin l) (Fin s) = Fin (s + Rsum l).
Proof. induction l as [|a l IH]; intro s; cbn; [f_equal; lra|]. rewrite IH. f_equal. lra. Qed.
Lemma xsum_fin l : xsum (map Fin l) = Fin (Rsum l).
Proof. unfold xsum. rewrite xadd_fold. f_equal. lra. Qed.
Lemma xdiv_fin a b : b <> 0 -> xdiv a b = Fin (a / b).
Proof. intro H. unfold xdiv. destruct (Req_EM_T b 0); easy. Qed.
Lemma inr_pos {A} (l : list A) : l <> [] -> 0 < INR (length l).
Proof. destruct l; [easy|]. intros _. apply lt_0_INR. cbn; lia. Qed.

Lemma dot_self x : dot x x = Rsum (map (fun v => v ^ 2) (values x)).
Proof.
  unfold dot, csum, lift2, values. induction x as [|[v|] x IH]; cbn [combine map flat_map app Rsum]; [easy| |exact IH].
  rewrite IH. ring.
Qed.

(** Sums *)
Lemma total_ge0 {A} (f : A -> R) l : (forall x, In x l -> 0 <= f x) -> 0 <= total f l.
Proof. intro H. apply Rsum_ge0. apply Forall_map, Forall_forall. exact H. Qed.
Lemma total_le {A} (f g : A -> R) l : (forall x, In x l -> f x <= g x) -> total f l <= total g l.
Proof.
  unfold total. induction l as [|a l IH]; intro H; cbn; [lra|].
  assert (f a <= g a) by (apply H; now left). assert (Rsum (map f l) <= Rsum (map g l)) by (apply IH; intros; apply H; now right). lra.
Qed.
Lemma total_ext {A} (f g : A -> R) l : (forall x, In x l -> f x = g x) -> total f l = total g l.
Proof. intro H. unfold total. f_equal. now apply map_ext_in. Qed.
Lemma total_scale {A} c (f : A -> R) l : total (fun x => c * f x) l = c * total f l.
Proof. unfold total. induction l as [|a l IH]; cbn; [ring|]. rewrite IH. ring. Qed.
Lemma total_add {A} (f g : A -> R) l : total (fun x => f x + g x) l = total f l + total g l.
Proof. unfold total. induction l as [|a l IH]; cbn; [ring|]. rewrite IH. ring. Qed.
Lemma total_const {A} c (l : list A) : total (fun _ => c) l = INR (length l) * c.
Proof. unfold total. induction l as [|a l IH]; cbn [map Rsum length]; [cbn; ring|]. rewrite IH, S_INR. ring. Qed.
Lemma total_zero {A} (f : A -> R) l : (forall x, In x l -> 0 <= f x) -> total f l = 0 -> forall x, In x l -> f x = 0.
Proof.
  unfold total. induction l as [|a l IH]; intros H E x I; [easy|]. cbn in E.
  assert (0 <= f a) by (apply H; now left).
  assert (0 <= Rsum (map f l)) by (apply total_ge0; intros; apply H; now right).
  destruct I as [->|I]; [lra|]. apply IH; [intros; apply H; now right|lra|exact I].
Qed.
Lemma total_zero_iff {A} (f : A -> R) l : (forall x, In x l -> 0 <= f x) -> (total f l = 0 <-> forall x, In x l -> f x = 0).
Proof.
  intro H. split; [now apply total_zero|]. intro Z. rewrite (total_ext f (fun _ => 0)); [|exact Z]. rewrite total_const. ring.
Qed.
Lemma avg_total {A} (f : A -> R) l : avg f l = total f l / INR (length l).
Proof. unfold avg, mean_of, total. now rewrite map_length. Qed.
Lemma avg_le {A} (f g : A -> R) l : l <> [] -> (forall x, In x l -> f x <= g x) -> avg f l <= avg g l.
Proof.
  intros N H. rewrite !avg_total. apply Rmult_le_compat_r; [apply Rlt_le, Rinv_0_lt_compat, inr_pos, N|]. now apply total_le.
Qed.
Lemma avg_ge0 {A} (f : A -> R) l : l <> [] -> (forall x, In x l -> 0 <= f x) -> 0 <= avg f l.
Proof.
  intros N H. rewrite avg_total. apply Rmult_le_pos; [now apply total_ge0|apply Rlt_le, Rinv_0_lt_compat, inr_pos, N].
Qed.
Lemma avg_const {A} c (l : list A) : l <> [] -> avg (fun _ => c) l = c.
Proof. intro N. rewrite avg_total, total_const. field. apply Rgt_not_eq, inr_pos, N. Qed.
Lemma avg_scale {A} c (f : A -> R) l : avg (fun x => c * f x) l = c * avg f l.
Proof. rewrite !avg_total, total_scale. unfold Rdiv. ring. Qed.
Lemma avg_zero_iff {A} (f : A -> R) l : l <> [] -> (forall x, In x l -> 0 <= f x) -> (avg f l = 0 <-> forall x, In x l -> f x = 0).
Proof.
  intros N H. rewrite avg_total, <- (total_zero_iff f l H). pose proof (inr_pos l N). split; intro E.
  - apply (Rmult_eq_reg_r (/ INR (length l))); [|apply Rinv_neq_0_compat; lra]. unfold Rdiv in E. lra.
  - rewrite E. unfold Rdiv. ring.
Qed.
Lemma avg_ext {A} (f g : A -> R) l : (forall x, In x l -> f x = g x) -> avg f l = avg g l.
Proof. intro H. rewrite !avg_total. f_equal. now apply total_ext. Qed.
(** Jensen for squares *)
Lemma avg_square {A} (f : A -> R) l : l <> [] -> avg f l ^ 2 <= avg (fun x => f x ^ 2) l.
Proof.
  intro N. pose proof (inr_pos l N) as P. set (m := avg f l).
  assert (H : 0 <= avg (fun x => (f x - m) ^ 2) l) by (apply avg_ge0; [exact N|intros; apply pow2_ge_0]).
  assert (E : avg (fun x => (f x - m) ^ 2) l = avg (fun x => f x ^ 2) l - m ^ 2).
  { rewrite (avg_ext _ (fun x => f x ^ 2 + ((-2 * m) * f x + m ^ 2))) by (intros; ring).
    rewrite !avg_total, !total_add, total_scale, total_const.
    unfold m. rewrite avg_total. field. lra. }
  lra.
Qed.

(** cosh *)
Lemma cosh_ge1 x : 1 <= cosh x.
Proof.
  unfold cosh. pose proof (exp_pos x). pose proof (exp_pos (- x)).
  assert (exp x * exp (- x) = 1) by (rewrite <- exp_plus, Rplus_opp_r; apply exp_0).
  set (u := exp x) in *. set (v := exp (- x)) in *. clearbody u v.
  assert (4 <= (u + v) ^ 2) by (pose proof (pow2_ge_0 (u - v)); nra). nra.
Qed.
Lemma cosh_le_exp x : cosh x <= exp (Rabs x).
Proof.
  unfold cosh. assert (forall u v, u <= v -> exp u <= exp v) as M.
  { intros u v [L| ->]; [left; now apply exp_increasing|lra]. }
  pose proof (M x (Rabs x) (Rle_abs x)). assert (- x <= Rabs x) by (rewrite <- Rabs_Ropp; apply Rle_abs).
  pose proof (M (- x) (Rabs x) H0). lra.
Qed.
Lemma lncosh_ge0 x : 0 <= ln (cosh x).
Proof. rewrite <- ln_1. destruct (cosh_ge1 x) as [L|E]; [left; apply ln_increasing; lra|rewrite E; lra]. Qed.
Lemma lncosh_abs x : ln (cosh x) <= Rabs x.
Proof.
  pose proof (cosh_ge1 x). rewrite <- (ln_exp (Rabs x)). destruct (cosh_le_exp x) as [L|E]; [left; apply ln_increasing; lra|rewrite E; lra].
Qed.
Lemma lncosh_zero x : ln (cosh x) = 0 -> x = 0.
Proof.
  intro E. pose proof (cosh_ge1 x). assert (C : cosh x = 1) by (apply ln_inv; [lra|lra|now rewrite ln_1]).
  unfold cosh in C. pose proof (exp_pos x).
  assert (exp x * exp (- x) = 1) by (rewrite <- exp_plus, Rplus_opp_r; apply exp_0).
  assert (exp x = 1) by nra. apply exp_inv. now rewrite exp_0.
Qed.
Lemma cosh_even x : cosh (- x) = cosh x.
Proof. unfold cosh. rewrite Ropp_involutive. lra. Qed.

Lemma mvt0 (f f' : R -> R) : (forall c, is_derive f c (f' c)) -> (forall c, 0 <= c -> 0 <= f' c) -> f 0 = 0 -> forall x, 0 <= x -> 0 <= f x.
Proof.
  intros D P Z x [L| <-]; [|lra].
  destruct (MVT_cor2 f f' 0 x L) as [c [E [Hc _]]]; [intros c _; apply is_derive_Reals, D|].
  rewrite Z in E. pose proof (P c (Rlt_le _ _ Hc)). nra.
Qed.
Lemma sinh_ge0 x : 0 <= x -> 0 <= sinh x.
Proof.
  apply (mvt0 sinh cosh).
  - intro c. unfold sinh, cosh. auto_derive; [easy|]. field.
  - intros c _. pose proof (cosh_ge1 c). lra.
  - apply sinh_0.
Qed.
Lemma sinh_le_xcosh x : 0 <= x -> 0 <= x * cosh x - sinh x.
Proof.
  apply (mvt0 (fun x => x * cosh x - sinh x) (fun x => x * sinh x)).
  - intro c. unfold sinh, cosh. auto_derive; [easy|]. field.
  - intros c Hc. apply Rmult_le_pos; [exact Hc|now apply sinh_ge0].
  - rewrite sinh_0. ring.
Qed.
Lemma lncosh_sq_pos x : 0 <= x -> 0 <= x ^ 2 / 2 - ln (cosh x).
Proof.
  apply (mvt0 (fun x => x ^ 2 / 2 - ln (cosh x)) (fun x => (x * cosh x - sinh x) / cosh x)).
  - intro c. pose proof (cosh_ge1 c) as G. unfold sinh, cosh in *. auto_derive; [lra|]. field. lra.
  - intros c Hc. pose proof (cosh_ge1 c). apply Rmult_le_pos; [now apply sinh_le_xcosh|]. apply Rlt_le, Rinv_0_lt_compat. lra.
  - rewrite cosh_0, ln_1. field.
Qed.
Lemma lncosh_sq x : ln (cosh x) <= x ^ 2 / 2.
Proof.
  destruct (Rle_dec 0 x) as [H|H]; [pose proof (lncosh_sq_pos x H); lra|].
  assert (0 <= - x) as H' by lra. pose proof (lncosh_sq_pos (- x) H'). rewrite cosh_even in H0. nra.
Qed.

(** The metrics on columns without unexplained nulls. *)
Lemma l1_val a p : pred_known a p -> complete a p <> [] -> query_l1 a p true = Fin (avg (fun r => Rabs (err r)) (complete a p)).
Proof.
  intros K N. unfold query_l1, csum. rewrite values_lift1, values_lift2, map_map, (count_known a p K).
  rewrite xdiv_fin by (apply Rgt_not_eq, inr_pos, N). now rewrite avg_total.
Qed.
Lemma l1_sum a p : query_l1 a p false = Fin (total (fun r => Rabs (err r)) (complete a p)).
Proof. unfold query_l1, csum. now rewrite values_lift1, values_lift2, map_map. Qed.
Lemma res_val a p : (let diff := lift2 Rminus a p in dot diff diff) = total (fun r => err r ^ 2) (complete a p).
Proof. cbv zeta. now rewrite dot_self, values_lift2, map_map. Qed.
Lemma l2_val a p : pred_known a p -> complete a p <> [] -> query_l2 a p true = Fin (avg (fun r => err r ^ 2) (complete a p)).
Proof.
  intros K N. unfold query_l2. rewrite res_val, (count_known a p K).
  rewrite xdiv_fin by (apply Rgt_not_eq, inr_pos, N). now rewrite avg_total.
Qed.
Lemma l2_sum a p : query_l2 a p false = Fin (total (fun r => err r ^ 2) (complete a p)).
Proof. unfold query_l2. now rewrite res_val. Qed.
Lemma complete_swap : forall a p, complete p a = map (fun r => (snd r, fst r)) (complete a p).
Proof. induction a as [|[x|] a IH]; intros [|[y|] p]; cbn; try easy; now rewrite IH. Qed.
Lemma lc_sum a p : query_log_cosh a p false = Fin (total (fun r => ln (cosh (err r))) (complete a p)).
Proof.
  unfold query_log_cosh, csum. rewrite values_lift1, values_lift2, complete_swap, !map_map. f_equal. apply total_ext.
  intros [u v] _. unfold err. cbn. f_equal. rewrite <- cosh_even. f_equal. ring.
Qed.
Lemma lc_val a p : pred_known a p -> complete a p <> [] -> query_log_cosh a p true = Fin (avg (fun r => ln (cosh (err r))) (complete a p)).
Proof.
  intros K N. pose proof (lc_sum a p) as E. unfold query_log_cosh in *. injection E as E. rewrite E, (count_known a p K).
  rewrite xdiv_fin by (apply Rgt_not_eq, inr_pos, N). now rewrite avg_total.
Qed.
Lemma hub_val a p d : pred_known a p -> complete a p <> [] -> query_hubor_loss a p d = Fin (avg (fun r => huber_of d (err r)) (complete a p)).
Proof.
  intros K N. unfold query_hubor_loss, csum. rewrite !values_lift1, values_lift2, !map_map, (count_known a p K).
  rewrite xdiv_fin by (apply Rgt_not_eq, inr_pos, N). rewrite avg_total. f_equal. f_equal. apply total_ext. intros r _.
  unfold huber_of, err. destruct (Rle_dec _ _); [|lra]. rewrite <- (pow2_abs (fst r - snd r)). lra.
Qed.
Lemma rmax_fold l : forall a, greatest (a :: l) (fold_left Rmax l a).
Proof.
  induction l as [|b l IH]; intro a; cbn.
  - split; [now left|]. intros x [->|[]]. lra.
  - destruct (IH (Rmax a b)) as [I G]. split.
    + destruct I as [E|I]; [|now right; right]. rewrite <- E. unfold Rmax. destruct (Rle_dec a b); [right; now left|now left].
    + intros x [->|[->|Hx]]; [|..|apply G; now right];
        [apply Rle_trans with (Rmax x b); [apply Rmax_l|]|apply Rle_trans with (Rmax a x); [apply Rmax_r|]]; apply G; now left.
Qed.
Lemma linf_val a p : complete a p <> [] -> exists m, query_l_inf a p = Some m /\ greatest (map (fun r => Rabs (err r)) (complete a p)) m.
Proof.
  intro N. unfold query_l_inf. rewrite values_lift1, values_lift2, map_map.
  destruct (complete a p) as [|r l]; [easy|]. cbn [rmax map]. eexists. split; [reflexivity|]. apply rmax_fold.
Qed.
Lemma linf_none a p : complete a p = [] -> query_l_inf a p = None.
Proof. intro N. unfold query_l_inf. now rewrite values_lift1, values_lift2, N. Qed.
Lemma hub_ge0 d e : 0 < d -> 0 <= huber_of d e.
Proof. intro D. unfold huber_of. destruct (Rle_dec _ _); [pose proof (pow2_ge_0 e); lra|]. nra. Qed.
Lemma hub_sq d e : 0 < d -> huber_of d e <= e ^ 2 / 2.
Proof.
  intro D. unfold huber_of. destruct (Rle_dec _ _); [lra|]. rewrite <- (pow2_abs e). pose proof (pow2_ge_0 (Rabs e - d)). nra.
Qed.
Lemma hub_abs d e : 0 < d -> huber_of d e <= d * Rabs e.
Proof.
  intro D. unfold huber_of. destruct (Rle_dec _ _) as [L|L]; [|nra]. rewrite <- (pow2_abs e). pose proof (Rabs_pos e). nra.
Qed.
Lemma hub_zero d e : 0 < d -> huber_of d e = 0 -> e = 0.
Proof.
  intros D. unfold huber_of. destruct (Rle_dec _ _); [|nra]. intro H. assert (e ^ 2 = 0) by lra. nra.
Qed.
Lemma hub_small d e : Rabs e <= d -> huber_of d e = e ^ 2 / 2.
Proof. intro H. unfold huber_of. destruct (Rle_dec _ _); [lra|lra]. Qed.
Lemma all_equal_err l : all_equal l <-> forall r, In r l -> err r = 0.
Proof.
  unfold all_equal, err. split.
  - intros H [u v] I. cbn. rewrite (H u v I). ring.
  - intros H u v I. specialize (H (u, v) I). cbn in H. lra.
Qed.
