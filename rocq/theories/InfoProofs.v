From Coq Require Import Reals List ZArith Arith Lra Lia Psatz Permutation.
From Verif Require Import WStatsSpec WStatsModel WStatsProofs MetricSpec MetricProofs LagSpec LagModel LagProofs InfoSpec InfoModel.
Import ListNotations.
Open Scope R_scope.

Lemma ln_sub t : 0 < t -> ln t <= t - 1.
Proof. intro P. destruct (Req_dec t 1) as [->|N]; [rewrite ln_1; lra|]. assert (L : ln t <> 0) by (intro Z; apply N; apply ln_inv; [lra|lra|now rewrite ln_1]). pose proof (exp_ineq1 (ln t) L) as H. rewrite exp_ln in H by exact P. lra. Qed.
Lemma ln_sub_eq t : 0 < t -> ln t = t - 1 -> t = 1.
Proof. intros P E. destruct (Req_dec t 1) as [->|N]; [easy|]. assert (L : ln t <> 0) by (intro Z; apply N; apply ln_inv; [lra|lra|now rewrite ln_1]). pose proof (exp_ineq1 (ln t) L) as H. rewrite exp_ln in H by exact P. lra. Qed.
Lemma ln_quot a b : 0 < a -> 0 < b -> ln (a / b) = ln a - ln b.
Proof. intros. unfold Rdiv. rewrite ln_mult, ln_Rinv; [lra|assumption|assumption|now apply Rinv_0_lt_compat]. Qed.

Section E.
Context {A : Type} (dec : forall a b : A, {a = b} + {a <> b}).
Notation cnt l v := (INR (count_occ dec l v)).
Lemma cnt_pos l v : In v l -> 0 < cnt l v.
Proof. intro I. apply (count_occ_In dec) in I. now apply lt_0_INR. Qed.
Lemma total_single s (f : A -> R) a : NoDup s -> In a s -> total (fun v => (if dec a v then 1 else 0) * f v) s = f a.
Proof.
  induction 1 as [|b s NI ND IH]; intro I; [easy|]. change (total ?h (b :: s)) with (h b + total h s). cbn beta. destruct (dec a b) as [->|N].
  - rewrite (total_ext _ (fun _ => 0) s) by (intros v J; destruct (dec b v) as [->|]; [easy|ring]). rewrite total_const. ring.
  - destruct I as [->|I]; [easy|]. rewrite IH by exact I. ring.
Qed.
Lemma weighted_sum s (f : A -> R) l : NoDup s -> (forall v, In v l -> In v s) -> total (fun v => cnt l v * f v) s = total f l.
Proof.
  intros ND. induction l as [|a l IH]; intro H.
  - rewrite (total_ext _ (fun _ => 0)) by (intros; cbn; ring). rewrite total_const. unfold total. cbn. ring.
  - rewrite (total_ext _ (fun v => (if dec a v then 1 else 0) * f v + cnt l v * f v)).
    + rewrite total_add, total_single, IH; [reflexivity|auto with datatypes|exact ND|apply H; now left].
    + intros v _. cbn [count_occ]. destruct (dec a v); [rewrite S_INR|]; ring.
Qed.
Lemma row_sum f l : total (fun v => cnt l v * f v) (nodup dec l) = total f l.
Proof. apply weighted_sum; [apply NoDup_nodup|]. intros v I. now rewrite nodup_In. Qed.
Lemma shannon_rows l : l <> [] -> shannon dec l = avg (fun v => ln (INR (length l) / cnt l v)) l.
Proof.
  intro N. pose proof (inr_pos l N) as P. rewrite avg_total, <- row_sum. unfold shannon.
  apply Rmult_eq_reg_l with (INR (length l)); [|lra]. rewrite <- total_scale. match goal with |- _ = _ * (?t / _) => replace (INR (length l) * (t / INR (length l))) with t by (field; lra) end. apply total_ext. intros v I. rewrite nodup_In in I. pose proof (cnt_pos l v I). unfold freq.
  rewrite !ln_quot by assumption. field. lra.
Qed.
Lemma cnt_le l v : (count_occ dec l v <= length l)%nat.
Proof. apply count_occ_bound. Qed.
Lemma shannon_ge0 l : l <> [] -> 0 <= shannon dec l.
Proof.
  intro N. rewrite shannon_rows by exact N. apply avg_ge0; [exact N|]. intros v I. pose proof (cnt_pos l v I). pose proof (le_INR _ _ (cnt_le l v)).
  rewrite <- ln_1. destruct (Req_dec (INR (length l) / cnt l v) 1) as [->|Q]; [lra|]. apply Rlt_le, ln_increasing; [lra|].
  assert (1 <= INR (length l) / cnt l v) by (apply Rmult_le_reg_r with (cnt l v); [assumption|]; unfold Rdiv; rewrite Rmult_assoc, Rinv_l by lra; lra). lra.
Qed.
Lemma shannon_zero l : l <> [] -> (shannon dec l = 0 <-> forall v w, In v l -> In w l -> v = w).
Proof.
  intro N. rewrite shannon_rows by exact N. assert (T : forall v, In v l -> 0 <= ln (INR (length l) / cnt l v)).
  { intros v I. pose proof (cnt_pos l v I). pose proof (le_INR _ _ (cnt_le l v)). rewrite ln_quot by lra. 
    destruct (Req_dec (INR (length l)) (cnt l v)) as [->|Q]; [lra|]. assert (ln (cnt l v) < ln (INR (length l))) by (apply ln_increasing; lra). lra. }
  rewrite avg_zero_iff by assumption. split; intros H.
  - assert (F : forall v, In v l -> count_occ dec l v = length l).
    { intros v I. specialize (H v I). pose proof (cnt_pos l v I). pose proof (le_INR _ _ (cnt_le l v)). rewrite ln_quot in H by lra. apply INR_eq. symmetry. apply ln_inv; lra. }
    intros v w Iv Iw. pose proof (F v Iv) as Fv. clear - Fv Iw. assert (G : forall l, count_occ dec l v = length l -> forall w, In w l -> v = w).
    { induction l0 as [|a m IH]; intros E w0 I; [easy|]. cbn in E. pose proof (count_occ_bound dec v m). destruct (dec a v) as [->|]; [|lia]. destruct I as [->|I]; [easy|]. apply IH; [lia|exact I]. }
    now apply (G l).
  - intros v I. assert (E : count_occ dec l v = length l).
    { assert (G : forall m, (forall w, In w m -> v = w) -> count_occ dec m v = length m).
      { induction m as [|a m IH]; intro K; [easy|]. cbn. rewrite <- (K a) by now left. destruct (dec v v); [|easy]. rewrite IH; [easy|]. intros. apply K. now right. }
      apply G. auto. }
    rewrite E. rewrite <- ln_1. f_equal. field. pose proof (inr_pos l N). lra.
Qed.
Definition ndist l := length (nodup dec l).
Lemma nodup_ne l : l <> [] -> nodup dec l <> [].
Proof. intros N E. destruct l as [|a l]; [easy|]. assert (I : In a (nodup dec (a :: l))) by (rewrite nodup_In; now left). now rewrite E in I. Qed.
Lemma inv_sum l : total (fun v => / cnt l v) l = INR (ndist l).
Proof.
  rewrite <- row_sum. rewrite (total_ext _ (fun _ => 1)); [rewrite total_const; unfold ndist; ring|].
  intros v I. rewrite nodup_In in I. field. pose proof (cnt_pos l v I). lra.
Qed.
Lemma shannon_max l : l <> [] -> shannon dec l <= ln (INR (ndist l)) /\ (shannon dec l = ln (INR (ndist l)) <-> uniform dec l).
Proof.
  intro N. pose proof (inr_pos l N) as P. pose proof (inr_pos _ (nodup_ne l N)) as K. fold (ndist l) in K.
  rewrite shannon_rows by exact N. set (n := INR (length l)) in *. set (k := INR (ndist l)) in *.
  set (g := fun v => (n / (cnt l v * k) - 1) - ln (n / (cnt l v * k))).
  assert (G0 : forall v, In v l -> 0 <= g v).
  { intros v I. pose proof (cnt_pos l v I). assert (0 < n / (cnt l v * k)) by (apply Rdiv_lt_0_compat; [exact P|now apply Rmult_lt_0_compat]). pose proof (ln_sub _ H0). unfold g. lra. }
  assert (T : total (fun v => n / (cnt l v * k) - 1) l = 0).
  { rewrite (total_ext _ (fun v => (n / k) * / cnt l v + -1)) by (intros v I; pose proof (cnt_pos l v I); field; split; lra).
    rewrite total_add, total_scale, inv_sum, total_const. fold k n. field. lra. }
  assert (E : ln k - avg (fun v => ln (n / cnt l v)) l = avg g l).
  { rewrite <- (avg_const (ln k) l N) at 1. rewrite !avg_total. fold n.
    assert (total g l = total (fun _ => ln k) l - total (fun v => ln (n / cnt l v)) l) as ->; [|field; lra].
    unfold g. rewrite (total_ext _ (fun v => (n / (cnt l v * k) - 1) + (ln k + -1 * ln (n / cnt l v)))).
    - rewrite !total_add, total_scale, T. ring.
    - intros v I. pose proof (cnt_pos l v I). rewrite !ln_quot, ln_mult by (try assumption; now apply Rmult_lt_0_compat). ring. }
  pose proof (avg_ge0 g l N G0). split; [lra|]. transitivity (avg g l = 0); [lra|]. rewrite avg_zero_iff by assumption.
  assert (Q : (forall v, In v l -> g v = 0) <-> (forall v, In v l -> cnt l v * k = n)).
  { split; intros H' v I; specialize (H' v I); pose proof (cnt_pos l v I); assert (KK : 0 < cnt l v * k) by now apply Rmult_lt_0_compat.
    - unfold g in H'. assert (n / (cnt l v * k) = 1) as R1 by (apply ln_sub_eq; [now apply Rdiv_lt_0_compat|lra]).
      apply Rmult_eq_reg_r with (/ (cnt l v * k)); [|apply Rinv_neq_0_compat; lra]. rewrite Rinv_r by lra. unfold Rdiv in R1. now rewrite R1.
    - unfold g. rewrite H'. replace (n / n) with 1 by (field; lra). rewrite ln_1. ring. }
  rewrite Q. split.
  - intros H' v w Iv Iw. apply INR_eq. apply Rmult_eq_reg_r with k; [|lra]. now rewrite !H'.
  - intros U v I. assert (TT : total (fun w => cnt l w * 1) (nodup dec l) = n) by (rewrite row_sum, total_const; fold n; ring).
    rewrite <- TT. rewrite (total_ext _ (fun _ => cnt l v)) by (intros w J; rewrite nodup_In in J; rewrite (U w v J I); ring). rewrite total_const. fold (ndist l) k. ring.
Qed.
Lemma total_perm' (f : nat -> R) l l' : Permutation l l' -> total f l = total f l'.
Proof. apply total_perm. Qed.
Lemma counts_sum l : Rsum (map (fun v => cnt l v) (nodup dec l)) = INR (length l).
Proof. pose proof (row_sum (fun _ => 1) l) as H. rewrite total_const in H. rewrite Rmult_1_r in H. rewrite <- H. unfold total. f_equal. apply map_ext. intro; ring. Qed.
Lemma pl_entropy_norm uc l base : counts_ok dec uc -> l <> [] -> pl_entropy base true (uc l) = shannon dec l / ln base.
Proof.
  intros U N. pose proof (inr_pos l N) as P. unfold pl_entropy. assert (S : Rsum (map INR (uc l)) = INR (length l)).
  { change (total INR (uc l) = INR (length l)). rewrite (total_perm _ _ _ (U l)), total_map. apply counts_sum. }
  rewrite S. rewrite !map_map. change (- total (fun x => INR x / INR (length l) * (ln (INR x / INR (length l)) / ln base)) (uc l) = shannon dec l / ln base).
  rewrite (total_perm _ _ _ (U l)), total_map. transitivity (/ ln base * shannon dec l); [|unfold Rdiv; ring]. unfold shannon. rewrite <- total_scale.
  transitivity (-1 * total (fun x => freq dec l x * (ln (freq dec l x) / ln base)) (nodup dec l)); [unfold freq; ring|].
  rewrite <- total_scale. apply total_ext. intros. unfold Rdiv. ring.
Qed.
Lemma shannon_perm l l' : Permutation l l' -> shannon dec l = shannon dec l'.
Proof.
  intro P. unfold shannon. assert (PN : Permutation (nodup dec l) (nodup dec l')).
  { apply NoDup_Permutation; try apply NoDup_nodup. intro v. rewrite !nodup_In. split; apply Permutation_in; [exact P|now symmetry]. }
  rewrite (total_perm _ _ _ PN). apply total_ext. intros v _. unfold freq. rewrite (Permutation_length P).
  now rewrite (proj1 (Permutation_count_occ dec l l') P v).
Qed.
End E.
Lemma count_inj {A B} (da : forall a b : A, {a = b} + {a <> b}) (db : forall a b : B, {a = b} + {a <> b}) (f : A -> B) l v :
  (forall w, In w l -> f w = f v -> w = v) -> count_occ db (map f l) (f v) = count_occ da l v.
Proof.
  induction l as [|a l IH]; intro H; [easy|]. cbn. rewrite IH by auto with datatypes. destruct (db (f a) (f v)) as [E|E], (da a v) as [->|N]; auto; try easy.
  exfalso. apply N. apply H; [now left|exact E].
Qed.
Lemma shannon_inj {A B} (da : forall a b : A, {a = b} + {a <> b}) (db : forall a b : B, {a = b} + {a <> b}) (f : A -> B) l :
  (forall v w, In v l -> In w l -> f v = f w -> v = w) -> shannon db (map f l) = shannon da l.
Proof.
  intro I. destruct l as [|a l]; [reflexivity|]. rewrite !shannon_rows by discriminate. rewrite !avg_total, total_map, map_length. f_equal.
  apply total_ext. intros v J. rewrite (count_inj da db); [reflexivity|]. intros. now apply I.
Qed.

Section C.
Context {A B : Type} (da : forall a b : A, {a = b} + {a <> b}) (db : forall a b : B, {a = b} + {a <> b}).
Notation dp := (dpair da db).
Notation cxy rows r := (INR (count_occ dp rows r)).
Notation cy rows y := (INR (count_occ db (map snd rows) y)).
Notation cx rows x := (INR (count_occ da (map fst rows) x)).
Lemma ind_count (rows : list (A * B)) y : total (fun r => if db (snd r) y then 1 else 0) rows = cy rows y.
Proof. induction rows as [|r rows IH]; [reflexivity|]. unfold total in *. cbn. rewrite IH. destruct (db (snd r) y); [rewrite S_INR|]; ring. Qed.
Lemma filter_sum {X} (f : X -> R) (h : X -> bool) l : Rsum (map f (filter h l)) = total (fun x => f x * (if h x then 1 else 0)) l.
Proof. unfold total. induction l as [|x l IH]; cbn; [easy|]. destruct (h x); cbn; rewrite IH; ring. Qed.
Lemma cond_model gb rows : groups_ok dp gb -> rows <> [] -> pl_conditional_entropy db gb rows = cond_entropy da db rows.
Proof.
  intros G N. pose proof (inr_pos rows N) as P. unfold pl_conditional_entropy, cond_entropy.
  assert (T : Rsum (map (fun r => INR (snd r)) (gb rows)) = INR (length rows)).
  { change (total (fun r : A * B * nat => INR (snd r)) (gb rows) = INR (length rows)). rewrite (total_perm _ _ _ (G rows)), total_map. apply counts_sum. }
  rewrite T. match goal with |- -1 * Rsum (map ?f _) = _ => change (-1 * total f (gb rows) = cond_entropy da db rows) end.
  rewrite <- total_scale. rewrite (total_perm _ _ _ (G rows)), total_map. unfold cond_entropy. apply total_ext. intros r I. cbn [snd fst].
  assert (Y : Rsum (map (fun r => INR (snd r)) (filter (fun r' => if db (snd (fst r')) (snd r) then true else false) (gb rows))) = cy rows (snd r)).
  { rewrite filter_sum, (total_perm _ _ _ (G rows)), total_map. cbn [fst snd]. rewrite <- ind_count. rewrite <- (row_sum dp _ rows). apply total_ext. intros s _. destruct (db (snd s) (snd r)); reflexivity. }
  rewrite Y. unfold freq. rewrite map_length. ring.
Qed.
Lemma cy_ge rows r : (count_occ dp rows r <= count_occ db (map snd rows) (snd r))%nat.
Proof. induction rows as [|s rows IH]; [easy|]. cbn. destruct (dp s r) as [->|]; destruct (db (snd _) (snd r)); try lia; easy. Qed.
Lemma cx_ge rows r : (count_occ dp rows r <= count_occ da (map fst rows) (fst r))%nat.
Proof. induction rows as [|s rows IH]; [easy|]. cbn. destruct (dp s r) as [->|]; destruct (da (fst _) (fst r)); try lia; easy. Qed.
Lemma pos3 rows r : In r rows -> 0 < cxy rows r /\ 0 < cy rows (snd r) /\ 0 < cx rows (fst r) /\ cxy rows r <= cy rows (snd r).
Proof.
  intro I. pose proof (cnt_pos dp rows r I). split; [assumption|]. split; [apply cnt_pos, in_map, I|]. split; [apply cnt_pos, in_map, I|]. apply le_INR, cy_ge.
Qed.
Lemma cond_rows rows : rows <> [] -> cond_entropy da db rows = avg (fun r => ln (cy rows (snd r) / cxy rows r)) rows.
Proof.
  intro N. pose proof (inr_pos rows N) as P. rewrite avg_total, <- (row_sum dp). apply Rmult_eq_reg_l with (INR (length rows)); [|lra]. unfold cond_entropy. rewrite <- total_scale.
  match goal with |- _ = _ * (?t / _) => replace (INR (length rows) * (t / INR (length rows))) with t by (field; lra) end. apply total_ext. intros r I. rewrite nodup_In in I.
  destruct (pos3 rows r I) as [H1 [H2 [H3 _]]]. unfold freq. rewrite map_length.
  replace (cxy rows r / INR (length rows) / (cy rows (snd r) / INR (length rows))) with (cxy rows r / cy rows (snd r)) by (field; lra).
  rewrite !ln_quot by assumption. field. lra.
Qed.
Lemma cond_ge0 rows : rows <> [] -> 0 <= cond_entropy da db rows /\ (cond_entropy da db rows = 0 <-> determines rows).
Proof.
  intro N. rewrite cond_rows by exact N. assert (T : forall r, In r rows -> 0 <= ln (cy rows (snd r) / cxy rows r)).
  { intros r I. destruct (pos3 rows r I) as [H1 [H2 [_ H4]]]. rewrite ln_quot by assumption. destruct (Req_dec (cxy rows r) (cy rows (snd r))) as [->|Q]; [lra|]. assert (ln (cxy rows r) < ln (cy rows (snd r))) by (apply ln_increasing; lra). lra. }
  split; [now apply avg_ge0|]. rewrite avg_zero_iff by assumption.
  assert (F : (forall r, In r rows -> ln (cy rows (snd r) / cxy rows r) = 0) <-> forall r, In r rows -> count_occ dp rows r = count_occ db (map snd rows) (snd r)).
  { split; intros H r I; specialize (H r I); destruct (pos3 rows r I) as [H1 [H2 _]].
    - rewrite ln_quot in H by assumption. apply INR_eq, ln_inv; lra.
    - rewrite H. rewrite <- ln_1. f_equal. rewrite H in H1. field. lra. }
  rewrite F. split.
  - intros H x x' y I I'. pose proof (H _ I) as E. cbn [snd] in E.
    assert (G : forall l, count_occ dp l (x, y) = count_occ db (map snd l) y -> forall x', In (x', y) l -> x = x').
    { induction l as [|s l IH]; intros E' x0 J; [easy|]. cbn in E'. pose proof (cy_ge l (x, y)) as K. cbn [snd] in K.
      destruct (dp s (x, y)) as [->|Ns]; cbn [snd] in E'.
      - destruct (db y y); [|easy]. destruct J as [J|J]; [now injection J|]. apply IH; [lia|exact J].
      - destruct (db (snd s) y); [lia|]. destruct J as [->|J]; [easy|]. now apply IH. }
    now apply (G rows).
  - intros D [x y] I. cbn [snd]. assert (G : forall l, (forall x', In (x', y) l -> x = x') -> count_occ dp l (x, y) = count_occ db (map snd l) y).
    { induction l as [|[a b] l IH]; intro K; [easy|]. cbn [count_occ map snd]. rewrite IH by auto with datatypes. destruct (dp (a, b) (x, y)) as [E|Ns], (db b y) as [Eb|Nb]; try congruence.
      exfalso. apply Ns. rewrite Eb. f_equal. symmetry. apply K. left. now rewrite Eb. }
    apply G. intros x' J. now apply (D x x' y).
Qed.
Lemma avg_map' {X Y} (f : Y -> R) (g : X -> Y) l : avg f (map g l) = avg (fun x => f (g x)) l.
Proof. rewrite !avg_total, total_map, map_length. reflexivity. Qed.
Lemma avg_sub {X} (f g : X -> R) l : avg (fun x => f x - g x) l = avg f l - avg g l.
Proof. rewrite !avg_total. rewrite (total_ext _ (fun x => f x + -1 * g x)) by (intros; ring). rewrite total_add, total_scale. unfold Rdiv. ring. Qed.
Lemma map_ne {X Y} (f : X -> Y) l : l <> [] -> map f l <> [].
Proof. now destruct l. Qed.
Lemma chain rows : rows <> [] -> cond_entropy da db rows = shannon dp rows - shannon db (map snd rows).
Proof.
  intro N. pose proof (inr_pos rows N). rewrite cond_rows, !shannon_rows by (try exact N; now apply map_ne). rewrite avg_map', map_length, <- avg_sub. apply avg_ext.
  intros r I. destruct (pos3 rows r I) as [H1 [H2 _]]. rewrite !ln_quot by assumption. ring.
Qed.
Lemma total_app {X} (f : X -> R) l l' : total f (l ++ l') = total f l + total f l'.
Proof. unfold total. rewrite map_app, Rsum_app. reflexivity. Qed.
Lemma sum_prod (f : A -> R) (g : B -> R) l m : total (fun r => f (fst r) * g (snd r)) (list_prod l m) = total f l * total g m.
Proof.
  induction l as [|a l IH]; [unfold total; cbn; ring|]. cbn [list_prod]. rewrite total_app, IH, total_map. cbn [fst snd].
  rewrite total_scale. change (total f (a :: l)) with (f a + total f l). ring.
Qed.
Lemma nodup_app {X} (p q : list X) : NoDup p -> NoDup q -> (forall x, In x p -> ~ In x q) -> NoDup (p ++ q).
Proof.
  induction 1 as [|x p NX NP IHp]; intros NQ D; [exact NQ|]. cbn. constructor; [rewrite in_app_iff; intros [J|J]; [easy|]; apply (D x); [now left|exact J]|].
  apply IHp; [exact NQ|]. intros z Hz. apply D. now right.
Qed.
Lemma total_incl {X} (d : forall a b : X, {a = b} + {a <> b}) (f : X -> R) l m : NoDup l -> incl l m -> NoDup m ->
  exists rest, Permutation (l ++ rest) m /\ total f m = total f l + total f rest.
Proof.
  intros ND I NM. set (h := fun x => if in_dec d x l then false else true). assert (Hh : forall x, h x = true <-> ~ In x l) by (intro x; unfold h; destruct (in_dec d x l); split; intros; easy).
  exists (filter h m). clearbody h. assert (P : Permutation (l ++ filter h m) m).
  { apply NoDup_Permutation; [|exact NM|].
    - apply nodup_app; [exact ND|now apply NoDup_filter|]. intros x J K. apply filter_In in K. destruct K as [_ K]. now apply Hh in K.
    - intro x. rewrite in_app_iff, filter_In, Hh. split; [intros [J|[J _]]; auto|]. intro J. destruct (in_dec d x l); auto. }
  split; [exact P|]. rewrite <- total_app. symmetry. now apply total_perm.
Qed.
Lemma NoDup_prod {X Y} (l : list X) (m : list Y) : NoDup l -> NoDup m -> NoDup (list_prod l m).
Proof.
  intros ND NM. induction ND as [|a l NA ND IH]; cbn; [constructor|].
  apply nodup_app; [apply FinFun.Injective_map_NoDup; [intros ? ? E; now injection E|exact NM]|exact IH|].
  intros [x y] I J. apply in_map_iff in I. destruct I as [z [E _]]. injection E as <- _. apply in_prod_iff in J. easy.
Qed.
Lemma mutual rows : rows <> [] -> cond_entropy da db rows <= shannon da (map fst rows) /\
  (cond_entropy da db rows = shannon da (map fst rows) <-> independent da db rows).
Proof.
  intro N. pose proof (inr_pos rows N) as P. rewrite cond_rows, shannon_rows by (try exact N; now apply map_ne). rewrite avg_map', map_length.
  set (n := INR (length rows)) in *. set (q := fun r => cx rows (fst r) * cy rows (snd r) / (n * cxy rows r)).
  assert (QP : forall r, In r rows -> 0 < q r).
  { intros r I. destruct (pos3 rows r I) as [H1 [H2 [H3 _]]]. unfold q. apply Rdiv_lt_0_compat; now apply Rmult_lt_0_compat. }
  set (g := fun r => (q r - 1) - ln (q r)). assert (G0 : forall r, In r rows -> 0 <= g r) by (intros r I; pose proof (ln_sub _ (QP r I)); unfold g; lra).
  set (prod := list_prod (nodup da (map fst rows)) (nodup db (map snd rows))).
  assert (ALL : total (fun r => cx rows (fst r) * cy rows (snd r)) prod = n * n).
  { unfold prod. rewrite (sum_prod (fun x => cx rows x) (fun y => cy rows y)).
    change (Rsum (map (fun x => cx rows x) (nodup da (map fst rows))) * Rsum (map (fun y => cy rows y) (nodup db (map snd rows))) = n * n). rewrite !counts_sum, !map_length. reflexivity. }
  assert (INC : incl (nodup dp rows) prod).
  { intros [x y] I. rewrite nodup_In in I. apply in_prod_iff. rewrite !nodup_In. split; [now apply (in_map fst) in I|now apply (in_map snd) in I]. }
  destruct (total_incl dp (fun r => cx rows (fst r) * cy rows (snd r)) (nodup dp rows) prod) as [rest [PR SUM]];
    [apply NoDup_nodup|exact INC|apply NoDup_prod; apply NoDup_nodup|].
  rewrite ALL in SUM.
  assert (RP : forall r, In r rest -> 0 < cx rows (fst r) * cy rows (snd r)).
  { intros [x y] I. assert (J : In (x, y) prod) by (eapply Permutation_in; [exact PR|apply in_or_app; now right]). apply in_prod_iff in J. rewrite !nodup_In in J. destruct J as [Jx Jy].
    apply Rmult_lt_0_compat; now apply cnt_pos. }
  assert (RG : 0 <= total (fun r => cx rows (fst r) * cy rows (snd r)) rest) by (apply total_ge0; intros r I; now apply Rlt_le, RP).
  set (rs := total (fun r => cx rows (fst r) * cy rows (snd r)) rest) in *.
  assert (TQ : total q rows = n - rs / n).
  { rewrite <- (row_sum dp). rewrite (total_ext _ (fun r => / n * (cx rows (fst r) * cy rows (snd r)))).
    - rewrite total_scale. replace (total (fun r => cx rows (fst r) * cy rows (snd r)) (nodup dp rows)) with (n * n - rs) by lra. field. lra.
    - intros r I. rewrite nodup_In in I. destruct (pos3 rows r I) as [H1 _]. unfold q. field. lra. }
  assert (E : avg (fun r => ln (n / cx rows (fst r))) rows - avg (fun r => ln (cy rows (snd r) / cxy rows r)) rows = avg g rows + rs / (n * n)).
  { rewrite <- avg_sub. rewrite (avg_ext _ (fun r => - ln (q r))).
    - unfold g. rewrite !avg_total. fold n. rewrite (total_ext (fun r => q r - 1 - ln (q r)) (fun r => q r + (-1 + - ln (q r)))) by (intros; ring).
      rewrite !total_add, TQ, total_const. fold n. field. lra.
    - intros r I. destruct (pos3 rows r I) as [H1 [H2 [H3 _]]]. unfold q. rewrite !ln_quot, !ln_mult by (try assumption; now apply Rmult_lt_0_compat). ring. }
  pose proof (avg_ge0 g rows N G0) as AG. assert (RN : 0 <= rs / (n * n)) by (apply Rmult_le_pos; [exact RG|apply Rlt_le, Rinv_0_lt_compat; now apply Rmult_lt_0_compat]).
  split; [lra|]. transitivity (avg g rows = 0 /\ rs = 0).
  { split; intro H.
    - assert (avg g rows = 0) by lra. assert (Z : rs / (n * n) = 0) by lra. split; [assumption|]. apply Rmult_integral in Z. destruct Z as [Z|Z]; [exact Z|].
      exfalso. assert (0 < / (n * n)) by (apply Rinv_0_lt_compat; now apply Rmult_lt_0_compat). lra.
    - destruct H as [H1 H2]. rewrite H1, H2 in E. replace (0 / (n * n)) with 0 in E by (unfold Rdiv; ring). lra. }
  rewrite avg_zero_iff by assumption.
  assert (FR : forall x y, (freq dp rows (x, y) = freq da (map fst rows) x * freq db (map snd rows) y) <-> n * cxy rows (x, y) = cx rows x * cy rows y).
  { intros x y. unfold freq. rewrite !map_length. fold n. split; intro H.
    - replace (cx rows x * cy rows y) with (n * n * (cx rows x / n * (cy rows y / n))) by (field; lra). rewrite <- H. field. lra.
    - apply Rmult_eq_reg_l with (n * n); [|apply Rmult_integral_contrapositive; lra].
      replace (n * n * (cx rows x / n * (cy rows y / n))) with (cx rows x * cy rows y) by (field; lra). rewrite <- H. field. lra. }
  split.
  - intros [H Z] x y. apply FR. destruct (in_dec dp (x, y) rows) as [I|I].
    + specialize (H _ I). unfold g in H. pose proof (QP _ I) as QQ. assert (Q1 : q (x, y) = 1) by (apply ln_sub_eq; [exact QQ|lra]).
      destruct (pos3 rows (x, y) I) as [H1 _]. unfold q in Q1. cbn [fst snd] in Q1. assert (0 < n * cxy rows (x, y)) by now apply Rmult_lt_0_compat.
      apply Rmult_eq_reg_r with (/ (n * cxy rows (x, y))); [|apply Rinv_neq_0_compat; lra]. rewrite Rinv_r by lra. symmetry. exact Q1.
    + rewrite (proj1 (count_occ_not_In dp rows (x, y)) I). cbn [INR]. rewrite Rmult_0_r. symmetry.
      destruct (in_dec da x (map fst rows)) as [Ix|Ix]; [|rewrite (proj1 (count_occ_not_In da _ x) Ix); cbn; ring].
      destruct (in_dec db y (map snd rows)) as [Iy|Iy]; [|rewrite (proj1 (count_occ_not_In db _ y) Iy); cbn; ring].
      exfalso. assert (J : In (x, y) prod) by (apply in_prod_iff; rewrite !nodup_In; auto). assert (K : In (x, y) rest).
      { eapply Permutation_in in J; [|symmetry; exact PR]. apply in_app_iff in J. destruct J as [J|J]; [rewrite nodup_In in J; easy|exact J]. }
      pose proof (RP _ K). assert (HZ : forall r, In r rest -> cx rows (fst r) * cy rows (snd r) = 0) by (apply total_zero; [intros r I'; now apply Rlt_le, RP|exact Z]).
      specialize (HZ _ K). lra.
  - intro IND. assert (EQ : forall r, n * cxy rows r = cx rows (fst r) * cy rows (snd r)) by (intros [x y]; now apply FR).
    split.
    + intros r I. destruct (pos3 rows r I) as [H1 _]. assert (0 < n * cxy rows r) by now apply Rmult_lt_0_compat. unfold g, q. rewrite <- EQ. replace (n * cxy rows r / (n * cxy rows r)) with 1 by (field; lra). rewrite ln_1. ring.
    + assert (total q rows = n).
      { rewrite (total_ext q (fun _ => 1)); [rewrite total_const; fold n; ring|]. intros r I. destruct (pos3 rows r I) as [H1 _]. unfold q. rewrite <- EQ. field. lra. }
      rewrite H in TQ. assert (Z : rs / n = 0) by lra. apply Rmult_eq_reg_r with (/ n); [|apply Rinv_neq_0_compat; lra]. unfold Rdiv in Z. rewrite Z. ring.
Qed.
End C.
