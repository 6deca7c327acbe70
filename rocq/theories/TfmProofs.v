(** Lemmas on fitted transforms. *)
From Coq Require Import Reals Lra Lia String Bool Permutation.
From Coq Require Import List.
From Verif Require Import MetricSpec WStatsSpec WStatsModel WStatsProofs WStatsPropsLemmas MetricModel MetricProofs LagSpec LagProofs LagPropsLemmas XiProofs DescProofs WinsSpec WinsModel WinsProofs PipeModel PipeSpec PipeProofs TfmModel TfmSpec.
Import ListNotations.
Open Scope R_scope.
Open Scope list_scope.

Lemma reals_col x : reals (real_col x) = Some x.
Proof. unfold reals, real_col. induction x as [|[r|] x IH]; cbn; [easy| |]; now rewrite IH. Qed.
Lemma real_inj x y : real_col x = real_col y -> x = y.
Proof. intros H. apply (f_equal reals) in H. rewrite !reals_col in H. now inversion H. Qed.
Lemma forall2_len {A B} (P : A -> B -> Prop) l m : Forall2 P l m -> length l = length m.
Proof. induction 1; cbn; congruence. Qed.
Lemma forall2_impl {A B} (P Q : A -> B -> Prop) l m : (forall a b, P a b -> Q a b) -> Forall2 P l m -> Forall2 Q l m.
Proof. intros H. induction 1; constructor; auto. Qed.
Lemma traverse_total {A B} (k : A -> option B) l : (forall a, In a l -> exists b, k a = Some b) -> exists m, traverse k l = Some m.
Proof.
  induction l as [|a l IH]; intros H; cbn; [eauto|]. destruct (H a) as (b & E); [now left|]. destruct IH as (m & E'); [intros; apply H; now right|]. rewrite E, E'. eauto.
Qed.
Lemma traverse_all {A B} (k : A -> option B) l m : traverse k l = Some m -> Forall2 (fun a b => k a = Some b) l m.
Proof.
  revert m. induction l as [|a l IH]; cbn; intros m H; [inversion H; constructor|]. destruct (k a) eqn:E; [|easy]. destruct (traverse k l) eqn:E'; [|easy]. inversion H; subst. constructor; [easy|now apply IH].
Qed.
Lemma traverse_len {A B} (k : A -> option B) l m : traverse k l = Some m -> length m = length l.
Proof. intros H. apply traverse_all in H. symmetry. now apply forall2_len in H. Qed.
Lemma traverse_app {A B} (k : A -> option B) l m l' m' : traverse k l = Some m -> traverse k l' = Some m' -> traverse k (l ++ l') = Some (m ++ m').
Proof.
  revert m. induction l as [|a l IH]; cbn; intros m H H'; [inversion H; now subst|]. destruct (k a); [|easy]. destruct (traverse k l) eqn:E; [|easy]. inversion H; subst.
  now rewrite (IH l0 eq_refl H').
Qed.
(** ** Column maps. *)
Lemma evals_map cs : forall es g, Forall2 (fun c e => exists h, e = map_expr c h) cs es -> forall o, evals es g = Some o -> names o = cs.
Proof.
  induction 1 as [|c e cs es (h & ->) F IH]; cbn; intros o V; [inversion V; easy|]. unfold map_expr at 1 in V. destruct (lookup c g); [|easy]. destruct (traverse h c0); [|easy]. cbn in V.
  destruct (evals es g) as [o'|]; [|easy]. inversion V; subst. cbn. f_equal. now apply IH.
Qed.
Lemma apply_map (h : string -> cell -> option cell) g cs : forall es, NoDup cs -> Forall2 (fun c e => e = map_expr c (h c)) cs es ->
  (forall c, In c cs -> exists v w, lookup c g = Some v /\ traverse (h c) v = Some w) ->
  exists g', with_columns es g = Some g' /\ names g' = names g /\ (forall d, ~ In d cs -> lookup d g' = lookup d g) /\
    (forall c v w, In c cs -> lookup c g = Some v -> traverse (h c) v = Some w -> lookup c g' = Some w).
Proof.
  intros es N F H.
  assert (exists o, evals es g = Some o /\ forall c, In c cs -> exists v w, lookup c g = Some v /\ traverse (h c) v = Some w /\ lookup c o = Some w) as (o & V & L).
  { clear N. induction F as [|c e cs es -> F IH]; [exists []; easy|]. destruct IH as (o & V & L); [intros; apply H; now right|]. destruct (H c) as (v & w & A & B); [now left|].
    exists ((c, w) :: o). cbn. unfold map_expr at 1. rewrite A, B, V. cbn. split; [easy|]. intros d [<-|I].
    - exists v, w. split; [easy|]. split; [easy|]. unfold lookup. cbn. now rewrite String.eqb_refl.
    - destruct (String.eqb_spec c d) as [->|NE].
      + exists v, w. split; [easy|]. split; [easy|]. unfold lookup. cbn. now rewrite String.eqb_refl.
      + destruct (L d I) as (v' & w' & A' & B' & C'). exists v', w'. split; [easy|]. split; [easy|]. unfold lookup. cbn. destruct (String.eqb_spec c d); [easy|exact C']. }
  assert (names o = cs) as NO. { apply (evals_map cs es g); [|easy]. eapply forall2_impl; [|exact F]. cbn. intros c0 e0 ->. now exists (h c0). }
  exists (put o g). unfold with_columns. rewrite V, NO. apply distinct_iff in N as D. rewrite D. split; [easy|]. split; [|split].
  - rewrite put_names, NO. assert (filter (fun c => negb (mem c (names g))) cs = []) as ->; [|apply app_nil_r].
    assert (forall c, In c cs -> In c (names g)) as I. { intros c I. destruct (H c I) as (v & w & A & _). destruct (mem c (names g)) eqn:M; [now apply mem_iff|]. apply mem_false, lookup_none in M. congruence. }
    clear - I. induction cs as [|c cs IH]; cbn; [easy|]. assert (mem c (names g) = true) as -> by (apply mem_iff, I; now left). apply IH. intros d Hd. apply I. now right.
  - intros d ND. rewrite put_lookup. assert (lookup d o = None) as ->; [|easy]. apply lookup_none. now rewrite NO.
  - intros c v w I A B. rewrite put_lookup. destruct (L c I) as (v' & w' & A' & B' & ->). rewrite A in A'. inversion A'; subst. rewrite B in B'. now inversion B'.
Qed.
Lemma map_rw c h : rowwise (map_expr c h).
Proof.
  intros f g a b o o' N HF HG E E'. unfold map_expr in *. destruct (lookup c f) as [v|] eqn:L; [|easy]. destruct (lookup c g) as [w|] eqn:L'; [|easy].
  destruct (traverse h v) as [v1|] eqn:T; [|easy]. destruct (traverse h w) as [w1|] eqn:T'; [|easy]. cbn in *. inversion E; inversion E'; subst.
  rewrite vs_lookup, L, L', (traverse_app _ _ _ _ _ T T') by easy. unfold height in *. rewrite Forall_forall in HF, HG. apply lookup_in in L, L'.
  split; [constructor; [cbn; rewrite (traverse_len _ _ _ T); now apply (HF _ L)|constructor]|]. split; [constructor; [cbn; rewrite (traverse_len _ _ _ T'); now apply (HG _ L')|constructor]|]. easy.
Qed.
(** Per-column transforms with one map per column. *)
Definition columnwise (T : frame -> list string -> option (list expr)) : Prop := forall f cs es, T f cs = Some es -> Forall2 (fun c e => exists h, e = map_expr c h) cs es.
Lemma cw_writes T : columnwise T -> writes_only (as_func T).
Proof. intros C f cs es E g o V c I. rewrite <- (evals_map cs es g (C f cs es E) o V). exact I. Qed.
Lemma cw_rows T : columnwise T -> forall f cs es, as_func T f cs = Some es -> rowwise_step (WithColumns es).
Proof.
  intros C f [cs|] es E; [|easy]. cbn. specialize (C f cs es E). clear E. induction C as [|c e cs es (h & ->) F IH]; constructor; [apply map_rw|easy].
Qed.
Lemma pc_cw k : (forall c v e, k c v = Some e -> exists h, e = map_expr c h) -> columnwise (per_column k).
Proof.
  intros K f cs es E. unfold per_column in E. apply traverse_all in E. eapply forall2_impl; [|exact E]. intros c e H. cbn in H. destruct (lookup c f); [|easy]. eapply K, H.
Qed.
(** The generic step from one map per training column. *)
Lemma acts_gen (k : string -> column -> option expr) (h : rcol -> cell -> option cell) (P : rcol -> rcol -> column) :
  (forall c x, values x <> [] -> k c (real_col x) = Some (map_expr c (h x))) ->
  (forall x y, values x <> [] -> traverse (h x) (real_col y) = Some (P x y)) -> acts (per_column k) P.
Proof.
  intros K H f cs N T.
  assert (exists es, per_column k f cs = Some es) as (es & E).
  { apply traverse_total. intros c I. destruct (T c I) as (x & L & V). rewrite L, K by easy. eauto. }
  exists es. split; [easy|]. intros g G. unfold per_column in E. apply traverse_all in E.
  set (hh := fun c => h (match lookup c f with Some v => match reals v with Some x => x | None => [] end | None => [] end)).
  assert (forall c x, lookup c f = Some (real_col x) -> hh c = h x) as HH. { intros c x L. unfold hh. now rewrite L, reals_col. }
  destruct (apply_map hh g cs es N) as (g' & A & B & C & D).
  - assert (forall c, In c cs -> exists x, lookup c f = Some (real_col x) /\ values x <> []) as T' by exact T. clear - E T' K HH.
    induction E as [|c e cs es E0 E IH]; constructor.
    + destruct (T' c) as (x & L & V); [now left|]. rewrite L, K in E0 by easy. inversion E0. now rewrite (HH c x L).
    + apply IH. intros d I. apply T'. now right.
  - intros c I. destruct (T c I) as (x & L & V). destruct (G c I) as (y & Ly). exists (real_col y), (P x y). split; [easy|]. rewrite (HH c x L). now apply H.
  - exists g'. split; [easy|]. split; [easy|]. split; [easy|]. intros c x y I L Ly. apply (D c (real_col y)); [easy|easy|]. rewrite (HH c x L). apply H.
    destruct (T c I) as (x' & L' & V). rewrite L in L'. inversion L' as [E2]. apply real_inj in E2. now subst.
Qed.
Lemma trav_num (g : xnum -> option xnum) (p : R -> option xnum) y : (forall v, g (Fin v) = p v) -> (forall v, p v <> None) ->
  traverse (num_cell g) (real_col y) = Some (map (fun o => match o with Some v => match p v with Some r => Num r | None => Null end | None => Null end) y).
Proof. intros G NP. unfold real_col. induction y as [|[v|] y IH]; cbn; [easy| |]; rewrite IH; [now rewrite G|easy]. Qed.
Lemma trav_real g (p : R -> R) y : (forall v, g (Fin v) = Some (Fin (p v))) -> traverse (num_cell g) (real_col y) = Some (real_col (lift1 p y)).
Proof. intros G. unfold real_col, lift1. induction y as [|[v|] y IH]; cbn; [easy| |]; rewrite IH; [now rewrite G|easy]. Qed.
Lemma trav_x g (p : R -> xnum) y : (forall v, g (Fin v) = Some (p v)) -> traverse (num_cell g) (real_col y) = Some (num_col (map (option_map p) y)).
Proof. intros G. unfold real_col, num_col. induction y as [|[v|] y IH]; cbn; [easy| |]; rewrite IH; [now rewrite G|easy]. Qed.
Lemma stat_real odd tag g x : values x <> [] -> stat odd tag g (real_col x) = Some (Fin (g (values x))).
Proof. intros V. unfold stat. rewrite reals_col. now destruct (values x). Qed.
Lemma qstat_real odd tag q m x : qstat odd tag q m (real_col x) = option_map Fin (quantile (values x) q m).
Proof. unfold qstat. now rewrite reals_col. Qed.

Lemma fill_acts odd tag G : acts (per_column (fun c v => fill_with c (stat odd tag G v))) (fun x y => real_col (filled (G (values x)) y)).
Proof.
  apply (acts_gen _ (fun x => fill_cell (Fin (G (values x))))).
  - intros c x V. now rewrite stat_real.
  - intros x y _. unfold real_col, filled. induction y as [|[v|] y IH]; cbn; [easy| |]; now rewrite IH.
Qed.
Lemma impute_acts odd : acts (impute_mean odd) (fun x y => real_col (filled (mean_of (values x)) y)) /\ acts (impute_median odd) (fun x y => real_col (filled (median_of (values x)) y)).
Proof. split; apply fill_acts. Qed.
Lemma fill_null odd tag G f c x cs : In c cs -> lookup c f = Some (real_col x) -> values x = [] -> per_column (fun c v => fill_with c (stat odd tag G v)) f cs = None.
Proof.
  intros I L V. unfold per_column. induction cs as [|d cs IH]; [easy|]. cbn. destruct I as [->|I]; [rewrite L; unfold stat; now rewrite reals_col, V|].
  rewrite IH by easy. destruct (lookup d f); [|easy]. now destruct (fill_with d _).
Qed.
Lemma filled_sum m x : Rsum (values (filled m x)) = Rsum (values x) + (INR (length x) - INR (length (values x))) * m.
Proof.
  induction x as [|[v|] x IH]; cbn [filled map values flat_map app Rsum length]; [cbn; lra| |]; change (flat_map _ (map _ x)) with (values (filled m x)); change (flat_map _ x) with (values x); rewrite IH, ?S_INR; cbn [length app]; rewrite ?S_INR; lra.
Qed.
Lemma filled_len m x : length (values (filled m x)) = length x.
Proof. induction x as [|[v|] x IH]; [easy| |]; cbn; f_equal; exact IH. Qed.
Lemma values_len (x : rcol) : (length (values x) <= length x)%nat.
Proof. induction x as [|[v|] x IH]; cbn; [lia| |]; fold (values x); lia. Qed.
Lemma filled_mean x : values x <> [] -> mean_of (values (filled (mean_of (values x)) x)) = mean_of (values x).
Proof.
  intros V. unfold mean_of at 1. rewrite filled_sum, filled_len. pose proof (values_len x). assert (0 < INR (length (values x))) by (apply (lt_INR 0); destruct (values x); cbn; [easy|lia]).
  assert (INR (length (values x)) <= INR (length x)) by now apply le_INR. unfold mean_of. field. lra.
Qed.
Lemma center_acts odd : acts (center odd) (fun x y => real_col (lift1 (fun v => v - mean_of (values x)) y)).
Proof.
  apply (acts_gen _ (fun x => num_cell (fun v => Some (xsub v (Fin (mean_of (values x))))))).
  - intros c x V. now rewrite stat_real.
  - intros x y _. apply trav_real. easy.
Qed.
Lemma standard_acts odd : acts (scale_standard odd) (fun x y => num_col (map (option_map (fun v => xdiv (v - mean_of (values x)) (sqrt (pvar (values x))))) y)).
Proof.
  apply (acts_gen _ (fun x => num_cell (fun v => Some (xquot (xsub v (Fin (mean_of (values x)))) (Fin (sqrt (pvar (values x)))))))).
  - intros c x V. now rewrite !stat_real.
  - intros x y _. apply trav_x. easy.
Qed.
Lemma minmax_acts odd : acts (scale_min_max odd) (fun x y => num_col (map (option_map (fun v => xdiv (v - lmin (values x)) (lmax (values x) - lmin (values x)))) y)).
Proof.
  apply (acts_gen _ (fun x => num_cell (fun v => Some (xquot (xsub v (Fin (lmin (values x)))) (xsub (Fin (lmax (values x))) (Fin (lmin (values x)))))))).
  - intros c x V. now rewrite !stat_real.
  - intros x y _. apply trav_x. easy.
Qed.
Lemma absmax_acts odd : acts (scale_abs_max odd) (fun x y => num_col (map (option_map (fun v => xdiv v (Rmax (Rabs (lmin (values x))) (Rabs (lmax (values x)))))) y)).
Proof.
  apply (acts_gen _ (fun x => num_cell (fun v => Some (xquot v (Fin (Rmax (Rabs (lmin (values x))) (Rabs (lmax (values x))))))))).
  - intros c x V. now rewrite !stat_real.
  - intros x y _. apply trav_x. easy.
Qed.
Lemma levels_iff a b : levels_ok a b = true <-> 0 <= a /\ a < b /\ b <= 1.
Proof. unfold levels_ok. destruct (Rlt_dec 1 a), (Rlt_dec a 0), (Rlt_dec 1 b), (Rlt_dec b 0), (Rle_dec b a); split; intros; try easy; try lra. Qed.
Lemma qval_some x q m : values x <> [] -> quantile (values x) q m = Some (qval x q m).
Proof. intros V. unfold qval. now rewrite quant_val. Qed.
Lemma robust_acts odd a b m : 0 <= a /\ a < b /\ b <= 1 ->
  acts (robust_scale odd a b m) (fun x y => num_col (map (option_map (fun v => xdiv (v - qval x a m) (qval x b m - qval x a m))) y)).
Proof.
  intros L. apply levels_iff in L. unfold robust_scale. rewrite L.
  apply (acts_gen _ (fun x => num_cell (fun v => Some (xquot (xsub v (Fin (qval x a m))) (xsub (Fin (qval x b m)) (Fin (qval x a m))))))).
  - intros c x V. now rewrite !qstat_real, !qval_some.
  - intros x y _. apply trav_x. easy.
Qed.
Lemma wins_acts odd a b m : 0 <= a /\ a < b /\ b <= 1 ->
  acts (winsorize_fit odd a b m) (fun x y => real_col (lift1 (clip (qval x a m) (qval x b m)) y)).
Proof.
  intros L. apply levels_iff in L. unfold winsorize_fit. rewrite L.
  apply (acts_gen _ (fun x => num_cell (fun v => Some (xclip (Fin (qval x a m)) (Fin (qval x b m)) v)))).
  - intros c x V. now rewrite !qstat_real, !qval_some.
  - intros x y _. apply trav_real. easy.
Qed.
Lemma levels_refused odd a b m f cs : ~ (0 <= a /\ a < b /\ b <= 1) -> robust_scale odd a b m f cs = None /\ winsorize_fit odd a b m f cs = None.
Proof. intros H. unfold robust_scale, winsorize_fit. destruct (levels_ok a b) eqn:E; [apply levels_iff in E; easy|easy]. Qed.
(** ** The training column after scaling. *)
Lemma rsum_aff (l : list R) s t : Rsum (map (fun v => s * v + t) l) = s * Rsum l + INR (length l) * t.
Proof. induction l as [|a l IH]; cbn [map Rsum length]; [cbn; lra|]. rewrite IH, S_INR. lra. Qed.
Lemma len_pos {A} (l : list A) : l <> [] -> 0 < INR (length l).
Proof. intros H. apply (lt_INR 0). destruct l; cbn; [easy|lia]. Qed.
Lemma center_mean l : l <> [] -> mean_of (map (fun v => v - mean_of l) l) = 0.
Proof.
  intros N. pose proof (len_pos l N). rewrite (map_ext _ (fun v => 1 * v + - mean_of l)) by (intros; lra). rewrite mean_affine by easy. lra.
Qed.
Lemma pvar_ge0 l : l <> [] -> 0 <= pvar l.
Proof. intros N. unfold pvar. apply Rmult_le_pos; [|left; apply Rinv_0_lt_compat, len_pos, N]. induction l as [|a l IH]; [cbn; lra|]. clear IH N. generalize (mean_of (a :: l)). intros m. induction (a :: l) as [|b l' IH]; cbn [map Rsum]; [lra|]. pose proof (pow2_ge_0 (b - m)). lra. Qed.
Lemma sumsq_zero (m : R) l : Rsum (map (fun a => (a - m) ^ 2) l) = 0 -> forall a, In a l -> a = m.
Proof.
  induction l as [|b l IH]; [easy|]. cbn [map Rsum]. intros H. assert (0 <= Rsum (map (fun a => (a - m) ^ 2) l)). { clear. induction l as [|c l IH]; cbn [map Rsum]; [lra|]. pose proof (pow2_ge_0 (c - m)). lra. }
  pose proof (pow2_ge_0 (b - m)). intros a [<-|I]; [|apply IH; [lra|easy]]. assert (forall q, q ^ 2 = 0 -> q = 0) as Z by (intros; nra). assert (b - m = 0) by (apply Z; lra). lra.
Qed.
Lemma pvar_pos l : l <> [] -> ~ constant l -> 0 < pvar l.
Proof.
  intros N C. destruct (pvar_ge0 l N) as [H|H]; [easy|]. exfalso. apply C. pose proof (len_pos l N). unfold pvar in H.
  assert (Rsum (map (fun a => (a - mean_of l) ^ 2) l) = 0) as Z. { apply Rmult_eq_reg_r with (/ INR (length l)); [unfold Rdiv in H; lra|apply Rinv_neq_0_compat; lra]. }
  intros a b Ia Ib. rewrite (sumsq_zero _ _ Z a Ia), (sumsq_zero _ _ Z b Ib). easy.
Qed.
Lemma pvar_affine l s t : l <> [] -> pvar (map (fun v => s * v + t) l) = s ^ 2 * pvar l.
Proof.
  intros N. unfold pvar. rewrite mean_affine, map_map, map_length by easy.
  assert (Rsum (map (fun x => (s * x + t - (s * mean_of l + t)) ^ 2) l) = s ^ 2 * Rsum (map (fun a => (a - mean_of l) ^ 2) l)) as ->; [|lra].
  generalize (mean_of l). intros m. clear N. induction l as [|a l IH]; cbn [map Rsum]; [lra|]. rewrite IH. lra.
Qed.
Lemma pvar_const l : constant l -> pvar l = 0 \/ l = [].
Proof.
  intros C. destruct l as [|a l]; [now right|left]. assert (mean_of (a :: l) = a) as M. { unfold mean_of. assert (Rsum (a :: l) = INR (length (a :: l)) * a) as ->. { assert (forall l', (forall b, In b l' -> b = a) -> Rsum l' = INR (length l') * a) as G. { induction l' as [|b l' IH]; intros H; [cbn; lra|]. cbn [Rsum length]. rewrite S_INR, IH, (H b) by (try (now left); intros; apply H; now right). lra. } apply G. intros b I. apply C; [easy|now left]. }
    pose proof (len_pos (a :: l) ltac:(easy)). field. lra. }
  unfold pvar. rewrite M. assert (Rsum (map (fun b => (b - a) ^ 2) (a :: l)) = 0) as ->; [|lra]. assert (forall l', (forall b, In b l' -> b = a) -> Rsum (map (fun b => (b - a) ^ 2) l') = 0) as G. { induction l' as [|b l' IH]; intros H; [easy|]. cbn [map Rsum]. rewrite IH, (H b) by (try (now left); intros; apply H; now right). lra. } apply G. intros b I. apply C; [easy|now left].
Qed.
Lemma standard_train x : values x <> [] -> ~ constant (values x) ->
  (forall y, num_col (map (option_map (fun v => xdiv (v - mean_of (values x)) (sqrt (pvar (values x))))) y) = real_col (lift1 (zscore (values x)) y)) /\
  mean_of (map (zscore (values x)) (values x)) = 0 /\ pvar (map (zscore (values x)) (values x)) = 1 /\
  (forall s t v, 0 < s -> zscore (map (fun v => s * v + t) (values x)) (s * v + t) = zscore (values x) v).
Proof.
  intros V C. pose proof (pvar_pos _ V C) as P. assert (0 < sqrt (pvar (values x))) as S by now apply sqrt_lt_R0. set (l := values x) in *.
  assert (forall v, zscore l v = / sqrt (pvar l) * v + - (mean_of l / sqrt (pvar l))) as Z by (intros; unfold zscore; field; lra).
  split; [|split; [|split]].
  - intros y. unfold num_col, real_col, lift1. rewrite !map_map. apply map_ext. intros [v|]; cbn; [|easy]. unfold xdiv, zscore. destruct (Req_EM_T _ 0); [lra|easy].
  - rewrite (map_ext _ _ Z), mean_affine by easy. field. lra.
  - rewrite (map_ext _ _ Z), pvar_affine by easy. rewrite <- (sqrt_sqrt (pvar l)) at 2 by lra. field. lra.
  - intros s t v Hs. unfold zscore. rewrite mean_affine, pvar_affine by easy. rewrite sqrt_mult by (try apply pow2_ge_0; lra). rewrite sqrt_pow2 by lra. field. split; lra.
Qed.
Lemma lmin_spec l : l <> [] -> least l (lmin l).
Proof.
  destruct l as [|a l]; [easy|]. intros _. unfold least. cbn [lmin]. assert (forall l a, In (fold_left Rmin l a) (a :: l) /\ forall x, In x (a :: l) -> fold_left Rmin l a <= x) as G; [|apply G].
  clear. induction l as [|b l IH]; intros a; cbn [fold_left]; [split; [now left|intros x [<-|[]]; lra]|]. destruct (IH (Rmin a b)) as (I & L). split.
  - destruct I as [<-|I]; [|right; now right]. unfold Rmin. destruct (Rle_dec a b); [now left|right; now left].
  - intros x [<-|[<-|Hx]]; [| |apply L; now right]; eapply Rle_trans; try (apply L; now left); [apply Rmin_l|apply Rmin_r].
Qed.
Lemma lmax_spec l : l <> [] -> greatest l (lmax l).
Proof.
  destruct l as [|a l]; [easy|]. intros _. unfold greatest. cbn [lmax]. assert (forall l a, In (fold_left Rmax l a) (a :: l) /\ forall x, In x (a :: l) -> x <= fold_left Rmax l a) as G; [|apply G].
  clear. induction l as [|b l IH]; intros a; cbn [fold_left]; [split; [now left|intros x [<-|[]]; lra]|]. destruct (IH (Rmax a b)) as (I & L). split.
  - destruct I as [<-|I]; [|right; now right]. unfold Rmax. destruct (Rle_dec a b); [right; now left|now left].
  - intros x [<-|[<-|Hx]]; [| |apply L; now right]; eapply Rle_trans; try (apply L; now left); [apply Rmax_l|apply Rmax_r].
Qed.
Lemma unit_col lo hi y : lo < hi -> num_col (map (option_map (fun v => xdiv (v - lo) (hi - lo))) y) = real_col (lift1 (unit_pos lo hi) y).
Proof. intros L. unfold num_col, real_col, lift1. rewrite !map_map. apply map_ext. intros [v|]; cbn; [|easy]. unfold xdiv, unit_pos. destruct (Req_EM_T _ 0); [lra|easy]. Qed.
Lemma minmax_train x : values x <> [] -> ~ constant (values x) -> let lo := lmin (values x) in let hi := lmax (values x) in
  least (values x) lo /\ greatest (values x) hi /\ lo < hi /\ (forall v, In v (values x) -> 0 <= unit_pos lo hi v <= 1) /\ unit_pos lo hi lo = 0 /\ unit_pos lo hi hi = 1 /\
  (forall u v, unit_pos lo hi u <= unit_pos lo hi v <-> u <= v).
Proof.
  intros V C lo hi. destruct (lmin_spec _ V) as (I1 & L1). destruct (lmax_spec _ V) as (I2 & L2). fold lo in I1, L1. fold hi in I2, L2. split; [easy|]. split; [easy|].
  assert (lo < hi) as LH. { destruct (Rlt_dec lo hi); [easy|]. exfalso. apply C. intros a b Ia Ib. pose proof (L1 a Ia). pose proof (L2 a Ia). pose proof (L1 b Ib). pose proof (L2 b Ib). lra. }
  split; [easy|]. unfold unit_pos. assert (0 < / (hi - lo)) as IP by (apply Rinv_0_lt_compat; lra). split; [|split; [|split]].
  - intros v I. pose proof (L1 v I). pose proof (L2 v I). split; [apply Rmult_le_pos; lra|]. apply Rmult_le_reg_r with (hi - lo); [lra|]. unfold Rdiv. rewrite Rmult_assoc, Rinv_l by lra. lra.
  - unfold Rdiv. rewrite Rminus_diag_eq by easy. lra.
  - unfold Rdiv. apply Rinv_r. lra.
  - intros u v. unfold Rdiv. split; intros H; [apply Rmult_le_reg_r in H; lra|apply Rmult_le_compat_r; lra].
Qed.
Lemma absmax_train x : values x <> [] -> (exists v, In v (values x) /\ v <> 0) -> let m := Rmax (Rabs (lmin (values x))) (Rabs (lmax (values x))) in
  (forall y, num_col (map (option_map (fun v => xdiv v m)) y) = real_col (lift1 (fun v => v / m) y)) /\
  (forall v, In v (values x) -> -1 <= v / m <= 1) /\ (exists v, In v (values x) /\ Rabs (v / m) = 1) /\ (forall v, v / m = 0 <-> v = 0).
Proof.
  intros V (w & Iw & Nw) m. destruct (lmin_spec _ V) as (I1 & L1). destruct (lmax_spec _ V) as (I2 & L2).
  assert (forall v, In v (values x) -> Rabs v <= m) as B.
  { intros v I. pose proof (L1 v I). pose proof (L2 v I). unfold m. pose proof (Rmax_l (Rabs (lmin (values x))) (Rabs (lmax (values x)))). pose proof (Rmax_r (Rabs (lmin (values x))) (Rabs (lmax (values x)))).
    pose proof (Rle_abs (lmax (values x))). pose proof (Rle_abs (- lmin (values x))) as Q. rewrite Rabs_Ropp in Q. apply Rabs_le. lra. }
  assert (0 < m) as P. { apply Rlt_le_trans with (Rabs w); [now apply Rabs_pos_lt|now apply B]. } assert (0 < / m) as IP by now apply Rinv_0_lt_compat.
  split; [|split; [|split]].
  - intros y. unfold num_col, real_col, lift1. rewrite !map_map. apply map_ext. intros [v|]; cbn; [|easy]. unfold xdiv. destruct (Req_EM_T m 0); [lra|easy].
  - intros v I. specialize (B v I). apply Rabs_le_between in B || idtac. assert (- m <= v <= m) as (B1 & B2). { unfold Rabs in B. destruct (Rcase_abs v); lra. }
    split; apply Rmult_le_reg_r with m; try lra; unfold Rdiv; rewrite Rmult_assoc, Rinv_l by lra; lra.
  - assert (exists v, In v (values x) /\ Rabs v = m) as (v & I & E). { unfold m, Rmax. destruct (Rle_dec _ _); eauto. }
    exists v. split; [easy|]. unfold Rdiv. rewrite Rabs_mult, E, (Rabs_right (/ m)) by lra. apply Rinv_r. lra.
  - intros v. unfold Rdiv. split; intros H; [|subst; lra]. apply Rmult_integral in H. destruct H; [easy|lra].
Qed.
Lemma robust_train x a b m : values x <> [] -> 0 <= a /\ a < b /\ b <= 1 -> qval x a m <> qval x b m ->
  qval x a m < qval x b m /\ (forall q, 0 <= q <= 1 -> quantile (map (unit_pos (qval x a m) (qval x b m)) (values x)) q m = Some (unit_pos (qval x a m) (qval x b m) (qval x q m))) /\
  unit_pos (qval x a m) (qval x b m) (qval x a m) = 0 /\ unit_pos (qval x a m) (qval x b m) (qval x b m) = 1.
Proof.
  intros V L NE. assert (qval x a m <= qval x b m) as LE.
  { unfold qval. rewrite !quant_val by easy. pose proof (pos_bounds (values x) a V ltac:(lra)). pose proof (pos_bounds (values x) b V ltac:(lra)). apply qv_mono; try easy; try lra.
    unfold position. assert (1 <= INR (length (values x))) by (apply (le_INR 1); destruct (values x); cbn; [easy|lia]). nra. }
  set (lo := qval x a m) in *. set (hi := qval x b m) in *. assert (lo < hi) as LH by lra. split; [easy|]. split; [|split].
  - intros q Q. rewrite (map_ext _ (fun v => / (hi - lo) * v + - (lo / (hi - lo)))) by (intros; unfold unit_pos; field; lra).
    rewrite quant_affine by (try easy; apply Rinv_0_lt_compat; lra). rewrite qval_some by easy. cbn. f_equal. unfold unit_pos. field. lra.
  - unfold unit_pos, Rdiv. rewrite Rminus_diag_eq by easy. lra.
  - unfold unit_pos, Rdiv. apply Rinv_r. lra.
Qed.
Lemma const_scale x v : values x <> [] -> constant (values x) -> 
  xdiv (v - mean_of (values x)) (sqrt (pvar (values x))) = (if Req_EM_T v (mean_of (values x)) then NaN else if Rlt_dec (mean_of (values x)) v then PInf else NInf) /\
  xdiv (v - lmin (values x)) (lmax (values x) - lmin (values x)) = (if Req_EM_T v (lmin (values x)) then NaN else if Rlt_dec (lmin (values x)) v then PInf else NInf).
Proof.
  intros V C. destruct (pvar_const _ C) as [P|P]; [|easy]. rewrite P, sqrt_0. destruct (lmin_spec _ V) as (I1 & _). destruct (lmax_spec _ V) as (I2 & _).
  rewrite (C _ _ I2 I1). unfold xdiv. split; (destruct (Req_EM_T _ 0) as [_|NZ]; [|exfalso; apply NZ; lra]);
  repeat match goal with |- context [Req_EM_T ?a ?b] => destruct (Req_EM_T a b) | |- context [Rlt_dec ?a ?b] => destruct (Rlt_dec a b) end; try easy; exfalso; lra.
Qed.
(** ** Conditional imputing. *)
Lemma apply_gen (g : frame) (w : string -> column) cs : forall es, NoDup cs -> incl cs (names g) -> Forall2 (fun c e => e g = Some [(c, w c)]) cs es ->
  exists g', with_columns es g = Some g' /\ names g' = names g /\ (forall d, ~ In d cs -> lookup d g' = lookup d g) /\ (forall c, In c cs -> lookup c g' = Some (w c)).
Proof.
  intros es N I F.
  assert (evals es g = Some (map (fun c => (c, w c)) cs)) as V. { clear N I. induction F as [|c e cs es E F IH]; cbn; [easy|]. now rewrite E, IH. }
  assert (names (map (fun c => (c, w c)) cs) = cs) as NO. { unfold names. rewrite map_map. apply map_id. }
  exists (put (map (fun c => (c, w c)) cs) g). unfold with_columns. rewrite V, NO. apply distinct_iff in N as D. rewrite D. split; [easy|]. split; [|split].
  - rewrite put_names, NO. assert (filter (fun c => negb (mem c (names g))) cs = []) as ->; [|apply app_nil_r].
    clear - I. induction cs as [|c cs IH]; cbn; [easy|]. assert (mem c (names g) = true) as -> by (apply mem_iff, I; now left). apply IH. intros d Hd. apply I. now right.
  - intros d ND. rewrite put_lookup. assert (lookup d (map (fun c => (c, w c)) cs) = None) as ->; [|easy]. apply lookup_none. now rewrite NO.
  - intros c Ic. rewrite put_lookup. assert (lookup c (map (fun c => (c, w c)) cs) = Some (w c)) as ->; [|easy].
    clear - Ic. induction cs as [|d cs IH]; [easy|]. unfold lookup. cbn. destruct (String.eqb_spec d c) as [->|NE]; [easy|]. destruct Ic as [->|Ic]; [easy|]. now apply IH.
Qed.
Lemma where_false_real b x : where_false (bool_col b) (real_col x) = real_col (map snd (filter (fun p => match fst p with Some false => true | _ => false end) (combine b x))).
Proof.
  unfold where_false, bool_col, real_col. revert x. induction b as [|o b IH]; intros [|a x]; try easy. cbn [combine map filter]. cbn [fst snd].
  destruct o as [[]|]; cbn [filter map snd fst]; rewrite IH; easy.
Qed.
Lemma when_len b m v : length b = length v -> length (when_then (bool_col b) m v) = length v.
Proof. intros H. unfold when_then, bool_col. rewrite map_length, combine_length, map_length. lia. Qed.
Lemma when_nth b m v i : length b = length v -> (i < length v)%nat -> nth i (when_then (bool_col b) m v) Null = if (match nth i b None with Some true => true | _ => false end) then m else nth i v Null.
Proof.
  revert v i. induction b as [|o b IH]; intros [|a v] i H L; cbn in H, L; try lia. destruct i as [|i]; [now destruct o as [[]|]|]. specialize (IH v i ltac:(lia) ltac:(lia)). exact IH.
Qed.
Lemma cond_thm odd G rules f : NoDup (map fst rules) ->
  (forall c r, In (c, r) rules -> exists x b n, lookup c f = Some (real_col x) /\ r f = Some [(n, bool_col b)] /\ length b = length x) ->
  exists es, conditional_impute odd G rules f = Some es /\
    forall g, (forall c r, In (c, r) rules -> exists y b n, lookup c g = Some y /\ r g = Some [(n, bool_col b)] /\ length b = length y) ->
      exists g', with_columns es g = Some g' /\ names g' = names g /\ (forall d, ~ In d (map fst rules) -> lookup d g' = lookup d g) /\
        forall c r x b n y b' n', In (c, r) rules -> lookup c f = Some (real_col x) -> r f = Some [(n, bool_col b)] -> length b = length x ->
          lookup c g = Some y -> r g = Some [(n', bool_col b')] -> length b' = length y ->
          exists w, lookup c g' = Some w /\ length w = length y /\
            forall i, (i < length y)%nat -> nth i w Null = match nth i b' None with Some true => learned G b x | _ => nth i y Null end.
Proof.
  intros N H.
  set (k := fun cr : string * expr => match lookup (fst cr) f, snd cr f with
                      | Some v, Some [(_, b)] => if Nat.eqb (length b) (length v)
                          then Some (cond_expr (fst cr) (snd cr) (match stat odd "impute" G (where_false b v) with Some m => Num m | None => Null end)) else None
                      | _, _ => None
                      end).
  assert (forall c r x b n, lookup c f = Some (real_col x) -> r f = Some [(n, bool_col b)] -> length b = length x -> k (c, r) = Some (cond_expr c r (learned G b x))) as K.
  { intros c r x b n L E Q. unfold k. cbn [fst snd]. rewrite L, E. unfold bool_col at 1, real_col at 1. rewrite !map_length, Q, Nat.eqb_refl. do 2 f_equal.
    rewrite where_false_real. unfold stat, learned. rewrite reals_col. unfold false_rows. now destruct (values _). }
  destruct (traverse_total k rules) as (es & E). { intros (c, r) I. destruct (H c r I) as (x & b & n & L & Q & Z). eexists. exact (K c r x b n L Q Z). }
  exists es. split; [exact E|]. intros g HG. apply traverse_all in E.
  set (m := fun cr : string * expr => match lookup (fst cr) f, snd cr f with
                      | Some v, Some [(_, b)] => match stat odd "impute" G (where_false b v) with Some m => Num m | None => Null end | _, _ => Null end).
  assert (forall c r x b n, lookup c f = Some (real_col x) -> r f = Some [(n, bool_col b)] -> length b = length x -> m (c, r) = learned G b x) as M.
  { intros c r x b n L E' Q. unfold m. cbn [fst snd]. rewrite L, E', where_false_real. unfold stat, learned. rewrite reals_col. unfold false_rows. now destruct (values _). }
  set (w := fun c => match find (fun p => String.eqb (fst p) c) rules with
                     | Some cr => match lookup c g, snd cr g with Some v, Some [(_, b)] => when_then b (m cr) v | _, _ => [] end | None => [] end).
  assert (forall c r, In (c, r) rules -> find (fun p => String.eqb (fst p) c) rules = Some (c, r)) as FI.
  { clear - N. induction rules as [|(d, q) rules IH]; [easy|]. cbn in N. inversion N; subst. intros c r I. cbn [find fst]. destruct (String.eqb_spec d c) as [->|NE].
    - destruct I as [I|I]; [congruence|]. exfalso. apply H1. change c with (fst (c, r)). now apply in_map.
    - destruct I as [I|I]; [congruence|]. now apply IH. }
  destruct (apply_gen g w (map fst rules) es N) as (g' & A & B & C & D).
  - intros c I. apply in_map_iff in I. destruct I as ((c', r) & <- & I). destruct (HG c' r I) as (y & b & n & L & _). cbn. destruct (mem c' (names g)) eqn:Q; [now apply mem_iff|]. apply mem_false, lookup_none in Q. congruence.
  - assert (forall cr, In cr rules -> In cr rules) as SUB by easy. revert E SUB. generalize rules at 1 2 4. intros rs E. induction E as [|(c, r) e rs es E0 E IH]; intros SUB; cbn; constructor.
    + destruct (H c r (SUB _ (or_introl eq_refl))) as (x & b & n & L & Q & Z). pose proof (eq_trans (eq_sym E0) (K c r x b n L Q Z)) as E1. injection E1 as ->. destruct (HG c r (SUB _ (or_introl eq_refl))) as (y & b' & n' & L' & Q' & Z').
      unfold cond_expr. rewrite L', Q'. unfold bool_col at 1. rewrite map_length, Z', Nat.eqb_refl. cbn [fst]. unfold w. rewrite (FI c r) by (apply SUB; now left). cbn [snd]. rewrite L', Q'. now rewrite (M c r x b n L Q Z).
    + apply IH. intros cr I. apply SUB. now right.
  - exists g'. split; [easy|]. split; [easy|]. split; [easy|]. intros c r x b n y b' n' I L Q Z L' Q' Z'. exists (w c). split; [apply D; change c with (fst (c, r)); now apply in_map|].
    unfold w. rewrite (FI c r I). cbn [snd]. rewrite L', Q'. split; [now apply when_len|]. intros i Hi. rewrite when_nth by easy. rewrite (M c r x b n L Q Z). now destruct (nth i b' None) as [[]|].
Qed.
(** ** All are columnwise. *)
Lemma all_columnwise odd : columnwise (impute_mean odd) /\ columnwise (impute_median odd) /\ columnwise (center odd) /\ columnwise (scale_standard odd) /\
  columnwise (scale_min_max odd) /\ columnwise (scale_abs_max odd) /\ (forall a b m, columnwise (robust_scale odd a b m)) /\ (forall a b m, columnwise (winsorize_fit odd a b m)).
Proof.
  repeat split; intros.
  1,2: apply pc_cw; intros c v e H; unfold fill_with in H; destruct (stat _ _ _ v); [|easy]; inversion H; eauto.
  1,2,4: apply pc_cw; intros c v e H; inversion H; eauto.
  - apply pc_cw. intros c v e H. unfold between in H. destruct (stat odd "min" _ v); [|easy]. destruct (stat odd "max" _ v); [|easy]. inversion H; eauto.
  - unfold robust_scale. intros f cs es. destruct (levels_ok a b); [|easy]. apply pc_cw. intros c v e H. unfold between in H. destruct (qstat odd "q1" _ _ v); [|easy]. destruct (qstat odd "q2" _ _ v); [|easy]. inversion H; eauto.
  - unfold winsorize_fit. intros f cs es. destruct (levels_ok a b); [|easy]. apply pc_cw. intros c v e H. inversion H; eauto.
Qed.
(** ** Conditional imputing is row by row. *)
Lemma when_app b b' m v v' : length b = length v -> when_then (b ++ b') m (v ++ v') = when_then b m v ++ when_then b' m v'.
Proof.
  unfold when_then. intros H. rewrite <- map_app. f_equal. revert v H. induction b as [|o b IH]; intros [|a v] H; cbn in *; try easy. f_equal. apply IH. lia.
Qed.
Lemma cond_rw c r m : rowwise r -> rowwise (cond_expr c r m).
Proof.
  intros RW f g a b o o' N HF HG E E'. unfold cond_expr in *. destruct (lookup c f) as [v|] eqn:L; [|easy]. destruct (lookup c g) as [w|] eqn:L'; [|easy].
  destruct (r f) as [[|(n, p) [|]]|] eqn:R1; try easy. destruct (r g) as [[|(n', p') [|]]|] eqn:R2; try easy. destruct (Nat.eqb_spec (length p) (length v)) as [Q|]; [|easy]. destruct (Nat.eqb_spec (length p') (length w)) as [Q'|]; [|easy].
  inversion E; inversion E'; subst. destruct (RW f g a b _ _ N HF HG R1 R2) as (_ & _ & NN & ->). rewrite vs_lookup, L, L' by easy. cbn [vstack combine map fst snd]. rewrite !app_length, Q, Q', Nat.eqb_refl, when_app by easy.
  unfold height in *. rewrite Forall_forall in HF, HG. apply lookup_in in L, L'.
  assert (forall q u, length q = length u -> length (when_then q m u) = length u) as W. { intros q u Z. unfold when_then. rewrite map_length, combine_length. lia. }
  split; [constructor; [cbn; rewrite W by easy; now apply (HF _ L)|constructor]|]. split; [constructor; [cbn; rewrite W by easy; now apply (HG _ L')|constructor]|]. easy.
Qed.
Lemma cond_rows odd G rules f es : conditional_impute odd G rules f = Some es -> Forall (fun cr => rowwise (snd cr)) rules -> rowwise_step (WithColumns es).
Proof.
  intros E F. apply traverse_all in E. cbn. induction E as [|(c, r) e rs es E0 E IH]; [constructor|]. inversion F; subst. constructor; [|now apply IH]. cbn in E0.
  destruct (lookup c f); [|easy]. destruct (r f) as [[|(n, p) [|]]|]; try easy. destruct (Nat.eqb _ _); [|easy]. injection E0 as <-. now apply cond_rw.
Qed.
Lemma demo_tfm : let x := [Some 1; None; Some 3] in let f := [("a"%string, real_col x); ("y"%string, [BoolC false; BoolC true; Null])] in
  trained f ["a"%string] /\ numeric f ["a"%string] /\ ~ constant (values x) /\ mean_of (values x) = 2 /\ pvar (values x) = 1 /\ lmin (values x) = 1 /\ lmax (values x) = 3 /\
  qval x 0 Linear <> qval x 1 Linear /\
  (exists b n, col_expr "y" f = Some [(n, bool_col b)] /\ length b = length x /\ false_rows b x = [1]) /\
  (exists es, as_func (impute_mean (fun _ _ => None)) f (Some ["a"%string]) = Some es /\ with_columns es f = Some [("a"%string, [Num (Fin 1); Num (Fin 2); Num (Fin 3)]); ("y"%string, [BoolC false; BoolC true; Null])]).
Proof.
  intros x f. assert (mean_of (values x) = 2) as M by (cbn; unfold mean_of; cbn; lra). repeat split; try easy.
  - intros c [<-|[]]. now exists x.
  - intros c [<-|[]]. now exists x.
  - intros C. assert (1 = 3) by (apply C; cbn; tauto). lra.
  - unfold pvar. rewrite M. cbn. lra.
  - cbn. unfold Rmin. destruct (Rle_dec 1 3); lra.
  - cbn. unfold Rmax. destruct (Rle_dec 1 3); lra.
  - unfold qval, quantile. cbn [values x flat_map app]. assert (sort_R [1; 3] = [1; 3]) as -> by (cbn; destruct (Rle_dec 1 3); [easy|lra]).
    assert (position (length [1; 3]) 0 = 0) as -> by (unfold position; cbn; lra). assert (position (length [1; 3]) 1 = 1) as -> by (unfold position; cbn; lra).
    unfold at_. change 0 with (IZR 0) at 1 2 3 4 5. rewrite ?Flocq.Core.Raux.Zfloor_IZR, ?Flocq.Core.Raux.Zceil_IZR. change (Z.to_nat 1) with 1%nat. change (Z.to_nat 0) with 0%nat. cbn [nth]. lra.
  - exists [Some false; Some true; None], "y"%string. split; [easy|]. split; [easy|]. reflexivity.
  - eexists. split; [reflexivity|]. rewrite <- M. reflexivity.
Qed.
Lemma impute_null odd f c x cs : In c cs -> lookup c f = Some (real_col x) -> values x = [] -> impute_mean odd f cs = None /\ impute_median odd f cs = None.
Proof. intros I L V. split; eapply fill_null; eassumption. Qed.
Lemma minmax_full x : values x <> [] -> ~ constant (values x) -> let lo := lmin (values x) in let hi := lmax (values x) in
  (forall y, num_col (map (option_map (fun v => xdiv (v - lo) (hi - lo))) y) = real_col (lift1 (unit_pos lo hi) y)) /\
  least (values x) lo /\ greatest (values x) hi /\ lo < hi /\ (forall v, In v (values x) -> 0 <= unit_pos lo hi v <= 1) /\ unit_pos lo hi lo = 0 /\ unit_pos lo hi hi = 1 /\
  (forall u v, unit_pos lo hi u <= unit_pos lo hi v <-> u <= v).
Proof. intros V C lo hi. pose proof (minmax_train x V C) as (A & B & D & E). split; [intros y; now apply unit_col|]. split; [exact A|]. split; [exact B|]. split; [exact D|exact E]. Qed.
Lemma robust_full odd a b m : 0 <= a /\ a < b /\ b <= 1 ->
  acts (robust_scale odd a b m) (fun x y => num_col (map (option_map (fun v => xdiv (v - qval x a m) (qval x b m - qval x a m))) y)) /\
  forall x, values x <> [] -> qval x a m <> qval x b m ->
    (forall y, num_col (map (option_map (fun v => xdiv (v - qval x a m) (qval x b m - qval x a m))) y) = real_col (lift1 (unit_pos (qval x a m) (qval x b m)) y)) /\
    qval x a m < qval x b m /\ (forall q, 0 <= q <= 1 -> quantile (map (unit_pos (qval x a m) (qval x b m)) (values x)) q m = Some (unit_pos (qval x a m) (qval x b m) (qval x q m))) /\
    quantile (map (unit_pos (qval x a m) (qval x b m)) (values x)) a m = Some 0 /\ quantile (map (unit_pos (qval x a m) (qval x b m)) (values x)) b m = Some 1.
Proof.
  intros L. split; [now apply robust_acts|]. intros x V NE. destruct (robust_train x a b m V L NE) as (A & B & C & D). split; [intros y; now apply unit_col|]. split; [easy|]. split; [easy|].
  rewrite !B by lra. now rewrite C, D.
Qed.
Lemma in_pipes odd T : In T ([impute_mean odd; impute_median odd; center odd; scale_standard odd; scale_min_max odd; scale_abs_max odd]) \/
    (exists a b m, T = robust_scale odd a b m) \/ (exists a b m, T = winsorize_fit odd a b m) ->
  writes_only (as_func T) /\ forall f cs es, as_func T f cs = Some es -> rowwise_step (WithColumns es).
Proof.
  intros H. destruct (all_columnwise odd) as (A1 & A2 & A3 & A4 & A5 & A6 & A7 & A8). assert (columnwise T) as C.
  { destruct H as [H|[(a & b & m & ->)|(a & b & m & ->)]]; [|easy|easy]. cbn in H. repeat destruct H as [<-|H]; easy. }
  split; [now apply cw_writes|now apply cw_rows].
Qed.
