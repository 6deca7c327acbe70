From Coq Require Import Bool List Arith ZArith QArith Qminmax Lia Permutation Sorted Lqa Zify ZifyBool.
From Verif Require Import Num F64 KdDemo KdProofs PairSums KsModel KsSpec KsProofs MwModel MwSpec.
Import ListNotations.
Open Scope Z_scope.

Notation nn x := (nnan f64_ops x = false).

(** ** U1 counts the pairs *)
Lemma zlen_filter {A} (p : A -> bool) l : zlen (filter p l) = zsum (fun x => b2z (p x)) l.
Proof.
  induction l as [|x l IH]; [reflexivity|]. cbn [filter zsum fold_right]. fold (zsum (fun x => b2z (p x)) l). rewrite <- IH.
  unfold zlen. destruct (p x); cbn [length b2z]; lia.
Qed.
Lemma zlen_app {A} (a b : list A) : zlen (a ++ b) = zlen a + zlen b.
Proof. unfold zlen. rewrite app_length. lia. Qed.

Definition pairv (x w : f64) : Z := 2 * b2z (nlt f64_ops w x) + b2z (same_value w x).
Lemma rank2_sum l v : rank2 l v = zsum (pairv v) l + 1.
Proof.
  unfold rank2, pairv. rewrite !zlen_filter, zsum_add, zsum_mul. reflexivity.
Qed.
Lemma pairv_sym x w : nn x -> nn w -> pairv x w + pairv w x = 2.
Proof.
  intros Hx Hw. unfold pairv, same_value. rewrite (nlt_negb w x Hw Hx), (nlt_negb x w Hx Hw).
  destruct (le_total f64_ops L64 x w Hx Hw) as [E|E]; rewrite E.
  - destruct (nle f64_ops w x); reflexivity.
  - destruct (nle f64_ops x w); reflexivity.
Qed.
Lemma zsum_swap2 {A B} (f : A -> B -> Z) (la : list A) (lb : list B) :
  zsum (fun a => zsum (f a) lb) la = zsum (fun b => zsum (fun a => f a b) la) lb.
Proof.
  induction la as [|a la IH]; cbn [zsum fold_right].
  - symmetry. now apply zsum_zero.
  - fold (zsum (fun a => zsum (f a) lb) la). rewrite IH, <- zsum_add. reflexivity.
Qed.
Lemma self_pairs l : Forall (fun x : f64 => nn x) l -> zsum (fun x : f64 => zsum (pairv x) l) l = zlen l * zlen l.
Proof.
  intros NN. rewrite Forall_forall in NN.
  assert (H : 2 * zsum (fun x : f64 => zsum (pairv x) l) l = 2 * (zlen l * zlen l)); [|lia].
  transitivity (zsum (fun x : f64 => zsum (pairv x) l) l + zsum (fun x : f64 => zsum (fun w : f64 => pairv w x) l) l).
  { assert (S : zsum (fun x : f64 => zsum (fun w : f64 => pairv w x) l) l = zsum (fun x : f64 => zsum (pairv x) l) l) by (apply zsum_swap2). lia. }
  rewrite <- zsum_add.
  rewrite (zsum_ext _ (fun _ => 2 * zlen l)).
  { rewrite zsum_const. lia. }
  intros x Hx. rewrite <- zsum_add. rewrite (zsum_ext _ (fun _ => 2)).
  { apply zsum_const. }
  intros w Hw. apply pairv_sym; auto.
Qed.
Lemma firstn_map_app {A B} (f : A -> B) (a b : list A) : firstn (length a) (map f (a ++ b)) = map f a.
Proof. rewrite map_app, <- (map_length f a), firstn_app, Nat.sub_diag, firstn_O, app_nil_r. apply firstn_all. Qed.

Lemma rank_sum xx yy : Forall (fun x : f64 => nn x) xx ->
  zsum (fun r => r) (firstn (length xx) (map (rank2 (xx ++ yy)) (xx ++ yy))) =
  zlen xx * zlen xx + zlen xx + 2 * wins xx yy + draws xx yy.
Proof.
  intros NN. rewrite firstn_map_app, zsum_map.
  rewrite (zsum_ext _ (fun x : f64 => zsum (pairv x) xx + (1 + zsum (pairv x) yy))).
  2:{ intros x _. rewrite rank2_sum, zsum_app. lia. }
  rewrite !zsum_add, self_pairs, zsum_const by assumption.
  unfold wins, draws.
  rewrite (zsum_ext (fun x : f64 => zsum (pairv x) yy)
    (fun x : f64 => 2 * zsum (fun y : f64 => b2z (nlt f64_ops y x)) yy + zsum (fun y : f64 => b2z (same_value y x)) yy)).
  2:{ intros x _. unfold pairv. now rewrite zsum_add, zsum_mul. }
  rewrite zsum_add, zsum_mul. lia.
Qed.
Lemma u1_ok xx yy : Forall (fun x : f64 => nn x) xx -> (mw_u1 xx yy == U xx yy)%Q.
Proof.
  intros NN. unfold mw_u1. rewrite rank_sum by assumption. unfold U.
  rewrite !inject_Z_plus, !inject_Z_mult. change (inject_Z 2) with 2%Q. field.
Qed.
Lemma wins_draws xx yy : Forall (fun x : f64 => nn x) xx -> Forall (fun x : f64 => nn x) yy ->
  wins xx yy + draws xx yy + wins yy xx = zlen xx * zlen yy.
Proof.
  intros N1 N2. rewrite Forall_forall in *. unfold wins, draws. rewrite (zsum_swap2 _ yy xx), <- !zsum_add.
  rewrite (zsum_ext _ (fun _ => zlen yy)); [rewrite zsum_const; lia|].
  intros x Hx. rewrite <- !zsum_add. rewrite (zsum_ext _ (fun _ => 1)); [rewrite zsum_const; lia|].
  intros y Hy. unfold same_value. rewrite (nlt_negb y x), (nlt_negb x y) by auto.
  destruct (le_total f64_ops L64 x y (N1 x Hx) (N2 y Hy)) as [E|E]; rewrite E.
  - destruct (nle f64_ops y x); reflexivity.
  - destruct (nle f64_ops x y); reflexivity.
Qed.
Lemma draws_sym xx yy : draws xx yy = draws yy xx.
Proof.
  unfold draws. rewrite zsum_swap2. apply zsum_ext. intros y _. apply zsum_ext. intros x _.
  unfold same_value. now rewrite andb_comm.
Qed.
Lemma u2_ok xx yy : Forall (fun x : f64 => nn x) xx -> Forall (fun x : f64 => nn x) yy ->
  (inject_Z (zlen xx) * inject_Z (zlen yy) - mw_u1 xx yy == U yy xx)%Q.
Proof.
  intros N1 N2. rewrite u1_ok by assumption. unfold U. rewrite <- inject_Z_mult, <- wins_draws by assumption.
  rewrite (draws_sym yy xx), !inject_Z_plus. field.
Qed.

(** ** The tie term *)
Definition zcount (l : list Z) (x : Z) : Z := zsum (fun y : Z => b2z (y =? x)) l.
Definition zterm (l : list Z) (x : Z) : Z := zcount l x * zcount l x - 1.
Definition zbelow (l : list Z) (x : Z) : bool := existsb (fun y => x <? y) l.
Definition T (l : list Z) : Z := zsum (zterm l) (filter (zbelow l) l).

Lemma zcount_app a b x : zcount (a ++ b) x = zcount a x + zcount b x.
Proof. apply zsum_app. Qed.
Lemma zcount_repeat v c x : zcount (repeat v c) x = if v =? x then Z.of_nat c else 0.
Proof.
  unfold zcount. induction c as [|c IH]; cbn [repeat zsum fold_right]; [now destruct (v =? x)|].
  fold (zsum (fun y : Z => b2z (y =? x)) (repeat v c)). rewrite IH. destruct (v =? x); cbn [b2z]; lia.
Qed.
Lemma zcount_none l x : ~ In x l -> zcount l x = 0.
Proof. intros H. apply zsum_zero. intros y Hy. destruct (Z.eqb_spec y x); [subst; contradiction|reflexivity]. Qed.
Lemma zsum_repeat {A} (f : A -> Z) v c : zsum f (repeat v c) = Z.of_nat c * f v.
Proof. induction c as [|c IH]; cbn [repeat zsum fold_right]; [lia|]. fold (zsum f (repeat v c)). rewrite IH. lia. Qed.
Lemma filter_all {X} (p : X -> bool) l : (forall x, In x l -> p x = true) -> filter p l = l.
Proof. induction l as [|x l IH]; intros H; simpl; [reflexivity|]. rewrite H by now left. f_equal. apply IH. intros; apply H. now right. Qed.
Lemma repeat_In {X} (v : X) c x : In x (repeat v c) -> x = v.
Proof. induction c; simpl; [tauto|]. intros [<-|H]; auto. Qed.

Lemma T_step v c l : l <> [] -> (forall x, In x l -> v < x) ->
  T (repeat v c ++ l) = Z.of_nat c * (Z.of_nat c + 1) * (Z.of_nat c - 1) + T l.
Proof.
  intros Hl Hv. unfold T. rewrite filter_app, zsum_app. f_equal.
  - rewrite filter_all.
    + rewrite zsum_repeat. unfold zterm. rewrite zcount_app, zcount_repeat, Z.eqb_refl, (zcount_none l v); [lia|].
      intros H. specialize (Hv v H). lia.
    + intros x Hx. apply repeat_In in Hx. subst x. apply existsb_exists. destruct l as [|y l]; [contradiction|].
      exists y. split; [apply in_or_app; right; now left|]. apply Z.ltb_lt, Hv. now left.
  - assert (E : filter (zbelow (repeat v c ++ l)) l = filter (zbelow l) l).
    { apply filter_ext_in. intros x Hx. unfold zbelow. rewrite existsb_app.
      replace (existsb (fun y => x <? y) (repeat v c)) with false; [reflexivity|].
      symmetry. apply not_true_is_false. intros H. apply existsb_exists in H. destruct H as (y & Hy & L).
      apply repeat_In in Hy. subst y. specialize (Hv x Hx). lia. }
    rewrite E. apply zsum_ext. intros x Hx. apply filter_In in Hx. destruct Hx as [Hx _].
    unfold zterm. rewrite zcount_app, zcount_repeat. specialize (Hv x Hx). destruct (Z.eqb_spec v x); [lia|]. reflexivity.
Qed.
Lemma T_repeat v c : T (repeat v c) = 0.
Proof.
  unfold T. replace (filter (zbelow (repeat v c)) (repeat v c)) with (@nil Z); [reflexivity|]. symmetry.
  apply filter_none. intros x Hx. apply repeat_In in Hx. subst x. apply not_true_is_false. intros H.
  apply existsb_exists in H. destruct H as (y & Hy & L). apply repeat_In in Hy. lia.
Qed.
Lemma tie_loop_ok l : forall v c acc, StronglySorted Z.le l -> (forall x, In x l -> v <= x) ->
  tie_sum_loop (Some v) (Z.of_nat c) acc l = acc + T (repeat v c ++ l).
Proof.
  induction l as [|a l IH]; intros v c acc SS Hv; cbn [tie_sum_loop].
  - rewrite app_nil_r, T_repeat. lia.
  - inversion SS as [|? ? SS' FA]; subst. rewrite Forall_forall in FA. destruct (Z.eqb_spec a v) as [->|Ne].
    + replace (Z.of_nat c + 1) with (Z.of_nat (S c)) by lia. rewrite IH by assumption.
      f_equal. f_equal. change (v :: l) with ([v] ++ l). rewrite app_assoc, <- (repeat_cons c v). reflexivity.
    + change 1 with (Z.of_nat 1) at 1. rewrite IH by assumption.
      rewrite (T_step v c (a :: l)); [cbn [repeat app]; lia|discriminate|].
      intros x [<-|Hx].
      * specialize (Hv a (or_introl eq_refl)). lia.
      * specialize (Hv a (or_introl eq_refl)). specialize (FA x Hx). lia.
Qed.
Lemma tie_sum_ok l : StronglySorted Z.le l -> mann_whitney_tie_sum l = T l.
Proof.
  intros SS. unfold mann_whitney_tie_sum. destruct l as [|a l]; [reflexivity|]. cbn [tie_sum_loop].
  inversion SS as [|? ? SS' FA]; subst. rewrite Forall_forall in FA.
  change 1 with (Z.of_nat 1) at 1. rewrite tie_loop_ok by (auto; intros; now apply FA). reflexivity.
Qed.
Lemma existsb_perm {A} (p : A -> bool) l l' : Permutation l l' -> existsb p l = existsb p l'.
Proof. induction 1; simpl; try congruence. now rewrite !orb_assoc, (orb_comm (p y)). Qed.
Lemma T_perm l l' : Permutation l l' -> T l = T l'.
Proof.
  intros P. unfold T. rewrite (zsum_perm _ _ _ (filter_perm (zbelow l) _ _ P)).
  rewrite (filter_ext (zbelow l) (zbelow l')) by (intros x; now apply existsb_perm).
  apply zsum_ext. intros x _. unfold zterm, zcount. now rewrite (zsum_perm _ _ _ P).
Qed.

(** Ranks order the values. *)
Lemma zsum_lt_term {A} (f g : A -> Z) l x : In x l -> (forall y, In y l -> f y <= g y) -> f x < g x -> zsum f l < zsum g l.
Proof.
  induction l as [|a l IH]; [intros []|]. intros H Le Lt. cbn [zsum fold_right].
  change (f a + zsum f l < g a + zsum g l). destruct H as [->|H].
  - pose proof (zsum_le f g l (fun y Hy => Le y (or_intror Hy))). lia.
  - specialize (IH H (fun y Hy => Le y (or_intror Hy)) Lt). specialize (Le a (or_introl eq_refl)). lia.
Qed.
Lemma rank_lt l x y : Forall (fun z : f64 => nn z) l -> In x l -> In y l -> nlt f64_ops x y = true -> rank2 l x < rank2 l y.
Proof.
  intros NN Hx Hy Lt. rewrite Forall_forall in NN. rewrite !rank2_sum. apply Z.add_lt_mono_r.
  assert (Yx : nle f64_ops y x = false) by (apply (lt_le f64_ops L64) in Lt; tauto).
  assert (Xy : nle f64_ops x y = true) by (apply (lt_le_weak f64_ops L64); exact Lt).
  apply (zsum_lt_term _ _ l x Hx).
  - intros w Hw. unfold pairv, same_value. rewrite (nlt_negb w x), (nlt_negb w y) by auto.
    destruct (nle f64_ops w x) eqn:W1.
    + rewrite (le_trans f64_ops L64 _ _ _ W1 Xy). destruct (nle f64_ops y w) eqn:W2.
      * rewrite (le_trans f64_ops L64 _ _ _ W2 W1) in Yx. discriminate.
      * destruct (nle f64_ops x w); cbn; lia.
    + destruct (le_total f64_ops L64 w x (NN w Hw) (NN x Hx)) as [E|E]; [congruence|]. rewrite E.
      destruct (nle f64_ops y w), (nle f64_ops w y); cbn; lia.
  - unfold pairv, same_value. rewrite (nlt_negb x x), (nlt_negb x y) by auto.
    rewrite (le_refl f64_ops L64 x (NN x Hx)), Yx, Xy. cbn. lia.
Qed.
Lemma rank_same l x y : nn x -> nn y -> same_value x y = true -> rank2 l x = rank2 l y.
Proof.
  intros Hx Hy E. unfold same_value in E. apply andb_prop in E. destruct E as [E1 E2].
  rewrite !rank2_sum. f_equal. apply zsum_ext. intros w _. unfold pairv, same_value.
  assert (A : nle f64_ops w x = nle f64_ops w y).
  { apply eq_iff_eq_true. split; intros H; eapply (le_trans f64_ops L64); eauto. }
  assert (B : nle f64_ops x w = nle f64_ops y w).
  { apply eq_iff_eq_true. split; intros H; eapply (le_trans f64_ops L64); eauto. }
  assert (C : nlt f64_ops w x = nlt f64_ops w y).
  { apply eq_iff_eq_true. rewrite !(lt_le f64_ops L64), B. tauto. }
  now rewrite A, B, C.
Qed.
Lemma rank_eqb l x y : Forall (fun z : f64 => nn z) l -> In x l -> In y l ->
  (rank2 l x =? rank2 l y) = same_value x y.
Proof.
  intros NN Hx Hy. pose proof NN as NN'. rewrite Forall_forall in NN'.
  destruct (same_value x y) eqn:E.
  - apply Z.eqb_eq. apply rank_same; auto.
  - apply Z.eqb_neq. unfold same_value in E. apply andb_false_iff in E. destruct E as [E|E].
    + enough (rank2 l y < rank2 l x) by lia. apply rank_lt; auto. rewrite nlt_negb, E by auto. reflexivity.
    + enough (rank2 l x < rank2 l y) by lia. apply rank_lt; auto. rewrite nlt_negb, E by auto. reflexivity.
Qed.
Lemma rank_ltb l x y : Forall (fun z : f64 => nn z) l -> In x l -> In y l ->
  (rank2 l x <? rank2 l y) = nlt f64_ops x y.
Proof.
  intros NN Hx Hy. pose proof NN as NN'. rewrite Forall_forall in NN'.
  destruct (nlt f64_ops x y) eqn:E.
  - apply Z.ltb_lt. now apply rank_lt.
  - apply Z.ltb_ge. rewrite nlt_negb in E by auto. apply negb_false_iff in E.
    destruct (nle f64_ops x y) eqn:E2.
    + rewrite (rank_same l x y); auto; [lia|]. unfold same_value. now rewrite E, E2.
    + apply Z.lt_le_incl, rank_lt; auto. rewrite nlt_negb, E2 by auto. reflexivity.
Qed.
Lemma filter_map {A B} (f : A -> B) (p : B -> bool) l : filter p (map f l) = map f (filter (fun x => p (f x)) l).
Proof. induction l as [|x l IH]; simpl; [reflexivity|]. destruct (p (f x)); simpl; now rewrite IH. Qed.
Lemma existsb_map {A B} (f : A -> B) (p : B -> bool) l : existsb p (map f l) = existsb (fun x => p (f x)) l.
Proof. induction l as [|x l IH]; simpl; [reflexivity|]. now rewrite IH. Qed.
Lemma existsb_ext_in {A} (p q : A -> bool) l : (forall x, In x l -> p x = q x) -> existsb p l = existsb q l.
Proof. induction l as [|x l IH]; intros H; simpl; [reflexivity|]. rewrite H, IH; auto; [|now left]. intros; apply H. now right. Qed.

Lemma T_ranks l : Forall (fun z : f64 => nn z) l -> T (map (rank2 l) l) = tie_term_below_max l.
Proof.
  intros NN. unfold T, tie_term_below_max. rewrite filter_map, zsum_map.
  assert (E : filter (fun x => zbelow (map (rank2 l) l) (rank2 l x)) l =
              filter (fun x : f64 => existsb (fun y : f64 => nlt f64_ops x y) l) l).
  { apply filter_ext_in. intros x Hx. unfold zbelow. rewrite existsb_map. apply existsb_ext_in.
    intros y Hy. now apply rank_ltb. }
  rewrite E. apply zsum_ext. intros x Hx. apply filter_In in Hx. destruct Hx as [Hx _].
  unfold zterm, zcount, tie_size. rewrite zsum_map.
  rewrite (zsum_ext _ (fun y : f64 => b2z (same_value y x))); [reflexivity|].
  intros y Hy. now rewrite rank_eqb.
Qed.
Lemma mw_tie sort l : z_sort_ok sort -> Forall (fun z : f64 => nn z) l ->
  mann_whitney_tie_sum (sort (map (rank2 l) l)) = tie_term_below_max l.
Proof.
  intros SO NN. destruct (SO (map (rank2 l) l)) as [P S]. rewrite tie_sum_ok by exact S.
  rewrite (T_perm _ _ P). now apply T_ranks.
Qed.
