(** Proofs for the distances from a point. *)
From Coq Require Import Reals List Bool Arith Permutation Lra Lia Psatz.
From Verif Require Import HavSpec HavModel HavProofs NearSpec NearModel.
Import ListNotations.
Open Scope R_scope.

Lemma hsum_map {X} (f : X -> R) l : hsum (map (fun x => Some (f x)) l) = add_up (map f l).
Proof. induction l as [|x l IH]; [reflexivity|]. cbn [map]. unfold hsum, add_up in *. cbn [fold_right]. now rewrite IH. Qed.
Lemma zipped_full f p q : zipped f p (map Some q) = map (fun xy => Some (f (fst xy) (snd xy))) (combine p q).
Proof. revert q. induction p as [|x p IH]; intros [|y q]; [reflexivity..|]. unfold zipped in *. cbn [map combine fst snd option_map]. now rewrite IH. Qed.
Lemma zipped_sum f p q : hsum (zipped f p (map Some q)) = add_up (along f p q).
Proof. rewrite zipped_full. apply (hsum_map (fun xy => f (fst xy) (snd xy))). Qed.
Lemma hmax_pos {X} (f : X -> R) l : (forall x, In x l -> 0 <= f x) -> l <> [] -> hmax (map (fun x => Some (f x)) l) = Some (fold_right Rmax 0 (map f l)).
Proof.
  induction l as [|x l IH]; intros P N; [easy|]. cbn [map]. unfold hmax in *. cbn [fold_right].
  destruct l as [|y l].
  - cbn. rewrite Rmax_left; [reflexivity|apply P; now left].
  - rewrite IH; [reflexivity|intros z Z; apply P; now right|easy].
Qed.
Lemma zipped_max p q : combine p q <> [] -> hmax (zipped (fun x e => Rabs (e - x)) p (map Some q)) = Some (linf p q).
Proof. intros N. rewrite zipped_full. unfold linf, along. apply (hmax_pos (fun xy : R * R => Rabs (snd xy - fst xy))); [intros; apply Rabs_pos|exact N]. Qed.
Lemma self_dot q : add_up (map (fun e => e * e) q) = dot q q.
Proof. unfold dot, along. induction q as [|x q IH]; [reflexivity|]. cbn [map combine]. unfold add_up in *. cbn [fold_right fst snd]. now rewrite IH. Qed.
Lemma self_norm q : fold_right (fun z s => z * z + s) 0 q = dot q q.
Proof. rewrite <- self_dot. induction q as [|x q IH]; [reflexivity|]. cbn [map]. unfold add_up in *. cbn [fold_right]. now rewrite IH. Qed.
Lemma norm_map q : hsum (map (option_map (fun e => e * e)) (map Some q)) = dot q q.
Proof. rewrite map_map. cbn [option_map]. rewrite (hsum_map (fun e => e * e)). apply self_dot. Qed.
Lemma dot_nonneg q : 0 <= dot q q.
Proof. rewrite <- self_norm. induction q as [|x q IH]; [cbn; lra|]. cbn [fold_right]. nra. Qed.
Lemma sql2_nonneg p q : 0 <= sql2 p q.
Proof. unfold sql2, along. induction (combine p q) as [|x l IH]; [cbn; lra|]. cbn [map]. unfold add_up in *. cbn [fold_right]. apply Rplus_le_le_0_compat; [apply Rle_0_sqr|exact IH]. Qed.
Lemma sql2_pow p q : add_up (along (fun x e => (e - x) ^ 2) p q) = sql2 p q.
Proof. unfold sql2, along. f_equal. apply map_ext. intros. ring. Qed.

(** What the distance column holds for a row without nulls. *)
Definition squash (d : near_dist) (v : R) : R := match d with NL2 => v * v | _ => v end.
Lemma point_dist_true d p q v : length q = length p -> p <> [] -> true_dist d p q v -> point_dist d p (map Some q) = Num (squash d v).
Proof.
  intros L NE T. destruct d; cbn [point_dist squash true_dist] in *.
  - rewrite zipped_sum. now subst.
  - rewrite zipped_sum, sql2_pow. subst v. now rewrite sqrt_sqrt by apply sql2_nonneg.
  - rewrite zipped_sum, sql2_pow. now subst.
  - rewrite zipped_max; [now subst|]. destruct p, q; easy.
  - destruct T as (P & Q & V). rewrite self_norm, norm_map, zipped_sum. fold (dot p q).
    destruct (Req_EM_T (dot p p * dot q q) 0) as [E|E]; [nra|]. rewrite sqrt_mult by lra. now subst v.
  - destruct T as (a & b & x & y & -> & -> & A). cbn [map nth nth_error]. unfold cell_of.
    destruct (hav_thm x y a b) as (d & -> & A'). f_equal. exact (arc_fun _ _ _ _ A' A).
Qed.

Lemma combine_map_l {X Y W} (f : X -> Y) (l : list X) (m : list W) : combine (map f l) m = map (fun p => (f (fst p), snd p)) (combine l m).
Proof. revert m. induction l as [|x l IH]; intros [|y m]; [reflexivity..|]. cbn. now rewrite IH. Qed.
Lemma within_ok has_len d pt rows vs rs : d <> NL2 -> pt <> [] -> rows <> [] ->
  Forall2 (fun q v => length q = length pt /\ true_dist d pt q v) rows vs -> length rs = length rows ->
  within_dist_from has_len d pt (length pt) (map (map Some) rows) (RCol (map Num rs)) =
    Some (map (fun vr => Some (if Rle_dec (fst vr) (snd vr) then true else false)) (combine vs rs)) /\
  forall r, within_dist_from has_len d pt (length pt) (map (map Some) rows) (RNum r) =
    Some (map (fun v => Some (if Rle_dec v r then true else false)) vs).
Proof.
  intros D NE R0 F L. unfold within_dist_from.
  assert (A : accepted has_len d pt (length pt) = true).
  { unfold accepted. rewrite Nat.eqb_refl. replace (if has_len then true else true) with true by now destruct has_len. cbn [andb].
    destruct d; try reflexivity. destruct F as [|q v rows vs [_ T] _]; [easy|]. destruct T as (a & b & x & y & -> & _). reflexivity. }
  rewrite A. assert (S : forall q v, true_dist d pt q v -> length q = length pt -> point_dist d pt (map Some q) = Num v).
  { intros q v T Lq. rewrite (point_dist_true _ _ _ _ Lq NE T). destruct d; try reflexivity. easy. }
  clear A R0. split.
  - cbn [radii]. f_equal. revert rs L. induction F as [|q v rows vs [Lq T] F IH]; intros [|r rs] L; try easy.
    cbn [map combine fst snd]. rewrite (S q v T Lq). cbn [cell_leb]. f_equal. apply IH. now injection L.
  - intros r. cbn [radii]. f_equal. clear rs L. induction F as [|q v rows vs [Lq T] F IH]; [reflexivity|].
    cbn [map length repeat combine fst snd]. rewrite (S q v T Lq). cbn [cell_leb]. f_equal. exact IH.
Qed.

(** bottom_k(k).max(). *)
Lemma cell_max_num l : (exists x, In (Num x) l) -> exists m, cell_max l = Num m /\ In (Num m) l /\ forall y, In (Num y) l -> y <= m.
Proof.
  induction l as [|c l IH]; intros [x I]; [easy|]. unfold cell_max in *. cbn [fold_right].
  destruct (fold_right _ Null l) as [| |s] eqn:E.
  1,2: assert (N : forall y, ~ In (Num y) l) by (intros y Y; destruct (IH (ex_intro _ y Y)) as (m & M & _); discriminate M);
    destruct I as [->|I]; [|now apply N in I]; exists x; split; [reflexivity|split; [now left|intros y [Y|Y]; [injection Y as ->; lra|now apply N in Y]]].
  assert (H : exists y, In (Num y) l).
  { clear -E. revert s E. induction l as [|c l IH]; intros s E; [discriminate E|]. cbn [fold_right] in E.
    destruct (fold_right _ Null l) as [| |t]; destruct c as [| |c]; try discriminate E; try (exists c; now left).
    - destruct (IH t eq_refl) as [y Y]. exists y. now right.
    - destruct (IH t eq_refl) as [y Y]. exists y. now right. }
  destruct (IH H) as (m & M & Im & U). injection M as <-.
  destruct c as [| |c].
  1,2: exists s; split; [reflexivity|split; [now right|intros y [Y|Y]; [discriminate Y|now apply U]]].
  exists (Rmax c s). split; [reflexivity|]. split.
  - unfold Rmax. destruct (Rle_dec c s); [now right|now left].
  - intros y [Y|Y]; [injection Y as ->; apply Rmax_l|]. apply Rle_trans with s; [now apply U|apply Rmax_r].
Qed.
Definition lt_cell (v : R) (c : cell) : bool := match c with Num e => if Rlt_dec e v then true else false | _ => false end.
Lemma filter_perm {X} (f : X -> bool) l m : Permutation l m -> Permutation (filter f l) (filter f m).
Proof.
  induction 1 as [|x l m P IH|x y l|l m n P IH Q IH']; [constructor| | |eapply perm_trans; eassumption]; cbn [filter].
  - destruct (f x); [now constructor|exact IH].
  - destruct (f x), (f y); try apply Permutation_refl. apply perm_swap.
Qed.
Lemma filter_none {X} (f : X -> bool) l : (forall x, In x l -> f x = false) -> filter f l = [].
Proof. induction l as [|x l IH]; intros H; [reflexivity|]. cbn [filter]. rewrite (H x) by now left. apply IH. intros y Y. apply H. now right. Qed.
Lemma filter_all {X} (f : X -> bool) l : (forall x, In x l -> f x = true) -> filter f l = l.
Proof. induction l as [|x l IH]; intros H; [reflexivity|]. cbn [filter]. rewrite (H x) by now left. f_equal. apply IH. intros y Y. apply H. now right. Qed.
Lemma filter_short {X} (f : X -> bool) l x : In x l -> f x = false -> (length (filter f l) < length l)%nat.
Proof.
  induction l as [|y l IH]; intros I F; [easy|]. cbn [filter length]. assert (length (filter f l) <= length l)%nat by (clear; induction l as [|z l IH]; cbn; [lia|destruct (f z); cbn; lia]).
  destruct I as [->|I]; [rewrite F; lia|]. specialize (IH I F). destruct (f y); cbn [length]; lia.
Qed.

Section Bottom.
Variable bottom_k : nat -> list cell -> list cell.
Hypothesis BOK : bottom_ok bottom_k.
(** A row is reported exactly when fewer than k rows are strictly nearer. *)
Lemma bottom_rank k l v : (1 <= k)%nat -> In (Num v) l ->
  exists m, cell_max (bottom_k k l) = Num m /\ (v <= m <-> (length (filter (lt_cell v) l) < k)%nat).
Proof.
  intros K I. destruct (BOK k l) as (rest & P & L & B).
  assert (H : exists x, In (Num x) (bottom_k k l)).
  { assert (J := Permutation_in _ P I). apply in_app_iff in J. destruct J as [J|J]; [now exists v|].
    destruct (bottom_k k l) as [|b bs] eqn:E; [destruct l; [easy|cbn in L; lia]|].
    assert (Z := B b (Num v) (or_introl eq_refl) J). destruct b as [| |x]; cbn in Z; try easy. exists x. now left. }
  destruct (cell_max_num _ H) as (m & M & Im & U). exists m. split; [exact M|].
  assert (C : length (filter (lt_cell v) l) = (length (filter (lt_cell v) (bottom_k k l)) + length (filter (lt_cell v) rest))%nat).
  { rewrite (Permutation_length (filter_perm _ _ _ P)), filter_app, app_length. reflexivity. }
  split; intros V.
  - assert (Z : filter (lt_cell v) rest = []).
    { apply filter_none. intros y Y. assert (W := B _ _ Im Y). destruct y as [| |y]; try reflexivity. cbn in *. destruct (Rlt_dec y v); [lra|reflexivity]. }
    rewrite Z in C. cbn in C. assert (S : (length (filter (lt_cell v) (bottom_k k l)) < length (bottom_k k l))%nat).
    { apply (filter_short _ _ _ Im). cbn. destruct (Rlt_dec m v); [lra|reflexivity]. }
    rewrite C. rewrite L in S. lia.
  - apply Rnot_lt_le. intros G. assert (NI : ~ In (Num v) (bottom_k k l)) by (intros J; apply U in J; lra).
    assert (J := Permutation_in _ P I). apply in_app_iff in J. destruct J as [J|J]; [contradiction|].
    assert (Z : filter (lt_cell v) (bottom_k k l) = bottom_k k l).
    { apply filter_all. intros x X. assert (W := B _ _ X J). destruct x as [| |x]; cbn in W; try easy. cbn. destruct (Rlt_dec x v); [reflexivity|]. apply U in X. lra. }
    rewrite Z in C. assert (length l = length (bottom_k k l) + length rest)%nat by (rewrite (Permutation_length P), app_length; reflexivity).
    destruct rest; [easy|]. cbn [length] in *. lia.
Qed.
End Bottom.

Lemma lt_closer vs v : length (filter (lt_cell v) (map Num vs)) = closer vs v.
Proof. unfold closer. induction vs as [|e vs IH]; [reflexivity|]. cbn [map filter lt_cell]. destruct (Rlt_dec e v); cbn [length]; now rewrite IH. Qed.
Lemma squash_closer d vs v : d = NL2 -> Forall (fun e => 0 <= e) vs -> 0 <= v -> closer (map (squash d) vs) (squash d v) = closer vs v.
Proof.
  intros -> F V. unfold closer. induction F as [|e vs E F IH]; [reflexivity|]. cbn [map filter squash] in *.
  destruct (Rlt_dec (e * e) (v * v)), (Rlt_dec e v); cbn [length]; try (now rewrite IH); exfalso; nra.
Qed.
Lemma dists d pt rows vs : pt <> [] -> Forall2 (fun q v => length q = length pt /\ true_dist d pt q v) rows vs ->
  map (point_dist d pt) (map (map Some) rows) = map Num (map (squash d) vs).
Proof. intros NE. induction 1 as [|q v rows vs [L T] F IH]; [reflexivity|]. cbn [map]. rewrite (point_dist_true _ _ _ _ L NE T). f_equal. exact IH. Qed.
Lemma true_nonneg pt rows vs : Forall2 (fun q v => length q = length pt /\ true_dist NL2 pt q v) rows vs -> Forall (fun e => 0 <= e) vs.
Proof. induction 1 as [|q v rows vs [_ T] F IH]; constructor; [|exact IH]. cbn in T. subst. apply sqrt_pos. Qed.
Lemma sq_closer d pt rows vs v : Forall2 (fun q v => length q = length pt /\ true_dist d pt q v) rows vs -> In v vs ->
  closer (map (squash d) vs) (squash d v) = closer vs v.
Proof.
  intros F I. destruct d; try (cbn [squash]; now rewrite map_id).
  assert (P := true_nonneg _ _ _ F). apply squash_closer; [reflexivity|exact P|]. rewrite Forall_forall in P. now apply P.
Qed.
Lemma acc has_len d pt rows vs : rows <> [] -> Forall2 (fun q v => length q = length pt /\ true_dist d pt q v) rows vs -> accepted has_len d pt (length pt) = true.
Proof.
  intros R0 F. unfold accepted. rewrite Nat.eqb_refl. replace (if has_len then true else true) with true by now destruct has_len. cbn [andb].
  destruct d; try reflexivity. destruct F as [|q v rows vs [_ T] _]; [easy|]. destruct T as (a & b & x & y & -> & _). reflexivity.
Qed.
Lemma knn_rank bottom_k has_len d pt rows vs k : bottom_ok bottom_k -> pt <> [] -> rows <> [] -> (1 <= k)%nat ->
  Forall2 (fun q v => length q = length pt /\ true_dist d pt q v) rows vs ->
  is_knn_from bottom_k has_len d pt (length pt) (map (map Some) rows) k = Some (map (fun v => Some (closer vs v <? k)%nat) vs).
Proof.
  intros BOK NE R0 K F. unfold is_knn_from. rewrite (acc has_len d pt rows vs R0 F). f_equal.
  rewrite (dists d pt rows vs NE F). rewrite !map_map. apply map_ext_in. intros v I.
  destruct (bottom_rank bottom_k BOK k (map Num (map (squash d) vs)) (squash d v) K) as (m & M & Q).
  { apply in_map, in_map, I. }
  rewrite map_map in M. rewrite M. cbn [cell_leb]. f_equal. rewrite lt_closer, (sq_closer d pt rows vs v F I) in Q.
  destruct (Rle_dec (squash d v) m) as [A|A].
  - symmetry. apply Nat.ltb_lt. tauto.
  - symmetry. apply Nat.ltb_ge. destruct (le_lt_dec k (closer vs v)); [assumption|tauto].
Qed.
(** At least k rows (or all), and exactly that many when no two distances are equal. *)
Lemma closer_perm l m v : Permutation l m -> closer l v = closer m v.
Proof. intros P. unfold closer. apply Permutation_length, filter_perm, P. Qed.
Definition rlt (v e : R) : bool := if Rlt_dec e v then true else false.
Lemma trues_map {X} (f : X -> bool) l : trues (map (fun v => Some (f v)) l) = length (filter f l).
Proof. unfold trues. induction l as [|v l IH]; [reflexivity|]. cbn [map filter]. destruct (f v); cbn [length]; now rewrite IH. Qed.
Lemma trues_rank vs k : trues (map (fun v => Some (closer vs v <? k)%nat) vs) = length (filter (fun v => closer vs v <? k)%nat vs).
Proof. exact (trues_map (fun v => closer vs v <? k)%nat vs). Qed.
Lemma rank_count bottom_k vs k : bottom_ok bottom_k -> (1 <= k)%nat ->
  (Nat.min k (length vs) <= length (filter (fun v => closer vs v <? k)%nat vs))%nat /\
  (NoDup vs -> length (filter (fun v => closer vs v <? k)%nat vs) = Nat.min k (length vs)).
Proof.
  intros BOK K. destruct vs as [|v0 vs0]; [cbn; split; [|intros _]; lia|]. set (vs := v0 :: vs0).
  destruct (bottom_rank bottom_k BOK k (map Num vs) v0 K (or_introl eq_refl)) as (m & M & _).
  assert (Q : forall v, In v vs -> (closer vs v <? k)%nat = negb (rlt v m)).
  { intros v I. destruct (bottom_rank bottom_k BOK k (map Num vs) v K (in_map Num _ _ I)) as (m' & M' & Q). rewrite M in M'. injection M' as <-.
    rewrite lt_closer in Q. unfold rlt. destruct (Rlt_dec m v) as [A|A]; cbn [negb]; [apply Nat.ltb_ge; destruct (le_lt_dec k (closer vs v)) as [?|B]; [assumption|apply Q in B; lra]|].
    apply Nat.ltb_lt, Q. lra. }
  rewrite (filter_ext_in _ _ _ Q). destruct (BOK k (map Num vs)) as (rest & P & L & B). rewrite map_length in L.
  destruct (Permutation_map_inv Num _ (Permutation_sym P)) as (ws & E & PW). symmetry in E.
  assert (exists b r, ws = b ++ r /\ map Num b = bottom_k k (map Num vs) /\ map Num r = rest) as (b & r & -> & Eb & Er).
  { clear -E. revert ws E. induction (bottom_k k (map Num vs)) as [|c l IH]; intros ws E; [now exists [], ws|].
    destruct ws as [|w ws]; [discriminate E|]. injection E as <- E. destruct (IH ws E) as (b & r & -> & <- & R'). now exists (w :: b), r. }
  rewrite <- Eb, map_length in L. rewrite <- Eb in M.
  assert (U : forall y, In y b -> y <= m /\ In m b).
  { intros y Y. destruct (cell_max_num (map Num b)) as (m' & M' & I' & U'); [exists y; now apply in_map|]. rewrite M in M'. injection M' as <-.
    split; [apply U'; now apply in_map|]. apply in_map_iff in I'. destruct I' as (z & Z & I'). now injection Z as ->. }
  assert (F1 : filter (fun v => negb (rlt v m)) b = b).
  { apply filter_all. intros y Y. unfold rlt. destruct (Rlt_dec m y); [destruct (U y Y); lra|reflexivity]. }
  rewrite (Permutation_length (filter_perm _ _ _ PW)), filter_app, app_length, F1, L. split; [lia|]. intros ND.
  assert (ND' : NoDup (b ++ r)) by (eapply Permutation_NoDup; [exact PW|exact ND]).
  rewrite (filter_none (fun v => negb (rlt v m)) r); [cbn; lia|]. intros y Y. unfold rlt. destruct (Rlt_dec m y) as [A|A]; [reflexivity|exfalso].
  assert (Lb : b <> []). { intros ->. cbn [length] in L. unfold vs in L. cbn [length] in L. lia. }
  destruct b as [|b0 b']; [easy|]. destruct (U b0 (or_introl eq_refl)) as [_ Im].
  assert (W : before (Num m) (Num y)). { apply B; [rewrite <- Eb; now apply in_map|rewrite <- Er; now apply in_map]. }
  cbn [before] in W. assert (y = m) by lra. subst y.
  clear -ND' Im Y. revert ND' Im. generalize (b0 :: b'). intros b. induction b as [|c b IH]; intros N I; [easy|]. cbn [app] in N. inversion N as [|? ? N1 N2]; subst.
  destruct I as [->|I]; [apply N1, in_app_iff; now right|now apply IH].
Qed.
Lemma knn_count bottom_k has_len d pt rows vs k out : bottom_ok bottom_k -> pt <> [] -> rows <> [] -> (1 <= k)%nat ->
  Forall2 (fun q v => length q = length pt /\ true_dist d pt q v) rows vs ->
  is_knn_from bottom_k has_len d pt (length pt) (map (map Some) rows) k = Some out ->
  (Nat.min k (length rows) <= trues out)%nat /\ (NoDup vs -> trues out = Nat.min k (length rows)).
Proof.
  intros BOK NE R0 K F. rewrite (knn_rank bottom_k has_len d pt rows vs k BOK NE R0 K F). intros E. injection E as <-. rewrite trues_rank.
  assert (LR : length rows = length vs) by (clear -F; induction F; cbn; congruence). rewrite LR. exact (rank_count bottom_k vs k BOK K).
Qed.
Lemma knn_zero bottom_k has_len d pt n rows out : bottom_ok bottom_k ->
  is_knn_from bottom_k has_len d pt n rows 0 = Some out -> forall o, In o out -> o = None.
Proof.
  intros BOK. unfold is_knn_from. destruct (accepted has_len d pt n); [|discriminate]. intros E. injection E as <-. intros o I. apply in_map_iff in I. destruct I as (c & <- & _).
  destruct (BOK 0%nat (map (point_dist d pt) rows)) as (_ & _ & L & _). cbn [Nat.min] in L. destruct (bottom_k 0%nat _); [|discriminate L]. now destruct c.
Qed.
(** Refusals. *)
Lemma refused_len bottom_k d pt n rows r k : length pt <> n ->
  within_dist_from true d pt n rows r = None /\ is_knn_from bottom_k true d pt n rows k = None.
Proof. intros L. unfold within_dist_from, is_knn_from, accepted. apply Nat.eqb_neq in L. rewrite L. now split. Qed.

(** A bottom_k. *)
Definition cell_leb' (a b : cell) : bool :=
  match a, b with Num x, Num y => if Rle_dec x y then true else false | Num _, _ => true | NaNv, Num _ => false | NaNv, _ => true | Null, Null => true | Null, _ => false end.
Lemma leb_before a b : cell_leb' a b = true <-> before a b.
Proof. destruct a as [| |x], b as [| |y]; cbn; try (split; intros; easy). destruct (Rle_dec x y); split; intros; easy. Qed.
Lemma before_total a b : before a b \/ before b a.
Proof. destruct a as [| |x], b as [| |y]; cbn; auto. lra. Qed.
Lemma before_trans a b c : before a b -> before b c -> before a c.
Proof. destruct a as [| |x], b as [| |y], c as [| |z]; cbn; try easy. lra. Qed.
Fixpoint cins (a : cell) (l : list cell) : list cell := match l with [] => [a] | b :: r => if cell_leb' a b then a :: b :: r else b :: cins a r end.
Definition csort (l : list cell) : list cell := fold_right cins [] l.
Definition some_bottom (k : nat) (l : list cell) : list cell := firstn k (csort l).
Lemma cins_perm a l : Permutation (a :: l) (cins a l).
Proof. induction l as [|b r IH]; [apply Permutation_refl|]. cbn [cins]. destruct (cell_leb' a b); [apply Permutation_refl|]. eapply perm_trans; [apply perm_swap|now constructor]. Qed.
Lemma csort_perm l : Permutation l (csort l).
Proof. induction l as [|a l IH]; [constructor|]. cbn [csort fold_right]. eapply perm_trans; [apply perm_skip, IH|apply cins_perm]. Qed.
Inductive csorted : list cell -> Prop := cs_nil : csorted [] | cs_cons a l : (forall b, In b l -> before a b) -> csorted l -> csorted (a :: l).
Lemma cins_sorted a l : csorted l -> csorted (cins a l).
Proof.
  induction 1 as [|b r H S IH]; [constructor; [easy|constructor]|]. cbn [cins]. destruct (cell_leb' a b) eqn:E.
  - apply leb_before in E. constructor; [|now constructor]. intros c [<-|C]; [exact E|]. exact (before_trans _ _ _ E (H _ C)).
  - constructor; [|exact IH]. intros c C. apply (Permutation_in _ (Permutation_sym (cins_perm a r))) in C. destruct C as [<-|C]; [|now apply H].
    destruct (before_total b a) as [?|B]; [assumption|]. apply leb_before in B. congruence.
Qed.
Lemma csort_sorted l : csorted (csort l).
Proof. induction l as [|a l IH]; [constructor|]. cbn [csort fold_right]. apply cins_sorted, IH. Qed.
Lemma some_bottom_ok : bottom_ok some_bottom.
Proof.
  intros k l. exists (skipn k (csort l)). unfold some_bottom. rewrite firstn_skipn. split; [apply csort_perm|]. split; [rewrite firstn_length, <- (Permutation_length (csort_perm l)); reflexivity|].
  intros x y X Y. assert (S := csort_sorted l). revert k X Y. induction S as [|a r H S IH]; intros [|k] X Y; cbn [firstn skipn] in *; try easy.
  destruct X as [<-|X]; [|exact (IH k X Y)]. apply H. rewrite <- (firstn_skipn k r). apply in_app_iff. now right.
Qed.
