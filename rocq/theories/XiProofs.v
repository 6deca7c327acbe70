From Coq Require Import Reals List ZArith Permutation Sorted Lia Lra.
From Verif Require Import XiModel XiSpec WStatsSpec.
Import ListNotations.
Open Scope Z_scope.

Lemma zsum_perm a b : Permutation a b -> zsum a = zsum b.
Proof. induction 1; cbn; lia. Qed.
Lemma filter_perm' {A} (f : A -> bool) a b : Permutation a b -> Permutation (filter f a) (filter f b).
Proof.
  induction 1 as [|x a b P IH|x y a|a b c P1 IH1 P2 IH2]; cbn; [constructor|destruct (f x); auto|destruct (f x), (f y); try constructor; auto using Permutation_refl|now transitivity (filter f b)].
Qed.
Lemma rank_perm a b y : Permutation a b -> rank_max a y = rank_max b y /\ rank_max_neg a y = rank_max_neg b y.
Proof. intros P. unfold rank_max, rank_max_neg. split; f_equal; apply Permutation_length, filter_perm', P. Qed.
(** Strictly increasing lists. *)
Definition incr (l : list R) := StronglySorted Rlt l.
Lemma rank_head a l : incr (a :: l) -> rank_max (a :: l) a = 1 /\ rank_max_neg (a :: l) a = Z.of_nat (S (length l)) /\
  (forall y, In y l -> rank_max (a :: l) y = 1 + rank_max l y /\ rank_max_neg (a :: l) y = rank_max_neg l y).
Proof.
  intros H. apply StronglySorted_inv in H. destruct H as [S F]. rewrite Forall_forall in F. unfold rank_max, rank_max_neg. cbn [filter length].
  destruct (Rle_dec a a) as [_|N]; [|lra]. repeat split.
  - assert (E : filter (fun v => if Rle_dec v a then true else false) l = []).
    { clear - F. induction l as [|b l IH]; [reflexivity|]. cbn. destruct (Rle_dec b a) as [Q|Q]; [specialize (F b (or_introl eq_refl)); lra|]. apply IH. intros x Hx. apply F. now right. }
    rewrite E. reflexivity.
  - assert (E : filter (fun v => if Rle_dec a v then true else false) l = l).
    { clear - F. induction l as [|b l IH]; [reflexivity|]. cbn. destruct (Rle_dec a b) as [Q|Q]; [|specialize (F b (or_introl eq_refl)); lra]. f_equal. apply IH. intros x Hx. apply F. now right. }
    cbn [length]. rewrite E. reflexivity.
  - specialize (F y H). destruct (Rle_dec a y); [|lra]. cbn [length]. lia.
  - specialize (F y H). destruct (Rle_dec y a); [lra|]. reflexivity.
Qed.
Fixpoint down (n : nat) : list Z := match n with O => [] | S n' => Z.of_nat n :: down n' end.
Lemma ranks_neg_incr l : incr l -> map (rank_max_neg l) l = down (length l).
Proof.
  induction l as [|a l IH]; intros H; [reflexivity|]. destruct (rank_head a l H) as (_ & E & R). cbn [map length down]. f_equal; [exact E|].
  apply StronglySorted_inv in H. rewrite <- (IH (proj1 H)). apply map_ext_in. intros y Hy. now apply R.
Qed.
Fixpoint up (b : Z) (n : nat) : list Z := match n with O => [] | S n' => b :: up (b + 1) n' end.
Lemma ranks_incr l : incr l -> map (rank_max l) l = up 1 (length l).
Proof.
  induction l as [|a l IH]; intros H; [reflexivity|]. destruct (rank_head a l H) as (E & _ & R). cbn [map length up]. f_equal; [exact E|].
  apply StronglySorted_inv in H. rewrite (map_ext_in _ (fun y => 1 + rank_max l y)) by (intros y Hy; now apply R).
  rewrite <- (map_map (rank_max l) (fun v => 1 + v)), (IH (proj1 H)). generalize 1 at 2 3. generalize (length l). clear.
  induction n as [|n IH]; intros z; [reflexivity|]. cbn [up map]. f_equal; [lia|]. rewrite IH. f_equal. 
Qed.
Lemma diffs_up b n : zsum (abs_diffs (up b (S n))) = Z.of_nat n.
Proof.
  revert b. induction n as [|n IH]; intros b; [reflexivity|]. specialize (IH (b + 1)). cbn [up abs_diffs zsum] in *. rewrite IH. lia.
Qed.
Lemma sum_down n m : 6 * zsum (map (fun l => l * (m - l)) (down n)) = Z.of_nat n * (Z.of_nat n + 1) * (3 * m - (2 * Z.of_nat n + 1)).
Proof.
  induction n as [|n IH]; [reflexivity|]. cbn [down map zsum]. rewrite Z.mul_add_distr_l, IH, Nat2Z.inj_succ. ring.
Qed.

(** Sorting a list of distinct values. *)
Lemma insert_perm a l : Permutation (insert_R a l) (a :: l).
Proof. induction l as [|b l IH]; cbn; [constructor; constructor|]. destruct (Rle_dec a b); [reflexivity|]. rewrite IH. apply perm_swap. Qed.
Lemma sort_perm l : Permutation (sort_R l) l.
Proof. induction l as [|a l IH]; cbn; [constructor|]. now rewrite insert_perm, IH. Qed.
Lemma insert_incr a l : incr l -> ~ In a l -> incr (insert_R a l).
Proof.
  intros S N. induction l as [|b l IH]; cbn; [repeat constructor|]. apply StronglySorted_inv in S. destruct S as [S F].
  destruct (Rle_dec a b) as [Q|Q].
  - assert (a <> b) by (intros ->; apply N; now left). constructor; [constructor; assumption|]. constructor; [lra|]. eapply Forall_impl; [|exact F]. cbn. intros; lra.
  - constructor; [apply IH; [exact S|intros H; apply N; now right]|]. rewrite Forall_forall in *. intros x Hx.
    apply (Permutation_in _ (insert_perm a l)) in Hx. destruct Hx as [<-|Hx]; [lra|auto].
Qed.
Lemma sort_incr l : NoDup l -> incr (sort_R l).
Proof.
  induction 1 as [|a l N D IH]; cbn; [constructor|]. apply insert_incr; [exact IH|]. intros H. apply N. now apply (Permutation_in _ (sort_perm l)).
Qed.
Lemma denom_untied ys s : NoDup ys -> Permutation s ys ->
  6 * zsum (map (fun l => l * (Z.of_nat (length ys) - l)) (map (rank_max_neg ys) s)) = Z.of_nat (length ys) * (Z.of_nat (length ys) + 1) * (Z.of_nat (length ys) - 1).
Proof.
  intros D P. set (n := length ys). rewrite <- (zsum_perm _ _ (Permutation_map _ (Permutation_map _ (Permutation_trans (sort_perm ys) (Permutation_sym P))))).
  rewrite (map_ext (rank_max_neg ys) (rank_max_neg (sort_R ys))) by (intros y; apply rank_perm; symmetry; apply sort_perm).
  rewrite ranks_neg_incr by now apply sort_incr. rewrite (Permutation_length (sort_perm ys)). fold n. rewrite sum_down. ring.
Qed.
(** Ranks of distinct values are distinct. *)
Lemma rank_lt ys a b : In b ys -> (a < b)%R -> rank_max ys a < rank_max ys b.
Proof.
  intros Hb L. unfold rank_max. apply inj_lt. induction ys as [|y ys IH]; [destruct Hb|]. cbn [filter].
  assert (G : (length (filter (fun v => if Rle_dec v a then true else false) ys) <= length (filter (fun v => if Rle_dec v b then true else false) ys))%nat).
  { clear - L. induction ys as [|y ys IH]; [constructor|]. cbn [filter]. destruct (Rle_dec y a), (Rle_dec y b); cbn [length]; try lia. lra. }
  destruct Hb as [->|Hb]; [destruct (Rle_dec b a); [lra|]; destruct (Rle_dec b b); [cbn [length]; lia|lra]|].
  specialize (IH Hb). destruct (Rle_dec y a), (Rle_dec y b); cbn [length]; try lia. lra.
Qed.
Lemma diffs_lower ys s : NoDup s -> incl s ys -> Z.of_nat (length s) - 1 <= zsum (abs_diffs (map (rank_max ys) s)).
Proof.
  intros D I. induction s as [|a s IH]; [cbn; lia|]. inversion D as [|? ? Na Ds]; subst. destruct s as [|b s]; [cbn; lia|].
  specialize (IH Ds ltac:(intros x Hx; apply I; now right)). cbn [map abs_diffs zsum] in *. 
  assert (Ne : rank_max ys b <> rank_max ys a).
  { assert (a <> b) by (intros ->; apply Na; now left). destruct (Rtotal_order a b) as [L|[L|L]]; [|contradiction|].
    - pose proof (rank_lt ys a b ltac:(apply I; right; now left) L). lia.
    - pose proof (rank_lt ys b a ltac:(apply I; now left) L). lia. }
  cbn [length] in *. lia.
Qed.
Lemma diffs_nonneg r : 0 <= zsum (abs_diffs r).
Proof.
  induction r as [|a [|b r] IH]; [reflexivity|reflexivity|]. change (abs_diffs (a :: b :: r)) with (Z.abs (b - a) :: abs_diffs (b :: r)). cbn [zsum]. lia.
Qed.
Lemma rank_range ys y : 0 <= rank_max_neg ys y <= Z.of_nat (length ys).
Proof.
  unfold rank_max_neg. split; [lia|]. apply inj_le. induction ys as [|a ys IH]; [constructor|]. cbn [filter]. destruct (Rle_dec y a); cbn [length]; lia.
Qed.
Lemma denom_nonneg ys s : 0 <= zsum (map (fun l => l * (Z.of_nat (length ys) - l)) (map (rank_max_neg ys) s)).
Proof.
  induction s as [|a s IH]; [reflexivity|]. cbn [map zsum]. pose proof (rank_range ys a). nia.
Qed.
Open Scope R_scope.
Lemma xi_le_1 order rows : xi_corr order rows <= 1.
Proof.
  unfold xi_corr, xi_parts. cbn [fst snd]. pose proof (pos_INR (length rows)) as Pn.
  set (a := zsum _). set (b := zsum _). assert (A : 0 <= IZR a) by (apply (IZR_le 0), diffs_nonneg).
  assert (B : 0 <= IZR b). { apply (IZR_le 0). unfold b. rewrite <- (map_length snd rows). apply denom_nonneg. }
  assert (0 <= INR (length rows) / 2 * IZR a / IZR b); [|lra]. unfold Rdiv. apply Rmult_le_pos; [nra|].
  destruct B as [B| <-]; [left; now apply Rinv_0_lt_compat|rewrite Rinv_0; lra].
Qed.
(** Distinct y values. *)
Lemma xi_untied order rows : order_ok order -> NoDup (map snd rows) -> (2 <= length rows)%nat ->
  xi_corr order rows <= 1 - 3 / (INR (length rows) + 1) /\
  (incr (map snd (order rows)) -> xi_corr order rows = 1 - 3 / (INR (length rows) + 1)).
Proof.
  intros O D Ln. destruct (O rows) as [P _]. set (n := length rows) in *.
  assert (Pn : 2 <= INR n) by (apply (le_INR 2); exact Ln).
  assert (Ps : Permutation (map snd (order rows)) (map snd rows)) by now apply Permutation_map.
  unfold xi_corr, xi_parts. cbn [fst snd]. fold n. set (a := zsum (abs_diffs _)). set (b := zsum (map _ _)).
  assert (B : IZR b = INR n * (INR n + 1) * (INR n - 1) / 6).
  { pose proof (denom_untied (map snd rows) (map snd (order rows)) D Ps) as E. rewrite map_length in E. fold n b in E.
    apply (f_equal IZR) in E. rewrite !mult_IZR, plus_IZR, minus_IZR, <- INR_IZR_INZ in E. lra. }
  assert (X : forall v, 1 - INR n / 2 * v / IZR b = 1 - 3 * v / ((INR n + 1) * (INR n - 1))) by (intros v; rewrite B; field; lra).
  rewrite X. split.
  - assert (A : INR n - 1 <= IZR a).
    { rewrite INR_IZR_INZ, <- minus_IZR. apply IZR_le. unfold a.
      replace n with (length (map snd (order rows))) by (rewrite map_length; apply (Permutation_length P)).
      apply diffs_lower; [eapply Permutation_NoDup; [symmetry; exact Ps|exact D]|intros x Hx; now apply (Permutation_in _ Ps)]. }
    assert (3 / (INR n + 1) <= 3 * IZR a / ((INR n + 1) * (INR n - 1))); [|lra].
    replace (3 / (INR n + 1)) with (3 * (INR n - 1) / ((INR n + 1) * (INR n - 1))) by (field; lra).
    apply Rmult_le_compat_r; [left; apply Rinv_0_lt_compat; nra|lra].
  - intros I. assert (A : IZR a = INR n - 1).
    { rewrite INR_IZR_INZ, <- minus_IZR. f_equal. unfold a.
      rewrite (map_ext (rank_max (map snd rows)) (rank_max (map snd (order rows)))) by (intros y; apply rank_perm; symmetry; exact Ps).
      rewrite (ranks_incr _ I), map_length, (Permutation_length P). fold n. destruct n as [|m]; [lia|]. rewrite diffs_up. lia. }
    rewrite A. field. lra.
Qed.
