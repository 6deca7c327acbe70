From Coq Require Import Bool List Arith NArith ZArith Lia Permutation Sorted Reals Lra.
From Flocq Require Import Core IEEE754.BinarySingleNaN.
From Verif Require Import Num F64 F64Facts KdModel KdDemo KdSpec KdProofs PyKdModel PyKdSpec KnnExprModel KnnExprSpec KnnExprProofs KnnExprSem
  MetricSpec DigammaModel DigammaSpec KnnEntModel KnnEntSpec KnnEntProofs KnnEntProofs2 KnnEntProofs3 KnnEntProofs4 CopModel CopSpec CopProofs.
Import ListNotations.
Open Scope nat_scope.

(** A share of ranks is a correctly rounded number between 0 and 1. *)
Lemma half_format z : (Z.abs z < 2 ^ 53)%Z -> generic_format radix2 fexp64 (IZR z / 2).
Proof.
  intros H. replace (IZR z / 2)%R with (F2R (Float radix2 z (-1))) by (unfold F2R; simpl; lra).
  apply (generic_format_FLT radix2 (-1074) 53). exists (Float radix2 z (-1)); [reflexivity|simpl; exact H|simpl; lia].
Qed.
Lemma share_value {X} (leb : X -> X -> bool) col x : total_order leb -> In (Some x) col -> (Z.of_nat (length col) <= 2 ^ 50)%Z ->
  fin (ndiv f64_ops (rank_avg leb col x) (fi (Z.of_nat (length col)))) (rnd64 (average_rank leb col x / INR (length col))) /\
  (0 <= rnd64 (average_rank leb col x / INR (length col)) <= 1)%R.
Proof.
  intros TO Hx Hn. destruct (ranks_bound leb col x TO Hx) as [S1 S2].
  set (m := (2 * Z.of_nat (before leb col x) + Z.of_nat (same leb col x) + 1)%Z).
  assert (Hm : (1 <= m /\ m <= 2 * Z.of_nat (length col))%Z) by (unfold m; lia).
  assert (Hp : (0 < length col)) by lia.
  assert (EA : average_rank leb col x = (IZR m / 2)%R).
  { unfold average_rank, m. rewrite <- before_lower, <- same_equal, !INR_IZR_INZ, !plus_IZR, mult_IZR. lra. }
  assert (LN : (IZR m <= 2 * IZR (Z.of_nat (length col)))%R) by (rewrite <- mult_IZR; apply IZR_le; lia).
  assert (L1 : (1 <= IZR m)%R) by (apply IZR_le; lia).
  assert (L2 : (1 <= IZR (Z.of_nat (length col)))%R) by (apply IZR_le; lia).
  assert (L3 : (IZR (Z.of_nat (length col)) <= bpow radix2 50)%R) by (change (bpow radix2 50) with (IZR (2 ^ 50)); apply IZR_le; lia).
  assert (FA : fin (rank_avg leb col x) (IZR m / 2)).
  { unfold rank_avg. fold m.
    replace (IZR m / 2)%R with (rnd64 (IZR m / 2)) at 1 by (apply round_generic; [typeclasses eauto|apply half_format; lia]).
    apply (fin_div _ _ _ 2 50); [lia|apply fin_fi; lia|apply (fin_fi 2); cbn; lia|lra|]. rewrite Rabs_pos_eq; lra. }
  assert (Q : (0 <= IZR m / 2 / IZR (Z.of_nat (length col)) <= 1)%R).
  { split; [apply Rmult_le_pos; [lra|left; apply Rinv_0_lt_compat; lra]|]. apply (Rmult_le_reg_r (IZR (Z.of_nat (length col)))); [lra|].
    unfold Rdiv at 1. rewrite Rmult_assoc, Rinv_l by lra. lra. }
  rewrite EA, INR_IZR_INZ. split.
  - apply (fin_div _ _ _ _ 0); [lia|exact FA|apply fin_fi; lia|lra|]. cbn [bpow]. rewrite Rabs_pos_eq; lra.
  - split.
    + replace 0%R with (rnd64 0) at 1 by (apply round_0; typeclasses eauto). apply round_le; try typeclasses eauto. lra.
    + replace 1%R with (rnd64 (IZR 1)) by (apply rnd64_int; cbn; lia). apply round_le; try typeclasses eauto. lra.
Qed.

(** Points of the unit cube are at moderate distances. *)
Definition unit_pt (p : pt) : Prop := Forall (fun x : f64 => is_finite x = true /\ (0 <= B2R x <= 1)%R) p.
Lemma unit_sq (x y : f64) : is_finite x = true /\ (0 <= B2R x <= 1)%R -> is_finite y = true /\ (0 <= B2R y <= 1)%R ->
  exists s, fin (nmul f64_ops (nsub f64_ops x y) (nsub f64_ops x y)) s /\ (0 <= s <= 1)%R.
Proof.
  intros [Fx Bx] [Fy By].
  assert (D : fin (fsub x y) (rnd64 (B2R x - B2R y))).
  { apply (fin_sub x y (B2R x) (B2R y) 0); [lia|split; auto|split; auto|]. cbn [bpow]. apply Rabs_le. lra. }
  assert (DB : (Rabs (rnd64 (B2R x - B2R y)) <= 1)%R) by (apply (rnd64_bound _ 0); [lia|]; cbn [bpow]; apply Rabs_le; lra).
  set (d := rnd64 (B2R x - B2R y)) in *.
  assert (D2 : (0 <= d * d <= 1)%R) by (apply Rabs_le_inv in DB; nra).
  exists (rnd64 (d * d)). split; [apply (fin_mul _ _ d d 0); [lia|exact D|exact D|cbn [bpow]; rewrite Rabs_pos_eq; lra]|]. split.
  - replace 0%R with (rnd64 0) at 1 by (apply round_0; typeclasses eauto). apply round_le; try typeclasses eauto. lra.
  - replace 1%R with (rnd64 (IZR 1)) by (apply rnd64_int; cbn; lia). apply round_le; try typeclasses eauto. lra.
Qed.
Lemma unit_sum p q (acc : f64) i a : unit_pt p -> unit_pt q -> fin acc a -> (0 <= a <= IZR i)%R -> (0 <= i)%Z -> (i + Z.of_nat (length p) <= 2 ^ 50)%Z ->
  exists s, fin (fold_left (fun acc xy => nadd f64_ops acc (nmul f64_ops (nsub f64_ops (fst xy) (snd xy)) (nsub f64_ops (fst xy) (snd xy)))) (combine p q) acc) s /\
    (0 <= s <= IZR (2 ^ 50))%R.
Proof.
  revert q acc i a. induction p as [|x p IH]; intros q acc i a P Q Fa B I L.
  - exists a. split; [exact Fa|]. split; [lra|]. apply Rle_trans with (IZR i); [lra|apply IZR_le; cbn in L; lia].
  - destruct q as [|y q]; [exists a; split; [exact Fa|]; split; [lra|]; apply Rle_trans with (IZR i); [lra|apply IZR_le; lia]|].
    inversion P; subst. inversion Q; subst. cbn [combine fold_left fst snd]. cbn [length] in L.
    destruct (unit_sq x y) as (s & Fs & Bs); [assumption|assumption|].
    apply (IH q _ (i + 1)%Z (rnd64 (a + s))); [assumption|assumption| | |lia|lia].
    + apply (fin_add _ _ a s 50); [lia|exact Fa|exact Fs|]. rewrite Rabs_pos_eq by lra. change (bpow radix2 50) with (IZR (2 ^ 50)).
      apply Rle_trans with (IZR (i + 1)); [rewrite plus_IZR; lra|apply IZR_le; lia].
    + split.
      * replace 0%R with (rnd64 0) at 1 by (apply round_0; typeclasses eauto). apply round_le; try typeclasses eauto. lra.
      * rewrite <- (rnd64_int (i + 1)) by lia. apply round_le; try typeclasses eauto. rewrite plus_IZR. lra.
Qed.
Lemma unit_moderate rows dim : (Z.of_nat dim <= 2 ^ 50)%Z -> Forall (fun p => length p = dim /\ unit_pt p) rows -> moderate ML2 rows.
Proof.
  intros D F p q Hp Hq. rewrite Forall_forall in F. destruct (F p Hp) as [Lp Up]. destruct (F q Hq) as [Lq Uq].
  destruct (unit_sum p q (nzero f64_ops) 0 0%R Up Uq fin_zero) as (s & [Fs Es] & Bs); [lra|lia|rewrite Lp; lia|].
  cbn [spec_dist]. unfold sum_of. generalize dependent (fold_left (fun acc xy => nadd f64_ops acc (nmul f64_ops (nsub f64_ops (fst xy) (snd xy)) (nsub f64_ops (fst xy) (snd xy)))) (combine p q) (nzero f64_ops)).
  intros w Fw Ew. destruct (Bsqrt_correct 53 1024 _ _ mode_NE w) as (S1 & S2 & _).
  assert (Fq : is_finite (Bsqrt mode_NE w : f64) = true).
  { rewrite S2. destruct w as [[]|[]| |[] m e H]; try reflexivity; try discriminate Fw. exfalso.
    assert (B2R (B754_finite true m e H : f64) < 0)%R by (apply F2R_lt_0; reflexivity). lra. }
  assert (Bq : (Rabs (B2R (Bsqrt mode_NE w : f64)) <= bpow radix2 50)%R).
  { rewrite S1. apply rnd64_bound; [lia|]. rewrite Rabs_pos_eq by apply sqrt_pos. rewrite Ew. change (bpow radix2 50) with (IZR (2 ^ 50)).
    apply Rle_trans with (sqrt (IZR (2 ^ 50))); [apply sqrt_le_1_alt; lra|].
    apply Rsqr_incr_0_var; [rewrite Rsqr_sqrt by (apply IZR_le; lia); unfold Rsqr; rewrite <- mult_IZR; apply IZR_le; lia|apply IZR_le; lia]. }
  destruct two_R as [T1 T2].
  refine (proj1 (fin_mul (nadd f64_ops (none f64_ops) (none f64_ops)) (nsqrt f64_ops w) 2 (B2R (Bsqrt mode_NE w : f64)) 51 _ (conj T2 T1) (conj Fq eq_refl) _)); [lia|].
  rewrite Rabs_mult, (Rabs_pos_eq 2) by lra. replace (bpow radix2 51) with (2 * bpow radix2 50)%R by (change 51%Z with (1 + 50)%Z; rewrite bpow_plus; reflexivity). lra.
Qed.
