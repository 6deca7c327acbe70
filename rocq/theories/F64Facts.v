(** Facts about binary64 used outside the spatial code: conversion of integers, and operations whose
    exact result is far from overflow. *)
From Coq Require Import ZArith Reals Bool Lra Lia.
From Flocq Require Import Core IEEE754.BinarySingleNaN.
From Verif Require Import Num F64 KdDemo.
Local Open Scope R_scope.

Notation fexp64 := (SpecFloat.fexp 53 1024).
Notation rnd64 := (round radix2 fexp64 ZnearestE).
Global Instance fexp64_valid : Valid_exp fexp64 := fexp_correct 53 1024 f64_prec.

Notation fadd := (nadd f64_ops). Notation fsub := (nsub f64_ops). Notation fmul := (nmul f64_ops).
Notation fdiv := (ndiv f64_ops). Notation fabs := (nabs f64_ops).
Notation fle := (nle f64_ops). Notation flt' := (nlt f64_ops). Notation fnan := (nnan f64_ops).

Definition fin (x : f64) (r : R) : Prop := is_finite x = true /\ B2R x = r.

Lemma bpow_format k : (-1074 <= k)%Z -> generic_format radix2 fexp64 (bpow radix2 k).
Proof.
  intros H. apply generic_format_bpow. unfold SpecFloat.fexp, SpecFloat.emin. lia.
Qed.
Lemma rnd64_bound x k : (-1074 <= k)%Z -> Rabs x <= bpow radix2 k -> Rabs (rnd64 x) <= bpow radix2 k.
Proof. intros Hk H. apply abs_round_le_generic; try typeclasses eauto. now apply bpow_format. assumption. Qed.
Lemma no_overflow x k : (-1074 <= k < 1024)%Z -> Rabs x <= bpow radix2 k ->
  Rlt_bool (Rabs (rnd64 x)) (bpow radix2 1024) = true.
Proof.
  intros Hk H. apply Rlt_bool_true. eapply Rle_lt_trans; [apply (rnd64_bound x k); [lia|exact H]|]. apply bpow_lt. lia.
Qed.

Lemma fin_nan x r : fin x r -> fnan x = false.
Proof. intros [H _]. destruct x; simpl in *; congruence. Qed.

Lemma fin_add x y a b k : (-1074 <= k < 1024)%Z -> fin x a -> fin y b -> Rabs (a + b) <= bpow radix2 k ->
  fin (fadd x y) (rnd64 (a + b)).
Proof.
  intros Hk [Fx Ex] [Fy Ey] H. pose proof (Bplus_correct 53 1024 f64_prec f64_emax mode_NE x y Fx Fy) as C.
  rewrite Ex, Ey in C. cbn [round_mode] in C. rewrite (no_overflow _ k Hk H) in C. destruct C as (C1 & C2 & _). split; assumption.
Qed.
Lemma fin_sub x y a b k : (-1074 <= k < 1024)%Z -> fin x a -> fin y b -> Rabs (a - b) <= bpow radix2 k ->
  fin (fsub x y) (rnd64 (a - b)).
Proof.
  intros Hk [Fx Ex] [Fy Ey] H. pose proof (Bminus_correct 53 1024 f64_prec f64_emax mode_NE x y Fx Fy) as C.
  rewrite Ex, Ey in C. cbn [round_mode] in C. rewrite (no_overflow _ k Hk H) in C. destruct C as (C1 & C2 & _). split; assumption.
Qed.
Lemma fin_mul x y a b k : (-1074 <= k < 1024)%Z -> fin x a -> fin y b -> Rabs (a * b) <= bpow radix2 k ->
  fin (fmul x y) (rnd64 (a * b)).
Proof.
  intros Hk [Fx Ex] [Fy Ey] H. pose proof (Bmult_correct 53 1024 f64_prec f64_emax mode_NE x y) as C.
  rewrite Ex, Ey in C. cbn [round_mode] in C. rewrite (no_overflow _ k Hk H) in C. destruct C as (C1 & C2 & _).
  rewrite Fx, Fy in C2. split; assumption.
Qed.
Lemma fin_div x y a b k : (-1074 <= k < 1024)%Z -> fin x a -> fin y b -> b <> 0 -> Rabs (a / b) <= bpow radix2 k ->
  fin (fdiv x y) (rnd64 (a / b)).
Proof.
  intros Hk [Fx Ex] [Fy Ey] Nb H.
  pose proof (Bdiv_correct 53 1024 f64_prec f64_emax mode_NE x y) as C.
  rewrite Ex, Ey in C. specialize (C Nb). cbn [round_mode] in C. rewrite (no_overflow _ k Hk H) in C.
  destruct C as (C1 & C2 & _). rewrite Fx in C2. split; assumption.
Qed.
Lemma fin_abs x a : fin x a -> fin (fabs x) (Rabs a).
Proof.
  intros [Fx Ex]. split; [cbn; now rewrite is_finite_Babs|]. cbn. now rewrite B2R_Babs, Ex.
Qed.
Lemma fin_le x y a b : fin x a -> fin y b -> fle x y = Rle_bool a b.
Proof. intros [Fx Ex] [Fy Ey]. rewrite <- Ex, <- Ey. now apply Bleb_correct. Qed.
Lemma fin_lt x y a b : fin x a -> fin y b -> flt' x y = Rlt_bool a b.
Proof. intros [Fx Ex] [Fy Ey]. rewrite <- Ex, <- Ey. now apply Bltb_correct. Qed.
Lemma fin_zero : fin (nzero f64_ops) 0.
Proof. split; reflexivity. Qed.

Lemma int_format z : (Z.abs z <= 2 ^ 53)%Z -> generic_format radix2 fexp64 (IZR z).
Proof.
  intros H. destruct (Z.eq_dec (Z.abs z) (2 ^ 53)) as [E|E].
  - assert (Ez : z = (2 ^ 53)%Z \/ z = (- 2 ^ 53)%Z) by lia. destruct Ez as [-> | ->].
    + change (IZR (2 ^ 53)) with (bpow radix2 53). apply bpow_format. lia.
    + rewrite opp_IZR. apply generic_format_opp. change (IZR (2 ^ 53)) with (bpow radix2 53). apply bpow_format. lia.
  - assert (H' : (Z.abs z < 2 ^ 53)%Z) by lia.
    replace (IZR z) with (F2R (Float radix2 z 0)) by (unfold F2R; simpl; ring).
    apply (generic_format_FLT radix2 (-1074) 53).
    exists (Float radix2 z 0); [reflexivity|simpl; exact H'|simpl; lia].
Qed.
Lemma rnd64_int z : (Z.abs z <= 2 ^ 53)%Z -> rnd64 (IZR z) = IZR z.
Proof. intros H. apply round_generic; [typeclasses eauto|now apply int_format]. Qed.
Lemma fin_fi z : (Z.abs z <= 2 ^ 53)%Z -> fin (fi z) (IZR z).
Proof.
  intros H. unfold fi, fz.
  pose proof (binary_normalize_correct 53 1024 f64_prec f64_emax mode_NE z 0 false) as C.
  cbn [round_mode] in C. replace (F2R (Float radix2 z 0)) with (IZR z) in C by (unfold F2R; simpl; ring).
  rewrite (rnd64_int z H) in C.
  rewrite Rlt_bool_true in C.
  - destruct C as (C1 & C2 & _). split; assumption.
  - apply Rle_lt_trans with (bpow radix2 53); [|apply bpow_lt; lia].
    rewrite <- abs_IZR. apply IZR_le in H. exact H.
Qed.

(** A quotient of two counts. *)
Lemma fin_ratio a b : (0 <= a <= b)%Z -> (0 < b <= 2 ^ 53)%Z ->
  fin (fdiv (fi a) (fi b)) (rnd64 (IZR a / IZR b)) /\ 0 <= rnd64 (IZR a / IZR b) <= 1.
Proof.
  intros Ha Hb. assert (Pb : 0 < IZR b) by (apply IZR_lt; lia).
  assert (B : 0 <= IZR a / IZR b <= 1).
  { split.
    - apply Rmult_le_pos; [apply IZR_le; lia|]. left. now apply Rinv_0_lt_compat.
    - apply (Rmult_le_reg_r (IZR b)); [exact Pb|]. unfold Rdiv. rewrite Rmult_assoc, Rinv_l by lra.
      rewrite Rmult_1_r, Rmult_1_l. apply IZR_le. lia. }
  split.
  - apply (fin_div (fi a) (fi b) (IZR a) (IZR b) 0%Z).
    + lia.
    + apply fin_fi. lia.
    + apply fin_fi. lia.
    + lra.
    + simpl. rewrite Rabs_pos_eq; lra.
  - split.
    + replace 0 with (rnd64 0) by (apply round_0; typeclasses eauto). apply round_le; try typeclasses eauto. lra.
    + replace 1 with (rnd64 (IZR 1)) by (apply rnd64_int; simpl; lia). apply round_le; try typeclasses eauto. lra.
Qed.
