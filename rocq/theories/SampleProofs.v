From Coq Require Import Bool List Arith ZArith Lia Reals Lra.
From Flocq Require Import Core IEEE754.BinarySingleNaN.
From Verif Require Import Num F64 KdDemo F64Facts SampleModel SampleSpec.
Import ListNotations.
Open Scope nat_scope.

Lemma take_length {A} (s : nat -> A) n : length (take s n) = n.
Proof. unfold take. now rewrite map_length, seq_length. Qed.
Lemma take_In {A} (s : nat -> A) n x : In x (take s n) -> exists i, x = s i.
Proof. unfold take. intros H. apply in_map_iff in H. destruct H as (i & <- & _). eauto. Qed.

Lemma rand_int_ok gen n low high : uniform_i32 gen -> (low <> high)%Z ->
  exists out, random_int gen low high n = Ok out /\ length out = n /\
    forall x, In x out -> (Z.min low high <= x < Z.max low high)%Z.
Proof.
  intros G Ne. unfold random_int, pl_rand_int, sample_uniform_i32.
  destruct (Z.eqb_spec low high); [contradiction|]. destruct (Z.ltb_spec high low) as [L|L].
  - destruct (Z.ltb_spec high low) as [L2|L2]; [|lia]. eexists. split; [reflexivity|]. split; [apply take_length|].
    intros x Hx. apply take_In in Hx. destruct Hx as (i & ->). specialize (G high low i L). lia.
  - assert (L2 : (low < high)%Z) by lia. destruct (Z.ltb_spec low high) as [_|L3]; [|lia].
    eexists. split; [reflexivity|]. split; [apply take_length|].
    intros x Hx. apply take_In in Hx. destruct Hx as (i & ->). specialize (G low high i L2). lia.
Qed.
Lemma rand_int_expr_ok gen n low high : uniform_i32 gen ->
  exists out, pl_rand_int gen n low high = Ok out /\ length out = n /\
    forall x, In x out -> if (low =? high)%Z then x = low else (Z.min low high <= x < Z.max low high)%Z.
Proof.
  intros G. destruct (Z.eqb_spec low high) as [->|Ne].
  - unfold pl_rand_int. rewrite Z.eqb_refl. eexists. split; [reflexivity|]. split; [apply repeat_length|].
    intros x Hx. now apply repeat_spec in Hx.
  - destruct (rand_int_ok gen n low high G Ne) as (out & E & R). exists out. split; [|exact R].
    unfold random_int in E. destruct (Z.eqb_spec low high); [contradiction|exact E].
Qed.

(** Rounding to nearest never moves past twice the distance to a representable number. *)
Lemma rnd_near x d : generic_format radix2 fexp64 x -> (Rabs (rnd64 (x + d) - x) <= 2 * Rabs d)%R.
Proof.
  intros Fx. pose proof (round_N_pt radix2 fexp64 (fun t => negb (Z.even t)) (x + d)) as [_ N].
  specialize (N x Fx). replace (x - (x + d))%R with (- d)%R in N by ring. rewrite Rabs_Ropp in N.
  replace (rnd64 (x + d) - x)%R with ((rnd64 (x + d) - (x + d)) + d)%R by ring.
  eapply Rle_trans; [apply Rabs_triang|]. lra.
Qed.
Lemma fin_format (x : f64) : generic_format radix2 fexp64 (B2R x).
Proof. apply generic_format_B2R. Qed.

Lemma add_draws_length draw col : forall i, length (add_draws draw i col) = length col.
Proof. induction col as [|[x|] col IH]; intros i; simpl; auto. Qed.
Lemma add_draws_nth draw col : forall i j, 
  match nth_error col j with
  | None => nth_error (add_draws draw i col) j = None
  | Some None => nth_error (add_draws draw i col) j = Some None
  | Some (Some x) => exists m, nth_error (add_draws draw i col) j = Some (Some (nadd f64_ops x (draw m)))
  end.
Proof.
  induction col as [|o col IH]; intros i [|j]; cbn [nth_error add_draws]; try reflexivity.
  - destruct o as [x|]; cbn [nth_error]; eauto.
  - destruct o as [x|]; cbn [nth_error]; apply IH.
Qed.

Definition big : R := bpow radix2 1022.
Definition tiny : R := bpow radix2 (-1021).

Lemma half_exact e : fin e (B2R e) -> (0 <= B2R e)%R -> (tiny <= B2R e <= big)%R -> fin (ndiv f64_ops e (fi 2)) (B2R e / 2).
Proof.
  intros Fe P [T B].
  assert (F2 : fin (fi 2) 2) by (apply fin_fi; lia).
  assert (G : generic_format radix2 fexp64 (B2R e / 2)).
  { pose proof (fin_format e) as Ge.
    apply (FLT_format_generic radix2 (-1074) 53) in Ge. destruct Ge as [[m x] Ef Hm Hx].
    cbn [Fnum Fexp] in *. unfold F2R in Ef. cbn [Fnum Fexp] in Ef.
    destruct (Z.eq_dec x (-1074)) as [->|Nx].
    - exfalso. unfold tiny in T. rewrite Ef in T.
      assert (M : (IZR m < bpow radix2 53)%R).
      { apply Rle_lt_trans with (IZR (Z.abs m)); [apply IZR_le; lia|]. change (bpow radix2 53) with (IZR (2 ^ 53)). apply IZR_lt. exact Hm. }
      assert (bpow radix2 (-1021) = bpow radix2 53 * bpow radix2 (-1074))%R by (rewrite <- bpow_plus; reflexivity).
      pose proof (bpow_gt_0 radix2 (-1074)). nra.
    - apply (generic_format_FLT radix2 (-1074) 53). exists (Float radix2 m (x - 1)); cbn [Fnum Fexp]; [|exact Hm|lia].
      unfold F2R. cbn [Fnum Fexp]. rewrite Ef. unfold Z.sub. rewrite bpow_plus. simpl (bpow radix2 (-(1))). lra. }
  replace (B2R e / 2)%R with (rnd64 (B2R e / 2)) at 1 by (apply round_generic; [typeclasses eauto|exact G]).
  apply (fin_div e (fi 2) (B2R e) 2 1022%Z); auto; try lia; try lra.
  rewrite Rabs_pos_eq by lra. unfold big in B. lra.
Qed.

Lemma perturb_ok gen col epsilon : uniform_f64 gen ->
  nfinite f64_ops epsilon = true -> (tiny <= Rabs (B2R epsilon) <= big)%R ->
  exists out, perturb gen col epsilon false = Ok out /\ length out = length col /\
    forall j, match nth_error col j with
              | Some (Some x) => exists y, nth_error out j = Some (Some y) /\
                  (nfinite f64_ops x = true -> (Rabs (B2R x) <= big)%R ->
                   nfinite f64_ops y = true /\ (Rabs (B2R y - B2R x) <= Rabs (B2R epsilon))%R)
              | Some None => nth_error out j = Some None
              | None => True
              end.
Proof.
  intros G Fe Be. unfold perturb. rewrite Fe. cbn [negb].
  set (ep := nabs f64_ops epsilon).
  assert (F0 : fin epsilon (B2R epsilon)) by (split; [exact Fe|reflexivity]).
  pose proof (fin_abs _ _ F0) as F1. fold ep in F1.
  assert (E1 : B2R ep = Rabs (B2R epsilon)) by apply F1.
  assert (F1' : fin ep (B2R ep)) by (rewrite E1; exact F1).
  assert (TP : (0 < tiny)%R) by apply bpow_gt_0.
  assert (FH : fin (ndiv f64_ops ep (fi 2)) (B2R ep / 2)) by (apply half_exact; [exact F1'| |]; rewrite E1; [apply Rabs_pos|exact Be]).
  set (half := ndiv f64_ops ep (fi 2)) in *.
  assert (FN : fin (fneg half) (- (B2R ep / 2))).
  { unfold fneg. replace (- (B2R ep / 2))%R with (rnd64 (0 - B2R ep / 2)).
    - apply (fin_sub (nzero f64_ops) half 0 (B2R ep / 2) 1022%Z); [lia|apply fin_zero|exact FH|].
      rewrite Rminus_0_l, Rabs_Ropp, Rabs_pos_eq by (rewrite E1; pose proof (Rabs_pos (B2R epsilon)); lra).
      rewrite E1. fold big. pose proof (Rabs_pos (B2R epsilon)). lra.
    - rewrite Rminus_0_l. apply round_generic; [typeclasses eauto|].
      destruct FH as [_ FH]. rewrite <- FH. apply generic_format_opp, fin_format. }
  assert (LT : nlt f64_ops (fneg half) half = true).
  { rewrite (fin_lt _ _ _ _ FN FH). apply Rlt_bool_true. rewrite E1. lra. }
  unfold pl_perturb, uniform_f64_ok.
  assert (N1 : nfinite f64_ops (fneg half) = true) by apply FN.
  assert (N2 : nfinite f64_ops half = true) by apply FH.
  rewrite N1, N2, LT. cbn [andb].
  eexists. split; [reflexivity|]. split; [apply add_draws_length|].
  intros j. pose proof (add_draws_nth (gen (fneg half) half) col 0 j) as N.
  destruct (nth_error col j) as [[x|]|]; [|exact N|exact I].
  destruct N as (m & N). eexists. split; [exact N|]. intros Fx Bx.
  destruct (G (fneg half) half m N1 N2 LT) as [Fd Bd].
  destruct FN as [_ EN], FH as [_ EH]. rewrite EN, EH in Bd. rewrite E1 in Bd.
  set (d := gen (fneg half) half m) in *.
  assert (Ad : (Rabs (B2R d) <= Rabs (B2R epsilon) / 2)%R) by (apply Rabs_le; lra).
  assert (FA : fin (nadd f64_ops x d) (rnd64 (B2R x + B2R d))).
  { apply (fin_add x d (B2R x) (B2R d) 1023%Z); [lia|split; auto|split; auto|].
    eapply Rle_trans; [apply Rabs_triang|]. unfold big in *.
    replace (bpow radix2 1023) with (2 * bpow radix2 1022)%R; [lra|].
    change 1023%Z with (1022 + 1)%Z. rewrite bpow_plus. simpl (bpow radix2 1). lra. }
  split; [apply FA|]. destruct FA as [_ EA]. rewrite EA.
  eapply Rle_trans; [apply rnd_near, fin_format|]. lra.
Qed.

Lemma random_null_ok {A} gen (col : list (option A)) pct out :
  random_null gen col pct = Ok out ->
  length out = length col /\
  forall j, match nth_error col j with
            | Some None => nth_error out j = Some None
            | Some (Some x) => nth_error out j = Some (if nlt f64_ops (gen (nzero f64_ops) (fi 1) j) pct then None else Some x)
            | None => True
            end.
Proof.
  unfold random_null. destruct (_ || _); [discriminate|]. unfold pl_random.
  destruct (uniform_f64_ok (nzero f64_ops) (fi 1)); [|discriminate]. intros H. injection H as <-. split.
  - rewrite map_length, combine_length, take_length. lia.
  - intros j. unfold take. set (s := gen (nzero f64_ops) (fi 1)).
    enough (K : forall k, match nth_error col j with
      | Some None => nth_error (map (fun p => if nlt f64_ops (fst p) pct then None else snd p) (combine (map s (seq k (length col))) col)) j = Some None
      | Some (Some x) => nth_error (map (fun p => if nlt f64_ops (fst p) pct then None else snd p) (combine (map s (seq k (length col))) col)) j
           = Some (if nlt f64_ops (s (k + j)) pct then None else Some x)
      | None => True end) by apply (K 0).
    revert j. induction col as [|o col IH]; intros [|j] k; cbn [nth_error length seq map combine]; auto.
    + rewrite Nat.add_0_r. destruct o as [x|]; cbn [snd fst]; auto; match goal with |- context [if ?b then _ else _] => destruct b end; auto.
    + replace (k + S j) with (S k + j) by lia. apply IH.
Qed.
Lemma random_null_total {A} gen (col : list (option A)) pct :
  nlt f64_ops (nzero f64_ops) pct = true -> nlt f64_ops pct (fi 1) = true -> exists out, random_null gen col pct = Ok out.
Proof.
  intros H1 H2. unfold random_null. apply (lt_le f64_ops f64_laws) in H1, H2.
  destruct H1 as (_ & _ & ->), H2 as (_ & _ & ->). cbn [orb]. unfold pl_random.
  replace (uniform_f64_ok (nzero f64_ops) (fi 1)) with true by (symmetry; vm_compute; reflexivity). eauto.
Qed.
Lemma random_str_ok gen chars mi ma n : uniform_incl gen -> (forall k i, length (chars k i) = k) ->
  exists out, random_str gen chars mi ma n = Ok out /\ length out = n /\
    forall s, In s out -> Nat.min mi ma <= length s <= Nat.max mi ma.
Proof.
  intros G C. unfold random_str. destruct (Nat.ltb_spec ma mi) as [L|L].
  - destruct (Nat.leb_spec ma mi); [|lia]. eexists. split; [reflexivity|]. rewrite map_length, seq_length. split; [reflexivity|].
    intros s Hs. apply in_map_iff in Hs. destruct Hs as (i & <- & _). rewrite C. specialize (G ma mi i). lia.
  - destruct (Nat.leb_spec mi ma); [|lia]. eexists. split; [reflexivity|]. rewrite map_length, seq_length. split; [reflexivity|].
    intros s Hs. apply in_map_iff in Hs. destruct Hs as (i & <- & _). rewrite C. specialize (G mi ma i). lia.
Qed.
Lemma random_binomial_err gen n p len : exists e, random_binomial gen n p len = Err e.
Proof. unfold random_binomial. destruct (n <? 1)%Z; eexists; reflexivity. Qed.

(** Witnesses. *)
Definition eps_pos : f64 := fz (2 ^ 52 + 2) (-105).  (* 2^-53 + 2^-104 *)
Definition draw_pos : f64 := fz (2 ^ 52 + 1) (-105). (* 2^-53 + 2^-105 *)
Lemma perturb_positive_witness :
  nle f64_ops (nzero f64_ops) draw_pos = true /\ nlt f64_ops draw_pos eps_pos = true /\
  nlt f64_ops (nadd f64_ops (fi 1) eps_pos) (nadd f64_ops (fi 1) draw_pos) = false /\
  nlt f64_ops eps_pos (nsub f64_ops (nadd f64_ops (fi 1) draw_pos) (fi 1)) = true.
Proof. vm_compute. auto. Qed.
