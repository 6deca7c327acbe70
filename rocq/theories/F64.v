(** IEEE-754 binary floating point (Flocq) as an instance of [NumOps], and the proof of [NumLaws].
    [f64_ops] is Rust's [f64]: binary64 with round-to-nearest-even, signed zeros, infinities and one
    (quiet) NaN class. *)
From Coq Require Import ZArith Reals Bool Lra Lia.
From Flocq Require Import Core IEEE754.BinarySingleNaN.
From Verif Require Import Num.
Local Open Scope R_scope.

Section BF.
Context (prec emax : Z) {Hp : Prec_gt_0 prec} {Hm : Prec_lt_emax prec emax}.
Notation flt := (binary_float prec emax).
Notation top := (bpow radix2 emax).
Notation rnd := (round radix2 (SpecFloat.fexp prec emax) ZnearestE).

Definition b_ops : NumOps := {|
  carrier := flt;
  nzero := B754_zero false;
  none := Bone;
  nadd := Bplus mode_NE;
  nsub := Bminus mode_NE;
  nmul := Bmult mode_NE;
  ndiv := Bdiv mode_NE;
  nsqrt := Bsqrt mode_NE;
  nabs := Babs;
  nlt := Bltb;
  nle := Bleb;
  nnan := is_nan;
  nfinite := is_finite;
  nmaxv := Bmax_float;
  nminv := Bopp Bmax_float;
  neps := Bldexp mode_NE Bone (1 - prec);
  ninf := B754_infinity false;
  nnanv := B754_nan;
|}.

(** Order embedding of the non-NaN floats into the reals: the infinities go to +-2^emax. *)
Definition xr (x : flt) : R :=
  match x with
  | B754_infinity false => top
  | B754_infinity true => - top
  | _ => B2R x
  end.

Local Instance fexp_ok : Valid_exp (SpecFloat.fexp prec emax) := fexp_correct prec emax Hp.

Lemma top_pos : 0 < top. Proof. apply bpow_gt_0. Qed.

Lemma xr_bound x : - top <= xr x <= top.
Proof.
  pose proof top_pos. pose proof (abs_B2R_lt_emax prec emax x) as H1.
  apply Rabs_lt_inv in H1.
  destruct x as [s|[|]| |s m e He]; simpl in *; lra.
Qed.

Lemma xr_fin x : is_finite x = true -> xr x = B2R x.
Proof. destruct x as [s|[|]| |s m e He]; simpl; congruence. Qed.

Lemma xr_fin_lt x : is_finite x = true -> - top < xr x < top.
Proof.
  intros Hx. rewrite xr_fin by exact Hx.
  pose proof (abs_B2R_lt_emax prec emax x) as H1. apply Rabs_lt_inv in H1. lra.
Qed.

Lemma leb_xr (x y : flt) : is_nan x = false -> is_nan y = false -> Bleb x y = Rle_bool (xr x) (xr y).
Proof.
  intros Hx Hy. pose proof top_pos.
  destruct (is_finite x) eqn:Fx, (is_finite y) eqn:Fy.
  - rewrite Bleb_correct, !xr_fin by assumption. reflexivity.
  - pose proof (xr_fin_lt x Fx).
    destruct y as [s|[|]| |s m e He]; try discriminate; cbn [xr];
      destruct x as [s'|[|]| |[|] m' e' He']; try discriminate; unfold Bleb, SpecFloat.SFleb; cbn [B2SF SpecFloat.SFcompare];
      (rewrite Rle_bool_true by lra; reflexivity) || (rewrite Rle_bool_false by lra; reflexivity).
  - pose proof (xr_fin_lt y Fy).
    destruct x as [s|[|]| |s m e He]; try discriminate; cbn [xr];
      destruct y as [s'|[|]| |[|] m' e' He']; try discriminate; unfold Bleb, SpecFloat.SFleb; cbn [B2SF SpecFloat.SFcompare];
      (rewrite Rle_bool_true by lra; reflexivity) || (rewrite Rle_bool_false by lra; reflexivity).
  - destruct x as [s|[|]| |s m e He]; try discriminate;
    destruct y as [s'|[|]| |s' m' e' He']; try discriminate; unfold Bleb, SpecFloat.SFleb; cbn [B2SF SpecFloat.SFcompare xr];
      (rewrite Rle_bool_true by lra; reflexivity) || (rewrite Rle_bool_false by lra; reflexivity).
Qed.

Lemma leb_nan_l (x y : flt) : Bleb x y = true -> is_nan x = false.
Proof. destruct x; try reflexivity. destruct y as [|[|]| |[|]]; discriminate. Qed.
Lemma leb_nan_r (x y : flt) : Bleb x y = true -> is_nan y = false.
Proof. destruct y; try reflexivity. destruct x as [|[|]| |[|]]; discriminate. Qed.

Lemma leb_iff (x y : flt) : Bleb x y = true <-> is_nan x = false /\ is_nan y = false /\ xr x <= xr y.
Proof.
  split.
  - intros H. pose proof (leb_nan_l _ _ H) as Hx. pose proof (leb_nan_r _ _ H) as Hy.
    repeat split; try assumption. rewrite leb_xr in H by assumption.
    destruct (Rle_bool_spec (xr x) (xr y)); [assumption|discriminate].
  - intros (Hx & Hy & H). rewrite leb_xr by assumption. apply Rle_bool_true, H.
Qed.

Lemma ltb_negb (x y : flt) : is_nan x = false -> is_nan y = false -> Bltb x y = negb (Bleb y x).
Proof.
  intros Hx Hy. unfold Bltb, Bleb, SpecFloat.SFltb, SpecFloat.SFleb.
  fold (Bcompare x y). fold (Bcompare y x).
  rewrite (Bcompare_swap prec emax x y).
  destruct (Bcompare x y) as [[| |]|] eqn:E; try reflexivity.
  exfalso. unfold Bcompare in E.
  destruct x as [s|[|]| |[|] m e He]; try discriminate;
  destruct y as [s'|[|]| |[|] m' e' He']; try discriminate.
Qed.

Lemma ltb_iff (x y : flt) : Bltb x y = true <-> is_nan x = false /\ is_nan y = false /\ Bleb y x = false.
Proof.
  split.
  - intros H.
    assert (Hx : is_nan x = false).
    { destruct x; try reflexivity. destruct y as [|[|]| |[|]]; discriminate. }
    assert (Hy : is_nan y = false).
    { destruct y; try reflexivity. destruct x as [|[|]| |[|]]; discriminate. }
    repeat split; try assumption. rewrite ltb_negb in H by assumption.
    now apply negb_true_iff in H.
  - intros (Hx & Hy & H). rewrite ltb_negb, H by assumption. reflexivity.
Qed.

(** Clamped rounding. *)
Definition crnd (r : R) : R := Rmin (rnd r) top.
Lemma rnd_le a b : a <= b -> rnd a <= rnd b.
Proof. apply round_le; typeclasses eauto. Qed.
Lemma crnd_le a b : a <= b -> crnd a <= crnd b.
Proof. intros H. unfold crnd. apply Rle_min_compat_r, rnd_le, H. Qed.
Lemma rnd_0 : rnd 0 = 0. Proof. apply round_0; typeclasses eauto. Qed.
Lemma crnd_nonneg a : 0 <= a -> 0 <= crnd a.
Proof.
  intros H. unfold crnd. apply Rmin_glb; [rewrite <- rnd_0; apply rnd_le, H|].
  left; apply top_pos.
Qed.
Lemma rnd_top : rnd top = top.
Proof.
  apply round_generic; [typeclasses eauto|].
  apply generic_format_bpow. unfold SpecFloat.fexp, SpecFloat.emin.
  pose proof (prec_gt_0 prec). pose proof (prec_lt_emax prec emax). lia.
Qed.
Lemma crnd_top a : top <= a -> crnd a = top.
Proof.
  intros H. unfold crnd. apply Rmin_right. rewrite <- rnd_top at 1. apply rnd_le, H.
Qed.

Lemma sign_of_nonneg (x : flt) : is_nan x = false -> 0 <= xr x ->
  Bsign x = false \/ x = B754_zero true.
Proof.
  intros Hn H. pose proof top_pos.
  destruct x as [[|]|[|]| |[|] m e He]; simpl in *; try (left; reflexivity); try (right; reflexivity);
    try discriminate; try lra.
  exfalso. unfold F2R in H. simpl in H.
  assert (0 < IZR (Z.pos m) * bpow radix2 e) by (apply Rmult_lt_0_compat; [apply IZR_lt; lia|apply bpow_gt_0]).
  change (IZR (Z.neg m)) with (- IZR (Z.pos m)) in H. lra.
Qed.

Lemma overflow_inf s : binary_overflow prec emax mode_NE s = SpecFloat.S754_infinity s.
Proof. reflexivity. Qed.

Lemma B2SF_inf (x : flt) s : B2SF x = SpecFloat.S754_infinity s -> x = B754_infinity s.
Proof. destruct x; simpl; congruence. Qed.

Lemma nan_of_fin (x : flt) : is_finite x = true -> is_nan x = false.
Proof. destruct x; simpl; congruence. Qed.

(** Addition of non-negative numbers. *)
Lemma plus_spec (x y : flt) : is_nan x = false -> is_nan y = false -> 0 <= xr x -> 0 <= xr y ->
  is_nan (Bplus mode_NE x y) = false /\ xr (Bplus mode_NE x y) = crnd (xr x + xr y).
Proof.
  intros Nx Ny Px Py. pose proof top_pos as Ht.
  destruct (is_finite x) eqn:Fx, (is_finite y) eqn:Fy.
  - pose proof (Bplus_correct prec emax Hp Hm mode_NE x y Fx Fy) as H.
    rewrite (xr_fin x Fx) in *. rewrite (xr_fin y Fy) in *. change (round_mode mode_NE) with ZnearestE in H.
    assert (P0 : 0 <= rnd (B2R x + B2R y)).
    { rewrite <- rnd_0. apply rnd_le. lra. }
    destruct (Rlt_bool_spec (Rabs (rnd (B2R x + B2R y))) top) as [L|L].
    + destruct H as (H1 & H2 & _). split; [apply nan_of_fin, H2|].
      rewrite xr_fin, H1 by assumption. unfold crnd. rewrite Rmin_left; [reflexivity|].
      rewrite Rabs_pos_eq in L by assumption. lra.
    + destruct H as (H1 & H2). rewrite overflow_inf in H1. apply B2SF_inf in H1. rewrite H1.
      assert (S : Bsign x = false).
      { destruct (sign_of_nonneg x Nx ltac:(rewrite xr_fin by assumption; exact Px)) as [Sx|Sx]; [exact Sx|].
        exfalso. subst x. simpl in *.
        destruct (sign_of_nonneg y Ny ltac:(rewrite xr_fin by assumption; exact Py)) as [Sy|Sy]; [congruence|].
        subst y. simpl in L. rewrite Rplus_0_l, rnd_0, Rabs_R0 in L. lra. }
      rewrite S. simpl. split; [reflexivity|]. unfold crnd. rewrite Rmin_right; [reflexivity|].
      rewrite Rabs_pos_eq in L by assumption. exact L.
  - destruct y as [s|[|]| |s m e He]; try discriminate; simpl in Py; try lra.
    destruct x as [s'|[|]| |s' m' e' He']; try discriminate; simpl;
      (split; [reflexivity|]); symmetry; apply crnd_top; simpl in Px |- *; lra.
  - destruct x as [s|[|]| |s m e He]; try discriminate; simpl in Px; try lra.
    destruct y as [s'|[|]| |s' m' e' He']; try discriminate; simpl;
      (split; [reflexivity|]); symmetry; apply crnd_top; simpl in Py |- *; lra.
  - destruct x as [s|[|]| |s m e He]; try discriminate; simpl in Px; try lra.
    destruct y as [s'|[|]| |s' m' e' He']; try discriminate; simpl in Py; try lra.
    simpl. split; [reflexivity|]. symmetry. apply crnd_top. lra.
Qed.

Lemma xr_abs (x : flt) : xr (Babs x) = Rabs (xr x).
Proof.
  pose proof top_pos.
  destruct (is_finite x) eqn:F.
  - rewrite !xr_fin; [apply B2R_Babs| |]; try assumption. now rewrite is_finite_Babs.
  - destruct x as [s|[|]| |s m e He]; try discriminate; simpl.
    + rewrite Rabs_Ropp, Rabs_pos_eq; lra.
    + rewrite Rabs_pos_eq; lra.
    + now rewrite Rabs_R0.
Qed.

Lemma rnd_opp a : rnd (- a) = - rnd a.
Proof. apply round_NE_opp. Qed.
Lemma rnd_abs a : Rabs (rnd a) = rnd (Rabs a).
Proof. symmetry. apply round_NE_abs. typeclasses eauto. Qed.

(** |x - y| for finite y. *)
Lemma minus_spec_fin (x y : flt) : is_finite x = true -> is_finite y = true ->
  is_nan (Bminus mode_NE x y) = false /\
  Rabs (xr (Bminus mode_NE x y)) = crnd (Rabs (xr x - xr y)).
Proof.
  intros Fx Fy. pose proof top_pos.
  pose proof (Bminus_correct prec emax Hp Hm mode_NE x y Fx Fy) as H0.
  rewrite (xr_fin x Fx), (xr_fin y Fy). change (round_mode mode_NE) with ZnearestE in H0.
  destruct (Rlt_bool_spec (Rabs (rnd (B2R x - B2R y))) top) as [L|L].
  - destruct H0 as (H1 & H2 & _). split; [apply nan_of_fin, H2|].
    rewrite xr_fin, H1 by assumption. rewrite rnd_abs in *. unfold crnd. rewrite Rmin_left; [reflexivity|lra].
  - destruct H0 as (H1 & H2). rewrite overflow_inf in H1. apply B2SF_inf in H1. rewrite H1.
    split; [reflexivity|]. rewrite rnd_abs in L. unfold crnd. rewrite Rmin_right by exact L.
    destruct (Bsign x); simpl; [rewrite Rabs_Ropp|]; apply Rabs_pos_eq; lra.
Qed.
Lemma minus_spec_inf (x y : flt) : is_finite x = false -> is_nan x = false -> is_finite y = true ->
  is_nan (Bminus mode_NE x y) = false /\ Rabs (xr (Bminus mode_NE x y)) = top.
Proof.
  intros Fx Nx Fy. pose proof top_pos.
  destruct x as [s|s| |s m e He]; try discriminate.
  destruct y as [s'|s'| |s' m' e' He']; try discriminate; simpl;
    (split; [reflexivity|]); destruct s; simpl; rewrite ?Rabs_Ropp; apply Rabs_pos_eq; lra.
Qed.
Lemma minus_inf_r (x y : flt) : is_finite x = true -> is_finite y = false -> is_nan y = false ->
  is_nan (Bminus mode_NE x y) = false /\ Rabs (xr (Bminus mode_NE x y)) = top.
Proof.
  intros Fx Fy Ny. pose proof top_pos.
  destruct y as [s|s| |s m e He]; try discriminate.
  destruct x as [s'|s'| |s' m' e' He']; try discriminate; simpl;
    (split; [reflexivity|]); destruct s; simpl; rewrite ?Rabs_Ropp; apply Rabs_pos_eq; lra.
Qed.

Lemma minus_nonan (p q : flt) : is_nan p = false -> is_finite q = true ->
  is_nan (Bminus mode_NE p q) = false.
Proof.
  intros. destruct (is_finite p) eqn:F.
  - now apply minus_spec_fin.
  - now apply minus_spec_inf.
Qed.

Lemma absdiff_le_top (x : flt) : Rabs (xr x) <= top.
Proof. apply Rabs_le. pose proof (xr_bound x). lra. Qed.

(** An edge between p and q is at most as far from q as p is. *)
Lemma absdiff_edge (p q h : flt) : is_nan p = false -> is_finite q = true -> is_nan h = false ->
  (xr p <= xr h <= xr q \/ xr q <= xr h <= xr p) ->
  is_nan (Bminus mode_NE q h) = false /\
  Rabs (xr (Bminus mode_NE q h)) <= Rabs (xr (Bminus mode_NE p q)).
Proof.
  intros Np Fq Nh B.
  destruct (is_finite p) eqn:Fp.
  - assert (Fh : is_finite h = true).
    { pose proof (xr_fin_lt p Fp). pose proof (xr_fin_lt q Fq). pose proof top_pos.
      destruct h as [s|[|]| |s m e He]; try discriminate; simpl in *; try reflexivity; lra. }
    destruct (minus_spec_fin q h Fq Fh) as [N1 E1]. destruct (minus_spec_fin p q Fp Fq) as [N2 E2].
    split; [exact N1|]. rewrite E1, E2. apply crnd_le.
    unfold Rabs. destruct (Rcase_abs (xr q - xr h)), (Rcase_abs (xr p - xr q)); lra.
  - destruct (minus_spec_inf p q Fp Np Fq) as [N2 E2]. rewrite E2.
    split; [|apply absdiff_le_top].
    destruct (is_finite h) eqn:Fh.
    + now apply minus_spec_fin.
    + now apply minus_inf_r.
Qed.

(** Squares. *)
Lemma sq_spec (x : flt) : is_nan x = false ->
  is_nan (Bmult mode_NE x x) = false /\ xr (Bmult mode_NE x x) = crnd (Rabs (xr x) * Rabs (xr x)).
Proof.
  intros Nx. pose proof top_pos as Ht.
  destruct (is_finite x) eqn:Fx.
  - pose proof (Bmult_correct prec emax Hp Hm mode_NE x x) as H.
    rewrite (xr_fin x Fx). change (round_mode mode_NE) with ZnearestE in H.
    rewrite <- Rabs_mult. rewrite (Rabs_pos_eq (B2R x * B2R x)) by nra.
    assert (P0 : 0 <= rnd (B2R x * B2R x)).
    { rewrite <- rnd_0. apply rnd_le. nra. }
    destruct (Rlt_bool_spec (Rabs (rnd (B2R x * B2R x))) top) as [L|L].
    + destruct H as (H1 & H2 & _). rewrite Fx in H2. simpl in H2. split; [apply nan_of_fin, H2|].
      rewrite xr_fin, H1 by assumption. unfold crnd. rewrite Rmin_left; [reflexivity|].
      rewrite Rabs_pos_eq in L by assumption. lra.
    + rewrite overflow_inf in H. apply B2SF_inf in H. rewrite H, xorb_nilpotent.
      simpl. split; [reflexivity|]. unfold crnd. rewrite Rmin_right; [reflexivity|].
      rewrite Rabs_pos_eq in L by assumption. exact L.
  - assert (T1 : 1 <= top).
    { change 1 with (bpow radix2 0). apply bpow_le.
      pose proof (prec_gt_0 prec). pose proof (prec_lt_emax prec emax). lia. }
    destruct x as [s|[|]| |s m e He]; try discriminate; simpl; (split; [reflexivity|]);
      symmetry; apply crnd_top; rewrite ?Rabs_Ropp, (Rabs_pos_eq top) by lra; nra.
Qed.

Lemma sq_mono (x y : flt) : is_nan x = false -> is_nan y = false -> Rabs (xr x) <= Rabs (xr y) ->
  Bleb (Bmult mode_NE x x) (Bmult mode_NE y y) = true.
Proof.
  intros Nx Ny L. destruct (sq_spec x Nx) as [N1 E1]. destruct (sq_spec y Ny) as [N2 E2].
  apply leb_iff. repeat split; try assumption. rewrite E1, E2. apply crnd_le.
  pose proof (Rabs_pos (xr x)). nra.
Qed.

Lemma nan_abs (x : flt) : is_nan (Babs x) = is_nan x.
Proof. destruct x; reflexivity. Qed.

Lemma abs_le (x y : flt) : is_nan x = false -> is_nan y = false -> Rabs (xr x) <= Rabs (xr y) ->
  Bleb (Babs x) (Babs y) = true.
Proof.
  intros Nx Ny L. apply leb_iff. rewrite !nan_abs, !xr_abs. tauto.
Qed.

Lemma sqrt_spec (x : flt) : is_nan x = false -> 0 <= xr x ->
  is_nan (Bsqrt mode_NE x) = false /\
  (is_finite x = true -> xr (Bsqrt mode_NE x) = rnd (sqrt (xr x))) /\
  (is_finite x = false -> xr (Bsqrt mode_NE x) = top).
Proof.
  intros Nx Px.
  destruct (is_finite x) eqn:Fx.
  - pose proof (Bsqrt_correct prec emax Hp Hm mode_NE x) as (H1 & H2 & _).
    assert (F : is_finite (Bsqrt mode_NE x) = true).
    { rewrite H2. destruct (sign_of_nonneg x Nx Px) as [S|S].
      - destruct x as [s|s| |[|] m e He]; simpl in *; congruence.
      - subst x. reflexivity. }
    split; [apply nan_of_fin, F|]. split; [|discriminate]. intros _.
    rewrite !xr_fin, H1 by assumption. reflexivity.
  - destruct x as [s|[|]| |s m e He]; try discriminate.
    + simpl in Px. pose proof top_pos. lra.
    + simpl. repeat split; try discriminate; reflexivity.
Qed.

Lemma xr_max : xr Bmax_float = top - bpow radix2 (emax - prec).
Proof.
  unfold Bmax_float. set (H := Bmax_float_proof _ _ _ _). clearbody H.
  assert (E : B2R (SF2B _ H) = top - bpow radix2 (emax - prec)).
  { rewrite B2R_SF2B. simpl. unfold F2R. simpl.
    rewrite Pos2Z.inj_sub.
    2:{ pose proof (prec_gt_0 prec). 
        change (1 < Z.pos (shift_pos (Z.to_pos prec) 1))%Z. rewrite shift_pos_correct, Z.mul_1_r, Z.pow_pos_fold, Z2Pos.id by lia.
        apply (Z.pow_gt_1 2 prec); lia. }
    rewrite shift_pos_correct.
    rewrite minus_IZR, Rmult_minus_distr_r, Rmult_1_l.
    f_equal.
    replace emax with (prec + (emax - prec))%Z at 2 by lia. rewrite bpow_plus. f_equal.
    pose proof (prec_gt_0 prec) as P.
    rewrite Z.mul_1_r. rewrite <- IZR_Zpower by lia.
    f_equal. rewrite Z.pow_pos_fold, Z2Pos.id by lia. reflexivity. }
  rewrite xr_fin; [exact E|]. rewrite is_finite_SF2B. reflexivity.
Qed.

Lemma max_is_finite : is_finite (Bmax_float : flt) = true.
Proof. unfold Bmax_float. now rewrite is_finite_SF2B. Qed.

Theorem b_laws : NumLaws b_ops.
Proof.
  pose proof top_pos as Ht.
  split; cbn [carrier nzero none nadd nsub nmul ndiv nsqrt nabs nlt nle nnan nfinite nmaxv nminv b_ops].
  - intros x y H. now apply leb_iff in H.
  - intros x y H. now apply leb_iff in H.
  - intros x H. apply leb_iff. repeat split; try assumption. apply Rle_refl.
  - intros x y z H1 H2. apply leb_iff in H1, H2. apply leb_iff. intuition lra.
  - intros x y Hx Hy. rewrite !leb_iff. destruct (Rle_or_lt (xr x) (xr y)); [left|right]; intuition lra.
  - intros x y. apply ltb_iff.
  - intros x H. apply nan_of_fin, H.
  - reflexivity.
  - apply max_is_finite.
  - rewrite is_finite_Bopp. apply max_is_finite.
  - intros x H. apply leb_iff.
    assert (F : is_finite (Bopp (Bmax_float : flt)) = true) by (rewrite is_finite_Bopp; apply max_is_finite).
    split; [apply nan_of_fin, F|]. split; [apply nan_of_fin, H|].
    rewrite !xr_fin by assumption. rewrite B2R_Bopp. rewrite <- (xr_fin Bmax_float max_is_finite), xr_max.
    pose proof (abs_B2R_le_emax_minus_prec prec emax Hp x) as A.
    apply Rabs_le_inv in A. lra.
  - intros x y H. destruct x, y; simpl in *; try tauto; try discriminate; split; reflexivity.
  - intros a a' b b' H1 H2 H3 H4. apply leb_iff in H1, H2, H3, H4. cbn [xr B2R] in *.
    destruct (plus_spec a b) as [N1 E1]; try tauto.
    destruct (plus_spec a' b') as [N2 E2]; try tauto; try lra.
    apply leb_iff. rewrite E1, E2. repeat split; try assumption. apply crnd_le. lra.
  - intros a H. apply leb_iff in H. destruct H as (_ & Na & H). cbn [xr B2R] in H.
    assert (E : xr (Bplus mode_NE a (B754_zero false)) = xr a).
    { destruct (plus_spec a (B754_zero false)) as [_ E]; try tauto; try (simpl; lra).
      rewrite E. cbn [xr B2R]. rewrite Rplus_0_r. pose proof (xr_bound a). unfold crnd.
      destruct (is_finite a) eqn:F.
      - rewrite xr_fin by exact F. rewrite round_generic; [|typeclasses eauto|apply generic_format_B2R].
        apply Rmin_left. rewrite <- xr_fin by exact F. lra.
      - destruct a as [s|[|]| |s m e He]; try discriminate; simpl in *; [lra|].
        rewrite rnd_top. apply Rmin_left. lra. }
    destruct (plus_spec a (B754_zero false)) as [N1 _]; try tauto; try (simpl; lra).
    rewrite !leb_iff, E. repeat split; try assumption; lra.
  - intros x H. destruct x; simpl in *; congruence.
  - intros x y H1 H2. apply leb_iff in H1, H2. cbn [xr B2R] in H1.
    destruct (sqrt_spec x) as (N1 & A1 & B1); try tauto.
    destruct (sqrt_spec y) as (N2 & A2 & B2); try tauto; try lra.
    assert (0 <= xr (Bsqrt mode_NE x)).
    { destruct (is_finite x) eqn:F; [rewrite A1 by reflexivity|rewrite B1 by reflexivity; lra].
      rewrite <- rnd_0. apply rnd_le, sqrt_pos. }
    split; apply leb_iff; repeat split; try assumption.
    destruct (is_finite y) eqn:Fy.
    + assert (Fx : is_finite x = true).
      { pose proof (xr_fin_lt y Fy). destruct x as [s|[|]| |s m e He]; simpl in *; try reflexivity; try tauto; lra. }
      rewrite A1, A2 by auto. apply rnd_le, sqrt_le_1_alt. tauto.
    + rewrite B2 by reflexivity. pose proof (xr_bound (Bsqrt mode_NE x)). lra.
  - intros p q H. rewrite nan_abs in H. destruct p, q; simpl in *; try tauto; try discriminate; split; reflexivity.
  - intros p q H. assert (is_nan (Bminus mode_NE p q) = false) by (destruct (Bminus mode_NE p q); simpl in *; congruence).
    destruct p, q; simpl in *; try tauto; try discriminate; split; reflexivity.
  - intros p q Np Fq. apply leb_iff. rewrite nan_abs, xr_abs. cbn [xr B2R].
    repeat split; [now apply minus_nonan|apply Rabs_pos].
  - intros p q Np Fq. apply leb_iff.
    destruct (sq_spec (Bminus mode_NE p q)) as [N1 E1]; [now apply minus_nonan|].
    repeat split; [assumption|]. rewrite E1. cbn [xr B2R]. apply crnd_nonneg.
    pose proof (Rabs_pos (xr (Bminus mode_NE p q))). nra.
  - intros p q h Fq H1 H2. apply leb_iff in H1, H2.
    destruct (absdiff_edge p q h) as [N1 L]; try tauto.
    apply abs_le; try assumption. apply minus_nonan; tauto.
  - intros p q l Fq H1 H2. apply leb_iff in H1, H2.
    destruct (absdiff_edge p q l) as [N1 L]; try tauto.
    apply abs_le; try assumption. apply minus_nonan; tauto.
  - intros p q h Fq H1 H2. apply leb_iff in H1, H2.
    destruct (absdiff_edge p q h) as [N1 L]; try tauto.
    apply sq_mono; try assumption. apply minus_nonan; tauto.
  - intros p q l Fq H1 H2. apply leb_iff in H1, H2.
    destruct (absdiff_edge p q l) as [N1 L]; try tauto.
    apply sq_mono; try assumption. apply minus_nonan; tauto.
  - intros x H. rewrite nan_abs in H. apply leb_iff. rewrite nan_abs, xr_abs. cbn [xr B2R].
    repeat split; [assumption|apply Rabs_pos].
  - intros x H. assert (Nx : is_nan x = false) by (destruct x; simpl in *; congruence).
    destruct (sq_spec x Nx) as [N1 E1]. apply leb_iff. rewrite E1. cbn [xr B2R].
    repeat split; [assumption|]. apply crnd_nonneg. pose proof (Rabs_pos (xr x)). nra.
Qed.
End BF.

#[global] Instance f64_prec : Prec_gt_0 53 := eq_refl.
#[global] Instance f64_emax : Prec_lt_emax 53 1024 := eq_refl.

Definition f64 : Type := binary_float 53 1024.
(** Rust's f64. *)
Definition f64_ops : NumOps := b_ops 53 1024.
Theorem f64_laws : NumLaws f64_ops.
Proof. exact (b_laws 53 1024). Qed.
