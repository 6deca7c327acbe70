(* The integral of exp(-s^2): its square tends to pi/4.  Classical proof by differentiating under the integral. *)
From Coq Require Import Reals Lra Lia.
From Coquelicot Require Import Coquelicot.
From Verif Require Import NormPieces.
Local Open Scope R_scope.

Lemma gauss_derive z : is_derive gauss z (- 2 * z * gauss z).
Proof. unfold gauss. auto_derive; auto. ring. Qed.
Lemma gauss_cont z : continuous gauss z.
Proof. apply (ex_derive_continuous gauss z). eexists. apply gauss_derive. Qed.
Lemma gauss_pos z : 0 < gauss z.
Proof. apply exp_pos. Qed.
Lemma gauss_neg z : gauss (- z) = gauss z.
Proof. unfold gauss. f_equal. ring. Qed.
Lemma gauss_int a b : ex_RInt gauss a b.
Proof. apply (ex_RInt_continuous gauss). intros; apply gauss_cont. Qed.

Definition area (z : R) : R := RInt gauss 0 z.

Lemma area_derive z : is_derive area z (gauss z).
Proof.
  apply (is_derive_RInt gauss area 0 z).
  - apply filter_forall. intros y. apply (RInt_correct gauss 0 y). apply gauss_int.
  - apply gauss_cont.
Qed.
Lemma area_0 : area 0 = 0.
Proof. apply (RInt_point 0 gauss). Qed.

(** a function whose derivative is at most eps exp(-s^2) in size changes by at most eps times the area *)
Lemma dominated (h : R -> R) eps a b :
  a <= b ->
  (forall c, a <= c <= b -> exists d, is_derive h c d /\ Rabs d <= eps * gauss c) ->
  Rabs (h b - h a) <= eps * (area b - area a).
Proof.
  intros Hab H.
  destruct (Req_dec a b) as [->|Hne].
  { rewrite !Rminus_eq_0, Rabs_R0. lra. }
  assert (D : forall c, a <= c <= b -> is_derive h c (Derive h c) /\ Rabs (Derive h c) <= eps * gauss c).
  { intros c Hc. destruct (H c Hc) as (d & D1 & D2). rewrite (is_derive_unique _ _ _ D1). auto. }
  assert (K : forall sg, (sg = 1 \/ sg = -1) -> sg * (h b - h a) <= eps * (area b - area a)).
  { intros sg Hs.
    set (f := fun c => sg * h c + - eps * area c).
    assert (Df : forall c, a <= c <= b -> is_derive f c (sg * Derive h c + - eps * gauss c)).
    { intros c Hc. apply (is_derive_plus (fun c => sg * h c) (fun c => - eps * area c)).
      - apply is_derive_scal. apply D; auto.
      - apply is_derive_scal. apply area_derive. }
    destruct (MVT_gen f a b (fun c => sg * Derive h c + - eps * gauss c)) as (c & Hc & E).
    - rewrite Rmin_left, Rmax_right by lra. intros x Hx. apply Df. lra.
    - rewrite Rmin_left, Rmax_right by lra. intros x Hx. apply continuity_pt_filterlim.
      apply (ex_derive_continuous f x). eexists. apply Df. lra.
    - rewrite Rmin_left, Rmax_right in Hc by lra.
      destruct (D c Hc) as [_ Hb]. apply Rabs_le_between in Hb.
      assert (sg * Derive h c + - eps * gauss c <= 0) by (destruct Hs; subst; lra).
      assert ((sg * Derive h c + - eps * gauss c) * (b - a) <= 0 * (b - a))
        by (apply Rmult_le_compat_r; lra).
      unfold f in E. lra. }
  pose proof (K 1 (or_introl eq_refl)). pose proof (K (-1) (or_intror eq_refl)).
  apply Rabs_le. lra.
Qed.

Lemma area_incr a b : a <= b -> area a <= area b.
Proof.
  intros H. destruct (dominated (fun _ => 0) 1 a b H) as [].
  - intros c _. exists 0. split; [apply (is_derive_const 0 c)|]. rewrite Rabs_R0. pose proof (gauss_pos c). lra.
  - pose proof (Rabs_pos (0 - 0)). lra.
  - pose proof (Rabs_pos (0 - 0)). lra.
Qed.

Lemma area_odd z : area (- z) = - area z.
Proof.
  set (f := fun z => area (- z) + area z).
  assert (Df : forall c, is_derive f c 0).
  { intros c. unfold f. replace 0 with (-1 * gauss (- c) + gauss c) by (rewrite gauss_neg; ring).
    apply (is_derive_plus (fun z => area (- z)) area).
    - apply (is_derive_comp area Ropp c (gauss (- c)) (-1)).
      + apply area_derive.
      + auto_derive; auto.
    - apply area_derive. }
  assert (E : f z = f 0).
  { destruct (MVT_gen f 0 z (fun _ => 0)) as (c & _ & E).
    - intros x _. apply Df.
    - intros x _. apply continuity_pt_filterlim. apply (ex_derive_continuous f x). eexists. apply Df.
    - lra. }
  unfold f in E. rewrite Ropp_0, area_0 in E. lra.
Qed.

(** ** differentiating under the integral *)
Definition kern (x t : R) : R := exp (- (x * x) * (1 + t * t)) / (1 + t * t).
Definition side (x : R) : R := RInt (fun t => kern x t) 0 1.

Lemma sq1 t : 0 < 1 + t * t.
Proof. pose proof (Rle_0_sqr t). unfold Rsqr in H. lra. Qed.

Lemma kern_derive x t : is_derive (fun u => kern u t) x (- 2 * x * exp (- (x * x) * (1 + t * t))).
Proof.
  unfold kern. pose proof (sq1 t). auto_derive; auto. field. lra.
Qed.

Lemma kern_cont x t : continuous (fun t => kern x t) t.
Proof.
  apply (ex_derive_continuous (fun t => kern x t) t). unfold kern. pose proof (sq1 t). auto_derive.
  repeat split; auto. lra.
Qed.

Ltac as_R := match goal with |- ?a = ?b => change (@eq R a b) end.
Lemma inner x : RInt (fun t => - 2 * x * exp (- (x * x) * (1 + t * t))) 0 1 = - 2 * gauss x * area x.
Proof.
  transitivity (RInt (fun t => - 2 * gauss x * (x * gauss (x * t + 0))) 0 1).
  { apply RInt_ext. intros t _. unfold gauss.
    replace (- (x * x) * (1 + t * t)) with (- x * x + - (x * t + 0) * (x * t + 0)) by ring.
    rewrite exp_plus. as_R. ring. }
  etransitivity.
  { apply (RInt_scal (fun t => x * gauss (x * t + 0)) 0 1 (- 2 * gauss x)).
    apply (ex_RInt_continuous (fun t => x * gauss (x * t + 0))). intros t _.
    apply (ex_derive_continuous (fun t => x * gauss (x * t + 0)) t). unfold gauss. auto_derive. auto. }
  change (- 2 * gauss x * RInt (fun t => x * gauss (x * t + 0)) 0 1 = - 2 * gauss x * area x). f_equal.
  etransitivity; [apply (RInt_comp_lin gauss x 0 0 1); apply gauss_int|].
  unfold area. f_equal; ring.
Qed.

Lemma side_derive x : is_derive side x (- 2 * gauss x * area x).
Proof.
  rewrite <- inner.
  rewrite <- (RInt_ext (fun t => Derive (fun u => kern u t) x)).
  2:{ intros t _. apply is_derive_unique. apply kern_derive. }
  unfold side. apply (is_derive_RInt_param kern 0 1 x).
  - apply filter_forall. intros y t _. eexists. apply kern_derive.
  - intros t _.
    apply (continuity_2d_pt_ext (fun u v => - 2 * u * exp (- (u * u) * (1 + v * v)))).
    + intros u v. symmetry. apply is_derive_unique. apply kern_derive.
    + apply continuity_2d_pt_mult.
      * apply continuity_2d_pt_mult; [apply continuity_2d_pt_const|apply continuity_2d_pt_id1].
      * apply (continuity_1d_2d_pt_comp exp).
        { apply derivable_continuous_pt, derivable_pt_exp. }
        apply continuity_2d_pt_mult.
        { apply continuity_2d_pt_opp. apply continuity_2d_pt_mult; apply continuity_2d_pt_id1. }
        apply continuity_2d_pt_plus; [apply continuity_2d_pt_const|].
        apply continuity_2d_pt_mult; apply continuity_2d_pt_id2.
  - apply filter_forall. intros y. apply (ex_RInt_continuous (fun t => kern y t)).
    intros; apply kern_cont.
Qed.

Lemma side_0 : side 0 = PI / 4.
Proof.
  unfold side. rewrite <- atan_1.
  replace (atan 1) with (atan 1 - atan 0) by (rewrite atan_0; lra).
  apply is_RInt_unique.
  apply (is_RInt_derive atan (fun t => kern 0 t)).
  - intros t _. unfold kern. apply is_derive_Reals.
    replace (exp (- (0 * 0) * (1 + t * t)) / (1 + t * t)) with (/ (1 + t ^ 2)).
    + apply derivable_pt_lim_atan.
    + replace (- (0 * 0) * (1 + t * t)) with 0 by ring. rewrite exp_0. pose proof (sq1 t). cbn. field. lra.
  - intros t _. apply kern_cont.
Qed.

Lemma area_side x : area x * area x + side x = PI / 4.
Proof.
  set (f := fun x => area x * area x + side x).
  assert (Df : forall c, is_derive f c 0).
  { intros c. unfold f.
    replace 0 with ((gauss c * area c + area c * gauss c) + - 2 * gauss c * area c) by ring.
    apply (is_derive_plus (fun x => area x * area x) side).
    - apply (is_derive_mult area area c (gauss c) (gauss c)); try apply area_derive.
      intros. apply Rmult_comm.
    - apply side_derive. }
  assert (E : f x = f 0).
  { destruct (MVT_gen f 0 x (fun _ => 0)) as (c & _ & E).
    - intros y _. apply Df.
    - intros y _. apply continuity_pt_filterlim. apply (ex_derive_continuous f y). eexists. apply Df.
    - lra. }
  unfold f in E. rewrite E, area_0, side_0. ring.
Qed.

Lemma side_bounds x : 0 <= side x <= gauss x.
Proof.
  unfold side. split.
  - apply RInt_ge_0; [lra| |].
    + apply (ex_RInt_continuous (fun t => kern x t)). intros; apply kern_cont.
    + intros t _. unfold kern. left. apply Rdiv_lt_0_compat; [apply exp_pos|apply sq1].
  - replace (gauss x) with (RInt (fun _ => gauss x) 0 1).
    2:{ rewrite RInt_const. unfold scal; cbn; unfold mult; cbn. ring. }
    apply RInt_le; [lra| | |].
    + apply (ex_RInt_continuous (fun t => kern x t)). intros; apply kern_cont.
    + apply ex_RInt_const.
    + intros t _. unfold kern, gauss. pose proof (sq1 t) as S. pose proof (exp_pos (- (x * x) * (1 + t * t))).
      pose proof (Rle_0_sqr t) as T. unfold Rsqr in T. pose proof (Rle_0_sqr x) as X. unfold Rsqr in X.
      apply Rle_trans with (exp (- (x * x) * (1 + t * t))).
      * apply Rmult_le_reg_r with (1 + t * t); auto. unfold Rdiv. rewrite Rmult_assoc, Rinv_l by lra.
        apply Rmult_le_compat_l; lra.
      * destruct (Req_dec (- (x * x) * (1 + t * t)) (- x * x)) as [->|Hne]; [lra|].
        left. apply exp_increasing.
        assert (0 <= (x * x) * (t * t)) by (apply Rmult_le_pos; lra). lra.
Qed.
