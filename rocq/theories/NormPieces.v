(* Analysis of the arms of erf_impl: derivative, sign and size, by computed polynomial certificates. *)
From Coq Require Import List QArith Qreduction Reals Qreals Lra Lia.
From Coquelicot Require Import Coquelicot.
From Verif Require Import NormModel NormPoly.
Import ListNotations.
Local Open Scope R_scope.

Lemma fold_horner z l acc :
  fold_left (fun sum c => Q2R c + z * sum) l acc =
  evR (rev l) z + z ^ length l * acc.
Proof.
  revert acc. induction l as [|a l IH]; intros acc; cbn [fold_left rev length].
  - cbn. lra.
  - rewrite IH. clear IH.
    assert (H : forall p q, evR (p ++ [q]) z = evR p z + z ^ length p * Q2R q).
    { clear. induction p as [|b p IH]; intros q; cbn [app evR length pow]; [lra|].
      rewrite IH. lra. }
    rewrite H, rev_length. cbn [pow]. lra.
Qed.

Lemma polynomial_ev z p : polynomial z p = evR p z.
Proof.
  unfold polynomial. destruct (rev p) as [|a l] eqn:E.
  - apply (f_equal (@rev Q)) in E. rewrite rev_involutive in E. subst p. reflexivity.
  - rewrite fold_horner.
    apply (f_equal (@rev Q)) in E. rewrite rev_involutive in E. subst p. cbn [rev].
    assert (H : forall p q, evR (p ++ [q]) z = evR p z + z ^ length p * Q2R q).
    { clear. induction p as [|b p IH]; intros q; cbn [app evR length pow]; [lra|].
      rewrite IH. lra. }
    rewrite H, rev_length. reflexivity.
Qed.

Definition gauss (s : R) : R := exp (- s * s).

(** ** the certificate of one arm *)
Definition zpoly (b : band) : poly := of_q [shift b; 1%Q].
Definition wpoly (b : band) : poly := padd (pscal (base b) (of_q (denom b))) (of_q (numer b)).
Definition numpoly (b : band) : poly :=
  let W := wpoly b in let D := of_q (denom b) in let WD := pmul W D in
  padd (pmul (zpoly b) (padd (pmul (pder W) D) (pscal (-1) (pmul W (pder D)))))
       (pscal (-1) (padd WD (pscal 2 (pmul (pmul (zpoly b) (zpoly b)) WD)))).
Definition denpoly (b : band) : poly :=
  pmul (pmul (zpoly b) (zpoly b)) (pmul (of_q (denom b)) (of_q (denom b))).

Definition blen (b : band) : Q := Qred (upper b - shift b).

Definition kappa0 : Q := 1.128379167095512573896%Q.

Definition band_ok (eps top : Q) (b : band) : bool :=
  nonneg_on (blen b) (padd (of_q (denom b)) (pconst (-0.5))) &&
  nonneg_on (blen b) (padd (pscal (eps - kappa0) (denpoly b)) (pscal (-1) (numpoly b))) &&
  nonneg_on (blen b) (padd (pscal (eps + kappa0) (denpoly b)) (numpoly b)) &&
  nonneg_on (blen b) (wpoly b) &&
  nonneg_on (blen b) (padd (pscal top (of_q (denom b))) (pscal (-1) (wpoly b))).


Definition band_eps : Q := 2e-10%Q.
Definition band_top : Q := 0.57%Q.
Definition band_shape (b : band) : bool :=
  of_q_exact (denom b) && of_q_exact (numer b) && of_q_exact [shift b; 1%Q] &&
  Qle_bool 0.5 (shift b) && Qle_bool (shift b + 0.1) (upper b).

Lemma bands_ok : forallb (fun b => band_ok band_eps band_top b && band_shape b) bands = true.
Proof. vm_compute. reflexivity. Qed.

Lemma band_in_ok b : In b bands -> band_ok band_eps band_top b = true /\ band_shape b = true.
Proof.
  intros H. pose proof bands_ok as A. rewrite forallb_forall in A. specialize (A b H).
  apply andb_prop in A. exact A.
Qed.

Section Band.
  Variable b : band.
  Hypothesis Hin : In b bands.

  Let N (t : R) := evR (numer b) t.
  Let D (t : R) := evR (denom b) t.
  Let s := Q2R (shift b).
  Let W (t : R) := Q2R (base b) * D t + N t.

  Lemma b_exact : (forall x, ev (of_q (denom b)) x = D x) /\ (forall x, ev (of_q (numer b)) x = N x) /\
    (forall x, ev (zpoly b) x = s + x) /\ 0.5 <= s /\ 0 < Q2R (blen b) /\
    Q2R (blen b) = Q2R (upper b) - s.
  Proof.
    destruct (band_in_ok b Hin) as [_ H]. unfold band_shape in H.
    apply andb_prop in H as [H H5]. apply andb_prop in H as [H H4].
    apply andb_prop in H as [H H3]. apply andb_prop in H as [H1 H2].
    apply Qle_bool_iff, Qle_Rle in H4. apply Qle_bool_iff, Qle_Rle in H5. rewrite Q2R_plus in H5.
    assert (E1 : Q2R 0.5 = 0.5) by (unfold Q2R; cbn; lra).
    assert (E2 : Q2R 0.1 = 0.1) by (unfold Q2R; cbn; lra).
    assert (E3 : Q2R (blen b) = Q2R (upper b) - s).
    { unfold blen. rewrite (Qeq_eqR _ _ (Qred_correct _)). apply Q2R_minus. }
    repeat split.
    - intros x. apply ev_of_q; auto.
    - intros x. apply ev_of_q; auto.
    - intros x. unfold zpoly. rewrite ev_of_q by auto. cbn [evR].
      replace (Q2R 1) with 1 by (unfold Q2R; cbn; lra). fold s. lra.
    - fold s in H4. lra.
    - rewrite E3. fold s in H5. lra.
    - exact E3.
  Qed.

  Section At.
  Variable z : R.
  Hypothesis Hz : s <= z <= Q2R (upper b).
  Let t := z - s.

  Lemma t_in : 0 <= t <= Q2R (blen b).
  Proof. destruct b_exact as (_ & _ & _ & _ & _ & E). unfold t. lra. Qed.

  Lemma d_pos : 0.5 <= D t.
  Proof.
    destruct (band_in_ok b Hin) as [H _]. unfold band_ok in H.
    apply andb_prop in H as [H _]. apply andb_prop in H as [H _].
    apply andb_prop in H as [H _]. apply andb_prop in H as [H _].
    destruct b_exact as (E & _ & _ & _ & L & _).
    pose proof (nonneg_on_sound _ _ t H L t_in) as P.
    rewrite ev_add, ev_const, E in P.
    replace (Q2R (-0.5)) with (-0.5) in P by (unfold Q2R; cbn; lra). lra.
  Qed.

  Lemma w_nonneg : 0 <= W t.
  Proof.
    destruct (band_in_ok b Hin) as [H _]. unfold band_ok in H.
    apply andb_prop in H as [H _]. apply andb_prop in H as [_ H].
    destruct b_exact as (E & E' & _ & _ & L & _).
    pose proof (nonneg_on_sound _ _ t H L t_in) as P.
    unfold wpoly in P. rewrite ev_add, ev_scal, E, E' in P. exact P.
  Qed.

  Lemma w_top : W t <= 0.57 * D t.
  Proof.
    destruct (band_in_ok b Hin) as [H _]. unfold band_ok in H.
    apply andb_prop in H as [_ H].
    destruct b_exact as (E & E' & _ & _ & L & _).
    pose proof (nonneg_on_sound _ _ t H L t_in) as P.
    unfold wpoly in P. rewrite ev_add, !ev_scal, ev_add, ev_scal, E, E' in P. fold (W t) in P.
    replace (Q2R band_top) with 0.57 in P by (unfold Q2R; cbn; lra).
    replace (Q2R (-1)) with (-1) in P by (unfold Q2R; cbn; lra). lra.
  Qed.

  Let dD := ev (pder (of_q (denom b))) t.
  Let dW := ev (pder (wpoly b)) t.
  Let num := z * (dW * D t - W t * dD) - W t * D t - 2 * (z * z) * (W t * D t).
  Let den := z * z * (D t * D t).

  Lemma num_ev : ev (numpoly b) t = num.
  Proof.
    destruct b_exact as (E & E' & E'' & _).
    unfold numpoly. cbv zeta.
    repeat (rewrite ev_add || rewrite ev_scal || rewrite ev_mul).
    fold dD dW. unfold wpoly. rewrite !ev_add, !ev_scal, E, E', E''. fold (W t).
    replace (Q2R (-1)) with (-1) by (unfold Q2R; cbn; lra).
    replace (Q2R 2) with 2 by (unfold Q2R; cbn; lra).
    unfold num. replace (s + t) with z by (unfold t; lra). ring.
  Qed.

  Lemma den_ev : ev (denpoly b) t = den.
  Proof.
    destruct b_exact as (E & E' & E'' & _).
    unfold denpoly. rewrite !ev_mul, E, E''. replace (s + t) with z by (unfold t; lra). reflexivity.
  Qed.

  Lemma num_den : Rabs (Q2R kappa0 * den + num) <= Q2R band_eps * den.
  Proof.
    destruct (band_in_ok b Hin) as [H _]. unfold band_ok in H.
    apply andb_prop in H as [H _]. apply andb_prop in H as [H _].
    apply andb_prop in H as [H H2]. apply andb_prop in H as [_ H1].
    destruct b_exact as (_ & _ & _ & _ & L & _).
    pose proof (nonneg_on_sound _ _ t H1 L t_in) as P1.
    pose proof (nonneg_on_sound _ _ t H2 L t_in) as P2.
    rewrite ev_add, !ev_scal, num_ev, den_ev in P1. rewrite ev_add, ev_scal, num_ev, den_ev in P2.
    rewrite Q2R_minus in P1. rewrite Q2R_plus in P2.
    replace (Q2R (-1)) with (-1) in P1 by (unfold Q2R; cbn; lra).
    apply Rabs_le. split; lra.
  Qed.

  Lemma z_pos : 0.5 <= z.
  Proof. destruct b_exact as (_ & _ & _ & H & _). lra. Qed.

  Lemma den_pos : 0 < den.
  Proof.
    pose proof z_pos. pose proof d_pos. unfold den.
    apply Rmult_lt_0_compat; apply Rmult_lt_0_compat; lra.
  Qed.

  Lemma band_value_w : band_value b z = gauss z / z * (W t / D t).
  Proof.
    unfold band_value. rewrite !polynomial_ev. fold s t. pose proof d_pos.
    unfold W, gauss. fold (D t). fold (N t). field. split; try lra. pose proof z_pos. lra.
  Qed.

  Lemma band_derive : is_derive (band_value b) z (gauss z * (num / den)).
  Proof.
    pose proof z_pos as Zp. pose proof d_pos as Dp.
    destruct b_exact as (E & E' & _).
    assert (HdW : dW = Q2R (base b) * dD + ev (pder (of_q (numer b))) t).
    { unfold dW. rewrite <- (is_derive_unique _ _ _ (ev_derive (wpoly b) t)).
      apply is_derive_unique.
      apply (is_derive_ext (fun x => Q2R (base b) * ev (of_q (denom b)) x + ev (of_q (numer b)) x)).
      - intros x. unfold wpoly. rewrite ev_add, ev_scal. reflexivity.
      - apply (is_derive_plus (fun x => Q2R (base b) * ev (of_q (denom b)) x) (ev (of_q (numer b)))).
        + apply is_derive_scal. apply ev_derive.
        + apply ev_derive. }
    apply (is_derive_ext (fun y => exp (- y * y) / y *
             (Q2R (base b) + ev (of_q (numer b)) (y - s) / ev (of_q (denom b)) (y - s)))).
    - intros y. unfold band_value. rewrite !polynomial_ev, E, E'. reflexivity.
    - auto_derive.
      + repeat split; try lra.
        * eexists; apply ev_derive.
        * eexists; apply ev_derive.
        * change (z + - s) with t. rewrite E. lra.
      + rewrite !(is_derive_unique _ _ _ (ev_derive _ _)).
        change (z + - s) with t. fold dD.
        rewrite E, E'. unfold gauss, num, den, W. rewrite HdW. field. lra.
  Qed.

  Lemma band_slope : exists d, is_derive (band_value b) z d /\
    Rabs (d + Q2R kappa0 * gauss z) <= Q2R band_eps * gauss z.
  Proof.
    exists (gauss z * (num / den)). split; [apply band_derive|].
    pose proof den_pos as Dp. pose proof (exp_pos (- z * z)) as G. fold (gauss z) in G.
    replace (gauss z * (num / den) + Q2R kappa0 * gauss z)
      with (gauss z * ((Q2R kappa0 * den + num) / den)) by (field; lra).
    rewrite Rabs_mult, (Rabs_pos_eq (gauss z)) by lra.
    rewrite (Rmult_comm (Q2R band_eps)). apply Rmult_le_compat_l; [lra|].
    unfold Rdiv. rewrite Rabs_mult, (Rabs_pos_eq (/ den)) by (left; apply Rinv_0_lt_compat; lra).
    apply Rmult_le_reg_r with den; auto. rewrite Rmult_assoc, Rinv_l by lra.
    rewrite Rmult_1_r. apply num_den.
  Qed.

  (** between 0 and 0.57 exp(-z^2)/z *)
  Lemma band_bounds : 0 <= band_value b z <= 0.57 * (gauss z / z).
  Proof.
    rewrite band_value_w.
    pose proof z_pos as Zp. pose proof d_pos as Dp.
    pose proof (exp_pos (- z * z)) as G. fold (gauss z) in G.
    assert (0 < gauss z / z) by (apply Rdiv_lt_0_compat; lra).
    assert (0 <= W t / D t <= 0.57) as [Q1 Q2].
    { pose proof w_nonneg. pose proof w_top. split.
      - apply Rdiv_le_0_compat; lra.
      - apply Rmult_le_reg_r with (D t); [lra|]. unfold Rdiv. rewrite Rmult_assoc, Rinv_l; lra. }
    split.
    - apply Rmult_le_pos; lra.
    - rewrite (Rmult_comm 0.57). apply Rmult_le_compat_l; lra.
  Qed.
  End At.
End Band.
