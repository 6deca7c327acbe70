(* The defect of the Lanczos formula in the functional equation, and its limits. *)
From Coq Require Import List ZArith QArith Reals Qreals Lra Lia.
From Coquelicot Require Import Coquelicot.
From Verif Require Import NormModel NormPoly NormPieces NormZero GamSpec GamModel GamInt GamLan GamLan2.
Import ListNotations.
Local Open Scope R_scope.

(** the defect and its first derivative *)
Definition hh (y : R) : R := (y - 1 / 2) * (ln (y - 1 / 2 + r0) - 1).
Definition ff (x : R) : R := ln (ev pM x) - ln (ev pN x) - ln (x + 10) + (hh (x + 1) - hh x).
Definition f1 (x : R) : R :=
  let A := x + 1 / 2 + r0 in let B := x - 1 / 2 + r0 in
  ev (pder pM) x / ev pM x - ev (pder pN) x / ev pN x - / (x + 10) + (ln A - ln B) - r0 / A + r0 / B.

Lemma lnp_derive p x : 0 < ev p x -> is_derive (fun t => ln (ev p t)) x (ev (pder p) x / ev p x).
Proof.
  intros H. evar_last.
  - apply (is_derive_comp ln (ev p) x _ _ (is_derive_ln _ H) (ev_derive p x)).
  - unfold scal. cbn. unfold mult. cbn. unfold Rdiv. ring.
Qed.
Lemma dlnp_derive p x : 0 < ev p x ->
  is_derive (fun t => ev (pder p) t / ev p t) x (ev (pq2 p) x / (ev p x) ^ 2).
Proof.
  intros H. evar_last.
  - apply (is_derive_div (ev (pder p)) (ev p) x _ _ (ev_derive _ x) (ev_derive _ x)). lra.
  - rewrite ev_q2. field. lra.
Qed.

Lemma ff_derive x : 0 <= x -> is_derive ff x (f1 x).
Proof.
  intros Hx. pose proof r0_eq as Hr. unfold ff, f1. cbv zeta.
  set (A := x + 1 / 2 + r0). set (B := x - 1 / 2 + r0).
  replace (ev (pder pM) x / ev pM x - ev (pder pN) x / ev pN x - / (x + 10) + (ln A - ln B) - r0 / A + r0 / B)
    with ((ev (pder pM) x / ev pM x - ev (pder pN) x / ev pN x) - / (x + 10) + (ln A - ln B - r0 / A + r0 / B)) by ring.
  apply (is_derive_plus (fun x => ln (ev pM x) - ln (ev pN x) - ln (x + 10)) (fun x => hh (x + 1) - hh x)).
  - apply (is_derive_minus (fun x => ln (ev pM x) - ln (ev pN x)) (fun x => ln (x + 10))).
    + apply (is_derive_minus (fun x => ln (ev pM x)) (fun x => ln (ev pN x))).
      * apply lnp_derive. apply M_pos; auto.
      * apply lnp_derive. apply N_pos; auto.
    + auto_derive; [lra|]. field. lra.
  - unfold hh. subst A B. generalize dependent r0. intros r Hr. auto_derive; [lra|].
    set (A := x + 1 / 2 + r). set (B := x - 1 / 2 + r).
    replace (x + 1 + - (1 / 2) + r) with A by (unfold A; field). replace (x + - (1 / 2) + r) with B by (unfold B; field).
    replace (x + 1 + - (1 / 2)) with (A - r) by (unfold A; field). replace (x + - (1 / 2)) with (B - r) by (unfold B; field).
    field. unfold A, B; lra.
Qed.
Lemma f1_derive x : 0 <= x -> is_derive f1 x (f2 x).
Proof.
  intros Hx. pose proof r0_eq as Hr. unfold f1, f2. cbv zeta.
  set (A := x + 1 / 2 + r0). set (B := x - 1 / 2 + r0).
  replace (ev (pq2 pM) x / ev pM x ^ 2 - ev (pq2 pN) x / ev pN x ^ 2 + / (x + 10) ^ 2 + / A - / B + r0 / A ^ 2 - r0 / B ^ 2)
    with ((ev (pq2 pM) x / ev pM x ^ 2 - ev (pq2 pN) x / ev pN x ^ 2) + (/ (x + 10) ^ 2 + / A - / B + r0 / A ^ 2 - r0 / B ^ 2)) by ring.
  apply (is_derive_ext (fun x => (ev (pder pM) x / ev pM x - ev (pder pN) x / ev pN x) +
     (- / (x + 10) + (ln (x + 1 / 2 + r0) - ln (x - 1 / 2 + r0)) - r0 / (x + 1 / 2 + r0) + r0 / (x - 1 / 2 + r0)))).
  { intros t. match goal with |- ?a = ?b => change (@eq R a b) end. ring. }
  apply (is_derive_plus (fun x => ev (pder pM) x / ev pM x - ev (pder pN) x / ev pN x)).
  - apply (is_derive_minus (fun x => ev (pder pM) x / ev pM x) (fun x => ev (pder pN) x / ev pN x)).
    + apply dlnp_derive. apply M_pos; auto.
    + apply dlnp_derive. apply N_pos; auto.
  - subst A B. generalize dependent r0. intros r Hr. auto_derive; [lra|].
    set (A := x + 1 / 2 + r). set (B := x - 1 / 2 + r).
    replace (x + 1 / 2 + r) with A by (unfold A; field). replace (x + - (1 / 2) + r) with B by (unfold B; field).
    field. unfold A, B; lra.
Qed.
