(* Polynomials with rational coefficients, evaluated at real points, and a
   computable test that one is not negative on an interval [0, len].
   Proof machinery only: nothing here models code of /repo. *)
From Coq Require Import List ZArith QArith Reals Qreals Lra Lia.
From Coquelicot Require Import Coquelicot.
Import ListNotations.
Local Open Scope R_scope.

(** evaluation by Horner's scheme: integer coefficients *)
Fixpoint evZ (p : list Z) (x : R) : R :=
  match p with
  | [] => 0
  | a :: p' => IZR a + x * evZ p' x
  end.

(** rational coefficients *)
Fixpoint evR (p : list Q) (x : R) : R :=
  match p with
  | [] => 0
  | a :: p' => Q2R a + x * evR p' x
  end.

(** integer coefficients over a common denominator *)
Record poly := Poly { cs : list Z; dn : positive }.

Definition ev (p : poly) (x : R) : R := evZ (cs p) x / IZR (Z.pos (dn p)).

Fixpoint zadd (p q : list Z) : list Z :=
  match p, q with
  | [], _ => q
  | _, [] => p
  | a :: p', b :: q' => (a + b)%Z :: zadd p' q'
  end.
Definition zscal (c : Z) (p : list Z) : list Z := map (Z.mul c) p.
Fixpoint zmul (p q : list Z) : list Z :=
  match p with
  | [] => []
  | a :: p' => zadd (zscal a q) (0%Z :: zmul p' q)
  end.
(** derivative: (a + x p)' = p + x p' *)
Fixpoint zder (p : list Z) : list Z :=
  match p with
  | [] => []
  | _ :: p' => zadd p' (0%Z :: zder p')
  end.

Definition padd (p q : poly) : poly :=
  if Pos.eqb (dn p) (dn q) then Poly (zadd (cs p) (cs q)) (dn p)
  else Poly (zadd (zscal (Z.pos (dn q)) (cs p)) (zscal (Z.pos (dn p)) (cs q))) (dn p * dn q).
Definition pscal (c : Q) (p : poly) : poly := Poly (zscal (Qnum c) (cs p)) (Qden c * dn p).
Definition pmul (p q : poly) : poly := Poly (zmul (cs p) (cs q)) (dn p * dn q).
Definition pder (p : poly) : poly := Poly (zder (cs p)) (dn p).
Definition pconst (c : Q) : poly := Poly [Qnum c] (Qden c).

(** a list of rationals over the product of its greatest denominator and the odd ones *)
Fixpoint common (p : list Q) (d : positive) : positive :=
  match p with
  | [] => d
  | a :: p' =>
      common p' (if (Z.pos d mod Z.pos (Qden a) =? 0)%Z then d
                 else if (Z.pos (Qden a) mod Z.pos d =? 0)%Z then Qden a else d * Qden a)
  end.
Definition of_q (p : list Q) : poly :=
  let d := common p 1 in
  Poly (map (fun a => Qnum a * (Z.pos d / Z.pos (Qden a)))%Z p) d.
Definition of_q_exact (p : list Q) : bool :=
  let d := common p 1 in
  forallb (fun a => Z.pos d mod Z.pos (Qden a) =? 0)%Z p.

Lemma pos_neq d : IZR (Z.pos d) <> 0.
Proof. apply not_0_IZR. lia. Qed.
Lemma pos_pos d : 0 < IZR (Z.pos d).
Proof. apply IZR_lt. lia. Qed.
#[local] Hint Resolve pos_neq pos_pos : core.

Lemma evz_add p q x : evZ (zadd p q) x = evZ p x + evZ q x.
Proof.
  revert q. induction p as [|a p IH]; intros [|b q]; cbn [zadd evZ]; try lra.
  rewrite plus_IZR, IH. lra.
Qed.
Lemma evz_scal c p x : evZ (zscal c p) x = IZR c * evZ p x.
Proof.
  induction p as [|a p IH]; cbn [zscal map evZ]; [lra|].
  fold (zscal c p). rewrite mult_IZR, IH. lra.
Qed.
Lemma evz_mul p q x : evZ (zmul p q) x = evZ p x * evZ q x.
Proof.
  induction p as [|a p IH]; cbn [zmul evZ]; [lra|].
  rewrite evz_add, evz_scal. cbn [evZ]. rewrite IH. lra.
Qed.
Lemma evz_derive p x : is_derive (evZ p) x (evZ (zder p) x).
Proof.
  induction p as [|a p IH]; cbn [zder].
  - cbn. apply (is_derive_const 0 x).
  - rewrite evz_add. cbn [evZ].
    replace (evZ p x + (0 + x * evZ (zder p) x))
      with (0 + (1 * evZ p x + x * evZ (zder p) x)) by lra.
    apply (is_derive_plus (fun _ => IZR a) (fun x => x * evZ p x)).
    + apply (is_derive_const (IZR a) x).
    + apply (is_derive_mult (fun x => x) (evZ p) x 1 (evZ (zder p) x)).
      * apply (is_derive_id x).
      * exact IH.
      * intros. apply Rmult_comm.
Qed.

Lemma ev_add p q x : ev (padd p q) x = ev p x + ev q x.
Proof.
  unfold padd, ev. destruct (Pos.eqb_spec (dn p) (dn q)) as [E|E]; cbn [cs dn].
  - rewrite evz_add, E. field. auto.
  - rewrite evz_add, !evz_scal, Pos2Z.inj_mul, mult_IZR. field. auto.
Qed.
Lemma ev_scal c p x : ev (pscal c p) x = Q2R c * ev p x.
Proof.
  unfold pscal, ev, Q2R; cbn [cs dn].
  rewrite evz_scal, Pos2Z.inj_mul, mult_IZR. field. auto.
Qed.
Lemma ev_mul p q x : ev (pmul p q) x = ev p x * ev q x.
Proof.
  unfold pmul, ev; cbn [cs dn]. rewrite evz_mul, Pos2Z.inj_mul, mult_IZR. field. auto.
Qed.
Lemma ev_const c x : ev (pconst c) x = Q2R c.
Proof. unfold ev, pconst, Q2R. cbn. field. auto. Qed.
Lemma ev_derive p x : is_derive (ev p) x (ev (pder p) x).
Proof.
  unfold ev, pder. cbn [cs dn].
  apply (is_derive_ext (fun t => / IZR (Z.pos (dn p)) * evZ (cs p) t)).
  - intros t. apply Rmult_comm.
  - replace (evZ (zder (cs p)) x / IZR (Z.pos (dn p)))
      with (/ IZR (Z.pos (dn p)) * evZ (zder (cs p)) x) by (field; auto).
    apply (is_derive_scal (evZ (cs p)) x _ _ (evz_derive _ _)).
Qed.

Lemma ev_of_q p x : of_q_exact p = true -> ev (of_q p) x = evR p x.
Proof.
  unfold of_q, of_q_exact, ev. cbn [cs dn]. generalize (common p 1) as d. intros d.
  induction p as [|a p IH]; cbn [forallb map evZ evR]; intros H.
  - field. auto.
  - apply andb_prop in H as [Ha Hp]. rewrite <- IH by auto.
    apply Z.eqb_eq in Ha.
    assert (Hd : (Z.pos d = Z.pos (Qden a) * (Z.pos d / Z.pos (Qden a)))%Z)
      by (apply Z.div_exact; lia).
    set (k := (Z.pos d / Z.pos (Qden a))%Z) in *.
    unfold Q2R. rewrite mult_IZR.
    replace (/ IZR (Z.pos (Qden a))) with (IZR k / IZR (Z.pos d)).
    + field. auto.
    + rewrite Hd, mult_IZR.
      assert (IZR k <> 0) by (apply not_0_IZR; intros ->; lia).
      field. split; auto.
Qed.

(** ** homogeneous form: c_0 v^n + c_1 u v^(n-1) + ... + c_n u^n *)
Fixpoint hev (c : list Z) (u v : R) : R :=
  match c with
  | [] => 0
  | a :: c' => IZR a * v ^ length c' + u * hev c' u v
  end.

(** (u + v)^n scaled by a *)
Fixpoint hpow (a : Z) (n : nat) : list Z :=
  match n with
  | O => [a]
  | S n' => let h := hpow a n' in zadd (h ++ [0%Z]) (0%Z :: h)
  end.

Fixpoint bern (p : list Z) : list Z :=
  match p with
  | [] => []
  | a :: p' => zadd (hpow a (length p')) (0%Z :: bern p')
  end.

Lemma zadd_length p q : length p = length q -> length (zadd p q) = length p.
Proof.
  revert q. induction p as [|a p IH]; intros [|b q] H; cbn in *; try discriminate; auto.
Qed.
Lemma hpow_length a n : length (hpow a n) = S n.
Proof.
  induction n; cbn [hpow]; auto. cbv zeta.
  rewrite zadd_length; rewrite app_length; cbn [length]; lia.
Qed.
Lemma bern_length p : length (bern p) = length p.
Proof.
  induction p as [|a p IH]; auto. cbn [bern].
  rewrite zadd_length; rewrite hpow_length; cbn [length]; lia.
Qed.
Lemma hev_add c d u v : length c = length d -> hev (zadd c d) u v = hev c u v + hev d u v.
Proof.
  revert d. induction c as [|a c IH]; intros [|b d] H; cbn [zadd hev length] in *;
    try discriminate; try lra.
  injection H as H. rewrite IH by auto. rewrite plus_IZR, zadd_length by auto. rewrite <- H. lra.
Qed.
Lemma hev_snoc0 c u v : hev (c ++ [0%Z]) u v = v * hev c u v.
Proof.
  induction c as [|a c IH]; cbn [app hev length].
  - lra.
  - rewrite IH, app_length. cbn [length]. rewrite Nat.add_1_r. cbn [pow]. lra.
Qed.
Lemma hev_pow a n u v : u + v = 1 -> hev (hpow a n) u v = IZR a.
Proof.
  intros H. induction n; cbn [hpow].
  - cbn. lra.
  - cbv zeta. rewrite hev_add by (rewrite app_length; cbn [length]; lia).
    rewrite hev_snoc0. cbn [hev]. rewrite IHn.
    replace (v * IZR a + (0 * v ^ length (hpow a n) + u * IZR a)) with ((u + v) * IZR a) by lra.
    rewrite H. lra.
Qed.
Lemma hev_bern p u v : u + v = 1 -> hev (bern p) u v = evZ p u.
Proof.
  intros H. induction p as [|a p IH]; cbn [bern evZ]; auto.
  rewrite hev_add by (rewrite hpow_length; cbn [length]; rewrite bern_length; auto).
  rewrite hev_pow by auto. cbn [hev]. rewrite IH. lra.
Qed.

(** b^n p((a/b) x), n = length p *)
Fixpoint stretch (k a b : Z) (p : list Z) : list Z :=
  match p with
  | [] => []
  | c :: p' => (k * Z.pow b (Z.of_nat (length p')) * c)%Z :: stretch (k * a) a b p'
  end.

Lemma ev_stretch p : forall k a b x, IZR b <> 0 ->
  evZ (stretch k a b p) x * IZR b = IZR k * IZR b ^ length p * evZ p (IZR a / IZR b * x).
Proof.
  induction p as [|c p IH]; intros k a b x Hb; cbn [stretch evZ length pow]; [lra|].
  rewrite !mult_IZR, <- pow_IZR.
  rewrite Rmult_plus_distr_r, (Rmult_assoc x), IH by auto. rewrite mult_IZR.
  field. auto.
Qed.

Definition nonneg_on (len : Q) (p : poly) : bool :=
  forallb (fun c => Z.leb 0 c) (bern (stretch 1 (Qnum len) (Z.pos (Qden len)) (cs p))).

Lemma hev_nonneg c u v :
  0 <= u -> 0 <= v -> forallb (fun c => Z.leb 0 c) c = true -> 0 <= hev c u v.
Proof.
  intros Hu Hv. induction c as [|a c IH]; cbn [forallb hev]; intros H; [lra|].
  apply andb_prop in H as [Ha Hc].
  apply Z.leb_le, IZR_le in Ha.
  apply Rplus_le_le_0_compat; apply Rmult_le_pos; auto. apply pow_le; auto.
Qed.

Theorem nonneg_on_sound len p x :
  nonneg_on len p = true -> 0 < Q2R len -> 0 <= x <= Q2R len -> 0 <= ev p x.
Proof.
  intros H Hl Hx. unfold nonneg_on in H. unfold ev.
  apply Rmult_le_pos; [|left; apply Rinv_0_lt_compat; auto].
  set (b := Z.pos (Qden len)) in *.
  assert (Hb : 0 < IZR b) by (unfold b; auto).
  assert (Hlen : Q2R len = IZR (Qnum len) / IZR b) by reflexivity.
  pose proof (ev_stretch (cs p) 1 (Qnum len) b (x / Q2R len) ltac:(lra)) as E.
  replace (IZR (Qnum len) / IZR b * (x / Q2R len)) with x in E
    by (rewrite <- Hlen; field; lra).
  rewrite <- (hev_bern _ (x / Q2R len) (1 - x / Q2R len)) in E by lra.
  assert (0 <= hev (bern (stretch 1 (Qnum len) b (cs p))) (x / Q2R len) (1 - x / Q2R len)) as Hh.
  { apply hev_nonneg; auto.
    - apply Rdiv_le_0_compat; lra.
    - assert (x / Q2R len <= 1); [|lra].
      apply Rmult_le_reg_r with (Q2R len); auto. unfold Rdiv. rewrite Rmult_assoc, Rinv_l; lra. }
  pose proof (pow_lt (IZR b) (length (cs p)) Hb) as Hp.
  apply Rmult_le_reg_l with (1 * IZR b ^ length (cs p)); [lra|].
  rewrite <- E, Rmult_0_r. apply Rmult_le_pos; lra.
Qed.
