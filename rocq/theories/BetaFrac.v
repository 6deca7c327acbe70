(* The continued fraction of the incomplete beta function: its convergents, their derivatives, and where
   the integral lies relative to two successive ones. *)
From Coq Require Import Reals Lra Lia Arith.
From Coquelicot Require Import Coquelicot.
From Verif Require Import GamSpec GamInt GamInc BetaSpec BetaInt.
Local Open Scope R_scope.

Section Frac.
Variables a b : R.
Hypothesis Ha : 0 < a.
Hypothesis Hb : 0 < b.

(** chain values: the denominators' ratios at x = 1 *)
Definition gam (n : nat) : R := if Nat.even n then (a + INR n / 2) / (a + INR n) else ((INR n + 1) / 2 - b) / (a + INR n).
Definition qq (n : nat) : R := if Nat.even n then a + b + INR n / 2 else (INR n + 1) / 2.
(** the [n+1]st partial numerator is [- ee n * x] *)
Definition ee (n : nat) : R := qq n * gam n / (a + INR n + 1).

Lemma even_S n : Nat.even (S n) = negb (Nat.even n).
Proof. rewrite Nat.even_succ. symmetry. apply Nat.negb_even. Qed.
Ltac par n := unfold ee, qq, gam; rewrite ?even_S, ?S_INR; pose proof (pos_INR n); destruct (Nat.even n); cbn [negb].

Lemma qq_pos n : 0 < qq n.
Proof. par n; lra. Qed.
Lemma qq_gam n : 1 - gam (S n) = qq n / (a + INR n + 1).
Proof. par n; field; lra. Qed.
Lemma ee_chain n : ee n = (1 - gam (S n)) * gam n.
Proof. rewrite qq_gam. unfold ee. pose proof (pos_INR n). field. lra. Qed.
Lemma ee_r n : (a + INR n + 1) * ee n = qq n * gam n.
Proof. unfold ee. pose proof (pos_INR n). field. lra. Qed.
Lemma qq_SS n : qq (S (S n)) = 1 + qq n.
Proof. par n; lra. Qed.
Lemma ee_tie n : 1 + qq n - qq (S n) + (a + INR n + 1) * ee (S n) = (a + INR n + 3) * ee (S (S n)).
Proof. par n; field; lra. Qed.

(** ** convergents: (nth, previous) *)
Fixpoint conv (um u0 : R) (n : nat) (x : R) : R * R :=
  match n with
  | O => (u0, um)
  | S k => let uv := conv um u0 k x in (fst uv - ee k * x * snd uv, fst uv)
  end.
Definition Pn n x := fst (conv 0 1 n x).
Definition Qn n x := fst (conv 1 1 n x).
Definition Pp n x := snd (conv 0 1 n x).
Definition Qp n x := snd (conv 1 1 n x).
Lemma conv_S um u0 k x : conv um u0 (S k) x = (fst (conv um u0 k x) - ee k * x * snd (conv um u0 k x), fst (conv um u0 k x)).
Proof. reflexivity. Qed.
Lemma Qn_S k x : Qn (S k) x = Qn k x - ee k * x * Qp k x. Proof. reflexivity. Qed.
Lemma Pn_S k x : Pn (S k) x = Pn k x - ee k * x * Pp k x. Proof. reflexivity. Qed.
Lemma Qp_S k x : Qp (S k) x = Qn k x. Proof. reflexivity. Qed.
Lemma Pp_S k x : Pp (S k) x = Pn k x. Proof. reflexivity. Qed.

Fixpoint pw (n : nat) : R := match n with O => 1 | S k => pw k * ee k end.
Lemma det n x : Pn n x * Qp n x - Pp n x * Qn n x = pw n * x ^ n.
Proof.
  induction n as [|n IH]; [cbn; ring|]. rewrite Qn_S, Pn_S, Qp_S, Pp_S. cbn [pw pow].
  transitivity (ee n * x * (Pn n x * Qp n x - Pp n x * Qn n x)); [ring|rewrite IH; ring].
Qed.

(** ** positivity *)
Definition top : R := (a + 1) / (a + b + 2).
Lemma top_1 : 0 < top /\ top < 1 /\ 1 - top = (b + 1) / (a + b + 2).
Proof.
  unfold top. split; [apply Rdiv_lt_0_compat; lra|]. split; [|field; lra].
  apply Rmult_lt_reg_r with (a + b + 2); [lra|]. unfold Rdiv. rewrite Rmult_assoc, Rinv_l by lra. lra.
Qed.
Lemma gam_even n : Nat.even n = true -> 1 / 2 <= gam n.
Proof.
  intros E. unfold gam. rewrite E. pose proof (pos_INR n). apply Rmult_le_reg_r with (a + INR n); [lra|].
  unfold Rdiv. rewrite (Rmult_assoc (a + _)), Rinv_l by lra. lra.
Qed.

Lemma odd_gap n x : Nat.even n = true -> INR n / 2 + 1 <= b -> 0 <= x <= top -> / (a + b + 2) <= 1 - ee n * x.
Proof.
  intros E Hn [Hx0 Hx]. unfold ee, qq, gam. rewrite E. pose proof (pos_INR n) as Hp. set (m := INR n / 2) in *.
  replace (INR n) with (2 * m) in * by (unfold m; field).
  set (e := (a + b + m) * ((a + m) / (a + 2 * m)) / (a + 2 * m + 1)).
  assert (He : 0 < e) by (unfold e; repeat (apply Rdiv_lt_0_compat || apply Rmult_lt_0_compat); lra).
  assert (e * x <= e * top) by (apply Rmult_le_compat_l; lra).
  assert (e * top <= 1 - / (a + b + 2)); [|lra].
  unfold e, top.
  apply Rmult_le_reg_r with ((a + 2 * m) * (a + 2 * m + 1) * (a + b + 2)); [repeat apply Rmult_lt_0_compat; lra|].
  replace ((a + b + m) * ((a + m) / (a + 2 * m)) / (a + 2 * m + 1) * ((a + 1) / (a + b + 2)) *
   ((a + 2 * m) * (a + 2 * m + 1) * (a + b + 2))) with ((a + b + m) * (a + m) * (a + 1)) by (field; lra).
  replace ((1 - / (a + b + 2)) * ((a + 2 * m) * (a + 2 * m + 1) * (a + b + 2)))
    with ((a + b + 1) * ((a + 2 * m) * (a + 2 * m + 1))) by (field; lra).
  set (be := b - m - 1). replace b with (m + 1 + be) by (unfold be; ring). assert (0 <= be) by (unfold be; lra). clearbody be.
  assert ((a + m) * (a + 1) <= (a + 2 * m) * (a + 2 * m + 1)) by (apply Rmult_le_compat; lra).
  assert (be * ((a + m) * (a + 1)) <= be * ((a + 2 * m) * (a + 2 * m + 1))) by (apply Rmult_le_compat_l; lra).
  assert ((a + m) * (a + 1) <= (a + 2 * m) * (a + m + 2)).
  { rewrite (Rmult_comm (a + m)), (Rmult_comm (a + 2 * m)). 
    assert ((a + 1) * (a + m) <= (a + m + 2) * (a + m)) by (apply Rmult_le_compat_r; lra).
    assert ((a + m + 2) * (a + m) <= (a + m + 2) * (a + 2 * m)) by (apply Rmult_le_compat_l; lra). lra. }
  assert ((a + 2 * m + 1) * ((a + m) * (a + 1)) <= (a + 2 * m + 1) * ((a + 2 * m) * (a + m + 2))) by (apply Rmult_le_compat_l; lra).
  nra.
Qed.

(** successive values of either sequence keep a ratio of at least [1/(a+b+2)] and of at least the chain value *)
Definition good (n : nat) (uv : R * R) : Prop :=
  0 < fst uv /\ 0 < snd uv /\ gam n * snd uv <= fst uv /\
  (Nat.even n = true -> INR n / 2 <= b -> snd uv <= fst uv) /\ / (a + b + 2) * snd uv <= fst uv.
Lemma good_step um u0 n x : 0 <= x <= top -> good n (conv um u0 n x) -> good (S n) (conv um u0 (S n) x).
Proof.
  intros Hx (U & V & G & F & D). rewrite conv_S. unfold good. cbn [fst snd].
  set (u := fst (conv um u0 n x)) in *. set (v := snd (conv um u0 n x)) in *.
  destruct top_1 as (T0 & T1 & T2). pose proof (pos_INR n) as Hn.
  set (dl := / (a + b + 2)) in *. assert (Hdl : 0 < dl < 1 / 2).
  { unfold dl. split; [apply Rinv_0_lt_compat; lra|]. replace (1 / 2) with (/ 2) by lra. apply Rinv_lt_contravar; lra. }
  assert (Hq : 0 < 1 - gam (S n)). { rewrite qq_gam. apply Rdiv_lt_0_compat; [apply qq_pos|lra]. }
  assert (Hg : gam n * x * v <= u).
  { destruct (Rle_dec 0 (gam n)) as [P|P].
    - assert (x * (gam n * v) <= 1 * (gam n * v)) by (apply Rmult_le_compat_r; [apply Rmult_le_pos; lra|lra]). lra.
    - assert (gam n * (x * v) <= 0); [|nra]. assert (0 <= x * v) by (apply Rmult_le_pos; lra).
      assert ((- gam n) * (x * v) >= 0); [|lra]. apply Rle_ge, Rmult_le_pos; lra. }
  assert (Hchain : gam (S n) * u <= u - ee n * x * v).
  { rewrite ee_chain. assert (0 <= (1 - gam (S n)) * (u - gam n * x * v)) by (apply Rmult_le_pos; lra). lra. }
  (* the part beyond the chain value *)
  assert (Hx1 : 0 <= gam (S n) -> 0 <= gam n -> (1 - x) * u <= u - ee n * x * v).
  { intros P1 P0. rewrite ee_chain. assert ((1 - gam (S n)) * (x * (gam n * v)) <= (1 - gam (S n)) * (x * u)).
    { apply Rmult_le_compat_l; [lra|]. apply Rmult_le_compat_l; lra. }
    assert (0 <= gam (S n) * (x * u)) by (apply Rmult_le_pos; [lra|apply Rmult_le_pos; lra]). lra. }
  assert (Hd : dl * u <= u - ee n * x * v).
  { destruct (Nat.even n) eqn:En.
    - pose proof (gam_even n En) as Ge.
      destruct (Rle_dec 0 (gam (S n))) as [P|P].
      + specialize (Hx1 P ltac:(lra)). assert (dl <= 1 - x).
        { assert (dl <= 1 - top); [|lra]. rewrite T2. unfold dl, Rdiv. rewrite <- (Rmult_1_l (/ _)) at 1.
          apply Rmult_le_compat_r; [left; apply Rinv_0_lt_compat; lra|lra]. }
        assert (dl * u <= (1 - x) * u) by (apply Rmult_le_compat_r; lra). lra.
      + assert (Hm : INR n / 2 + 1 <= b).
        { apply Rnot_lt_le. intros C. apply P. unfold gam. rewrite even_S, En. cbn [negb]. rewrite S_INR.
          apply Rdiv_le_0_compat; lra. }
        pose proof (odd_gap n x En Hm Hx) as O. specialize (F eq_refl ltac:(lra)).
        assert (He : 0 <= ee n). { unfold ee. apply Rdiv_le_0_compat; [|lra]. apply Rmult_le_pos; [left; apply qq_pos|lra]. }
        assert (ee n * x * v <= ee n * x * u) by (apply Rmult_le_compat_l; [apply Rmult_le_pos; lra|lra]).
        assert (dl * u <= (1 - ee n * x) * u) by (apply Rmult_le_compat_r; [lra|exact O]). lra.
    - assert (Ge : 1 / 2 <= gam (S n)) by (apply gam_even; rewrite even_S, En; reflexivity).
      assert (dl * u <= gam (S n) * u) by (apply Rmult_le_compat_r; lra). lra. }
  assert (Hpos : 0 < u - ee n * x * v).
  { assert (0 < dl * u) by (apply Rmult_lt_0_compat; lra). lra. }
  repeat split; auto.
  intros E Hm. rewrite even_S in E. destruct (Nat.even n) eqn:En; [discriminate|].
  rewrite S_INR in Hm. assert (ee n <= 0).
  { unfold ee, gam. rewrite En.
    assert (0 <= qq n * ((b - (INR n + 1) / 2) / (a + INR n)) / (a + INR n + 1)).
    { apply Rdiv_le_0_compat; [|lra]. apply Rmult_le_pos; [left; apply qq_pos|].
      apply Rdiv_le_0_compat; [lra|]. destruct n; [discriminate|]. rewrite S_INR in *. pose proof (pos_INR n). lra. }
    replace (qq n * (((INR n + 1) / 2 - b) / (a + INR n)) / (a + INR n + 1))
      with (- (qq n * ((b - (INR n + 1) / 2) / (a + INR n)) / (a + INR n + 1))) by (field; lra). lra. }
  assert (0 <= (- ee n) * (x * v)) by (apply Rmult_le_pos; [lra|apply Rmult_le_pos; lra]). lra.
Qed.
Lemma gam_0 : gam 0 = 1.
Proof. unfold gam. cbn. field. lra. Qed.
Lemma Q_good n x : 0 <= x <= top -> good n (conv 1 1 n x).
Proof.
  intros Hx. induction n as [|n IH]; [|apply good_step; auto].
  unfold good. rewrite gam_0. cbn. assert (0 < / (a + b + 2) < 1).
  { split; [apply Rinv_0_lt_compat; lra|]. rewrite <- Rinv_1. apply Rinv_lt_contravar; lra. }
  repeat split; intros; lra.
Qed.
Lemma P_good n x : 0 <= x <= top -> good (S n) (conv 0 1 (S n) x).
Proof.
  intros Hx. induction n as [|n IH]; [|apply good_step; auto].
  unfold good, gam. cbn. assert (0 < / (a + b + 2) < 1).
  { split; [apply Rinv_0_lt_compat; lra|]. rewrite <- Rinv_1. apply Rinv_lt_contravar; lra. }
  assert (((1 + 1) / 2 - b) / (a + 1) <= 1).
  { apply Rmult_le_reg_r with (a + 1); [lra|]. unfold Rdiv at 1. rewrite (Rmult_assoc (_ - _)), Rinv_l by lra. lra. }
  repeat split; intros; try lra.
Qed.
Lemma Q_pos n x : 0 <= x <= top -> 0 < Qn n x.
Proof. intros Hx. apply (Q_good n x Hx). Qed.
Lemma P_pos n x : 0 <= x <= top -> 0 < Pn n x.
Proof. intros Hx. destruct n; [cbn; lra|]. apply (P_good n x Hx). Qed.

(** ** derivatives *)
Definition dQ n x := (- qq n * Qn n x + (a + INR n + 1) * ee n * Qp n x) / (1 - x).
Definition dP n x := (a * Qn n x - (a - (a + b) * x) * Pn n x - x * qq n * Pn n x + x * ((a + INR n + 1) * ee n) * Pp n x) / (x * (1 - x)).
Lemma dQ_step n x : x < 1 -> dQ (S (S n)) x = dQ (S n) x - ee (S n) * (Qn n x + x * dQ n x).
Proof.
  intros Hx. unfold dQ. rewrite qq_SS. rewrite <- (Rmult_1_r (a + INR (S (S n)) + 1)).
  replace ((a + INR (S (S n)) + 1) * 1 * ee (S (S n))) with (1 + qq n - qq (S n) + (a + INR n + 1) * ee (S n))
    by (rewrite ee_tie, !S_INR; ring).
  rewrite !Qn_S, !Qp_S, !Qn_S, S_INR. field. lra.
Qed.
Lemma dP_step n x : 0 < x < 1 -> dP (S (S n)) x = dP (S n) x - ee (S n) * (Pn n x + x * dP n x).
Proof.
  intros Hx. unfold dP. rewrite qq_SS. rewrite <- (Rmult_1_r (a + INR (S (S n)) + 1)).
  replace ((a + INR (S (S n)) + 1) * 1 * ee (S (S n))) with (1 + qq n - qq (S n) + (a + INR n + 1) * ee (S n))
    by (rewrite ee_tie, !S_INR; ring).
  repeat (rewrite Qn_S || rewrite Pn_S || rewrite Qp_S || rewrite Pp_S). rewrite S_INR. field. lra.
Qed.
Lemma is_derive_val (f : R -> R) x l l' : is_derive f x l -> l = l' -> is_derive f x l'.
Proof. intros H <-. exact H. Qed.
Lemma Q_derive n x : 0 < x < 1 -> is_derive (Qn n) x (dQ n x) /\ is_derive (Qn (S n)) x (dQ (S n) x).
Proof.
  intros Hx. induction n as [|n [I1 I2]].
  - split.
    + apply (is_derive_val (fun _ => 1) x 0); [exact (is_derive_const (V := R_NormedModule) 1 x)|].
      unfold dQ, qq, ee, gam. cbn. unfold Qn, Qp. cbn. unfold qq. cbn. field. lra.
    + apply (is_derive_ext (fun u => 1 - ee 0 * u)); [intros t; unfold Qn; cbn; ring|].
      apply (is_derive_val _ _ (- ee 0)); [auto_derive; auto; ring|].
      unfold dQ, Qn, Qp. cbn. unfold ee, qq, gam. cbn. field. lra.
  - split; auto.
    apply (is_derive_ext (fun u => Qn (S n) u - ee (S n) * (u * Qn n u))); [intros t; match goal with |- ?u = ?v => change (@eq R u v) end; rewrite (Qn_S (S n)), Qp_S; ring|].
    rewrite dQ_step by lra.
    apply (is_derive_minus (Qn (S n)) (fun u => ee (S n) * (u * Qn n u))); auto.
    apply (is_derive_scal (fun u => u * Qn n u) x (ee (S n))).
    eapply is_derive_val; [apply (is_derive_mult (fun u => u) (Qn n)); [apply is_derive_id|exact I1|intros; apply Rmult_comm]|].
    unfold plus, mult, one; cbn. ring.
Qed.
Lemma P_derive n x : 0 < x < 1 -> is_derive (Pn n) x (dP n x) /\ is_derive (Pn (S n)) x (dP (S n) x).
Proof.
  intros Hx. induction n as [|n [I1 I2]].
  - split.
    + apply (is_derive_val (fun _ => 1) x 0); [exact (is_derive_const (V := R_NormedModule) 1 x)|].
      unfold dP, qq, ee, gam, Pn, Pp, Qn. cbn. field. lra.
    + apply (is_derive_ext (fun u => 1)); [intros t; unfold Pn; cbn; ring|].
      apply (is_derive_val _ _ 0); [exact (is_derive_const (V := R_NormedModule) 1 x)|].
      unfold dP, Pn, Pp, Qn. cbn. unfold ee, qq, gam. cbn. field. lra.
  - split; auto.
    apply (is_derive_ext (fun u => Pn (S n) u - ee (S n) * (u * Pn n u))); [intros t; match goal with |- ?u = ?v => change (@eq R u v) end; rewrite (Pn_S (S n)), Pp_S; ring|].
    rewrite dP_step by lra.
    apply (is_derive_minus (Pn (S n)) (fun u => ee (S n) * (u * Pn n u))); auto.
    apply (is_derive_scal (fun u => u * Pn n u) x (ee (S n))).
    eapply is_derive_val; [apply (is_derive_mult (fun u => u) (Pn n)); [apply is_derive_id|exact I1|intros; apply Rmult_comm]|].
    unfold plus, mult, one; cbn. ring.
Qed.
(** the denominators decrease *)
Lemma Q_anti n x y : 0 < x -> x <= y -> y <= top -> Qn n y <= Qn n x.
Proof.
  intros Hx Hxy Hy. destruct top_1 as (T0 & T1 & T2).
  assert (- Qn n x <= - Qn n y); [|lra].
  apply (incr_of (fun t => - Qn n t) (fun t => - dQ n t)); auto.
  - intros t Ht. apply (is_derive_opp (Qn n) t). apply Q_derive. lra.
  - intros t Ht. unfold dQ. rewrite ee_r.
    destruct (Q_good n t ltac:(lra)) as (_ & _ & G & _). fold (Qn n t) (Qp n t) in G.
    replace (- ((- qq n * Qn n t + qq n * gam n * Qp n t) / (1 - t))) with (qq n * (Qn n t - gam n * Qp n t) / (1 - t)) by (field; lra).
    apply Rdiv_le_0_compat; [|lra]. apply Rmult_le_pos; [left; apply qq_pos|lra].
Qed.
End Frac.
