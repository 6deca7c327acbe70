(** The incomplete gamma functions as primitives, and the power series of the lower one. *)
From Coq Require Import Reals Lra Lia Psatz.
From Coquelicot Require Import Coquelicot.
From Verif Require Import GamSpec GamInt GamLan4.
Local Open Scope R_scope.

Definition Up (a x : R) : R := RInt_gen (gamma_weight a) (at_point x) (Rbar_locally p_infty).
Definition low (a x : R) : R := Gam a - Up a x.

Lemma up_uniq a x U : is_upper_gamma a x U -> Up a x = U.
Proof.
  intros H. unfold Up.
  apply (@is_RInt_gen_unique R_CompleteNormedModule (at_point x) (Rbar_locally p_infty) _ _ _ U H).
Qed.
Lemma up_facts a : 0 < a -> exists l0 l1, lim0 (vol a) l0 /\ limi (vol a) l1 /\ Gam a = l1 - l0 /\
  (forall x, 0 < x -> is_upper_gamma a x (l1 - vol a x) /\ Up a x = l1 - vol a x /\ low a x = vol a x - l0).
Proof.
  intros Ha. destruct (vol_lims a Ha) as (l0 & l1 & H0 & H1 & _). exists l0, l1.
  pose proof (gamma_lims a l0 l1 H0 H1) as G. split; [auto|]. split; [auto|]. split; [auto|].
  intros x Hx. assert (H : is_upper_gamma a x (l1 - vol a x)).
  { apply (prim_gen_from (gamma_weight a) (vol a)); auto; intros; [apply vol_derive|apply w_cont]; auto. }
  split; [exact H|]. rewrite (up_uniq a x _ H). split; [auto|]. unfold low. rewrite (up_uniq a x _ H), G. ring.
Qed.
Lemma up_ex a x : 0 < a -> 0 < x -> is_upper_gamma a x (Up a x).
Proof. intros Ha Hx. destruct (up_facts a Ha) as (l0 & l1 & _ & _ & _ & H). destruct (H x Hx) as (A & -> & _). exact A. Qed.

Lemma near_pos (P : R -> Prop) t : 0 < t -> (forall u, 0 < u -> P u) -> locally t P.
Proof.
  intros Ht H. exists (mkposreal t Ht). intros y Hy. apply H.
  apply Rabs_def2 in Hy. cbn in Hy. unfold minus, plus, opp in Hy. cbn in Hy. lra.
Qed.
Lemma low_derive a t : 0 < a -> 0 < t -> is_derive (low a) t (gamma_weight a t).
Proof.
  intros Ha Ht. destruct (up_facts a Ha) as (l0 & l1 & _ & _ & _ & H).
  apply (is_derive_ext_loc (fun u => vol a u - l0)).
  - apply near_pos; auto. intros u Hu. destruct (H u Hu) as (_ & _ & ->). reflexivity.
  - replace (gamma_weight a t) with (gamma_weight a t - 0) by ring.
    apply (is_derive_minus (vol a) (fun _ => l0)); [apply vol_derive; auto|apply (@is_derive_const R_AbsRing)].
Qed.
Lemma up_derive a t : 0 < a -> 0 < t -> is_derive (Up a) t (- gamma_weight a t).
Proof.
  intros Ha Ht. apply (is_derive_ext (fun u => Gam a - low a u)).
  - intros u. unfold low. match goal with |- ?a = ?b => change (@eq R a b) end. ring.
  - replace (- gamma_weight a t) with (0 - gamma_weight a t) by ring.
    apply (is_derive_minus (fun _ => Gam a) (low a)); [apply (@is_derive_const R_AbsRing)|apply low_derive; auto].
Qed.
Lemma lim0_ext F G l : (forall x, 0 < x -> F x = G x) -> lim0 F l -> lim0 G l.
Proof.
  intros H HF. apply (filterlim_ext_loc F); auto. apply (near0 _ 1); [lra|]. intros x Hx. apply H. lra.
Qed.
Lemma limi_ext F G l m : (forall x, m < x -> F x = G x) -> limi F l -> limi G l.
Proof. intros H HF. apply (filterlim_ext_loc F); auto. apply (neari _ m). intros x Hx. apply H. lra. Qed.
Lemma low_lim a : 0 < a -> lim0 (low a) 0.
Proof.
  intros Ha. destruct (up_facts a Ha) as (l0 & l1 & L0 & _ & _ & H).
  apply (lim0_ext (fun x => vol a x + (fun _ => - l0) x)); [intros x Hx; destruct (H x Hx) as (_ & _ & ->); ring|].
  replace 0 with (l0 + - l0) by ring. apply lim0_plus; auto. apply filterlim_const.
Qed.
Lemma up_lim a : 0 < a -> limi (Up a) 0.
Proof.
  intros Ha. destruct (up_facts a Ha) as (l0 & l1 & _ & L1 & _ & H).
  apply (limi_ext (fun x => (fun _ => l1) x + -1 * vol a x) _ _ 0); [intros x Hx; destruct (H x Hx) as (_ & -> & _); ring|].
  replace 0 with (l1 + -1 * l1) by ring. apply limi_plus; [apply filterlim_const|]. apply limi_scal; auto.
Qed.

(** what grows from 0 stays above it *)
Lemma from_zero (F F' : R -> R) x : 0 < x -> (forall t, 0 < t <= x -> is_derive F t (F' t)) ->
  (forall t, 0 < t <= x -> 0 <= F' t) -> lim0 F 0 -> 0 <= F x.
Proof.
  intros Hx Hd Hp L.
  apply (filterlim_le (F := at_right 0) F (fun _ => F x) (Finite 0) (Finite (F x))).
  - apply (near0 _ x Hx). intros t Ht. apply (incr_of F F'); [lra| |]; intros; [apply Hd|apply Hp]; lra.
  - exact L.
  - apply filterlim_const.
Qed.
(** what falls to 0 at infinity lies above it *)
Lemma from_top (F F' : R -> R) x : (forall t, x <= t -> is_derive F t (F' t)) ->
  (forall t, x <= t -> F' t <= 0) -> limi F 0 -> 0 <= F x.
Proof.
  intros Hd Hp L.
  apply (filterlim_le (F := Rbar_locally p_infty) F (fun _ => F x) (Finite 0) (Finite (F x))).
  - apply (neari _ x). intros t Ht.
    assert (- F x <= - F t); [|lra]. apply (incr_of (fun u => - F u) (fun u => - F' u)); [lra| |].
    + intros u Hu. apply (is_derive_opp F). apply Hd. lra.
    + intros u Hu. specialize (Hp u ltac:(lra)). lra.
  - exact L.
  - apply filterlim_const.
Qed.

(** ** The power series *)
Fixpoint asc (a : R) (n : nat) : R := match n with O => 1 | S m => asc a m * (a + INR (S m)) end.
Definition ct (a : R) (n : nat) (x : R) : R := x ^ n / asc a n.
Fixpoint Sn (a : R) (n : nat) (x : R) : R := match n with O => 1 | S m => Sn a m x + ct a (S m) x end.

Lemma asc_pos a n : 0 < a -> 0 < asc a n.
Proof.
  intros Ha. induction n; cbn [asc]; [lra|]. apply Rmult_lt_0_compat; auto. pose proof (pos_INR (S n)). lra.
Qed.
Lemma ct_0 a x : ct a 0 x = 1.
Proof. unfold ct. cbn. lra. Qed.
Lemma ct_S a n x : 0 < a -> ct a (S n) x = ct a n x * (x / (a + INR (S n))).
Proof.
  intros Ha. unfold ct. cbn [asc pow]. pose proof (asc_pos a n Ha). pose proof (pos_INR (S n)).
  change (match n with O => 1 | S _ => INR n + 1 end) with (INR (S n)). field. split; lra.
Qed.
Lemma ct_pos a n x : 0 < a -> 0 < x -> 0 < ct a n x.
Proof. intros Ha Hx. unfold ct. apply Rdiv_lt_0_compat; [apply pow_lt; auto|apply asc_pos; auto]. Qed.
Lemma ct_derive a n t : 0 < a -> 0 < t -> is_derive (ct a n) t (INR n * ct a n t / t).
Proof.
  intros Ha Ht. unfold ct. pose proof (asc_pos a n Ha). destruct n.
  - cbn [pow INR]. replace (0 * (1 / asc a 0) / t) with 0 by (cbn; field; lra). apply (@is_derive_const R_AbsRing).
  - apply (is_derive_ext (fun u => / asc a (S n) * u ^ S n)); [intros; unfold Rdiv; apply Rmult_comm|].
    evar_last; [apply (is_derive_scal (fun u => u ^ S n) t); apply (is_derive_pow (fun u => u) (S n) t 1); apply (@is_derive_id R_AbsRing)|].
    match goal with |- ?a = ?b => change (@eq R a b) end. cbn [Nat.pred pow]. set (k := INR (S n)). set (b := asc a (S n)) in *. field. split; lra.
Qed.
Lemma Sn_derive a n t : 0 < a -> 0 < t -> is_derive (Sn a n) t (((t - a) * Sn a n t + a - t * ct a n t) / t).
Proof.
  intros Ha Ht. induction n.
  - cbn [Sn]. rewrite ct_0. replace (((t - a) * 1 + a - t * 1) / t) with 0 by (field; lra).
    apply (@is_derive_const R_AbsRing).
  - cbn [Sn]. evar_last.
    + apply (is_derive_plus (Sn a n) (ct a (S n))); [exact IHn|apply ct_derive; auto].
    + unfold plus. cbn [AbelianGroup.plus]. cbn -[INR].
      match goal with |- ?a = ?b => change (@eq R a b) end.
      rewrite (ct_S a n t Ha). pose proof (pos_INR (S n)). field. split; lra.
Qed.

Lemma wt_derive a t : 0 < t -> is_derive (fun u => Rpower u a * exp (- u)) t ((a - t) * gamma_weight a t).
Proof.
  intros Ht. unfold gamma_weight. evar_last.
  - apply (is_derive_mult (fun u => Rpower u a) (fun u => exp (- u)) t (a * Rpower t (a - 1)) (- exp (- t))).
    + apply pow_derive; auto.
    + auto_derive; auto. ring.
    + intros u v; exact (Rmult_comm u v).
  - unfold plus, mult. cbn. match goal with |- ?a = ?b => change (@eq R a b) end.
    replace (Rpower t a) with (t * Rpower t (a - 1)); [ring|].
    rewrite <- (Rpower_1 t) at 1 by auto. rewrite <- Rpower_plus. f_equal. ring.
Qed.
Lemma w_t a t : 0 < t -> Rpower t a * exp (- t) = t * gamma_weight a t.
Proof.
  intros Ht. unfold gamma_weight. rewrite <- Rmult_assoc. f_equal.
  rewrite <- (Rpower_1 t) at 2 by auto. rewrite <- Rpower_plus. f_equal. ring.
Qed.

(** t^a e^-t times a function *)
Lemma wt_times a (f : R -> R) d t : 0 < t -> is_derive f t d ->
  is_derive (fun u => Rpower u a * exp (- u) * f u) t (gamma_weight a t * ((a - t) * f t + t * d)).
Proof.
  intros Ht Hf. evar_last.
  - apply (is_derive_mult (fun u => Rpower u a * exp (- u)) f); [apply wt_derive; auto|exact Hf|intros u v; exact (Rmult_comm u v)].
  - unfold plus, mult. cbn. match goal with |- ?a = ?b => change (@eq R a b) end.
    rewrite w_t by auto. ring.
Qed.
Lemma wt_lim0 a (f : R -> R) l : 0 < a -> lim0 f l -> lim0 (fun u => Rpower u a * exp (- u) * f u) 0.
Proof.
  intros Ha Hf. replace 0 with (0 * l) by ring.
  apply (filterlim_comp_2 (G := locally 0) (H := locally l) (fun u => Rpower u a * exp (- u)) f Rmult).
  - apply pow0_lim; auto.
  - exact Hf.
  - apply (filterlim_mult (K := R_AbsRing) 0 l).
Qed.
Lemma ct_lim0 a n : lim0 (ct a n) (ct a n 0).
Proof.
  apply cont_lim0. apply (ex_derive_continuous (ct a n)). unfold ct, Rdiv. auto_derive. auto.
Qed.
Lemma Sn_lim0 a n : exists l, lim0 (Sn a n) l.
Proof.
  induction n as [|n [l IH]]; cbn [Sn]; [exists 1; apply filterlim_const|].
  eexists. apply lim0_plus; [exact IH|apply (ct_lim0 a (S n))].
Qed.

Lemma series_low a n x : 0 < a -> 0 < x ->
  0 <= low a x - Rpower x a * exp (- x) * (Sn a n x / a).
Proof.
  intros Ha Hx.
  apply (from_zero (fun t => low a t - Rpower t a * exp (- t) * (Sn a n t / a)) (fun t => gamma_weight a t * (t * ct a n t / a)) x Hx).
  - intros t Ht. evar_last.
    + apply (is_derive_minus (low a)); [apply low_derive; lra|].
      apply wt_times; [lra|]. apply (is_derive_ext (fun u => / a * Sn a n u)); [intros; unfold Rdiv; apply Rmult_comm|].
      apply (is_derive_scal (Sn a n) t (/ a)). apply Sn_derive; lra.
    + unfold minus, plus, opp, scal. cbn. unfold mult. cbn. match goal with |- ?a = ?b => change (@eq R a b) end. field. split; lra.
  - intros t Ht. apply Rmult_le_pos; [left; apply w_pos|]. apply Rdiv_le_0_compat; [|lra].
    apply Rmult_le_pos; [lra|]. left. apply ct_pos; lra.
  - destruct (Sn_lim0 a n) as [l Hl].
    apply (lim0_ext (fun t => low a t + (-1) * (Rpower t a * exp (- t) * (/ a * Sn a n t)))).
    { intros t Ht. field. lra. }
    replace 0 with (0 + (-1) * 0) by ring. apply lim0_plus; [apply low_lim; auto|].
    apply (lim0_scal (fun t => Rpower t a * exp (- t) * (/ a * Sn a n t)) (-1)).
    apply (wt_lim0 a _ (/ a * l)); auto. apply lim0_scal. auto.
Qed.
Lemma series_high a n x : 0 < a -> 0 < x -> x < a + INR n + 1 ->
  low a x - Rpower x a * exp (- x) * (Sn a n x / a) <=
  Rpower x a * exp (- x) * (ct a n x * x / (a + INR n + 1 - x) / a).
Proof.
  intros Ha Hx Hn.
  set (T := (a + INR n + 1) / (a + INR n + 1 - x) / a).
  assert (HT : 0 <= T) by (unfold T; repeat apply Rdiv_le_0_compat; lra).
  assert (E : ct a n x * x / (a + INR n + 1 - x) / a = T * ct a (S n) x).
  { rewrite ct_S by auto. unfold T. rewrite S_INR. field. pose proof (pos_INR n). repeat split; lra. }
  rewrite E.
  enough (0 <= Rpower x a * exp (- x) * (Sn a n x / a + T * ct a (S n) x) - low a x) by lra.
  apply (from_zero (fun t => Rpower t a * exp (- t) * (Sn a n t / a + T * ct a (S n) t) - low a t)
     (fun t => gamma_weight a t * (T * ct a (S n) t * (a + INR n + 1 - t) - (a + INR n + 1) * ct a (S n) t / a)) x Hx).
  - intros t Ht. evar_last.
    + apply (is_derive_minus (fun t => Rpower t a * exp (- t) * (Sn a n t / a + T * ct a (S n) t)) (low a)); [|apply low_derive; lra].
      apply wt_times; [lra|].
      apply (is_derive_plus (fun t => Sn a n t / a) (fun t => T * ct a (S n) t)).
      * apply (is_derive_ext (fun u => / a * Sn a n u)); [intros; unfold Rdiv; apply Rmult_comm|].
        apply (is_derive_scal (Sn a n) t (/ a)). apply Sn_derive; lra.
      * apply (is_derive_scal (ct a (S n)) t T). apply ct_derive; lra.
    + unfold minus, plus, opp, scal. cbn -[INR Sn ct]. unfold mult. cbn -[INR Sn ct]. match goal with |- ?a = ?b => change (@eq R a b) end.
      rewrite (ct_S a n t Ha). rewrite S_INR. field. pose proof (pos_INR n). repeat split; lra.
  - intros t Ht. apply Rmult_le_pos; [left; apply w_pos|].
    assert (P : 0 < ct a (S n) t) by (apply ct_pos; lra). pose proof (pos_INR n).
    replace (T * ct a (S n) t * (a + INR n + 1 - t) - (a + INR n + 1) * ct a (S n) t / a) with
      (ct a (S n) t * (a + INR n + 1) / a * ((x - t) / (a + INR n + 1 - x))) by (unfold T; field; lra).
    apply Rmult_le_pos; (apply Rdiv_le_0_compat; [|lra]); [apply Rmult_le_pos; lra|lra].
  - destruct (Sn_lim0 a n) as [l Hl].
    apply (lim0_ext (fun t => Rpower t a * exp (- t) * (/ a * Sn a n t + T * ct a (S n) t) + (-1) * low a t)).
    { intros t Ht. field. lra. }
    replace 0 with (0 + (-1) * 0) by ring. apply lim0_plus; [|apply lim0_scal, low_lim; auto].
    eapply (wt_lim0 a (fun t => / a * Sn a n t + T * ct a (S n) t)); auto. apply lim0_plus; [apply lim0_scal; exact Hl|apply lim0_scal, (ct_lim0 a (S n))].
Qed.
