(** The continued fraction of the upper incomplete gamma function: convergents and their distance from it. *)
From Coq Require Import Reals Lra Lia Psatz.
From Coquelicot Require Import Coquelicot.
From Verif Require Import GamSpec GamInt GamLan4 GamInc.
Local Open Scope R_scope.

(** two consecutive terms of the recurrence both the numerators and the denominators obey *)
Fixpoint rec2 (a f1 t : R) (n : nat) : R * R :=
  match n with
  | O => (1, f1)
  | S m => let '(u, v) := rec2 a f1 t m in
           (v, (t + 2 * (INR m + 2) - a) * v - (INR m + 1) * (INR m + 2 - a) * u)
  end.
Definition qs (a : R) (n : nat) (t : R) : R := fst (rec2 a (t + 2 - a) t n).
Definition ps (a : R) (n : nat) (t : R) : R := fst (rec2 a (t + 1) t n).
Definition cf (a : R) (n : nat) (t : R) : R := ps a n t / (t * qs a n t).

Lemma rec2_snd a f t n : snd (rec2 a f t n) = fst (rec2 a f t (S n)).
Proof. cbn [rec2]. destruct (rec2 a f t n). reflexivity. Qed.
Lemma rec2_step a f t n : fst (rec2 a f t (S (S n))) =
  (t + 2 * (INR n + 2) - a) * fst (rec2 a f t (S n)) - (INR n + 1) * (INR n + 2 - a) * fst (rec2 a f t n).
Proof.
  rewrite <- (rec2_snd a f t (S n)), <- (rec2_snd a f t n). cbn [rec2]. destruct (rec2 a f t n). reflexivity.
Qed.
Lemma qs_0 a t : qs a 0 t = 1. Proof. reflexivity. Qed.
Lemma qs_1 a t : qs a 1 t = t + 2 - a. Proof. reflexivity. Qed.
Lemma ps_0 a t : ps a 0 t = 1. Proof. reflexivity. Qed.
Lemma ps_1 a t : ps a 1 t = t + 1. Proof. reflexivity. Qed.
Lemma qs_S a n t : qs a (S (S n)) t = (t + 2 * (INR n + 2) - a) * qs a (S n) t - (INR n + 1) * (INR n + 2 - a) * qs a n t.
Proof. apply rec2_step. Qed.
Lemma ps_S a n t : ps a (S (S n)) t = (t + 2 * (INR n + 2) - a) * ps a (S n) t - (INR n + 1) * (INR n + 2 - a) * ps a n t.
Proof. apply rec2_step. Qed.

(** ** Growth *)
Definition starts (a x f : R) : Prop := 0 < f - 1 /\ (a <= 1 -> x <= f - 1).
Lemma grow1 a x f : a < x -> 0 < x -> starts a x f -> forall n,
  0 < fst (rec2 a f x n) /\ (INR n + 1) * fst (rec2 a f x n) < fst (rec2 a f x (S n)) /\
  (a <= INR n + 1 -> (INR n + 1 + x) * fst (rec2 a f x n) <= fst (rec2 a f x (S n))).
Proof.
  intros Hax Hx [H1 H2]. induction n as [|n (P & Q & R)].
  - cbn [rec2 fst INR]. split; [lra|]. split; [lra|]. intros HA. assert (HB : a <= 1) by lra. specialize (H2 HB). lra.
  - rewrite (rec2_step a f x n), S_INR. set (u := fst (rec2 a f x n)) in *. set (v := fst (rec2 a f x (S n))) in *.
    pose proof (pos_INR n). assert (V : 0 < v) by nra. split; [auto|].
    destruct (Rle_dec a (INR n + 2)) as [L|L].
    + assert (B : (INR n + 1) * (INR n + 2 - a) * u <= (INR n + 2 - a) * v).
      { replace ((INR n + 1) * (INR n + 2 - a) * u) with ((INR n + 2 - a) * ((INR n + 1) * u)) by ring.
        apply Rmult_le_compat_l; lra. }
      assert (C : (INR n + 1 + 1 + x) * v <= (x + 2 * (INR n + 2) - a) * v - (INR n + 1) * (INR n + 2 - a) * u) by lra.
      split; [|auto]. assert (0 < x * v) by (apply Rmult_lt_0_compat; auto). lra.
    + assert (B : 0 <= (INR n + 1) * (a - (INR n + 2)) * u).
      { apply Rmult_le_pos; [apply Rmult_le_pos; lra|lra]. }
      split; [|intros; lra].
      assert ((INR n + 1 + 1) * v < (x + 2 * (INR n + 2) - a) * v) by (apply Rmult_lt_compat_r; lra). lra.
Qed.
Lemma sqrt_step x K a v : 1 <= x -> a <= x -> a <= K + 1 -> 1 <= K -> v = sqrt (x * K) / 2 ->
  sqrt (x * (K + 1)) / 2 * (K + v) <= x * (K + v) + (K + 1 - a) * v.
Proof.
  intros Hx Ha Hk HK Hv. assert (X : 0 <= x * K) by nra.
  pose proof (sqrt_pos (x * K)) as S0. pose proof (sqrt_sqrt (x * K) X) as S1.
  pose proof (sqrt_pos (x * (K + 1))) as T0. pose proof (sqrt_sqrt (x * (K + 1)) ltac:(nra)) as T1.
  set (w := sqrt (x * (K + 1)) / 2) in *.
  assert (v0 : 0 <= v) by lra. assert (v2 : 4 * (v * v) = x * K) by (rewrite Hv; lra).
  assert (w0 : 0 <= w) by (unfold w; lra). assert (w2 : 4 * (w * w) = x * (K + 1)) by (unfold w; lra).
  clearbody w. clear Hv S0 S1 T0 T1.
  destruct (Rle_dec (K + 1) (4 * x)) as [L|L].
  - assert (w <= x) by (apply Rnot_lt_le; intros A; nra).
    assert (0 <= (K + 1 - a) * v) by (apply Rmult_le_pos; lra).
    assert (w * (K + v) <= x * (K + v)) by (apply Rmult_le_compat_r; lra). lra.
  - assert (W : w <= v + x / 2) by (apply Rnot_lt_le; intros A; nra).
    assert (VK : v <= K / 2) by (apply Rnot_lt_le; intros A; nra).
    apply Rle_trans with ((v + x / 2) * (K + v)); [apply Rmult_le_compat_r; lra|].
    assert ((K + 1 - x) * v <= (K + 1 - a) * v) by (apply Rmult_le_compat_r; lra).
    enough ((v + x / 2) * (K + v) <= x * (K + v) + (K + 1 - x) * v) by lra.
    nra.
Qed.
Lemma grow2 a x f : a < x -> 1 <= x -> starts a x f -> forall n, a <= INR n + 1 ->
  (INR n + 1 + sqrt (x * (INR n + 1)) / 2) * fst (rec2 a f x n) <= fst (rec2 a f x (S n)).
Proof.
  intros Hax Hx Hs. induction n; intros Hn.
  - destruct (grow1 a x f Hax ltac:(lra) Hs 0) as (P & _ & Q). specialize (Q Hn).
    apply Rle_trans with (2 := Q). apply Rmult_le_compat_r; [lra|]. cbn [INR]. rewrite Rplus_0_l, Rmult_1_r.
    pose proof (sqrt_pos x). pose proof (sqrt_sqrt x ltac:(lra)). nra.
  - rewrite S_INR in *. pose proof (pos_INR n).
    destruct (grow1 a x f Hax ltac:(lra) Hs n) as (P & P' & _).
    destruct (grow1 a x f Hax ltac:(lra) Hs (S n)) as (Q & _ & Q'). rewrite S_INR in Q'. specialize (Q' Hn).
    destruct (Rle_dec a (INR n + 1)) as [L|L].
    + specialize (IHn L). rewrite (rec2_step a f x n). set (K := INR n + 1) in *.
      set (u := fst (rec2 a f x n)) in *. set (w := fst (rec2 a f x (S n))) in *.
      set (v := sqrt (x * K) / 2) in *. assert (v0 : 0 <= v) by (unfold v; pose proof (sqrt_pos (x * K)); lra).
      pose proof (sqrt_step x K a v Hx ltac:(lra) ltac:(lra) ltac:(unfold K; lra) eq_refl) as ST.
      replace (INR n + 2) with (K + 1) by (unfold K; ring).
      assert (K1 : 1 <= K) by (unfold K; lra). clearbody K v.
      set (r := sqrt (x * (K + 1)) / 2) in *. clearbody r u w.
      assert (B : (K + 1 - a) * (K * ((K + v) * u)) <= (K + 1 - a) * (K * w)).
      { apply Rmult_le_compat_l; [lra|]. apply Rmult_le_compat_l; lra. }
      apply Rmult_le_reg_l with (K + v); [lra|].
      replace ((K + v) * ((x + 2 * (K + 1) - a) * w - K * (K + 1 - a) * u)) with
        ((K + v) * (x + 2 * (K + 1) - a) * w - (K + 1 - a) * (K * ((K + v) * u))) by ring.
      apply Rle_trans with ((K + v) * (x + 2 * (K + 1) - a) * w - (K + 1 - a) * (K * w)); [|lra].
      assert (C : r * (K + v) * w <= (x * (K + v) + (K + 1 - a) * v) * w) by (apply Rmult_le_compat_r; lra).
      lra.
    + apply Rle_trans with (2 := Q'). apply Rmult_le_compat_r; [lra|]. apply Rplus_le_compat_l.
      assert (INR n + 1 + 1 <= 4 * x) by lra.
      pose proof (sqrt_pos (x * (INR n + 1 + 1))). pose proof (sqrt_sqrt (x * (INR n + 1 + 1)) ltac:(nra)). nra.
Qed.
Lemma q_starts a x : a < x -> 0 < x -> starts a x (x + 2 - a).
Proof. intros. split; intros; lra. Qed.
Lemma p_starts a x : a < x -> 0 < x -> starts a x (x + 1).
Proof. intros. split; intros; lra. Qed.
Lemma qs_pos a x n : a < x -> 0 < x -> 0 < qs a n x.
Proof. intros H H0. apply (grow1 a x _ H H0 (q_starts a x H H0) n). Qed.
Lemma ps_pos a x n : a < x -> 0 < x -> 0 < ps a n x.
Proof. intros H H0. apply (grow1 a x _ H H0 (p_starts a x H H0) n). Qed.
Lemma cf_pos a x n : a < x -> 0 < x -> 0 < cf a n x.
Proof. intros. unfold cf. apply Rdiv_lt_0_compat; [apply ps_pos; auto|apply Rmult_lt_0_compat; auto; apply qs_pos; auto]. Qed.

(** ** Differences of convergents *)
Fixpoint V (a : R) (n : nat) : R := match n with O => a - 1 | S m => (INR m + 1) * (INR m + 2 - a) * V a m end.
Lemma V_eq a n t : ps a (S n) t * qs a n t - qs a (S n) t * ps a n t = V a n.
Proof.
  induction n; [rewrite ps_1, qs_1, ps_0, qs_0; cbn; ring|]. cbn [V]. rewrite <- IHn, ps_S, qs_S. ring.
Qed.

(** ** Derivatives *)
Lemma lin_derive (f g : R -> R) (A B : R) f' g' t : is_derive f t f' -> is_derive g t g' ->
  is_derive (fun u => (u + A) * f u - B * g u) t (f t + (t + A) * f' - B * g').
Proof.
  intros Hf Hg. evar_last.
  - apply (is_derive_minus (fun u => (u + A) * f u) (fun u => B * g u)).
    + apply (is_derive_mult (fun u => u + A) f t 1 f'); [auto_derive; auto|exact Hf|intros u v; exact (Rmult_comm u v)].
    + apply (is_derive_scal g t B). exact Hg.
  - unfold minus, plus, opp, mult. cbn. match goal with |- ?a = ?b => change (@eq R a b) end. ring.
Qed.
Lemma qs_derive2 a t : 0 < t -> forall n,
  is_derive (qs a n) t ((qs a (S n) t - (t + INR n + 2 - a) * qs a n t) / t) /\
  is_derive (qs a (S n)) t ((qs a (S (S n)) t - (t + INR (S n) + 2 - a) * qs a (S n) t) / t).
Proof.
  intros Ht. induction n as [|n [A B]].
  - split.
    + apply (is_derive_ext (fun _ => 1)); [reflexivity|]. rewrite qs_1, qs_0. cbn [INR].
      replace ((t + 2 - a - (t + 0 + 2 - a) * 1) / t) with 0 by (field; lra). apply (@is_derive_const R_AbsRing).
    + apply (is_derive_ext (fun u => u + 2 - a)); [reflexivity|]. rewrite qs_S, qs_1, qs_0. cbn [INR].
      auto_derive; auto. field. lra.
  - split; [exact B|].
    apply (is_derive_ext (fun u => (u + (2 * (INR n + 2) - a)) * qs a (S n) u - (INR n + 1) * (INR n + 2 - a) * qs a n u)).
    { intros u. rewrite qs_S. match goal with |- ?a = ?b => change (@eq R a b) end. ring. }
    evar_last; [apply lin_derive; [exact B|exact A]|].
    match goal with |- ?a = ?b => change (@eq R a b) end.
    rewrite (qs_S a (S n)), (qs_S a n), !S_INR. set (u := qs a n t). set (v := qs a (S n) t). set (k := INR n).
    field. lra.
Qed.
Lemma qs_derive a n t : 0 < t -> is_derive (qs a n) t ((qs a (S n) t - (t + INR n + 2 - a) * qs a n t) / t).
Proof. intros. apply qs_derive2; auto. Qed.
Lemma ps_derive2 a t : 0 < t -> forall n,
  is_derive (ps a n) t ((ps a (S n) t - (INR n + 1) * ps a n t - t * qs a n t) / t) /\
  is_derive (ps a (S n)) t ((ps a (S (S n)) t - (INR (S n) + 1) * ps a (S n) t - t * qs a (S n) t) / t).
Proof.
  intros Ht. induction n as [|n [A B]].
  - split.
    + apply (is_derive_ext (fun _ => 1)); [reflexivity|]. rewrite ps_1, ps_0, qs_0. cbn [INR].
      replace ((t + 1 - (0 + 1) * 1 - t * 1) / t) with 0 by (field; lra). apply (@is_derive_const R_AbsRing).
    + apply (is_derive_ext (fun u => u + 1)); [reflexivity|]. rewrite ps_S, ps_1, ps_0, qs_1. cbn [INR].
      auto_derive; auto. field. lra.
  - split; [exact B|].
    apply (is_derive_ext (fun u => (u + (2 * (INR n + 2) - a)) * ps a (S n) u - (INR n + 1) * (INR n + 2 - a) * ps a n u)).
    { intros u. rewrite ps_S. match goal with |- ?a = ?b => change (@eq R a b) end. ring. }
    evar_last; [apply lin_derive; [exact B|exact A]|].
    match goal with |- ?a = ?b => change (@eq R a b) end.
    rewrite (ps_S a (S n)), (ps_S a n), (qs_S a n), !S_INR. set (u := ps a n t). set (v := ps a (S n) t). set (k := INR n).
    set (u' := qs a n t). set (v' := qs a (S n) t).
    field. lra.
Qed.
Lemma ps_derive a n t : 0 < t -> is_derive (ps a n) t ((ps a (S n) t - (INR n + 1) * ps a n t - t * qs a n t) / t).
Proof. intros. apply ps_derive2; auto. Qed.

Lemma qs_mono a n x t : a < x -> 1 <= x -> 0 < a -> x <= t -> qs a n x <= qs a n t.
Proof.
  intros H Hx Ha Ht. destruct n; [rewrite !qs_0; lra|].
  apply (incr_of (qs a (S n)) (fun u => (qs a (S (S n)) u - (u + INR (S n) + 2 - a) * qs a (S n) u) / u)); auto.
  - intros u Hu. apply qs_derive. lra.
  - intros u Hu. apply Rdiv_le_0_compat; [|lra]. rewrite qs_S, S_INR.
    destruct (grow1 a u _ ltac:(lra) ltac:(lra) (q_starts a u ltac:(lra) ltac:(lra)) n) as (P & Q & R).
    change (fst (rec2 a (u + 2 - a) u n)) with (qs a n u) in *. change (fst (rec2 a (u + 2 - a) u (S n))) with (qs a (S n) u) in *.
    pose proof (pos_INR n). set (f := qs a n u) in *. set (g := qs a (S n) u) in *. clearbody f g.
    replace ((u + 2 * (INR n + 2) - a) * g - (INR n + 1) * (INR n + 2 - a) * f - (u + (INR n + 1) + 2 - a) * g)
      with ((INR n + 1) * (g - (INR n + 2 - a) * f)) by ring.
    apply Rmult_le_pos; [lra|]. destruct (Rle_dec a (INR n + 1)) as [L|L]; [specialize (R L)|]; nra.
Qed.

(** ** The distance from the function *)
Definition X (a t : R) : R := Rpower t a * exp (- t).
Definition Hk (a : R) (n : nat) (t : R) : R := Up a t - X a t * cf a n t.
Lemma Hk_derive a n t : 0 < a < t -> is_derive (Hk a n) t (- gamma_weight a t * (V a n / (t * (qs a n t * qs a n t)))).
Proof.
  intros Ha. assert (Ht : 0 < t) by lra. pose proof (qs_pos a t n ltac:(lra) Ht) as Q.
  pose proof (qs_derive a n t Ht) as DQ. pose proof (ps_derive a n t Ht) as DP.
  set (q' := (qs a (S n) t - (t + INR n + 2 - a) * qs a n t) / t) in *.
  set (p' := (ps a (S n) t - (INR n + 1) * ps a n t - t * qs a n t) / t) in *.
  assert (DC : is_derive (cf a n) t ((p' * (t * qs a n t) - ps a n t * (qs a n t + t * q')) / (t * qs a n t) ^ 2)).
  { apply (is_derive_div (ps a n) (fun u => u * qs a n u) t p' (qs a n t + t * q')); auto.
    - evar_last; [apply (is_derive_mult (fun u => u) (qs a n) t 1 q'); [apply (@is_derive_id R_AbsRing)|exact DQ|intros u v; exact (Rmult_comm u v)]|].
      unfold plus, mult. cbn. match goal with |- ?a = ?b => change (@eq R a b) end. ring.
    - nra. }
  unfold Hk, X. evar_last.
  - apply (is_derive_minus (Up a)); [apply up_derive; lra|]. apply (wt_times a (cf a n)); [auto|exact DC].
  - unfold minus, plus, opp. cbn -[pow]. match goal with |- ?a = ?b => change (@eq R a b) end.
    rewrite <- (V_eq a n t). unfold cf, p', q'. field. split; lra.
Qed.
Lemma qs_ge1 a n t : 0 < a < t -> 1 <= t -> 1 <= qs a n t.
Proof.
  intros Ha Ht. induction n; [rewrite qs_0; lra|].
  destruct (grow1 a t _ ltac:(lra) ltac:(lra) (q_starts a t ltac:(lra) ltac:(lra)) n) as (P & Q & _).
  change (fst (rec2 a (t + 2 - a) t n)) with (qs a n t) in *. change (fst (rec2 a (t + 2 - a) t (S n))) with (qs a (S n) t) in *.
  pose proof (pos_INR n). nra.
Qed.
Lemma cf_step a n t : 0 < a < t -> cf a (S n) t - cf a n t = V a n / (t * (qs a (S n) t * qs a n t)).
Proof.
  intros Ha. pose proof (qs_pos a t n ltac:(lra) ltac:(lra)). pose proof (qs_pos a t (S n) ltac:(lra) ltac:(lra)).
  rewrite <- (V_eq a n t). unfold cf. field. repeat split; lra.
Qed.
Lemma cf_bound a n : exists M, 0 <= M /\ forall t, 0 < a < t -> 1 <= t -> Rabs (cf a n t) <= M.
Proof.
  induction n as [|n [M [M0 IH]]].
  - exists 1. split; [lra|]. intros t Ht H1. unfold cf. rewrite ps_0, qs_0.
    rewrite Rabs_right by (apply Rle_ge, Rdiv_le_0_compat; lra).
    replace (1 / (t * 1)) with (/ t) by (field; lra). rewrite <- Rinv_1. apply inv_le. lra.
  - exists (M + Rabs (V a n)). split; [pose proof (Rabs_pos (V a n)); lra|]. intros t Ht H1.
    replace (cf a (S n) t) with (cf a n t + (cf a (S n) t - cf a n t)) by ring. rewrite cf_step by auto.
    apply Rle_trans with (1 := Rabs_triang _ _). apply Rplus_le_compat; [apply IH; auto|].
    pose proof (qs_ge1 a n t Ht H1). pose proof (qs_ge1 a (S n) t Ht H1).
    assert (1 <= t * (qs a (S n) t * qs a n t)).
    { assert (1 <= qs a (S n) t * qs a n t) by nra. nra. }
    unfold Rdiv. rewrite Rabs_mult, (Rabs_right (/ _)) by (apply Rle_ge; left; apply Rinv_0_lt_compat; lra).
    rewrite <- (Rmult_1_r (Rabs (V a n))) at 2. apply Rmult_le_compat_l; [apply Rabs_pos|].
    rewrite <- Rinv_1. apply inv_le. lra.
Qed.
Lemma Hk_lim a n : 0 < a -> limi (Hk a n) 0.
Proof.
  intros Ha. destruct (cf_bound a n) as (M & M0 & HM).
  assert (L : limi (fun t => X a t * cf a n t) 0).
  { assert (L1 : limi (fun t => M * X a t) 0).
    { replace 0 with (M * 0) by ring. apply (limi_scal (X a)). apply pow_exp_lim. }
    apply (filterlim_le_le (F := Rbar_locally p_infty) (fun t => -1 * (M * X a t)) (fun t => X a t * cf a n t) (fun t => M * X a t) (Finite 0)).
    - apply (neari _ (a + 1)). intros t Ht. specialize (HM t ltac:(lra) ltac:(lra)). apply Rabs_le_between in HM.
      assert (0 < X a t) by (apply Rmult_lt_0_compat; apply exp_pos). split; nra.
    - replace (Finite 0) with (Finite (-1 * 0)) by (f_equal; ring). apply (limi_scal (fun t => M * X a t)). exact L1.
    - exact L1. }
  assert (Z : limi (fun t => Up a t + -1 * (X a t * cf a n t)) (0 + -1 * 0)).
  { apply limi_plus; [apply up_lim; auto|]. apply (limi_scal (fun t => X a t * cf a n t)). exact L. }
  replace (0 + -1 * 0) with 0 in Z by ring. apply (limi_ext _ (Hk a n) _ 0) in Z; auto. intros t Ht. unfold Hk. ring.
Qed.
Lemma Hk_sign a n x : 0 < a < x -> (0 <= V a n -> 0 <= Hk a n x) /\ (V a n <= 0 -> Hk a n x <= 0).
Proof.
  intros Ha.
  assert (P : forall t, x <= t -> 0 < gamma_weight a t * / (t * (qs a n t * qs a n t))).
  { intros t Ht. apply Rmult_lt_0_compat; [apply w_pos|]. apply Rinv_0_lt_compat.
    pose proof (qs_pos a t n ltac:(lra) ltac:(lra)). apply Rmult_lt_0_compat; [lra|]. apply Rmult_lt_0_compat; lra. }
  split; intros HV.
  - apply (from_top (Hk a n) (fun t => - gamma_weight a t * (V a n / (t * (qs a n t * qs a n t))))).
    + intros t Ht. apply Hk_derive. lra.
    + intros t Ht. specialize (P t Ht). unfold Rdiv. nra.
    + apply Hk_lim. lra.
  - enough (0 <= - Hk a n x) by lra.
    apply (from_top (fun t => - Hk a n t) (fun t => - (- gamma_weight a t * (V a n / (t * (qs a n t * qs a n t)))))).
    + intros t Ht. apply (is_derive_opp (Hk a n)). apply Hk_derive. lra.
    + intros t Ht. specialize (P t Ht). unfold Rdiv. nra.
    + apply (limi_ext (fun t => -1 * Hk a n t) _ _ 0); [intros; ring|]. 
      pose proof (limi_scal _ (-1) _ (Hk_lim a n (proj1 Ha))) as Z. replace (-1 * 0) with 0 in Z by ring. exact Z.
Qed.
Lemma Hk_bound a n x : 0 < a < x -> 1 <= x -> Rabs (Hk a n x) <= Up a x * (Rabs (V a n) / (x * (qs a n x * qs a n x))).
Proof.
  intros Ha Hx. set (k := Rabs (V a n) / (x * (qs a n x * qs a n x))). rewrite Rmult_comm.
  pose proof (qs_pos a x n ltac:(lra) ltac:(lra)) as Q.
  apply (from_inf (Hk a n) (fun t => - gamma_weight a t * (V a n / (t * (qs a n t * qs a n t)))) (fun t => k * Up a t) (fun t => k * gamma_weight a t)).
  - intros t Ht. apply Hk_derive. lra.
  - intros t Ht. evar_last; [apply (is_derive_scal (Up a) t k); apply up_derive; lra|].
    match goal with |- ?a = ?b => change (@eq R a b) end. ring.
  - intros t Ht. pose proof (qs_mono a n x t ltac:(lra) Hx ltac:(lra) Ht) as Mo. pose proof (w_pos a t) as W.
    rewrite Rabs_mult, Rabs_Ropp, (Rabs_right (gamma_weight a t)) by lra. rewrite Rmult_comm.
    apply Rmult_le_compat_r; [lra|]. unfold k, Rdiv.
    assert (B : 0 < x * (qs a n x * qs a n x)) by (apply Rmult_lt_0_compat; [lra|apply Rmult_lt_0_compat; lra]).
    assert (C : x * (qs a n x * qs a n x) <= t * (qs a n t * qs a n t)).
    { apply Rmult_le_compat; try lra; [nra|]. apply Rmult_le_compat; lra. }
    rewrite Rabs_mult. apply Rmult_le_compat_l; [apply Rabs_pos|].
    rewrite Rabs_right by (apply Rle_ge; left; apply Rinv_0_lt_compat; lra). apply inv_le. lra.
  - apply Hk_lim. lra.
  - pose proof (limi_scal _ k _ (up_lim a (proj1 Ha))) as Z. replace (k * 0) with 0 in Z by ring. exact Z.
Qed.
(** the function is at most 1 *)
Lemma up_le_X a x : 0 < a < x -> 1 <= x -> Up a x <= X a x.
Proof.
  intros Ha Hx. destruct (Rle_dec a 1) as [L|L].
  - pose proof (proj2 (Hk_sign a 0 x Ha) ltac:(cbn; lra)) as H. unfold Hk, cf in H. rewrite ps_0, qs_0 in H.
    assert (0 < X a x) by (apply Rmult_lt_0_compat; apply exp_pos).
    assert (1 / (x * 1) <= 1). { apply Rmult_le_reg_r with x; [lra|]. replace (1 / (x * 1) * x) with 1 by (field; lra). lra. }
    nra.
  - enough (A : 0 <= X a x * / (x - a + 1) - Up a x).
    { assert (0 < X a x) by (apply Rmult_lt_0_compat; apply exp_pos).
      assert (/ (x - a + 1) <= / 1) by (apply inv_le; lra). rewrite Rinv_1 in *. nra. }
    apply (from_top (fun t => X a t * / (t - a + 1) - Up a t) (fun t => gamma_weight a t * ((1 - a) / (t - a + 1) ^ 2))).
    + intros t Ht. evar_last.
      * apply (is_derive_minus (fun t => X a t * / (t - a + 1)) (Up a)); [|apply up_derive; lra].
        apply (wt_times a (fun t => / (t - a + 1)) (- (1) / (t - a + 1) ^ 2) t ltac:(lra)).
        auto_derive; [lra|]. field. lra.
      * unfold minus, plus, opp. cbn -[pow]. match goal with |- ?a = ?b => change (@eq R a b) end. field. lra.
    + intros t Ht. pose proof (w_pos a t). assert (0 < / (t - a + 1) ^ 2) by (apply Rinv_0_lt_compat, pow_lt; lra).
      unfold Rdiv. assert (0 < gamma_weight a t * / (t - a + 1) ^ 2) by (apply Rmult_lt_0_compat; auto). nra.
    + assert (Z : limi (fun t => X a t * / (t - a + 1) + -1 * Up a t) (0 + -1 * 0)).
      { apply limi_plus; [|apply limi_scal, up_lim; lra].
        apply (filterlim_le_le (F := Rbar_locally p_infty) (fun t => 0) (fun t => X a t * / (t - a + 1)) (X a) (Finite 0)).
        - apply (neari _ a). intros t Ht. assert (0 < X a t) by (apply Rmult_lt_0_compat; apply exp_pos).
          assert (/ (t - a + 1) <= / 1) by (apply inv_le; lra). rewrite Rinv_1 in *.
          assert (0 < / (t - a + 1)) by (apply Rinv_0_lt_compat; lra). split; nra.
        - apply filterlim_const.
        - apply pow_exp_lim. }
      replace (0 + -1 * 0) with 0 in Z by ring. apply (limi_ext _ (fun t => X a t * / (t - a + 1) - Up a t) _ 0) in Z; auto. intros t Ht. ring.
Qed.
