(* digamma at every argument *)
From Coq Require Import List Reals Lra Lia Psatz.
From Coquelicot Require Import Coquelicot.
From Verif Require Import NormModel GamSpec DigSpec DigammaModel DigPsi DigSmall DigRefl DigModel.
Local Open Scope R_scope.

Lemma pos_body x v : 1e-6 < x -> is_digamma x v -> 0 <= v - digamma x <= 2.4e-15.
Proof. intros Hx H. rewrite (psi_uniq x v) by (auto; lra). apply digamma_body; auto. Qed.
Lemma pos_small x v : 0 < x <= 1e-6 -> is_digamma x v -> Rabs (digamma x - v) <= 1.25e-12.
Proof. intros Hx H. rewrite (psi_uniq x v) by (auto; lra). apply digamma_small; auto. Qed.
Lemma defined x : 0 < x -> exists v, is_digamma x v /\ forall w, is_digamma x w -> w = v.
Proof. intros Hx. exists (psi x). split; [apply psi_is; auto|]. intros w. apply psi_uniq; auto. Qed.
Lemma recurrence x v : 0 < x -> is_digamma x v -> is_digamma (x + 1) (v + / x).
Proof. intros Hx H. rewrite (psi_uniq x v Hx H), <- psi_step by auto. apply psi_is. lra. Qed.

(* the extension *)
Lemma psi_up_n n x : 0 < x -> psi (x + INR n) = psi x + Hs n x.
Proof.
  intros Hx. induction n as [|n IH]; [cbn; rewrite Rplus_0_r; ring|].
  rewrite S_INR. replace (x + (INR n + 1)) with (x + INR n + 1) by ring. rewrite psi_step by (apply xn_pos; auto). rewrite IH. cbn [inv_sum]. ring.
Qed.
Lemma Hs_add n m x : Hs (n + m) x = Hs n x + Hs m (x + INR n).
Proof.
  induction m as [|m IH]; [rewrite Nat.add_0_r; cbn; ring|].
  rewrite Nat.add_succ_r. cbn [inv_sum]. rewrite IH, plus_INR. replace (x + (INR n + INR m)) with (x + INR n + INR m) by ring. ring.
Qed.
Lemma ext_one n m x v w : 0 < x + INR n -> is_digamma (x + INR n) v -> is_digamma (x + INR (n + m)) w ->
  w - Hs (n + m) x = v - Hs n x.
Proof.
  intros P V W. rewrite plus_INR in W. replace (x + (INR n + INR m)) with (x + INR n + INR m) in W by ring.
  rewrite (psi_uniq _ _ P V). rewrite (psi_uniq _ _ (xn_pos _ m P) W). rewrite psi_up_n by auto. rewrite Hs_add. ring.
Qed.
Lemma ext_uniq x v w : is_digamma_ext x v -> is_digamma_ext x w -> v = w.
Proof.
  intros (n & a & P & _ & A & ->) (m & b & Q & _ & B & ->). destruct (Nat.le_ge_cases n m) as [L|L].
  - replace m with (n + (m - n))%nat in * by lia. symmetry. eapply ext_one; eauto.
  - replace n with (m + (n - m))%nat in * by lia. eapply ext_one; eauto.
Qed.
Lemma ext_pos x v : 0 < x -> (is_digamma_ext x v <-> is_digamma x v).
Proof.
  intros Hx. assert (F : forall w, is_digamma x w -> is_digamma_ext x w).
  { intros w W. exists 0%nat, w. cbn. rewrite Rplus_0_r. split; auto. split; [intros; lia|]. split; auto. ring. }
  split; [|apply F]. intros E. destruct (defined x Hx) as (u & U & _). rewrite (ext_uniq x v u E (F u U)). exact U.
Qed.
Lemma trig_n n u : exists s, s * s = 1 /\ cos (u + INR n * PI) = s * cos u /\ sin (u + INR n * PI) = s * sin u.
Proof.
  induction n as [|n (s & S & C & T)].
  - exists 1. cbn. rewrite Rmult_0_l, Rplus_0_r. lra.
  - exists (- s). rewrite S_INR. replace (u + (INR n + 1) * PI) with (u + INR n * PI + PI) by ring.
    rewrite neg_cos, neg_sin, C, T. split; [lra|]. split; ring.
Qed.
Lemma Hs_rev n x : (forall i, (i < n)%nat -> x + INR i <> 0) -> Hs n (1 - (x + INR n)) = - Hs n x.
Proof.
  induction n as [|n IH]; intros H; [cbn; ring|].
  assert (F : Hs (S n) (1 - (x + INR (S n))) = / (1 - (x + INR (S n))) + Hs n (1 - (x + INR (S n)) + 1)).
  { change (S n) with (1 + n)%nat at 1. rewrite Hs_add. cbn. rewrite Rplus_0_r. ring. }
  rewrite F, S_INR. replace (1 - (x + (INR n + 1)) + 1) with (1 - (x + INR n)) by ring. rewrite IH by (intros; apply H; lia).
  cbn [inv_sum]. replace (1 - (x + (INR n + 1))) with (- (x + INR n)) by ring.
  rewrite Rinv_opp. ring.
Qed.
Lemma frac_n x : x < 0 -> (forall i, x + INR i <> 0) -> exists n, 0 < x + INR n < 1.
Proof.
  intros Hx Hi. destruct (nfloor_ex (- x) ltac:(lra)) as [m [A B]]. exists (S m). rewrite S_INR.
  split; [lra|]. destruct A as [A|A]; [lra|]. exfalso. apply (Hi m). lra.
Qed.
Lemma cot_tan u : sin u <> 0 -> PI / tan u = PI * (cos u / sin u).
Proof.
  intros S. unfold tan. destruct (Req_dec (cos u) 0) as [C|C]; [|field; auto].
  rewrite C. unfold Rdiv. rewrite Rinv_0, !Rmult_0_l, Rmult_0_r, Rinv_0. ring.
Qed.
Lemma neg_value x : x < 0 -> (forall i, x + INR i <> 0) -> is_digamma_ext x (psi (1 - x) + PI / tan (- PI * x)).
Proof.
  intros Hx Hi. destruct (frac_n x Hx Hi) as [n Hn]. exists n, (psi (x + INR n)).
  split; [lra|]. split; [intros; apply Hi|]. split; [apply psi_is; lra|].
  pose proof (reflection (x + INR n) Hn) as R. set (y := x + INR n) in *.
  pose proof (psi_up_n n (1 - y) ltac:(lra)) as U. replace (1 - y + INR n) with (1 - x) in U by (unfold y; ring).
  unfold y in U at 2. rewrite Hs_rev in U by (intros; apply Hi).
  destruct (trig_n n (PI * x)) as (s & S & C & T).
  replace (PI * x + INR n * PI) with (PI * y) in * by (unfold y; ring).
  pose proof (sin_px y Hn) as P. rewrite T in P.
  assert (S0 : s <> 0) by (intros E; rewrite E in S; lra).
  assert (N0 : sin (PI * x) <> 0) by (intros E; rewrite E in P; lra).
  rewrite C, T in R.
  replace (- PI * x) with (- (PI * x)) by ring. rewrite cot_tan by (rewrite sin_neg; lra). rewrite cos_neg, sin_neg.
  assert (E : PI * (s * cos (PI * x) / (s * sin (PI * x))) = - (PI * (cos (PI * x) / - sin (PI * x)))) by (field; auto).
  lra.
Qed.
Section NEAR.
Variable near : R -> bool.
Hypothesis near_int : forall n, near (- INR n) = true.
Lemma full_neg x v : x < 0 -> near x = false -> is_digamma_ext x v ->
  exists q, digamma_full near (Fin x) = Fin q /\ Rabs (q - v) <= 2.4e-15.
Proof.
  intros Hx Hn Hv.
  assert (Hi : forall i, x + INR i <> 0).
  { intros i E. assert (x = - INR i) by lra. subst x. rewrite near_int in Hn. discriminate. }
  rewrite (ext_uniq x v _ Hv (neg_value x Hx Hi)). unfold digamma_full. rewrite Hn, Bool.andb_false_r.
  destruct (Rlt_dec x 0); [|lra]. eexists. split; [reflexivity|].
  pose proof (digamma_body (1 - x) ltac:(lra)). apply Rabs_le. lra.
Qed.
Lemma ext_defined x : x < 0 -> near x = false -> exists v, is_digamma_ext x v /\ forall w, is_digamma_ext x w -> w = v.
Proof.
  intros Hx Hn. eexists. split; [apply neg_value; auto|].
  - intros i E. assert (x = - INR i) by lra. subst x. rewrite near_int in Hn. discriminate.
  - intros w Hw. eapply ext_uniq; eauto. apply neg_value; auto.
    intros i E. assert (x = - INR i) by lra. subst x. rewrite near_int in Hn. discriminate.
Qed.
Lemma full_pos x v : 0 < x -> is_digamma x v ->
  exists q, digamma_full near (Fin x) = Fin q /\ Rabs (q - v) <= 1.25e-12 /\ (1e-6 < x -> Rabs (q - v) <= 2.4e-15).
Proof.
  intros Hx Hv. unfold digamma_full. destruct (Rle_dec x 0); [lra|]. cbn [andb]. destruct (Rlt_dec x 0); [lra|].
  eexists. split; [reflexivity|]. split.
  - destruct (Rle_dec x 1e-6).
    + apply pos_small; auto; lra.
    + pose proof (pos_body x v ltac:(lra) Hv). apply Rabs_le. lra.
  - intros L. pose proof (pos_body x v L Hv). apply Rabs_le. lra.
Qed.
Lemma full_edges : (forall n, digamma_full near (Fin (- INR n)) = NInf) /\ digamma_full near NInf = NaN /\
  digamma_full near NaN = NaN /\ digamma_full near PInf = PInf.
Proof.
  split; [|repeat split]. intros n. unfold digamma_full. rewrite near_int. destruct (Rle_dec (- INR n) 0); [reflexivity|].
  pose proof (pos_INR n). lra.
Qed.
End NEAR.
Lemma col_rows near c i : nth_error (digamma_col near c) i = option_map (option_map (digamma_full near)) (nth_error c i).
Proof. unfold digamma_col. revert i. induction c; intros [|i]; cbn; auto. Qed.

(* a case: psi(-1/2) *)
Lemma psi_half_case : is_digamma_ext (-1/2) (psi (1/2) + 2).
Proof.
  exists 1%nat, (psi (1/2)). cbn. replace (-1/2 + 1) with (1/2) by field. split; [lra|]. split; [intros i Hi; replace i with 0%nat by lia; cbn; lra|].
  split; [apply psi_is; lra|]. field.
Qed.
Lemma continuation : (forall x v w, is_digamma_ext x v -> is_digamma_ext x w -> v = w) /\
  (forall x v, 0 < x -> (is_digamma_ext x v <-> is_digamma x v)) /\
  (forall x, x < 0 -> (forall i, x + INR i <> 0) -> exists v, is_digamma_ext x v).
Proof.
  split; [exact ext_uniq|]. split; [exact ext_pos|]. intros x Hx Hi. eexists. apply neg_value; auto.
Qed.
Definition near_demo (x : R) : bool := if Req_EM_T x (-1 / 2) then false else true.
Lemma negative_case : exists near, (forall n, near (- INR n) = true) /\
  near (-1 / 2) = false /\ -1 / 2 < 0 /\ exists v, is_digamma_ext (-1 / 2) v.
Proof.
  exists near_demo. split; [|split; [|split; [lra|]]].
  - intros n. unfold near_demo. destruct (Req_EM_T _ _) as [E|E]; auto. exfalso.
    destruct n as [|n]; [cbn in E; lra|]. rewrite S_INR in E. pose proof (pos_INR n). lra.
  - unfold near_demo. destruct (Req_EM_T _ _) as [E|E]; [auto|lra].
  - eexists. exact psi_half_case.
Qed.
